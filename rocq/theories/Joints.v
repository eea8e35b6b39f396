(** Joint constructors (pin_joint.go:18-44, pivot_joint.go:15-43, slide_joint.go:21-31, groove_joint.go:19-29, simple_motor.go:13-19,
    rotary_limit_joint.go:13-20, ratchet_joint.go:13-26, damped_spring.go:27-39, damped_rotary_spring.go:19-28; gear_joint.go:15-25 is
    [new_gear] of Solver.v) and whole steps of the positions and the solver.

    Simplification: both bodies exist; the constructors accept nil and the first PreStep then panics. *)
From Coq Require Import ZArith Bool List.
From Verif Require Import Num Vec BB Transform Body Solver.
Import ListNotations.
Local Open Scope num_scope.

Section Joints.
Context {N : Num} {T : Trig N} {E : Elem N}.

(* the zero Mat2x2 of a new joint *)
Definition mat2_zero : mat2 := Mat2 n0 n0 n0 n0.
(* pivot_joint.go:34-43 NewPivotJoint2 *)
Definition new_pivot2 (anchA anchB : vec) : pivot := Pivot anchA anchB vzero vzero mat2_zero vzero vzero.
(* pivot_joint.go:15-32 NewPivotJoint *)
Definition new_pivot (H : heap) (a b : nat) (p : vec) : pivot := new_pivot2 (world_to_local (H a) p) (world_to_local (H b) p).
(* pin_joint.go:18-44 NewPinJoint *)
Definition new_pin (H : heap) (a b : nat) (anchA anchB : vec) : pin :=
  let p1 := tf_apply (b_tf (H a)) anchA in
  let p2 := tf_apply (b_tf (H b)) anchB in
  Pin anchA anchB (vmag (vsub p2 p1)) vzero vzero vzero n0 n0 n0.
(* slide_joint.go:21-31 NewSlideJoint *)
Definition new_slide (anchA anchB : vec) (min max : num) : slide := Slide anchA anchB min max vzero vzero vzero n0 n0 n0.
(* groove_joint.go:19-29 NewGrooveJoint *)
Definition new_groove (ga gb anchB : vec) : groove :=
  Groove (vperp (vunit (vsub gb ga))) ga gb anchB vzero n0 vzero vzero mat2_zero vzero vzero.
(* simple_motor.go:13-19 NewSimpleMotor *)
Definition new_motor (rate : num) : motor := Motor rate n0 n0.
(* rotary_limit_joint.go:13-20 NewRotaryLimitJoint *)
Definition new_rlimit (min max : num) : rlimit := RLimit min max n0 n0 n0.
(* ratchet_joint.go:13-26 NewRatchetJoint *)
Definition new_ratchet (H : heap) (a b : nat) (phase r : num) : ratchet :=
  Ratchet (b_angle (H b) - b_angle (H a)) phase r n0 n0 n0.
(* damped_spring.go:27-39 NewDampedSpring *)
Definition new_spring (anchA anchB : vec) (rest stiffness damping : num) : spring :=
  Spring anchA anchB damping (default_spring_force rest stiffness) n0 n0 vzero vzero n0 vzero n0.
(* damped_rotary_spring.go:19-28 NewDampedRotarySpring *)
Definition new_rspring (rest stiffness damping : num) : rspring := RSpring damping (default_spring_torque rest stiffness) n0 n0 n0 n0.

(* space.go:561-564 position integration of the dynamic bodies [dyn], body.go:634-641 *)
Definition move_all (dt : num) (dyn : list nat) (H : heap) : heap :=
  fold_left (fun H i => upd H i (update_position (H i) dt)) dyn H.
(* space.go:540-628: positions, then the arbiters [arbs] found by the collision phase, then the solver *)
Definition full_step (n : nat) (slop bias : num) (g : vec) (damping dt prevdt : num) (dyn : list nat) (arbs : list sarb) (w : world) : world :=
  solve n slop bias g damping dt prevdt dyn (World (move_all dt dyn (w_heap w)) arbs (w_joints w)).
End Joints.
