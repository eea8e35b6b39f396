(** C61: joints made in a satisfied state stay there.  [satisfied] says of each joint kind, in world points and angles, that it is where
    it should be; [solvable] that its bodies can move; [do_step] is a whole step without gravity. *)
From Coq Require Import ZArith Bool Reals List Floats.
From Verif Require Import Num NumReal Vec VecReal BB Transform Body BodySpec Solver SolverSpec Joints JointsSpec JointsProofs JointsEx.
Import ListNotations.
Local Open Scope R_scope.

(** The constructors: pivots at a point, pins and ratchets are always satisfied; the others when made for the pose the bodies have. *)
Theorem C61_new_joints (H : Rheap) (c : Rcstr) : (forall i, exists m j ops, H i = history m j ops) ->
  (forall p, satisfied H c (JPivot (new_pivot H (c_a c) (c_b c) p))) /\
  (forall x y, satisfied H c (JPin (new_pin H (c_a c) (c_b c) x y))) /\
  (forall phase r, satisfied H c (JRatchet (new_ratchet (N := RNum) H (c_a c) (c_b c) phase r))) /\
  (forall x y, local_to_world (H (c_a c)) x = local_to_world (H (c_b c)) y -> satisfied H c (JPivot (new_pivot2 x y))) /\
  (forall x y mn mx, mn <= apart (H (c_a c)) (H (c_b c)) x y <= mx -> satisfied H c (JSlide (new_slide (N := RNum) x y mn mx))) /\
  (forall ga gb x t, ga <> gb -> 0 <= t <= 1 -> local_to_world (H (c_b c)) x = local_to_world (H (c_a c)) (vlerp (N := RNum) ga gb t) ->
     satisfied H c (JGroove (new_groove ga gb x))) /\
  (forall ratio, satisfied H c (JGear (new_gear (N := RNum) (b_angle (H (c_b c)) * ratio - b_angle (H (c_a c))) ratio))) /\
  satisfied H c (JMotor (new_motor (N := RNum) 0)) /\
  (forall mn mx, mn <= b_angle (H (c_b c)) - b_angle (H (c_a c)) <= mx -> satisfied H c (JRLimit (new_rlimit (N := RNum) mn mx))) /\
  (forall x y k d, satisfied H c (JSpring (new_spring (N := RNum) x y (apart (H (c_a c)) (H (c_b c)) x y) k d))) /\
  (forall k d, satisfied H c (JRSpring (new_rspring (N := RNum) (b_angle (H (c_a c)) - b_angle (H (c_b c))) k d))).
Proof. exact (all_made H c). Qed.
Print Assumptions C61_new_joints.

(** Bodies at rest, joints satisfied, contacts touching without impulses: any number of steps of any kind change no body, no joint's
    state of being satisfied, and every joint and contact reports impulse 0.  Example: [rest_hundred]. *)
Theorem C61_rest dyn ds (w : Rworld) :
  (forall i, exists m j ops, w_heap w i = history m j ops) -> (forall i, still (w_heap w i)) ->
  (forall c k, In (c, k) (w_joints w) -> satisfied (w_heap w) c k /\ solvable (w_heap w) c k) ->
  (forall d, In d ds -> 0 < sd_dt d /\ forall s, In s (sd_arbs d) -> quiet (sd_slop d) (w_heap w) s) ->
  let w' := fold_left (do_step dyn) ds w in
  w_heap w' = w_heap w /\ map fst (w_joints w') = map fst (w_joints w) /\
  (forall c k, In (c, k) (w_joints w') -> satisfied (w_heap w) c k /\ (ds <> [] -> joint_impulse k = 0)) /\
  (ds <> [] -> forall s, In s (w_arbs w') -> total_impulse s = vzero).
Proof. exact (at_rest dyn ds w). Qed.
Print Assumptions C61_rest.

(** Two static bodies at rest, a pivot whose anchors are at the same world point: one ApplyImpulse makes their velocities NaN (float64). *)
Theorem C61_immovable_refuted : exists (H : @heap FNum) (c : @cstr FNum) (dt : @num FNum) (p : @pivot FNum),
  let a := H (c_a c) in let b := H (c_b c) in
  b_type a = Static /\ b_type b = Static /\ b_vel a = vzero /\ b_vel b = vzero /\ local_to_world a (pv_anchA p) = local_to_world b (pv_anchB p) /\
  pv_r1 p = anchor_arm a (pv_anchA p) /\ pv_r2 p = anchor_arm b (pv_anchB p) /\ pv_k p = ktensor a b (pv_r1 p) (pv_r2 p) /\ pv_bias p = vzero /\ pv_j p = vzero /\
  let H' := fst (pivot_apply H c dt p) in
  PrimFloat.is_nan (vx (b_vel (H' (c_a c)))) = true /\ PrimFloat.is_nan (b_w (H' (c_a c))) = true /\ PrimFloat.is_nan (vx (b_vel (H' (c_b c)))) = true.
Proof. exact (ex_intro _ stones (ex_intro _ stone_cstr (ex_intro _ 0.015625%float (ex_intro _ stone_pivot stones_nan)))). Qed.
Print Assumptions C61_immovable_refuted.

(** A pin between them at its own distance reports the impulse MaxFloat64 dt though nothing moves. *)
Theorem C61_immovable_pin_refuted : exists (H : @heap FNum) (c : @cstr FNum) (dt : @num FNum) (p : @pin FNum),
  b_vel (H (c_a c)) = vzero /\ b_vel (H (c_b c)) = vzero /\ pn_nmass p = ndiv (Num := FNum) (1%float) (kscalar (H (c_a c)) (H (c_b c)) (pn_r1 p) (pn_r2 p) (pn_n p)) /\
  pn_bias p = (0%float : @num FNum) /\ pn_j p = (0%float : @num FNum) /\
  joint_impulse (JPin (snd (pin_apply H c dt p))) = nmul (Num := FNum) FMaxFloat dt.
Proof. exact (ex_intro _ stones (ex_intro _ stone_cstr (ex_intro _ 0.015625%float (ex_intro _ stone_pin stones_pin)))). Qed.
Print Assumptions C61_immovable_pin_refuted.
