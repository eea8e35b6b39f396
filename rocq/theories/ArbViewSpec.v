(** Observables of C65. *)
From Coq Require Import ZArith Bool Reals List.
From Verif Require Import Num NumReal Vec BB Transform Body BodySpec Solver SolverSpec ArbView.
Import ListNotations.
Local Open Scope R_scope.

(** The vector sum. *)
Definition Vsum {A} (f : A -> @vec RNum) (l : list A) : @vec RNum := rvec (Rsum (fun x => vx (f x)) l) (Rsum (fun x => vy (f x)) l).
(** Linear momentum of a body, and what damping, gravity and the user's force leave of it in a step. *)
Definition momentum (b : Rbody) : @vec RNum := rvec (b_mass b * vx (b_vel b)) (b_mass b * vy (b_vel b)).
Definition free_momentum (g : @vec RNum) (d dt : R) (b : Rbody) : @vec RNum :=
  rvec (d * (b_mass b * vx (b_vel b)) + dt * (b_mass b * vx g + vx (b_force b)))
       (d * (b_mass b * vy (b_vel b)) + dt * (b_mass b * vy g + vy (b_force b))).
(** The impulse a joint holds, a vector for the joints that push at a point. *)
Definition joint_vector (k : @jclass RNum) : @vec RNum :=
  match k with
  | JPivot p => pv_j p | JGroove p => gv_j p
  | JPin p => rvec (pn_j p * vx (pn_n p)) (pn_j p * vy (pn_n p))
  | JSlide p => rvec (sl_j p * vx (sl_n p)) (sl_j p * vy (sl_n p))
  | JSpring p => rvec (sp_j p * vx (sp_n p)) (sp_j p * vy (sp_n p))
  | _ => rvec 0 0
  end.
(** Joints that push at a point, along a unit vector where they have an axis. *)
Definition unit_axis (k : @jclass RNum) : Prop :=
  match k with JPivot _ | JGroove _ => True | JPin p => vdot (pn_n p) (pn_n p) = 1 | JSlide p => vdot (sl_n p) (sl_n p) = 1 | JSpring p => vdot (sp_n p) (sp_n p) = 1 | _ => False end.
(** What it does to body i: the vector acts on the second body, its opposite on the first. *)
Definition joint_push (i : nat) (ck : Rjoint) : @vec RNum :=
  let '(c, k) := ck in
  let u := if Nat.eqb i (c_b c) then 1 else 0 in
  let v := if Nat.eqb i (c_a c) then 1 else 0 in
  rvec ((u - v) * vx (joint_vector k)) ((u - v) * vy (joint_vector k)).
(** Spin: the same for the angular momentum about the centre of gravity. *)
Definition cross (r j : @vec RNum) : R := vx r * vy j - vy r * vx j.
Definition contact_twist (i : nat) (s : Rsarb) (c : Rcontact) : R :=
  let j := vrotate (s_n s) (rvec (k_jn c) (k_jt c)) in
  (if Nat.eqb i (s_b s) then cross (k_r2 c) j else 0) - (if Nat.eqb i (s_a s) then cross (k_r1 c) j else 0).
Definition arb_twist (i : nat) (s : Rsarb) : R := Rsum (contact_twist i s) (s_contacts s).
Definition joint_twist (i : nat) (ck : Rjoint) : R :=
  let '(c, k) := ck in
  let '(tb, ta) := match k with
    | JPivot p => (cross (pv_r2 p) (pv_j p), cross (pv_r1 p) (pv_j p))
    | JGroove p => (cross (gv_r2 p) (gv_j p), cross (gv_r1 p) (gv_j p))
    | JPin p => (cross (pn_r2 p) (joint_vector k), cross (pn_r1 p) (joint_vector k))
    | JSlide p => (cross (sl_r2 p) (joint_vector k), cross (sl_r1 p) (joint_vector k))
    | JSpring p => (cross (sp_r2 p) (joint_vector k), cross (sp_r1 p) (joint_vector k))
    | JGear p => (ge_j p, ge_j p * ge_ratioinv p)
    | JMotor p => (mo_j p, mo_j p) | JRLimit p => (rl_j p, rl_j p) | JRatchet p => (ra_j p, ra_j p) | JRSpring p => (rs_j p, rs_j p)
    end in
  (if Nat.eqb i (c_b c) then tb else 0) - (if Nat.eqb i (c_a c) then ta else 0).

(** Body i is attached to no joint of kind P. *)
Definition free_of (P : @jclass RNum -> Prop) (i : nat) (w : Rworld) : Prop :=
  forall c k, In (c, k) (w_joints w) -> P k -> i <> c_a c /\ i <> c_b c.
Definition is_spring (k : @jclass RNum) : Prop := match k with JSpring _ => True | _ => False end.
Definition is_rspring (k : @jclass RNum) : Prop := match k with JRSpring _ => True | _ => False end.
(** The arbiters of the step: two bodies each, and a first contact starts from zero (C57_new_pair_fresh). *)
Definition fresh_arbs (w : Rworld) : Prop := forall s, In s (w_arbs w) ->
  s_a s <> s_b s /\ s_cached s = false /\ (s_first s = true -> forall c, In c (s_contacts s) -> k_jn c = 0 /\ k_jt c = 0).
