(** Observables for C62: kinetic energy. *)
From Coq Require Import ZArith Bool Reals List.
From Verif Require Import Num NumReal Vec BB Transform Body BodySpec Solver SolverSpec.
Import ListNotations.
Local Open Scope R_scope.

(** Kinetic energy of a body, and of the bodies of [L]. *)
Definition kinetic (b : Rbody) : R := / 2 * (b_mass b * (vx (b_vel b) * vx (b_vel b) + vy (b_vel b) * vy (b_vel b)) + b_moi b * (b_w b * b_w b)).
Definition energy (L : list nat) (H : Rheap) : R := Rsum (fun i => kinetic (H i)) L.
(** The stored inverses are inverses, or the body does not move (turn) and its inverse mass (moment) is 0, as for static bodies and
    bodies that do not rotate. *)
Definition weighed (b : Rbody) : Prop :=
  (b_mass b * b_minv b = 1 \/ b_minv b = 0 /\ b_vel b = vzero) /\ (b_moi b * b_iinv b = 1 \/ b_iinv b = 0 /\ b_w b = 0).
(** Two different bodies, one of which at least can be pushed. *)
Definition pushable (H : Rheap) (a b : nat) : Prop :=
  a <> b /\ 0 <= b_minv (H a) /\ 0 <= b_minv (H b) /\ 0 <= b_iinv (H a) /\ 0 <= b_iinv (H b) /\ 0 < b_minv (H a) + b_minv (H b).
(** Two different bodies, one of which at least can be turned. *)
Definition turnable (H : Rheap) (a b : nat) : Prop := a <> b /\ 0 <= b_iinv (H a) /\ 0 <= b_iinv (H b) /\ 0 < b_iinv (H a) + b_iinv (H b).
(** Joints for which the loss of energy is claimed: rigid joints with at least one body they can act on. *)
Definition lossy (H : Rheap) (c : Rcstr) (k : @jclass RNum) : Prop :=
  match k with
  | JPivot _ | JPin _ | JSlide _ => pushable H (c_a c) (c_b c)
  | JGear p => turnable H (c_a c) (c_b c) /\ ge_ratio p * ge_ratioinv p = 1
  | JMotor _ => turnable H (c_a c) (c_b c)
  | JRLimit _ => True
  | JRatchet p => ra_ratchet p <> 0
  | JGroove _ | JSpring _ | JRSpring _ => False
  end.
(** A new contact pair without restitution and friction, with a unit normal. *)
Definition smooth (L : list nat) (H : Rheap) (s : Rsarb) : Prop :=
  In (s_a s) L /\ In (s_b s) L /\ pushable H (s_a s) (s_b s) /\ vdot (s_n s) (s_n s) = 1 /\ vdot (s_svr s) (s_n s) = 0 /\ s_e s = 0 /\ s_u s = 0 /\
  forall c, In c (s_contacts s) -> k_jn c = 0 /\ k_jt c = 0.
(** The body's transform is the rigid motion given by its position, angle and centre of gravity. *)
Definition placed (b : Rbody) : Prop := forall p : Rvec, local_to_world b p =
  @V RNum (vx (b_pos b) + (cos (b_angle b) * (vx p - vx (b_cog b)) - sin (b_angle b) * (vy p - vy (b_cog b))))
          (vy (b_pos b) + (sin (b_angle b) * (vx p - vx (b_cog b)) + cos (b_angle b) * (vy p - vy (b_cog b)))).
(** A body at the start of a step without gravity: no force, no torque, inverses not negative and in order. *)
Definition coasting (b : Rbody) : Prop := weighed b /\ 0 <= b_minv b /\ 0 <= b_iinv b /\ b_force b = vzero /\ b_torque b = 0 /\ placed b.
(** Pivots stay within their force limit. *)
Definition held (dt : R) (w : Rworld) : Prop := forall c p, In (c, JPivot p) (w_joints w) -> vmag (pv_j p) < c_maxforce c * dt.
