(** Observables for C61: satisfied joints and resting worlds. *)
From Coq Require Import ZArith Bool Reals List.
From Verif Require Import Num NumReal Vec BB Transform Body BodySpec Solver SolverSpec Joints.
Import ListNotations.
Local Open Scope R_scope.

(** Distance of two body points in the world. *)
Definition apart (a b : Rbody) (p q : Rvec) : R := vmag (vsub (local_to_world b q) (local_to_world a p)).
(** The joint is where it should be.  Carried impulses are 0 where they are not reset by the joint itself. *)
Definition satisfied (H : Rheap) (c : Rcstr) (k : @jclass RNum) : Prop :=
  let a := H (c_a c) in let b := H (c_b c) in
  match k with
  | JPivot p => local_to_world a (pv_anchA p) = local_to_world b (pv_anchB p) /\ pv_j p = vzero
  | JPin p => apart a b (pn_anchA p) (pn_anchB p) = pn_dist p /\ pn_j p = 0
  | JSlide p => sl_min p <= apart a b (sl_anchA p) (sl_anchB p) <= sl_max p
  | JGroove p => gv_ga p <> gv_gb p /\ gv_gn p = vperp (vunit (vsub (gv_gb p) (gv_ga p))) /\ gv_j p = vzero /\
      exists t, 0 <= t <= 1 /\ local_to_world b (gv_anchB p) = local_to_world a (vlerp (gv_ga p) (gv_gb p) t)
  | JGear p => b_angle b * ge_ratio p - b_angle a = ge_phase p /\ ge_j p = 0
  | JMotor p => mo_rate p = 0 /\ mo_j p = 0
  | JRLimit p => rl_min p <= b_angle b - b_angle a <= rl_max p
  | JRatchet p => (ra_angle p - (b_angle b - b_angle a)) * ra_ratchet p <= 0
  | JSpring p => sp_force p (apart a b (sp_anchA p) (sp_anchB p)) = 0
  | JRSpring p => rs_torque p (b_angle a - b_angle b) = 0
  end.
(** The joint can act on its bodies, so no division by zero occurs, and its limits are not negative. *)
Definition solvable (H : Rheap) (c : Rcstr) (k : @jclass RNum) : Prop :=
  let a := H (c_a c) in let b := H (c_b c) in 0 <= c_maxforce c /\ 0 <= c_maxbias c /\
  match k with
  | JPivot _ | JPin _ | JSlide _ | JGroove _ | JSpring _ => 0 <= b_iinv a /\ 0 <= b_iinv b /\ 0 < b_minv a + b_minv b
  | JMotor _ | JRLimit _ | JRSpring _ => 0 < b_iinv a + b_iinv b
  | JRatchet p => 0 < b_iinv a + b_iinv b /\ ra_ratchet p <> 0
  | JGear p => b_iinv a * ge_ratioinv p + ge_ratio p * b_iinv b <> 0
  end.
(** No velocity, no force. *)
Definition still (b : Rbody) : Prop :=
  b_vel b = vzero /\ b_w b = 0 /\ b_force b = vzero /\ b_torque b = 0 /\ b_vbias b = vzero /\ b_wbias b = 0.
(** A contact pair without impulses, without surface velocity, no deeper than the slop, between bodies one of which can move. *)
Definition quiet (slop : R) (H : Rheap) (s : Rsarb) : Prop :=
  s_svr s = vzero /\ 0 <= b_iinv (H (s_a s)) /\ 0 <= b_iinv (H (s_b s)) /\ 0 < b_minv (H (s_a s)) + b_minv (H (s_b s)) /\
  forall c, In c (s_contacts s) -> k_jn c = 0 /\ k_jt c = 0 /\
    - slop <= vdot (vsub (vadd (b_pos (H (s_b s))) (k_r2 c)) (vadd (b_pos (H (s_a s))) (k_r1 c))) (s_n s).
(** A step: iterations, slop, bias coefficient, damping, dt, previous dt, and the arbiters found. *)
Record stepdata := StepData { sd_n : nat; sd_slop : R; sd_bias : R; sd_damping : R; sd_dt : R; sd_prevdt : R; sd_arbs : list Rsarb }.
Definition do_step (dyn : list nat) (w : Rworld) (d : stepdata) : Rworld :=
  full_step (sd_n d) (sd_slop d) (sd_bias d) (@vzero RNum) (sd_damping d) (sd_dt d) (sd_prevdt d) dyn (sd_arbs d) w.
