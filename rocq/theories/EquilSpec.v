(** Observables of C68: a loaded world in equilibrium. *)
From Coq Require Import ZArith NArith Bool Reals List.
From Verif Require Import Num NumReal Vec BB Transform Body BodySpec Solver SolverSpec Joints JointsSpec Narrow Persist ArbView ArbViewSpec.
Import ListNotations.
Local Open Scope R_scope.

(** What the collision phase finds of two touching shapes: their bodies, materials, and the contacts, in the world. *)
Record touch := Touch { t_a : nat; t_b : nat; t_ma : @material RNum; t_mb : @material RNum; t_sw : bool; t_mem : nat -> Rcontact; t_info : @ninfo RNum }.
(** The arbiters of the next step: the same shapes are found touching again, each arbiter is updated (C57). *)
Definition found_again (H : Rheap) (ts : list touch) (arbs : list Rsarb) : list Rsarb :=
  map (fun ts => let '(t, s) := ts in update H (t_a t) (t_b t) (t_ma t) (t_mb t) (t_sw t) (t_mem t) (t_info t) s) (combine ts arbs).
(** A step of the space with constant time step. *)
Record pace := Pace { q_g : Rvec; q_d : R; q_dt : R; q_slop : R; q_dyn : list nat }.
Definition space_step (q : pace) (ts : list touch) (w : Rworld) (nb : nat * R) : Rworld :=
  full_step (fst nb) (q_slop q) (snd nb) (q_g q) (q_d q) (q_dt q) (q_dt q) (q_dyn q)
    (found_again (move_all (q_dt q) (q_dyn q) (w_heap w)) ts (w_arbs w)) w.

(** The arbiter of a touching pair after a step in which it held: its contacts are those found, they push, with friction in
    the cone, and none is deeper than the slop; no conveyor. *)
Definition presses (slop : R) (H : Rheap) (t : touch) (s : Rsarb) : Prop :=
  s_a s = t_a t /\ s_b s = t_b t /\ t_a t <> t_b t /\ s_n s = nf_n (t_info t) /\ s_first s = false /\ s_cached s = false /\
  mt_sv (t_ma t) = mt_sv (t_mb t) /\ NoDup (map nc_hash (nf_arr (t_info t))) /\
  Forall2 (fun c k =>
    k_r1 k = vsub (nc_p1 c) (b_pos (H (t_a t))) /\ k_r2 k = vsub (nc_p2 c) (b_pos (H (t_b t))) /\ k_hash k = Z.of_N (nc_hash c) /\
    0 <= k_jn k /\ Rabs (k_jt k) <= mt_u (t_ma t) * mt_u (t_mb t) * k_jn k /\
    - slop <= vdot (vsub (nc_p2 c) (nc_p1 c)) (nf_n (t_info t))) (nf_arr (t_info t)) (s_contacts s).
(** A point of a body relative to its centre of gravity, in the world. *)
Definition arm (b : Rbody) (p : Rvec) : Rvec := vsub (local_to_world b p) (b_pos b).
(** A joint where it should be, with a load no greater than its maximal force allows.  Slides, grooves, rotary limits and
    ratchets carry none: they push only when violated. *)
Definition carries (d dt : R) (H : Rheap) (c : Rcstr) (k : @jclass RNum) : Prop :=
  let a := H (c_a c) in let b := H (c_b c) in
  match k with
  | JPivot p => local_to_world a (pv_anchA p) = local_to_world b (pv_anchB p) /\ pv_r1 p = arm a (pv_anchA p) /\ pv_r2 p = arm b (pv_anchB p) /\
      vmag (pv_j p) <= c_maxforce c * dt
  | JPin p => apart a b (pn_anchA p) (pn_anchB p) = pn_dist p /\ 0 < pn_dist p /\ pn_r1 p = arm a (pn_anchA p) /\ pn_r2 p = arm b (pn_anchB p) /\
      vscale (pn_n p) (pn_dist p) = vsub (local_to_world b (pn_anchB p)) (local_to_world a (pn_anchA p)) /\ Rabs (pn_j p) <= c_maxforce c * dt
  | JGear p => b_angle b * ge_ratio p - b_angle a = ge_phase p /\ Rabs (ge_j p) <= c_maxforce c * dt
  | JMotor p => mo_rate p = 0 /\ Rabs (mo_j p) <= c_maxforce c * dt
  | JSpring p => let l := apart a b (sp_anchA p) (sp_anchB p) in
      0 < l /\ sp_r1 p = arm a (sp_anchA p) /\ sp_r2 p = arm b (sp_anchB p) /\
      vscale (sp_n p) l = vsub (local_to_world b (sp_anchB p)) (local_to_world a (sp_anchA p)) /\ sp_j p = sp_force p l * dt /\ (d = 1 \/ sp_force p l = 0)
  | JRSpring p => rs_j p = rs_torque p (b_angle a - b_angle b) * dt /\ (d = 1 \/ rs_torque p (b_angle a - b_angle b) = 0)
  | JSlide p => satisfied H c k /\ sl_j p = 0
  | JGroove p => satisfied H c k
  | JRLimit p => satisfied H c k /\ rl_j p = 0
  | JRatchet p => satisfied H c k /\ ra_j p = 0
  end.
(** The impulses on body i balance its weight, and do not turn it. *)
Definition balanced (g : Rvec) (dt : R) (w : Rworld) (i : nat) : Prop :=
  let b := w_heap w i in
  vadd (vadd (Vsum total_impulse (each_view i (w_arbs w))) (Vsum (joint_push i) (w_joints w))) (vscale g (b_mass b * dt)) = vzero /\
  (b_iinv b = 0 \/ Rsum (arb_twist i) (w_arbs w) + Rsum (joint_twist i) (w_joints w) = 0).
(** A body the space moves, and one it does not. *)
Definition mover (b : Rbody) : Prop := b_type b = Dynamic /\ b_mass b * b_minv b = 1 /\ (b_iinv b = 0 \/ b_moi b * b_iinv b = 1).
Definition anchored (b : Rbody) : Prop := b_minv b = 0 /\ b_iinv b = 0.

(** A world in equilibrium: all bodies still, the contacts press, the joints carry, every moving body is balanced. *)
Record equilibrium (q : pace) (ts : list touch) (w : Rworld) : Prop := Equilibrium {
  e_time : 0 < q_dt q;
  e_dyn : NoDup (q_dyn q);
  e_movers : forall i, In i (q_dyn q) -> mover (w_heap w i) /\ balanced (q_g q) (q_dt q) w i;
  e_others : forall i, ~ In i (q_dyn q) -> anchored (w_heap w i);
  e_still : forall i, still (w_heap w i);
  e_bodies : forall i, exists m j ops, w_heap w i = history m j ops;
  e_contacts : Forall2 (presses (q_slop q) (w_heap w)) ts (w_arbs w);
  e_pairs : forall t, In t ts -> 0 <= b_iinv (w_heap w (t_a t)) /\ 0 <= b_iinv (w_heap w (t_b t)) /\ 0 < b_minv (w_heap w (t_a t)) + b_minv (w_heap w (t_b t));
  e_joints : forall c k, In (c, k) (w_joints w) -> carries (q_d q) (q_dt q) (w_heap w) c k /\ solvable (w_heap w) c k }.
