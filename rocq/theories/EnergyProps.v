(** Property theorems C62 and C63, and the groove joint theorems of C40. *)
From Coq Require Import ZArith Bool Reals List Lra.
From Verif Require Import Num NumReal Vec BB Transform Body BodySpec Solver SolverSpec SolverProofs SolverProofs5 SolverProofs6 Joints JointsSpec EnergySpec EnergyProofs EnergyProofs2 EnergyEx.
Import ListNotations.
Local Open Scope R_scope.

(** Without gravity, forces, restitution and friction, the solver never adds kinetic energy: pins, slides, gears, motors at rate 0,
    rotary limits and ratchets that are where they should be, pivots that stay below their force limit, and any number of frictionless
    contacts, however deep, for any number of iterations. *)
Theorem C62_solve :
  forall L n slop bias (d dt prevdt : R) dyn (w : Rworld), NoDup L -> (forall i, coasting (w_heap w i)) -> 0 <= d <= 1 ->
  (forall s, In s (w_arbs w) -> smooth L (w_heap w) s) ->
  (forall c k, In (c, k) (w_joints w) -> In (c_a c) L /\ In (c_b c) L /\ 0 <= c_maxbias c /\ 0 <= c_maxforce c * dt /\
     satisfied (w_heap w) c k /\ lossy (w_heap w) c k) ->
  (forall m, (1 <= m <= n)%nat -> held dt (solve m slop bias vzero d dt prevdt dyn w)) ->
  energy L (w_heap (solve n slop bias vzero d dt prevdt dyn w)) <= energy L (w_heap w).
Proof. exact energy_lost. Qed.
Print Assumptions C62_solve.
Example C62_solve_witness : forall n, energy [0; 1]%nat (w_heap (solve n (1 / 10) (1 / 10) vzero 1 1 1 [1%nat] en_world)) <= 25.
Proof. exact en_loses. Qed.
Example C62_held_witness : held 1 (solve 1 (1 / 10) (1 / 10) vzero 1 1 1 [] (World pv_heap [] [(wcst 10, JPivot pv_joint)])).
Proof. exact pv_held. Qed.
(** A bouncing contact: a single frictionless contact with restitution e between approaching bodies takes exactly the part
    1 - e^2 of the energy of the approach, and nothing if they separate, whatever the number of iterations. *)
Theorem C62_bounce :
  forall L n slop bias (dt prevdt : R) dyn (H : Rheap) s c, NoDup L -> (forall i, weighed (H i) /\ b_force (H i) = vzero /\ b_torque (H i) = 0) ->
  In (s_a s) L -> In (s_b s) L -> pushable H (s_a s) (s_b s) ->
  vdot (s_n s) (s_n s) = 1 -> vdot (s_svr s) (s_n s) = 0 -> s_u s = 0 -> 0 <= s_e s -> s_contacts s = [c] -> k_jn c = 0 -> k_jt c = 0 ->
  let v := normal_relative_velocity (H (s_a s)) (H (s_b s)) (k_r1 c) (k_r2 c) (s_n s) in
  let k := kscalar (H (s_a s)) (H (s_b s)) (k_r1 c) (k_r2 c) (s_n s) in
  energy L (w_heap (solve (S n) slop bias vzero 1 dt prevdt dyn (World H [s] []))) = energy L H - (1 - s_e s * s_e s) * (Rmin v 0 * Rmin v 0) / (2 * k).
Proof. exact solve_bounce. Qed.
Print Assumptions C62_bounce.
(* the contact of the example above meets the hypotheses; its bodies approach with 4, k = 1, and 8 of 25 units are lost *)
Example C62_bounce_witness :
  let s := en_arb in let c := @Contact RNum (rvec 0 1) (rvec 0 (-1)) 0 0 0 0 0 0 0 0%Z in
  s_contacts s = [c] /\ pushable en_heap (s_a s) (s_b s) /\ energy [0; 1]%nat en_heap = 25 /\
  normal_relative_velocity (en_heap 0%nat) (en_heap 1%nat) (k_r1 c) (k_r2 c) (s_n s) = -4 /\ kscalar (en_heap 0%nat) (en_heap 1%nat) (k_r1 c) (k_r2 c) (s_n s) = 1.
Proof. cbn zeta. split; [reflexivity|]. split; [unfold pushable; cbn; repeat split; try lra; discriminate|]. split; [unfold energy, kinetic; cbn; unR; lra|]. split; cbn; unR; lra. Qed.
(** One iteration of a contact with friction but without restitution takes energy away, provided the friction impulse carried so far
    is still allowed by the new normal impulse. *)
Theorem C62_contact :
  forall L (H0 H : Rheap) s c (dt slop bias : R), NoDup L -> (forall i, weighed (H i)) -> hframe H0 H -> In (s_a s) L -> In (s_b s) L ->
  pushable H0 (s_a s) (s_b s) -> vdot (s_n s) (s_n s) = 1 -> s_svr s = vzero -> s_e s = 0 -> 0 <= k_jn c ->
  let '(H', c') := contact_apply H s (contact_prestep H0 s dt slop bias c) in
  Rabs (k_jt c) <= s_u s * k_jn c' -> energy L H' <= energy L H.
Proof. exact contact_loss. Qed.
Print Assumptions C62_contact.
(** The first iteration of a damped spring or damped rotary spring takes energy away. *)
Theorem C62_spring :
  forall L (H0 H : Rheap) c (dt : R) (p : spring), NoDup L -> (forall i, weighed (H i)) -> hframe H0 H -> In (c_a c) L -> In (c_b c) L ->
  pushable H0 (c_a c) (c_b c) -> 0 <= sp_damping p * dt -> 0 <= c_maxforce c * dt ->
  energy L (fst (spring_apply H c dt (snd (spring_prestep H0 c dt p)))) <= energy L H.
Proof. exact spring_loss. Qed.
Print Assumptions C62_spring.
Theorem C62_rotary_spring :
  forall L (H0 H : Rheap) c (dt : R) (p : rspring), NoDup L -> (forall i, weighed (H i)) -> hframe H0 H -> In (c_a c) L -> In (c_b c) L ->
  turnable H0 (c_a c) (c_b c) -> 0 <= rs_damping p * dt -> 0 <= c_maxforce c * dt ->
  energy L (fst (rspring_apply H c dt (snd (rspring_prestep H0 c dt p)))) <= energy L H.
Proof. exact rspring_loss. Qed.
Print Assumptions C62_rotary_spring.
(** Finding: a groove joint adds energy.  The body slides along its groove and every condition of C62_solve but the kind of joint
    holds; after any number of iterations the energy is 1/2 + 1/9 instead of 1/2. *)
Theorem C62_groove_refuted :
  exists w : Rworld, (forall i, coasting (w_heap w i)) /\ w_arbs w = [] /\
  (exists c p, w_joints w = [(c, JGroove p)] /\ satisfied (w_heap w) c (JGroove p) /\ pushable (w_heap w) (c_a c) (c_b c) /\ 0 <= c_maxforce c * 1 /\ 0 <= c_maxbias c) /\
  forall n slop bias, energy [0; 1]%nat (w_heap (solve (S n) slop bias vzero 1 1 1 [1%nat] w)) = energy [0; 1]%nat (w_heap w) + 1 / 9.
Proof. exact groove_gains. Qed.
Print Assumptions C62_groove_refuted.
(** Finding: so does a pivot joint whose impulse is cut to its force limit. *)
Theorem C62_pivot_limit_refuted :
  exists (H : Rheap) (c : Rcstr) (p : @pivot RNum), (forall i, weighed (H i)) /\ pushable H (c_a c) (c_b c) /\
  local_to_world (H (c_a c)) (pv_anchA p) = local_to_world (H (c_b c)) (pv_anchB p) /\ vmag (pv_j p) < c_maxforce c * 1 /\
  let p1 := pivot_prestep H c 1 p in pv_bias p1 = vzero /\ energy [0; 1]%nat H < energy [0; 1]%nat (fst (joint_apply H c 1 (JPivot p1))).
Proof. exact limit_gains. Qed.
Print Assumptions C62_pivot_limit_refuted.
(** Finding: and a contact whose carried friction is released in full when the normal impulse drops. *)
Theorem C62_friction_release_refuted :
  exists (H : Rheap) (s : Rsarb) (c : Rcontact), (forall i, weighed (H i)) /\ pushable H (s_a s) (s_b s) /\ vdot (s_n s) (s_n s) = 1 /\ s_svr s = vzero /\ s_e s = 0 /\
  0 <= k_jn c /\ Rabs (k_jt c) <= s_u s * k_jn c /\
  energy [0; 1]%nat H < energy [0; 1]%nat (fst (contact_apply H s (contact_prestep H s 1 (1 / 10) (1 / 10) c))).
Proof. exact release_gains. Qed.
Print Assumptions C62_friction_release_refuted.

(** One iteration of a groove joint in the middle of its groove, its impulse below the limit, leaves the target velocity across the
    groove, if pushing across the groove does not also move the anchor along it. *)
Theorem C40_groove_exact :
  forall (H0 H : Rheap) c (dt : R) (p : groove), hframe H0 H -> c_a c <> c_b c -> movable_pair (H0 (c_a c)) (H0 (c_b c)) -> 0 <= c_maxforce c * dt ->
  let p1 := groove_prestep H0 c dt p in let n := gv_tn p1 in
  vdot n n = 1 -> gv_clamp p1 = 0 ->
  b_iinv (H0 (c_a c)) * (vdot (gv_r1 p1) n * vcross (gv_r1 p1) n) + b_iinv (H0 (c_b c)) * (vdot (gv_r2 p1) n * vcross (gv_r2 p1) n) = 0 ->
  let '(H', p2) := groove_apply H c dt p1 in
  vmag (gv_j p2) < c_maxforce c * dt ->
  normal_relative_velocity (H' (c_a c)) (H' (c_b c)) (gv_r1 p1) (gv_r2 p1) n = vdot (gv_bias p1) n.
Proof. exact groove_exact. Qed.
Print Assumptions C40_groove_exact.
Example C40_groove_witness : let p1 := groove_prestep ge_heap (wcst 10) 1 ge_joint in let n := gv_tn p1 in vdot n n = 1 /\ gv_clamp p1 = 0 /\
  b_iinv (ge_heap 0%nat) * (vdot (gv_r1 p1) n * vcross (gv_r1 p1) n) + b_iinv (ge_heap 1%nat) * (vdot (gv_r2 p1) n * vcross (gv_r2 p1) n) = 0 /\
  vmag (gv_j (snd (groove_apply ge_heap (wcst 10) 1 p1))) < c_maxforce (wcst 10) * 1.
Proof. exact ge_conditions. Qed.
(** Finding: without that condition the velocity across the groove is never corrected, whatever the number of iterations.  Here it is
    right to begin with (0) and wrong by 2/3 afterwards. *)
Theorem C40_groove_refuted :
  exists (w : Rworld) (c : Rcstr) (p : @groove RNum) (r1 r2 n : Rvec), w_arbs w = [] /\ w_joints w = [(c, JGroove p)] /\ satisfied (w_heap w) c (JGroove p) /\
  normal_relative_velocity (w_heap w (c_a c)) (w_heap w (c_b c)) r1 r2 n = 0 /\
  r1 = gv_r1 (groove_prestep (w_heap w) c 1 p) /\ r2 = gv_r2 (groove_prestep (w_heap w) c 1 p) /\ n = gv_tn (groove_prestep (w_heap w) c 1 p) /\ gv_bias (groove_prestep (w_heap w) c 1 p) = vzero /\
  forall k slop bias, let H' := w_heap (solve (S k) slop bias vzero 1 1 1 [1%nat] w) in
  normal_relative_velocity (H' (c_a c)) (H' (c_b c)) r1 r2 n = - (2 / 3).
Proof. exact groove_never. Qed.
Print Assumptions C40_groove_refuted.

(** The solver applied to a damped spring alone changes the stretching velocity v of the spring to
    (v + force dt k) exp(- damping dt k), whatever the number of iterations; k is the inverse of the effective mass of the two anchors. *)
Theorem C63_spring_damping :
  forall n slop bias (dt prevdt : R) dyn (H : Rheap) c p, (forall i, b_force (H i) = vzero /\ b_torque (H i) = 0) -> c_a c <> c_b c -> movable_pair (H (c_a c)) (H (c_b c)) ->
  let r1 := anchor_arm (H (c_a c)) (sp_anchA p) in let r2 := anchor_arm (H (c_b c)) (sp_anchB p) in
  let delta := vsub (vadd (b_pos (H (c_b c))) r2) (vadd (b_pos (H (c_a c))) r1) in let dist := vmag delta in
  let u := vscale (N := RNum) delta (1 / dist)%R in let k := kscalar (H (c_a c)) (H (c_b c)) r1 r2 u in
  dist <> 0 ->
  let H' := w_heap (solve (S n) slop bias vzero 1 dt prevdt dyn (World H [] [(c, JSpring p)])) in
  normal_relative_velocity (H' (c_a c)) (H' (c_b c)) r1 r2 u =
    (normal_relative_velocity (H (c_a c)) (H (c_b c)) r1 r2 u + sp_force p dist * dt * k) * exp (- (sp_damping p * dt * k)).
Proof. exact spring_alone. Qed.
Print Assumptions C63_spring_damping.
Theorem C63_rotary_spring_damping :
  forall n slop bias (dt prevdt : R) dyn (H : Rheap) c p, (forall i, b_force (H i) = vzero /\ b_torque (H i) = 0) -> c_a c <> c_b c -> b_iinv (H (c_a c)) + b_iinv (H (c_b c)) <> 0 ->
  let k := b_iinv (H (c_a c)) + b_iinv (H (c_b c)) in
  let H' := w_heap (solve (S n) slop bias vzero 1 dt prevdt dyn (World H [] [(c, JRSpring p)])) in
  b_w (H' (c_a c)) - b_w (H' (c_b c)) =
    (b_w (H (c_a c)) - b_w (H (c_b c)) - rs_torque p (b_angle (H (c_a c)) - b_angle (H (c_b c)))%R * dt * k) * exp (- (rs_damping p * dt * k)).
Proof. exact rspring_alone. Qed.
Print Assumptions C63_rotary_spring_damping.
Example C63_witness : (forall i, b_force (sq_heap i) = vzero /\ b_torque (sq_heap i) = 0) /\ movable_pair (sq_heap 0%nat) (sq_heap 1%nat) /\
  vsub (vadd (b_pos (sq_heap 1%nat)) (anchor_arm (sq_heap 1%nat) (sp_anchB sq_spring))) (vadd (b_pos (sq_heap 0%nat)) (anchor_arm (sq_heap 0%nat) (sp_anchA sq_spring))) = rvec 3 0 /\ vmag (rvec 3 0) = 3.
Proof. exact sq_conditions. Qed.
