(** Property theorems C37-C40 and C51: the contact and joint solver.  [solve] is the solver half of Space.Step:
    PreStep, velocity integration, cached impulses, n iterations.  C38 is generic in the number type (so it holds for
    float64); the others are over the reals. *)
From Coq Require Import ZArith Bool Reals List Lra.
From Verif Require Import Num NumReal NumFloat Vec BB Transform Body BodySpec Solver SolverSpec SolverProofs SolverProofs2 SolverProofs3 SolverProofs4 SolverProofs5 SolverProofs6.
Import ListNotations.
Local Open Scope R_scope.

(** Over a whole step only damping, gravity and user forces change the total momentum of a set of bodies no contact
    or joint leaves: whatever the arbiters, joints, cached impulses and iteration count. *)
Theorem C37_step_momentum :
  forall n slop bias g d dt prevdt L (w : Rworld),
  NoDup L -> closed L w -> movable L (w_heap w) -> (forall i, In i L -> b_type (w_heap w i) = Dynamic) ->
  let w' := solve n slop bias g d dt prevdt L w in
  px L (w_heap w') = d * px L (w_heap w) + dt * force_x L g (w_heap w) /\
  py L (w_heap w') = d * py L (w_heap w) + dt * force_y L g (w_heap w).
Proof. exact solve_momentum. Qed.
Print Assumptions C37_step_momentum.

(** A body of infinite mass and moment keeps its velocities through any step. *)
Theorem C37_infinite_mass_unmoved :
  forall n slop bias g d dt prevdt L (w : Rworld) i,
  b_minv (w_heap w i) = 0 -> b_iinv (w_heap w i) = 0 -> ~ In i L ->
  let b := w_heap w i in let b' := w_heap (solve n slop bias g d dt prevdt L w) i in
  b_vel b' = b_vel b /\ b_w b' = b_w b /\ b_vbias b' = b_vbias b /\ b_wbias b' = b_wbias b.
Proof. exact solve_immobile. Qed.
Print Assumptions C37_infinite_mass_unmoved.

(** An impulse applied to both bodies at one world point conserves angular momentum. *)
Theorem C37_angular_momentum_common_point :
  forall L (H : Rheap) a b r1 r2 (j : @vec RNum), NoDup L -> In a L /\ In b L -> movable L H -> rotatable L H ->
  vadd (b_pos (H a)) r1 = vadd (b_pos (H b)) r2 -> angmom L (apply_impulses H a b r1 r2 j) = angmom L H.
Proof. exact imp_common_point. Qed.
Print Assumptions C37_angular_momentum_common_point.

(** A whole step of a pin joint, slide joint, damped spring, motor, rotary limit, ratchet or rotary spring conserves
    angular momentum, satisfied or not. *)
Theorem C37_joint_angular_momentum :
  forall L n (H : Rheap) c dt dtcoef k, NoDup L -> In (c_a c) L /\ In (c_b c) L -> movable L H -> rotatable L H ->
  is_central k \/ rotary k -> angmom L (joint_step n c dt dtcoef H k) = angmom L H.
Proof. exact joint_step_angmom. Qed.
Print Assumptions C37_joint_angular_momentum.

(** Finding: a gear joint does not (gear_joint.go:62-63 scales only one of the two torques, as a gear must): the
    missing torque is taken by the implicit gear box.  What it conserves is the ratio-weighted sum. *)
Theorem C37_gear_angular_momentum_refuted :
  exists (H : Rheap) c, movable [0%nat; 1%nat] H /\ rotatable [0%nat; 1%nat] H /\
  angmom [0%nat; 1%nat] (fst (gear_apply H c 1 (gear_prestep H c 1 (new_gear (N:=RNum) 0 2)))) <> angmom [0%nat; 1%nat] H.
Proof. exact gear_refuted. Qed.
Print Assumptions C37_gear_angular_momentum_refuted.
Theorem C37_gear_weighted_momentum :
  forall (H : Rheap) a b j r, a <> b -> r <> 0 ->
  b_moi (H a) * b_iinv (H a) = 1 -> b_moi (H b) * b_iinv (H b) = 1 ->
  let H' := apply_gear H a b j (1 / r) in
  r * (b_moi (H' a) * b_w (H' a)) + b_moi (H' b) * b_w (H' b) = r * (b_moi (H a) * b_w (H a)) + b_moi (H b) * b_w (H b).
Proof. exact gear_weighted. Qed.
Print Assumptions C37_gear_weighted_momentum.

(* two unit bodies, one contact with friction and one spring: the hypotheses of C37 hold *)
Example C37_witness :
  let w := @World RNum (two (ub 0 0 1 0 0) (ub 1 0 0 0 0)) [ws 1] [(wcst 1, JSpring wspring)] in
  NoDup [0%nat; 1%nat] /\ closed [0%nat; 1%nat] w /\ movable [0%nat; 1%nat] (w_heap w) /\ rotatable [0%nat; 1%nat] (w_heap w) /\
  px [0%nat; 1%nat] (w_heap w) = 1.
Proof.
  cbn zeta. split; [repeat constructor; cbn; intuition discriminate|]. split.
  - split; [intros s [<-|[]]; cbn; tauto|intros c k [[= <- <-]|[]]; cbn; tauto].
  - split; [intros i [<-|[<-|[]]]; cbn; lra|]. split; [intros i [<-|[<-|[]]]; cbn; lra|]. unfold px, Rsum. cbn. lra.
Qed.

(** After one or more iterations of any world, over any number type with the order laws (the reals and float64):
    normal and bias impulses are non-negative unless NaN, friction is within the Coulomb cone if finite. *)
Theorem C38_contact_impulse_bounds :
  forall (N : Num) (O : NumOrd N) (E : Elem N) (T : Trig N) n slop bias g d dt prevdt L (w : @world N) s c,
  In s (w_arbs (solve (S n) slop bias g d dt prevdt L w)) -> In c (s_contacts s) ->
  (nok (k_jn c) -> (n0 <=? k_jn c)%num = true) /\
  (nok (k_jbias c) -> (n0 <=? k_jbias c)%num = true) /\
  (nfin (s_u s) -> (n0 <=? s_u s)%num = true -> nfin (k_jn c) ->
     (- (s_u s * k_jn c) <=? k_jt c)%num = true /\ (k_jt c <=? s_u s * k_jn c)%num = true).
Proof. exact (fun N O E T n slop bias g d dt prevdt L w s c => iterations_ok n dt _ s c). Qed.
Print Assumptions C38_contact_impulse_bounds.

(** The same, read off the public interface: the total impulse reported for an arbiter never pulls against the
    reported normal. *)
Theorem C38_total_impulse_pushes :
  forall n slop bias g d dt prevdt L (w : Rworld) s,
  In s (w_arbs (solve (S n) slop bias g d dt prevdt L w)) -> s_cached s = false -> vdot (total_impulse s) (arb_normal s) <= 0.
Proof. exact total_impulse_pushes. Qed.
Print Assumptions C38_total_impulse_pushes.
(* the contact of [ws 1] is pressed together: its impulse is positive *)
Example C38_witness :
  0 < k_jn (snd (contact_apply wH (ws 1) (contact_prestep wH (ws 1) 1 (1/10) (1/2) wc))).
Proof. pose proof friction_inexact as X. cbv zeta in X. destruct contact_apply. apply X. Qed.

(** Joints (other than springs) that start a step within the limit, as all new joints do, end it within the limit,
    whatever the iteration count. *)
Theorem C39_impulse_within_limit :
  forall n slop bias g d dt prevdt L (w : Rworld),
  (forall c k, In (c, k) (w_joints w) -> 0 <= c_maxforce c * dt /\ ratchet_ok k /\ within c dt k) ->
  forall c k, In (c, k) (w_joints (solve n slop bias g d dt prevdt L w)) -> within c dt k.
Proof. exact (fun n slop bias g d dt prevdt L w I c k Hin => proj2 (proj2 (solve_jinv n slop bias g d dt prevdt L w I c k Hin))). Qed.
Print Assumptions C39_impulse_within_limit.

(** Without any assumption on the starting impulse: one iteration of a joint that is doing something brings it within
    the limit. *)
Theorem C39_one_iteration_within_limit :
  forall (H : Rheap) c dt k, 0 <= c_maxforce c * dt -> ratchet_ok k -> joint_active k -> within c dt (snd (joint_apply H c dt k)).
Proof. exact joint_apply_within. Qed.
Print Assumptions C39_one_iteration_within_limit.

(** Finding: damped springs ignore maxForce (damped_spring.go:41-92 never reads it). *)
Theorem C39_spring_limit_refuted :
  exists (H : Rheap) (c : Rcstr) (p : spring),
  let '(H1, k1) := joint_prestep H c 1 (JSpring p) in
  let '(H2, k2) := joint_apply H1 c 1 k1 in
  c_maxforce c = 1 /\ joint_impulse k2 = 10 /\ vx (b_vel (H2 1%nat)) = 10.
Proof. exact spring_limit_refuted. Qed.
Print Assumptions C39_spring_limit_refuted.
(** Finding: GetImpulse of a damped rotary spring counts damping with the opposite sign of the torque it applies. *)
Theorem C39_rotary_spring_report_refuted :
  exists (H : Rheap) (c : Rcstr) (p : rspring),
  let '(H1, k1) := joint_prestep H c 1 (JRSpring p) in
  let '(H2, k2) := joint_apply H1 c 1 k1 in
  let gained := b_moi (H 1%nat) * b_w (H2 1%nat) - b_moi (H 1%nat) * b_w (H 1%nat) in
  0 < gained /\ joint_impulse k2 = - gained.
Proof. exact (ex_intro _ (two (ub 0 0 0 0 2) (ub 0 0 0 0 0)) (ex_intro _ (wcst 1) (ex_intro _ (@RSpring RNum 1 (fun _ => 0) 0 0 0 0) rotary_spring_sign))). Qed.
Print Assumptions C39_rotary_spring_report_refuted.

(** A satisfied limit applies no impulse at all during a step: the bodies are untouched. *)
Theorem C39_slide_satisfied_is_inert :
  forall n c dt dtc (H : Rheap) (p : slide),
  let a := H (c_a c) in let b := H (c_b c) in
  let d := vdist (vadd (b_pos b) (anchor_arm b (sl_anchB p))) (vadd (b_pos a) (anchor_arm a (sl_anchA p))) in
  sl_min p <= d <= sl_max p -> forall i, joint_step n c dt dtc H (JSlide p) i = H i.
Proof. exact slide_satisfied. Qed.
Print Assumptions C39_slide_satisfied_is_inert.
Theorem C39_rotary_limit_satisfied_is_inert :
  forall n c dt dtc (H : Rheap) (p : rlimit),
  0 <= c_maxbias c -> rl_min p <= b_angle (H (c_b c)) - b_angle (H (c_a c)) <= rl_max p ->
  forall i, joint_step n c dt dtc H (JRLimit p) i = H i.
Proof. exact rlimit_satisfied. Qed.
Print Assumptions C39_rotary_limit_satisfied_is_inert.
Theorem C39_ratchet_satisfied_is_inert :
  forall n c dt dtc (H : Rheap) (p : ratchet),
  0 <= c_maxbias c -> (ra_angle p - (b_angle (H (c_b c)) - b_angle (H (c_a c)))) * ra_ratchet p <= 0 ->
  forall i, joint_step n c dt dtc H (JRatchet p) i = H i.
Proof. exact ratchet_satisfied. Qed.
Print Assumptions C39_ratchet_satisfied_is_inert.

(** A stretched slide joint only pulls the anchors together, a compressed one only pushes them apart. *)
Theorem C39_slide_direction :
  forall (H H' : Rheap) c dt (p : slide), 0 <= c_maxforce c * dt -> 0 <= sl_min p <= sl_max p ->
  let a := H (c_a c) in let b := H (c_b c) in
  let delta := vsub (vadd (b_pos b) (anchor_arm b (sl_anchB p))) (vadd (b_pos a) (anchor_arm a (sl_anchA p))) in
  let p1 := slide_prestep H c dt p in
  let p2 := snd (slide_apply H' c dt p1) in
  (sl_max p < vmag delta -> vdot (vscale (sl_n p2) (sl_j p2)) delta <= 0) /\
  (0 < vmag delta < sl_min p -> 0 <= vdot (vscale (sl_n p2) (sl_j p2)) delta).
Proof. exact slide_direction. Qed.
Print Assumptions C39_slide_direction.
Theorem C39_rotary_limit_direction :
  forall (H H' : Rheap) c dt (p : rlimit), 0 <= c_maxforce c * dt -> 0 < dt -> 0 < bias_coef (c_errorbias c) dt -> 0 < c_maxbias c ->
  let ang := b_angle (H (c_b c)) - b_angle (H (c_a c)) in
  rl_min p <= rl_max p ->
  let p2 := snd (rlimit_apply H' c dt (rlimit_prestep H c dt p)) in
  (rl_max p < ang -> rl_j p2 <= 0) /\ (ang < rl_min p -> 0 <= rl_j p2).
Proof. exact rlimit_direction. Qed.
Print Assumptions C39_rotary_limit_direction.
Theorem C39_ratchet_direction :
  forall (H' : Rheap) c dt (p : ratchet), 0 <= c_maxforce c * dt -> ra_ratchet p <> 0 -> ra_bias p <> 0 ->
  let p2 := snd (ratchet_apply H' c dt p) in 0 <= ra_j p2 * ra_ratchet p.
Proof. exact ratchet_direction. Qed.
Print Assumptions C39_ratchet_direction.
Example C39_witness :
  let p := @RLimit RNum (-1) 1 0 0 0 in let w := @World RNum (two (ub 0 0 0 0 3) (ub 0 0 0 0 0)) [] [(wcst 5, JRLimit p)] in
  (forall c k, In (c, k) (w_joints w) -> 0 <= c_maxforce c * 1 /\ ratchet_ok k /\ within c 1 k) /\
  rl_min p <= b_angle (w_heap w 1%nat) - b_angle (w_heap w 0%nat) <= rl_max p.
Proof.
  cbn zeta. split.
  - intros c k [[= <- <-]|[]]. cbn. unR. rewrite Rabs_R0. split; [lra|]. split; [exact I|lra].
  - cbn. lra.
Qed.

(** One iteration of a joint whose accumulated impulse stays strictly below its limit leaves exactly the target
    relative velocity.  H0 is the heap at PreStep, H the heap at the iteration ([hframe]: only velocities differ). *)
Theorem C40_pivot_exact :
  forall (H0 H : Rheap) c dt (p : pivot), hframe H0 H -> c_a c <> c_b c -> movable_pair (H0 (c_a c)) (H0 (c_b c)) ->
  0 <= c_maxforce c * dt ->
  let p1 := pivot_prestep H0 c dt p in
  let '(H', p2) := pivot_apply H c dt p1 in
  vmag (pv_j p2) < c_maxforce c * dt ->
  relative_velocity (H' (c_a c)) (H' (c_b c)) (pv_r1 p1) (pv_r2 p1) = pv_bias p1.
Proof. exact pivot_exact. Qed.
Print Assumptions C40_pivot_exact.
Theorem C40_pin_exact :
  forall (H0 H : Rheap) c dt (p : pin), hframe H0 H -> c_a c <> c_b c -> movable_pair (H0 (c_a c)) (H0 (c_b c)) ->
  let a := H0 (c_a c) in let b := H0 (c_b c) in
  vadd (b_pos b) (anchor_arm b (pn_anchB p)) <> vadd (b_pos a) (anchor_arm a (pn_anchA p)) ->
  let p1 := pin_prestep H0 c dt p in
  let '(H', p2) := pin_apply H c dt p1 in
  Rabs (pn_j p2) < c_maxforce c * dt ->
  normal_relative_velocity (H' (c_a c)) (H' (c_b c)) (pn_r1 p1) (pn_r2 p1) (pn_n p1) = pn_bias p1.
Proof. exact pin_exact. Qed.
Print Assumptions C40_pin_exact.
Theorem C40_slide_exact :
  forall (H0 H : Rheap) c dt (p : slide), hframe H0 H -> c_a c <> c_b c -> movable_pair (H0 (c_a c)) (H0 (c_b c)) ->
  let a := H0 (c_a c) in let b := H0 (c_b c) in
  let d := vdist (vadd (b_pos b) (anchor_arm b (sl_anchB p))) (vadd (b_pos a) (anchor_arm a (sl_anchA p))) in
  0 < d -> 0 <= sl_min p <= sl_max p -> (d < sl_min p \/ sl_max p < d) ->
  let p1 := slide_prestep H0 c dt p in
  let '(H', p2) := slide_apply H c dt p1 in
  - c_maxforce c * dt < sl_j p2 < 0 ->
  normal_relative_velocity (H' (c_a c)) (H' (c_b c)) (sl_r1 p1) (sl_r2 p1) (sl_n p1) = sl_bias p1.
Proof. exact slide_exact. Qed.
Print Assumptions C40_slide_exact.
Theorem C40_gear_exact :
  forall (H0 H : Rheap) c dt (p : gear), hframe H0 H -> c_a c <> c_b c ->
  b_iinv (H0 (c_a c)) * ge_ratioinv p + ge_ratio p * b_iinv (H0 (c_b c)) <> 0 ->
  let p1 := gear_prestep H0 c dt p in
  let '(H', p2) := gear_apply H c dt p1 in
  Rabs (ge_j p2) < c_maxforce c * dt -> b_w (H' (c_b c)) * ge_ratio p - b_w (H' (c_a c)) = ge_bias p1.
Proof. exact gear_exact. Qed.
Print Assumptions C40_gear_exact.
Theorem C40_motor_exact :
  forall (H0 H : Rheap) c dt (p : motor), hframe H0 H -> c_a c <> c_b c ->
  b_iinv (H0 (c_a c)) + b_iinv (H0 (c_b c)) <> 0 ->
  let '(H', p2) := motor_apply H c dt (motor_prestep H0 c dt p) in
  Rabs (mo_j p2) < c_maxforce c * dt -> b_w (H' (c_b c)) - b_w (H' (c_a c)) = - mo_rate p.
Proof. exact motor_exact. Qed.
Print Assumptions C40_motor_exact.
Theorem C40_rotary_limit_exact :
  forall (H0 H : Rheap) c dt (p : rlimit), hframe H0 H -> c_a c <> c_b c ->
  b_iinv (H0 (c_a c)) + b_iinv (H0 (c_b c)) <> 0 ->
  let p1 := rlimit_prestep H0 c dt p in rl_bias p1 <> 0 -> 0 <= c_maxforce c * dt ->
  let '(H', p2) := rlimit_apply H c dt p1 in
  0 < Rabs (rl_j p2) < c_maxforce c * dt -> b_w (H' (c_b c)) - b_w (H' (c_a c)) = - rl_bias p1.
Proof. exact rlimit_exact. Qed.
Print Assumptions C40_rotary_limit_exact.
Theorem C40_ratchet_exact :
  forall (H0 H : Rheap) c dt (p : ratchet), hframe H0 H -> c_a c <> c_b c ->
  b_iinv (H0 (c_a c)) + b_iinv (H0 (c_b c)) <> 0 -> ra_ratchet p <> 0 ->
  let p1 := ratchet_prestep H0 c dt p in ra_bias p1 <> 0 -> 0 <= c_maxforce c * dt ->
  let '(H', p2) := ratchet_apply H c dt p1 in
  0 < Rabs (ra_j p2) < c_maxforce c * dt -> b_w (H' (c_b c)) - b_w (H' (c_a c)) = - ra_bias p1.
Proof. exact ratchet_exact. Qed.
Print Assumptions C40_ratchet_exact.
(** A contact iteration that ends pressed (positive normal impulse) and applies no friction leaves the normal velocity
    exactly the negated bounce. *)
Theorem C40_frictionless_contact_exact :
  forall (H0 H : Rheap) (s : Rsarb) dt slop bias (c : Rcontact), hframe H0 H -> s_a s <> s_b s -> movable_pair (H0 (s_a s)) (H0 (s_b s)) ->
  vdot (s_n s) (s_n s) = 1 ->
  let c1 := contact_prestep H0 s dt slop bias c in
  let '(H', c2) := contact_apply H s c1 in
  0 < k_jn c2 -> k_jt c2 = k_jt c1 ->
  vdot (vadd (relative_velocity (H' (s_a s)) (H' (s_b s)) (k_r1 c) (k_r2 c)) (s_svr s)) (s_n s) = - k_bounce c1.
Proof. exact contact_exact. Qed.
Print Assumptions C40_frictionless_contact_exact.
(** Finding: with friction it does not, because the friction impulse of the same iteration turns the body. *)
Theorem C40_friction_contact_refuted :
  exists (H : Rheap) (s : Rsarb) (c : Rcontact), s_a s <> s_b s /\ vdot (s_n s) (s_n s) = 1 /\
  let c1 := contact_prestep H s 1 (1/10) (1/2) c in
  let '(H', c2) := contact_apply H s c1 in
  0 < k_jn c2 /\
  vdot (vadd (relative_velocity (H' (s_a s)) (H' (s_b s)) (k_r1 c) (k_r2 c)) (s_svr s)) (s_n s) <> - k_bounce c1.
Proof. exact friction_refuted. Qed.
Print Assumptions C40_friction_contact_refuted.
Example C40_witness :
  movable_pair (wH 0%nat) (wH 1%nat) /\
  let c1 := contact_prestep wH (ws 0) 1 (1/10) (1/2) wc in
  let '(H', c2) := contact_apply wH (ws 0) c1 in 0 < k_jn c2 /\ k_jt c2 = k_jt c1.
Proof. split; [unfold movable_pair; cbn; lra|exact frictionless_example]. Qed.

(** Reading the contact set of an arbiter that is not in the cached state and writing it back changes nothing, whichever
    way round the shapes were swapped. *)
Theorem C51_round_trip :
  forall (H : Rheap) (s : Rsarb), s_cached s = false -> set_contact_point_set H s (contact_point_set H s) = Some s.
Proof. exact points_roundtrip. Qed.
Print Assumptions C51_round_trip.
(** A set with another number of points is refused (the program logs and exits). *)
Theorem C51_wrong_count_refused :
  forall (H : Rheap) (s : Rsarb) set, length (cp_points set) <> length (s_contacts s) -> set_contact_point_set H s set = None.
Proof. exact wrong_count_refused. Qed.
Print Assumptions C51_wrong_count_refused.
(** Finding: in the cached state (where Separate callbacks run) the set that is read has no points, so writing the
    unmodified set back terminates the program. *)
Theorem C51_cached_write_back_refuted :
  exists (H : Rheap) (s : Rsarb), s_cached s = true /\ s_contacts s <> [] /\ set_contact_point_set H s (contact_point_set H s) = None.
Proof. exact cached_write_back_fatal. Qed.
Print Assumptions C51_cached_write_back_refuted.
Example C51_witness :
  let s := @SArb RNum 0 1 0 0 (rvec 0 0) (rvec 0 1) true false false [wc] in
  exists p, cp_points (contact_point_set wH s) = [p] /\ cp_normal (contact_point_set wH s) = rvec (- 0) (- 1).
Proof. cbn zeta. eexists. split; reflexivity. Qed.
