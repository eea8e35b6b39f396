(** C72: joints work off their error and never past it; friction; warm starting. *)
From Coq Require Import ZArith Bool Reals List.
From Verif Require Import Num NumReal Vec BB Transform Body BodySpec BodyProofs Solver SolverSpec SolverProofs SolverProofs2 SolverProofs3 SolverProofs4 SolverProofs5 SolverProofs6 Joints CorrectSpec CorrectProofs CorrectProofs2 CorrectEx.
Import ListNotations.
Local Open Scope R_scope.

(** In all of these [H0] holds the bodies at the start of the step (PreStep) and [H] the bodies when the joint gets its turn
    in an iteration: the same bodies, with other velocities.  A joint whose impulse stays inside its limit leaves the bodies
    with a rate of change of its error that [corrects] it.  The rates are those of the anchors or angles themselves. *)
Theorem C72_pivot : forall (H0 H : Rheap) c dt (p : pivot), hframe H0 H -> c_a c <> c_b c -> movable_pair (H0 (c_a c)) (H0 (c_b c)) ->
  0 < c_errorbias c <= 1 -> 0 < dt -> 0 <= c_maxbias c -> 0 <= c_maxforce c ->
  let a := H0 (c_a c) in let b := H0 (c_b c) in
  let r1 := anchor_arm a (pv_anchA p) in let r2 := anchor_arm b (pv_anchB p) in
  let '(H', p2) := pivot_apply H c dt (pivot_prestep H0 c dt p) in
  vmag (pv_j p2) < c_maxforce c * dt ->
  corrects_vec (c_maxbias c) (left_after (c_errorbias c) dt) dt
    (vsub (vadd (b_pos b) r2) (vadd (b_pos a) r1)) (relative_velocity (H' (c_a c)) (H' (c_b c)) r1 r2).
Proof. exact pivot_corrects. Qed.
Print Assumptions C72_pivot.
(** Pin joint: the error is the distance of the anchors less Dist, its rate the relative velocity along the line between them. *)
Theorem C72_pin : forall (H0 H : Rheap) c dt (p : pin), hframe H0 H -> c_a c <> c_b c -> movable_pair (H0 (c_a c)) (H0 (c_b c)) ->
  0 < c_errorbias c <= 1 -> 0 < dt -> 0 <= c_maxbias c ->
  let a := H0 (c_a c) in let b := H0 (c_b c) in
  let r1 := anchor_arm a (pn_anchA p) in let r2 := anchor_arm b (pn_anchB p) in
  let delta := vsub (vadd (b_pos b) r2) (vadd (b_pos a) r1) in
  0 < vmag delta ->
  let '(H', p2) := pin_apply H c dt (pin_prestep H0 c dt p) in
  Rabs (pn_j p2) < c_maxforce c * dt ->
  corrects (c_maxbias c) (left_after (c_errorbias c) dt) dt (vmag delta - pn_dist p)
    (vdot (relative_velocity (H' (c_a c)) (H' (c_b c)) r1 r2) (vunit delta)).
Proof. exact pin_corrects. Qed.
Print Assumptions C72_pin.
(** Slide joint: beyond Max the error is d - Max, below Min it is d - Min. *)
Theorem C72_slide : forall (H0 H : Rheap) c dt (p : slide), hframe H0 H -> c_a c <> c_b c -> movable_pair (H0 (c_a c)) (H0 (c_b c)) ->
  0 < c_errorbias c <= 1 -> 0 < dt -> 0 <= c_maxbias c -> 0 <= sl_min p <= sl_max p ->
  let a := H0 (c_a c) in let b := H0 (c_b c) in
  let r1 := anchor_arm a (sl_anchA p) in let r2 := anchor_arm b (sl_anchB p) in
  let delta := vsub (vadd (b_pos b) r2) (vadd (b_pos a) r1) in
  0 < vmag delta ->
  let '(H', p2) := slide_apply H c dt (slide_prestep H0 c dt p) in
  - (c_maxforce c * dt) < sl_j p2 < 0 ->
  let rate := vdot (relative_velocity (H' (c_a c)) (H' (c_b c)) r1 r2) (vunit delta) in
  (sl_max p < vmag delta -> corrects (c_maxbias c) (left_after (c_errorbias c) dt) dt (vmag delta - sl_max p) rate) /\
  (vmag delta < sl_min p -> corrects (c_maxbias c) (left_after (c_errorbias c) dt) dt (vmag delta - sl_min p) rate).
Proof. exact slide_corrects. Qed.
Print Assumptions C72_slide.
Theorem C72_gear : forall (H0 H : Rheap) c dt (p : gear), hframe H0 H -> c_a c <> c_b c ->
  b_iinv (H0 (c_a c)) * ge_ratioinv p + ge_ratio p * b_iinv (H0 (c_b c)) <> 0 ->
  0 < c_errorbias c <= 1 -> 0 < dt -> 0 <= c_maxbias c ->
  let '(H', p2) := gear_apply H c dt (gear_prestep H0 c dt p) in
  Rabs (ge_j p2) < c_maxforce c * dt ->
  corrects (c_maxbias c) (left_after (c_errorbias c) dt) dt
    (b_angle (H0 (c_b c)) * ge_ratio p - b_angle (H0 (c_a c)) - ge_phase p) (b_w (H' (c_b c)) * ge_ratio p - b_w (H' (c_a c))).
Proof. exact gear_corrects. Qed.
Print Assumptions C72_gear.
Theorem C72_rotary_limit : forall (H0 H : Rheap) c dt (p : rlimit), hframe H0 H -> c_a c <> c_b c ->
  b_iinv (H0 (c_a c)) + b_iinv (H0 (c_b c)) <> 0 ->
  0 < c_errorbias c <= 1 -> 0 < dt -> 0 <= c_maxbias c -> rl_min p <= rl_max p ->
  let turn := b_angle (H0 (c_b c)) - b_angle (H0 (c_a c)) in
  let '(H', p2) := rlimit_apply H c dt (rlimit_prestep H0 c dt p) in
  0 < Rabs (rl_j p2) < c_maxforce c * dt ->
  let rate := b_w (H' (c_b c)) - b_w (H' (c_a c)) in
  (rl_max p < turn -> corrects (c_maxbias c) (left_after (c_errorbias c) dt) dt (turn - rl_max p) rate) /\
  (turn < rl_min p -> corrects (c_maxbias c) (left_after (c_errorbias c) dt) dt (turn - rl_min p) rate).
Proof. exact rlimit_corrects. Qed.
Print Assumptions C72_rotary_limit.
(** Ratchet: pushed behind its tooth it is turned back towards the tooth, which stays the same. *)
Theorem C72_ratchet : forall (H0 H : Rheap) c dt (p : ratchet), hframe H0 H -> c_a c <> c_b c ->
  b_iinv (H0 (c_a c)) + b_iinv (H0 (c_b c)) <> 0 ->
  0 < c_errorbias c <= 1 -> 0 < dt -> 0 <= c_maxbias c ->
  let turn := b_angle (H0 (c_b c)) - b_angle (H0 (c_a c)) in
  0 < (ra_angle p - turn) * ra_ratchet p ->
  let '(H', p2) := ratchet_apply H c dt (ratchet_prestep H0 c dt p) in
  0 < Rabs (ra_j p2) < c_maxforce c * dt ->
  ra_angle p2 = ra_angle p /\
  corrects (c_maxbias c) (left_after (c_errorbias c) dt) dt (turn - ra_angle p) (b_w (H' (c_b c)) - b_w (H' (c_a c))).
Proof. exact ratchet_corrects. Qed.
Print Assumptions C72_ratchet.
(** Turned the free way, it falls into the last tooth it passed - a whole number of teeth from Phase, less than one behind - and holds nothing. *)
Theorem C72_ratchet_tooth : forall (H : Rheap) c dt (p : ratchet), ra_ratchet p <> 0 -> 0 <= c_maxbias c ->
  let turn := b_angle (H (c_b c)) - b_angle (H (c_a c)) in
  let angle := ra_angle (ratchet_prestep H c dt p) in
  (0 < (ra_angle p - turn) * ra_ratchet p -> angle = ra_angle p) /\
  ((ra_angle p - turn) * ra_ratchet p <= 0 ->
     (exists k : Z, angle = IZR k * ra_ratchet p + ra_phase p) /\ 0 <= (turn - angle) / ra_ratchet p < 1 /\ ra_j (ratchet_prestep H c dt p) = 0).
Proof. exact ratchet_tooth. Qed.
Print Assumptions C72_ratchet_tooth.
(** Groove joint: between the ends the impulse on the sliding body has no part along the groove; at an end it only pushes inwards. *)
Theorem C72_groove : forall (H0 H : Rheap) c dt (p : groove), coherent (H0 (c_a c)) -> 0 <= c_maxforce c * dt ->
  0 < vmag (vsub (gv_gb p) (gv_ga p)) -> gv_gn p = vperp (vunit (vsub (gv_gb p) (gv_ga p))) ->
  let a := H0 (c_a c) in let b := H0 (c_b c) in
  let wa := tf_apply (b_tf a) (gv_ga p) in let wb := tf_apply (b_tf a) (gv_gb p) in
  let x := vadd (b_pos b) (anchor_arm b (gv_anchB p)) in
  let j := gv_j (snd (groove_apply H c dt (groove_prestep H0 c dt p))) in
  (0 < vdot (vsub x wa) (vsub wb wa) -> vdot (vsub x wb) (vsub wb wa) < 0 -> vdot j (vsub wb wa) = 0) /\
  (vdot (vsub x wa) (vsub wb wa) <= 0 -> 0 <= vdot j (vsub wb wa)) /\
  (0 < vdot (vsub x wa) (vsub wb wa) -> 0 <= vdot (vsub x wb) (vsub wb wa) -> vdot j (vsub wb wa) <= 0).
Proof. exact groove_pushes. Qed.
Print Assumptions C72_groove.
(** A contact with both arms along the normal, as between two balls: with friction too, an iteration that ends with a push leaves
    exactly the bouncing speed, and one that ends inside the friction cone leaves no sliding (up to the surface velocity). *)
Theorem C72_friction : forall (H0 H : Rheap) (s : Rsarb) dt slop bias (c : Rcontact), hframe H0 H -> s_a s <> s_b s -> movable_pair (H0 (s_a s)) (H0 (s_b s)) ->
  vdot (s_n s) (s_n s) = 1 -> vcross (k_r1 c) (s_n s) = 0 -> vcross (k_r2 c) (s_n s) = 0 ->
  let c1 := contact_prestep H0 s dt slop bias c in
  let '(H', c2) := contact_apply H s c1 in
  let v0 := relative_velocity (H0 (s_a s)) (H0 (s_b s)) (k_r1 c) (k_r2 c) in
  let v := vadd (relative_velocity (H' (s_a s)) (H' (s_b s)) (k_r1 c) (k_r2 c)) (s_svr s) in
  (0 < k_jn c2 -> vdot v (s_n s) = - (s_e s * vdot v0 (s_n s))) /\
  (Rabs (k_jt c2) < s_u s * k_jn c2 -> vdot v (vperp (s_n s)) = 0).
Proof. exact ball_contact_exact. Qed.
Print Assumptions C72_friction.
(** Warm starting: the contact starts from the force it ended the last step with - impulse by length of the step - whatever the two lengths are. *)
Theorem C72_warm_start : forall (H : Rheap) slop bias g damping dt prevdt (s : Rsarb) (k : Rcontact), prevdt <> 0 -> s_a s <> s_b s -> s_first s = false -> s_contacts s = [k] ->
  let H' := w_heap (solve 0 slop bias g damping dt prevdt [] (World H [s] [])) in
  let j := vrotate (s_n s) (V (k_jn k) (k_jt k)) in
  vscale (vsub (b_vel (H' (s_b s))) (b_vel (H (s_b s)))) prevdt = vscale j (dt * b_minv (H (s_b s))) /\
  vscale (vsub (b_vel (H (s_a s))) (b_vel (H' (s_a s)))) prevdt = vscale j (dt * b_minv (H (s_a s))) /\
  (b_w (H' (s_b s)) - b_w (H (s_b s))) * prevdt = dt * b_iinv (H (s_b s)) * vcross (k_r2 k) j /\
  (b_w (H (s_a s)) - b_w (H' (s_a s))) * prevdt = dt * b_iinv (H (s_a s)) * vcross (k_r1 k) j.
Proof. exact warm_start. Qed.
Print Assumptions C72_warm_start.
(** Finding: the stored impulse itself is not scaled.  After a step of another length TotalImpulse is not the impulse of that step:
    the ball (mass 1) is stopped from speed 2, and the contact reports 1. *)
Theorem C72_variable_step_impulse_refuted : exists (H : Rheap) (s : Rsarb),
  let w := solve 1 0 (1/2)%R (rvec 0 0) 1 2 1 [] (World H [s] []) in
  b_vel (H 1%nat) = rvec 0 (-2) /\ b_minv (H 1%nat) = 1 /\ b_vel (w_heap w 1%nat) = rvec 0 0 /\ map total_impulse (w_arbs w) = [rvec 0 (-1)].
Proof. exact (ex_intro _ rest_H (ex_intro _ rest_s rest_report)). Qed.
Print Assumptions C72_variable_step_impulse_refuted.

(** Concrete joints between two unit bodies at distance 2, ErrorBias 1/2, step 1, that meet the hypotheses. *)
Example C72_frame_ex : hframe ex_H ex_H /\ movable_pair (ex_H 0%nat) (ex_H 1%nat) /\ left_after (c_errorbias ex_c) 1 = 1/2 /\ (forall i, (i < 2)%nat -> coherent (ex_H i)).
Proof. exact (conj ex_frame (conj ex_pair (conj ex_left ex_coherent))). Qed.
Example C72_pin_ex :
  0 < vmag (vsub (vadd (b_pos (ex_H 1%nat)) (anchor_arm (ex_H 1%nat) (pn_anchB ex_pin))) (vadd (b_pos (ex_H 0%nat)) (anchor_arm (ex_H 0%nat) (pn_anchA ex_pin)))) /\
  Rabs (pn_j (snd (pin_apply ex_H ex_c 1 (pin_prestep ex_H ex_c 1 ex_pin)))) = 1/4 /\ c_maxforce ex_c * 1 = 10.
Proof. exact ex_pin_ok. Qed.
Example C72_gear_ex : Rabs (ge_j (snd (gear_apply ex_H ex_c 1 (gear_prestep ex_H ex_c 1 ex_gear)))) = 1/4 /\
  b_iinv (ex_H 0%nat) * ge_ratioinv ex_gear + ge_ratio ex_gear * b_iinv (ex_H 1%nat) = 2.
Proof. exact ex_gear_ok. Qed.
Example C72_ratchet_ex :
  0 < (ra_angle ex_ratchet - (b_angle (ex_H 1%nat) - b_angle (ex_H 0%nat))) * ra_ratchet ex_ratchet /\
  (ra_angle ex_ratchet2 - (b_angle (ex_H 1%nat) - b_angle (ex_H 0%nat))) * ra_ratchet ex_ratchet2 <= 0 /\
  ra_angle (ratchet_prestep ex_H ex_c 1 ex_ratchet2) = - 3/8.
Proof. exact ex_ratchet_ok. Qed.
Example C72_groove_ex : let wa := tf_apply (b_tf (ex_H 0%nat)) (gv_ga ex_groove) in let wb := tf_apply (b_tf (ex_H 0%nat)) (gv_gb ex_groove) in
  let x := vadd (b_pos (ex_H 1%nat)) (anchor_arm (ex_H 1%nat) (gv_anchB ex_groove)) in
  0 < vmag (vsub (gv_gb ex_groove) (gv_ga ex_groove)) /\ vdot (vsub x wa) (vsub wb wa) = 12 /\ vdot (vsub x wb) (vsub wb wa) = -4.
Proof. exact ex_groove_ok. Qed.
Example C72_friction_ex : let c2 := snd (contact_apply ex_ball_H ex_ball_s (contact_prestep ex_ball_H ex_ball_s 1 0 0 ex_ball_k)) in
  movable_pair (ex_ball_H 0%nat) (ex_ball_H 1%nat) /\ k_jn c2 = 3/2 /\ k_jt c2 = 1/2.
Proof. exact ex_ball_ok. Qed.
