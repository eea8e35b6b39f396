From Coq Require Import ZArith Bool Reals List Lra Lia Psatz.
From Verif Require Import Num NumReal Vec BB BBProofs Transform TransformProofs Body BodySpec BodyProofs Solver SolverSpec SolverProofs SolverProofs2 SolverProofs3 SolverProofs4 SolverProofs5 SolverProofs6 EnergyProofs EquilProofs CorrectSpec.
Import ListNotations.
Local Open Scope R_scope.

Lemma left_range e dt : 0 < e <= 1 -> 0 < dt -> 0 < left_after e dt <= 1.
Proof.
  intros [A B] D. unfold left_after, Rpower. split; [apply exp_pos|]. rewrite <- exp_0.
  assert (ln e <= 0). { rewrite <- ln_1. destruct B as [B| ->]; [left; now apply ln_increasing|lra]. }
  assert (dt * ln e <= 0) by nra. destruct (Rle_lt_or_eq_dec _ _ H0) as [L|L]; [left; now apply exp_increasing|rewrite L; lra].
Qed.
Lemma coef_left e dt : 0 < e -> bias_coef (E := RElem) e dt = 1 - left_after e dt.
Proof. intros P. unfold bias_coef, left_after. cbn. unR. rewrite (proj2 (Reqb_false e 0)) by lra. reflexivity. Qed.

Lemma clamp_corrects e dt mb err : 0 < e <= 1 -> 0 < dt -> 0 <= mb ->
  corrects mb (left_after e dt) dt err (nclamp (N := RNum) (- bias_coef (E := RElem) e dt * err / dt) (- mb) mb).
Proof.
  intros E D M. pose proof (left_range e dt E D) as [K1 K2]. rewrite coef_left by tauto. set (l := left_after e dt) in *. clearbody l.
  unR. set (x := - (1 - l) * err / dt).
  assert (Xd : x * dt = - (1 - l) * err) by (unfold x; field; lra).
  split; [|split].
  - apply Rabs_le. apply sym_range, M.
  - destruct (clamp_part 0 x (- mb) mb) as (s & S & Es); [lra|]. rewrite Rplus_0_l, Rminus_0_r in Es.
    exists (1 - s * (1 - l)). split; [nra|]. rewrite Es. transitivity (err + s * (x * dt)); [ring|]. rewrite Xd. ring.
  - intros L. assert (Ax : Rabs x <= mb).
    { unfold x, Rdiv. rewrite !Rabs_mult, Rabs_Ropp, (Rabs_pos_eq (1 - l)) by lra. rewrite (Rabs_pos_eq (/ dt)) by (left; now apply Rinv_0_lt_compat).
      apply Rmult_le_reg_r with dt; [exact D|]. rewrite Rmult_assoc, Rinv_l, Rmult_1_r by lra. exact L. }
    etransitivity; [exact (f_equal (fun y : R => err + y * dt) (clamp_in _ _ Ax))|]. cbv beta. rewrite Xd. ring.
Qed.
Lemma corrects_neg mb l dt err v : corrects mb l dt err v -> corrects mb l dt (- err) (- v).
Proof.
  intros (A & (s & S & B) & C). split; [now rewrite Rabs_Ropp|]. split.
  - exists s. split; [exact S|]. transitivity (- (err + v * dt)); [ring|]. rewrite B. ring.
  - rewrite Rabs_Ropp. intros L. transitivity (- (err + v * dt)); [ring|]. rewrite (C L). ring.
Qed.
Lemma scale_mag (v : @vec RNum) k : vmag (vscale v k) = Rabs k * vmag v.
Proof.
  unfold vmag, vscale, vdot. cbn [vx vy]. unR.
  replace (vx v * k * (vx v * k) + vy v * k * (vy v * k)) with ((k * k) * (vx v * vx v + vy v * vy v)) by ring.
  rewrite sqrt_mult; [|nra|nra]. f_equal. rewrite <- (sqrt_Rsqr_abs k). reflexivity.
Qed.
Lemma clampmag_part (v : @vec RNum) l : 0 <= l -> exists s, 0 <= s <= 1 /\ vclampmag v l = vscale v s.
Proof.
  intros P. unfold vclampmag. unR. destruct (Rltb_spec (l * l) (vdot v v)) as [L|L].
  - assert (Q : 0 < vdot v v) by nra. assert (M : 0 < vmag v) by (unfold vmag; unR; now apply sqrt_lt_R0).
    assert (MM : vmag v * vmag v = vdot v v) by (unfold vmag; unR; apply sqrt_sqrt; lra).
    exists (l / vmag v). split.
    + split; [apply Rmult_le_pos; [exact P|left; now apply Rinv_0_lt_compat]|]. apply Rmult_le_reg_r with (vmag v); [exact M|].
      unfold Rdiv. rewrite Rmult_assoc, Rinv_l by lra. nra.
    + unfold vunit. unR. apply vec_eq; unfold vscale; cbn [vx vy]; unR; rfield; lra.
  - exists 1. split; [lra|]. apply vec_eq; unfold vscale; cbn [vx vy]; unR; rring.
Qed.
Lemma clampmag_corrects e dt mb (err : @vec RNum) : 0 < e <= 1 -> 0 < dt -> 0 <= mb ->
  corrects_vec mb (left_after e dt) dt err (vclampmag (vscale err (- bias_coef (E := RElem) e dt / dt)%num) mb).
Proof.
  intros E D M. pose proof (left_range e dt E D) as [K1 K2]. unR. rewrite coef_left by tauto. set (l := left_after e dt) in *. clearbody l.
  split; [|split].
  - apply Rclampmag, M.
  - match goal with |- context [vclampmag ?v mb] => destruct (clampmag_part v mb M) as (s & S & ->) end. exists (1 - s * (1 - l)). split; [nra|].
    apply vec_eq; unfold vadd, vscale; cbn [vx vy]; unR; rfield; lra.
  - intros L. rewrite clampmag_in.
    + apply vec_eq; unfold vadd, vscale; cbn [vx vy]; unR; rfield; lra.
    + rewrite scale_mag. unfold Rdiv. rewrite Rabs_mult, Rabs_Ropp, (Rabs_pos_eq (1 - l)) by lra. rewrite (Rabs_pos_eq (/ dt)) by (left; now apply Rinv_0_lt_compat).
      apply Rmult_le_reg_r with dt; [exact D|]. replace ((1 - l) * / dt * vmag err * dt) with ((1 - l) * vmag err) by (field; lra). exact L.
Qed.

Lemma pivot_corrects (H0 H : Rheap) c dt (p : pivot) : hframe H0 H -> c_a c <> c_b c -> movable_pair (H0 (c_a c)) (H0 (c_b c)) ->
  0 < c_errorbias c <= 1 -> 0 < dt -> 0 <= c_maxbias c -> 0 <= c_maxforce c ->
  let a := H0 (c_a c) in let b := H0 (c_b c) in
  let r1 := anchor_arm a (pv_anchA p) in let r2 := anchor_arm b (pv_anchB p) in
  let '(H', p2) := pivot_apply H c dt (pivot_prestep H0 c dt p) in
  vmag (pv_j p2) < c_maxforce c * dt ->
  corrects_vec (c_maxbias c) (left_after (c_errorbias c) dt) dt
    (vsub (vadd (b_pos b) r2) (vadd (b_pos a) r1)) (relative_velocity (H' (c_a c)) (H' (c_b c)) r1 r2).
Proof.
  intros F Hab P E D M Mf a b r1 r2. assert (Mfd : 0 <= c_maxforce c * dt) by (apply Rmult_le_pos; lra).
  pose proof (pivot_exact H0 H c dt p F Hab P Mfd) as X. cbv zeta in X.
  destruct (pivot_apply H c dt (pivot_prestep H0 c dt p)) as [H' p2]. intros L. specialize (X L).
  change (pv_r1 (pivot_prestep H0 c dt p)) with r1 in X. change (pv_r2 (pivot_prestep H0 c dt p)) with r2 in X. rewrite X.
  exact (clampmag_corrects (c_errorbias c) dt (c_maxbias c) _ E D M).
Qed.

Lemma delta_same (pa pb r1 r2 : @vec RNum) : vadd pb (vsub r2 (vadd pa r1)) = vsub (vadd pb r2) (vadd pa r1).
Proof. apply vec_eq; unfold vadd, vsub; cbn [vx vy]; unR; rring. Qed.
Lemma pin_corrects (H0 H : Rheap) c dt (p : pin) : hframe H0 H -> c_a c <> c_b c -> movable_pair (H0 (c_a c)) (H0 (c_b c)) ->
  0 < c_errorbias c <= 1 -> 0 < dt -> 0 <= c_maxbias c ->
  let a := H0 (c_a c) in let b := H0 (c_b c) in
  let r1 := anchor_arm a (pn_anchA p) in let r2 := anchor_arm b (pn_anchB p) in
  let delta := vsub (vadd (b_pos b) r2) (vadd (b_pos a) r1) in
  0 < vmag delta ->
  let '(H', p2) := pin_apply H c dt (pin_prestep H0 c dt p) in
  Rabs (pn_j p2) < c_maxforce c * dt ->
  corrects (c_maxbias c) (left_after (c_errorbias c) dt) dt (vmag delta - pn_dist p)
    (vdot (relative_velocity (H' (c_a c)) (H' (c_b c)) r1 r2) (vunit delta)).
Proof.
  intros F Hab P E D M a b r1 r2 delta Pd.
  assert (Hne : vadd (b_pos b) r2 <> vadd (b_pos a) r1).
  { intros Q. unfold delta in Pd. rewrite Q in Pd. pose proof (mag_pos _ Pd) as R. unfold vdot, vsub in R. cbn [vx vy] in R. unR. nra. }
  pose proof (pin_exact H0 H c dt p F Hab P Hne) as X. cbv zeta in X.
  destruct (pin_apply H c dt (pin_prestep H0 c dt p)) as [H' p2]. intros L. specialize (X L).
  change (pn_r1 (pin_prestep H0 c dt p)) with r1 in X. change (pn_r2 (pin_prestep H0 c dt p)) with r2 in X.
  assert (N : pn_n (pin_prestep H0 c dt p) = vunit delta).
  { unfold pin_prestep. cbv zeta. cbn [pn_n]. fold a b r1 r2. rewrite delta_same. fold delta. unR.
    rewrite (proj2 (Reqb_false (vmag delta) 0)) by lra. cbn [negb]. apply vec_eq; unfold vunit, vscale; cbn [vx vy]; unR; rfield; lra. }
  rewrite N in X. unfold normal_relative_velocity in X. rewrite X.
  unfold pin_prestep. cbv zeta. cbn [pn_bias]. fold a b r1 r2. rewrite delta_same. fold delta.
  exact (clamp_corrects (c_errorbias c) dt (c_maxbias c) (vmag delta - pn_dist p) E D M).
Qed.

Lemma slide_corrects (H0 H : Rheap) c dt (p : slide) : hframe H0 H -> c_a c <> c_b c -> movable_pair (H0 (c_a c)) (H0 (c_b c)) ->
  0 < c_errorbias c <= 1 -> 0 < dt -> 0 <= c_maxbias c -> 0 <= sl_min p <= sl_max p ->
  let a := H0 (c_a c) in let b := H0 (c_b c) in
  let r1 := anchor_arm a (sl_anchA p) in let r2 := anchor_arm b (sl_anchB p) in
  let delta := vsub (vadd (b_pos b) r2) (vadd (b_pos a) r1) in
  0 < vmag delta ->
  let '(H', p2) := slide_apply H c dt (slide_prestep H0 c dt p) in
  - (c_maxforce c * dt) < sl_j p2 < 0 ->
  let rate := vdot (relative_velocity (H' (c_a c)) (H' (c_b c)) r1 r2) (vunit delta) in
  (sl_max p < vmag delta -> corrects (c_maxbias c) (left_after (c_errorbias c) dt) dt (vmag delta - sl_max p) rate) /\
  (vmag delta < sl_min p -> corrects (c_maxbias c) (left_after (c_errorbias c) dt) dt (vmag delta - sl_min p) rate).
Proof.
  intros F Hab P E D M Mm a b r1 r2 delta Pd.
  pose proof (slide_exact H0 H c dt p F Hab P) as X. cbv zeta in X. unfold vdist in X. fold a b r1 r2 delta in X. specialize (X Pd Mm).
  destruct (slide_apply H c dt (slide_prestep H0 c dt p)) as [H' p2]. intros L. cbv zeta.
  assert (L' : - c_maxforce c * dt < sl_j p2 < 0) by lra.
  assert (R1 : sl_r1 (slide_prestep H0 c dt p) = r1) by (unfold slide_prestep; cbv zeta; unR; destruct Rltb; [reflexivity|]; destruct Rltb; reflexivity).
  assert (R2 : sl_r2 (slide_prestep H0 c dt p) = r2) by (unfold slide_prestep; cbv zeta; unR; destruct Rltb; [reflexivity|]; destruct Rltb; reflexivity).
  rewrite R1, R2 in X. unfold normal_relative_velocity in X. split; intros O.
  - specialize (X (or_intror O) L').
    assert (Q : sl_n (slide_prestep H0 c dt p) = vunit delta /\ sl_bias (slide_prestep H0 c dt p) =
       nclamp (N := RNum) (- bias_coef (E := RElem) (c_errorbias c) dt * (vmag delta - sl_max p) / dt)%num (- c_maxbias c)%num (c_maxbias c)).
    { unfold slide_prestep. cbv zeta. fold a b r1 r2 delta. unR. rewrite (proj2 (Rltb_true _ _) O). split; reflexivity. }
    destruct Q as [Q1 Q2]. rewrite Q1, Q2 in X. rewrite X. exact (clamp_corrects (c_errorbias c) dt (c_maxbias c) (vmag delta - sl_max p) E D M).
  - specialize (X (or_introl O) L').
    assert (Q : sl_n (slide_prestep H0 c dt p) = vneg (vunit delta) /\ sl_bias (slide_prestep H0 c dt p) =
       nclamp (N := RNum) (- bias_coef (E := RElem) (c_errorbias c) dt * (sl_min p - vmag delta) / dt)%num (- c_maxbias c)%num (c_maxbias c)).
    { unfold slide_prestep. cbv zeta. fold a b r1 r2 delta. unR. rewrite (proj2 (Rltb_false _ _)) by lra. rewrite (proj2 (Rltb_true _ _) O). split; reflexivity. }
    destruct Q as [Q1 Q2]. rewrite Q1, Q2 in X.
    pose proof (corrects_neg _ _ _ _ _ (clamp_corrects (c_errorbias c) dt (c_maxbias c) (sl_min p - vmag delta) E D M)) as Y.
    unR. rewrite <- X in Y. set (rv := relative_velocity (H' (c_a c)) (H' (c_b c)) r1 r2) in *.
    replace (- (sl_min p - vmag delta)) with (vmag delta - sl_min p) in Y by ring.
    replace (- vdot rv (vneg (vunit delta))) with (vdot rv (vunit delta)) in Y by (unfold vdot, vneg; cbn [vx vy]; unR; ring). exact Y.
Qed.

Lemma gear_corrects (H0 H : Rheap) c dt (p : gear) : hframe H0 H -> c_a c <> c_b c ->
  b_iinv (H0 (c_a c)) * ge_ratioinv p + ge_ratio p * b_iinv (H0 (c_b c)) <> 0 ->
  0 < c_errorbias c <= 1 -> 0 < dt -> 0 <= c_maxbias c ->
  let '(H', p2) := gear_apply H c dt (gear_prestep H0 c dt p) in
  Rabs (ge_j p2) < c_maxforce c * dt ->
  corrects (c_maxbias c) (left_after (c_errorbias c) dt) dt
    (b_angle (H0 (c_b c)) * ge_ratio p - b_angle (H0 (c_a c)) - ge_phase p) (b_w (H' (c_b c)) * ge_ratio p - b_w (H' (c_a c))).
Proof.
  intros F Hab P E D M. pose proof (gear_exact H0 H c dt p F Hab P) as X. cbv zeta in X.
  destruct (gear_apply H c dt (gear_prestep H0 c dt p)) as [H' p2]. intros L. specialize (X L). rewrite X.
  exact (clamp_corrects (c_errorbias c) dt (c_maxbias c) (b_angle (H0 (c_b c)) * ge_ratio p - b_angle (H0 (c_a c)) - ge_phase p) E D M).
Qed.

Lemma rlimit_corrects (H0 H : Rheap) c dt (p : rlimit) : hframe H0 H -> c_a c <> c_b c ->
  b_iinv (H0 (c_a c)) + b_iinv (H0 (c_b c)) <> 0 ->
  0 < c_errorbias c <= 1 -> 0 < dt -> 0 <= c_maxbias c -> rl_min p <= rl_max p ->
  let turn := b_angle (H0 (c_b c)) - b_angle (H0 (c_a c)) in
  let '(H', p2) := rlimit_apply H c dt (rlimit_prestep H0 c dt p) in
  0 < Rabs (rl_j p2) < c_maxforce c * dt ->
  let rate := b_w (H' (c_b c)) - b_w (H' (c_a c)) in
  (rl_max p < turn -> corrects (c_maxbias c) (left_after (c_errorbias c) dt) dt (turn - rl_max p) rate) /\
  (turn < rl_min p -> corrects (c_maxbias c) (left_after (c_errorbias c) dt) dt (turn - rl_min p) rate).
Proof.
  intros F Hab P E D M Mm turn.
  destruct (Req_EM_T (rl_bias (rlimit_prestep H0 c dt p)) 0) as [Z|Nz].
  - (* nothing to do: the stored impulse was cleared, so the premise fails *)
    assert (Za : rlimit_apply H c dt (rlimit_prestep H0 c dt p) = (H, rlimit_prestep H0 c dt p)).
    { unfold rlimit_apply. unR. rewrite (proj2 (Reqb_true _ _) Z). reflexivity. }
    rewrite Za. intros [L _]. exfalso. revert L.
    assert (J : rl_j (rlimit_prestep H0 c dt p) = 0).
    { revert Z. unfold rlimit_prestep. cbv zeta. cbn [rl_bias rl_j]. unR. intros Z. rewrite (proj2 (Reqb_true _ _) Z). reflexivity. }
    rewrite J, Rabs_R0. lra.
  - assert (Bn : forall pd, rl_bias (rlimit_prestep H0 c dt p) = nclamp (N := RNum) (- bias_coef (E := RElem) (c_errorbias c) dt * pd / dt)%num (- c_maxbias c)%num (c_maxbias c) ->
      forall rate, rate = - rl_bias (rlimit_prestep H0 c dt p) -> corrects (c_maxbias c) (left_after (c_errorbias c) dt) dt (- pd) rate).
    { intros pd B rate R. rewrite R, B. apply corrects_neg. exact (clamp_corrects (c_errorbias c) dt (c_maxbias c) pd E D M). }
    pose proof (rlimit_exact H0 H c dt p F Hab P Nz) as X.
    destruct (rlimit_apply H c dt (rlimit_prestep H0 c dt p)) as [H' p2]. intros L.
    assert (Mf : 0 <= c_maxforce c * dt) by (pose proof (Rabs_pos (rl_j p2)); lra).
    specialize (X Mf L). cbv zeta. split; intros O.
    + replace (turn - rl_max p) with (- (rl_max p - turn)) by ring. apply Bn; [|exact X].
      unfold rlimit_prestep. cbv zeta. cbn [rl_bias]. unR. fold turn. rewrite (proj2 (Rltb_true _ _) O). reflexivity.
    + replace (turn - rl_min p) with (- (rl_min p - turn)) by ring. apply Bn; [|exact X].
      unfold rlimit_prestep. cbv zeta. cbn [rl_bias]. unR. fold turn. rewrite (proj2 (Rltb_false _ _)) by lra. rewrite (proj2 (Rltb_true _ _) O). reflexivity.
Qed.

Lemma ratchet_corrects (H0 H : Rheap) c dt (p : ratchet) : hframe H0 H -> c_a c <> c_b c ->
  b_iinv (H0 (c_a c)) + b_iinv (H0 (c_b c)) <> 0 ->
  0 < c_errorbias c <= 1 -> 0 < dt -> 0 <= c_maxbias c ->
  let turn := b_angle (H0 (c_b c)) - b_angle (H0 (c_a c)) in
  0 < (ra_angle p - turn) * ra_ratchet p ->
  let '(H', p2) := ratchet_apply H c dt (ratchet_prestep H0 c dt p) in
  0 < Rabs (ra_j p2) < c_maxforce c * dt ->
  ra_angle p2 = ra_angle p /\
  corrects (c_maxbias c) (left_after (c_errorbias c) dt) dt (turn - ra_angle p) (b_w (H' (c_b c)) - b_w (H' (c_a c))).
Proof.
  intros F Hab P E D M turn O.
  assert (Rn : ra_ratchet p <> 0) by (intros Z; rewrite Z in O; lra).
  assert (A1 : ra_angle (ratchet_prestep H0 c dt p) = ra_angle p).
  { unfold ratchet_prestep. cbv zeta. unR. fold turn. rewrite (proj2 (Rltb_true _ _) O). reflexivity. }
  assert (A2 : ra_angle (snd (ratchet_apply H c dt (ratchet_prestep H0 c dt p))) = ra_angle p).
  { unfold ratchet_apply. unR. destruct Reqb; exact A1. }
  destruct (Req_EM_T (ra_bias (ratchet_prestep H0 c dt p)) 0) as [Z|Nz].
  - assert (Za : ratchet_apply H c dt (ratchet_prestep H0 c dt p) = (H, ratchet_prestep H0 c dt p)).
    { unfold ratchet_apply. unR. rewrite (proj2 (Reqb_true _ _) Z). reflexivity. }
    rewrite Za. intros [L _]. exfalso. revert L.
    assert (J : ra_j (ratchet_prestep H0 c dt p) = 0).
    { revert Z. unfold ratchet_prestep. cbv zeta. unR. fold turn. rewrite (proj2 (Rltb_true _ _) O). cbn [ra_bias ra_j]. intros Z. rewrite (proj2 (Reqb_true _ _) Z). reflexivity. }
    rewrite J, Rabs_R0. lra.
  - pose proof (ratchet_exact H0 H c dt p F Hab P Rn Nz) as X.
    destruct (ratchet_apply H c dt (ratchet_prestep H0 c dt p)) as [H' p2]. intros L. cbn [snd] in A2. split; [exact A2|].
    assert (Mf : 0 <= c_maxforce c * dt) by (pose proof (Rabs_pos (ra_j p2)); lra).
    specialize (X Mf L). rewrite X. replace (turn - ra_angle p) with (- (ra_angle p - turn)) by ring. apply corrects_neg.
    replace (ra_bias (ratchet_prestep H0 c dt p)) with (nclamp (N := RNum) (- bias_coef (E := RElem) (c_errorbias c) dt * (ra_angle p - turn) / dt)%num (- c_maxbias c)%num (c_maxbias c)).
    + exact (clamp_corrects (c_errorbias c) dt (c_maxbias c) (ra_angle p - turn) E D M).
    + unfold ratchet_prestep. cbv zeta. unR. fold turn. rewrite (proj2 (Rltb_true _ _) O). reflexivity.
Qed.
(** The tooth the ratchet falls into. *)
Lemma ratchet_tooth (H : Rheap) c dt (p : ratchet) : ra_ratchet p <> 0 -> 0 <= c_maxbias c ->
  let turn := b_angle (H (c_b c)) - b_angle (H (c_a c)) in
  let angle := ra_angle (ratchet_prestep H c dt p) in
  (0 < (ra_angle p - turn) * ra_ratchet p -> angle = ra_angle p) /\
  ((ra_angle p - turn) * ra_ratchet p <= 0 ->
     (exists k : Z, angle = IZR k * ra_ratchet p + ra_phase p) /\ 0 <= (turn - angle) / ra_ratchet p < 1 /\ ra_j (ratchet_prestep H c dt p) = 0).
Proof.
  intros Rn Mb turn. cbv zeta. unfold ratchet_prestep. cbv zeta. unR. fold turn. split; intros O.
  - rewrite (proj2 (Rltb_true _ _) O). reflexivity.
  - rewrite (proj2 (Rltb_false _ _)) by lra. cbn [ra_angle ra_j].
    split; [eexists; cbn; reflexivity|]. split.
    + cbn. set (q := (turn - ra_phase p) / ra_ratchet p). pose proof (base_Int_part q) as [B1 B2].
      replace ((turn - (IZR (Int_part q) * ra_ratchet p + ra_phase p)) / ra_ratchet p) with (q - IZR (Int_part q)) by (unfold q; field; exact Rn). lra.
    + match goal with |- (if Reqb ?x 0 then _ else _) = _ => destruct (Reqb_spec x 0) as [Z|Z]; [reflexivity|exfalso; apply Z] end.
      replace (- bias_coef (c_errorbias c) dt * 0 / dt) with 0 by (unfold Rdiv; ring).
      unfold nclamp. unR. unfold Rmin. rcases; destruct Rle_dec; lra.
Qed.
