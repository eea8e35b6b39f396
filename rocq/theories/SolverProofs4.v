From Coq Require Import ZArith Bool Reals List Lra Lia Psatz.
From Verif Require Import Num NumReal Vec BB BBProofs Transform TransformProofs Body BodySpec BodyProofs Solver SolverSpec SolverProofs SolverProofs3.
Import ListNotations.
Local Open Scope R_scope.

(** ** Limits that are satisfied apply nothing *)
Lemma body_eta_vel (b : Rbody) : set_vel_fields b (b_vel b) (b_w b) = b.
Proof. destruct b; reflexivity. Qed.
Lemma kick_zero (b : Rbody) r (j : @vec RNum) : vx j = 0 -> vy j = 0 -> kick b r j = b.
Proof.
  intros X Y. unfold kick. rewrite X, Y. transitivity (set_vel_fields b (b_vel b) (b_w b)); [|apply body_eta_vel]. f_equal; [apply vec_eq; cbn; unR; rring|unR; rring].
Qed.
Lemma imp_zero (H : Rheap) a b r1 r2 (j : @vec RNum) : vx j = 0 -> vy j = 0 -> forall i, apply_impulses H a b r1 r2 j i = H i.
Proof.
  intros X Y i. unfold apply_impulses, upd. unR. rewrite !(kick_zero _ _ j) by auto.
  rewrite kick_zero by (cbn; lra). destruct (Nat.eqb_spec i a), (Nat.eqb_spec a b), (Nat.eqb_spec i b); subst; congruence.
Qed.
Lemma torque_zero (H : Rheap) a b j : j = 0 -> forall i, apply_torque H a b j i = H i.
Proof.
  intros -> i. unfold apply_torque, upd, set_w. unR.
  assert (Z1 : forall x : Rbody, set_vel_fields x (b_vel x) (b_w x - 0 * b_iinv x) = x)
    by (intros x; transitivity (set_vel_fields x (b_vel x) (b_w x)); [|apply body_eta_vel]; f_equal; unR; rring).
  assert (Z2 : forall x : Rbody, set_vel_fields x (b_vel x) (b_w x + 0 * b_iinv x) = x)
    by (intros x; transitivity (set_vel_fields x (b_vel x) (b_w x)); [|apply body_eta_vel]; f_equal; unR; rring).
  rewrite Z1, Z2. destruct (Nat.eqb_spec i a), (Nat.eqb_spec b a), (Nat.eqb_spec i b); subst; congruence.
Qed.
Lemma inactive_iter n c dt k : ~ joint_active k -> forall H : Rheap, joint_iter n c dt (H, k) = (H, k).
Proof.
  intros A. induction n as [|n IH]; intros H; cbn [joint_iter]; [reflexivity|]. cbn [fst snd]. rewrite joint_apply_inactive by auto. apply IH.
Qed.
Lemma satisfied_step n c dt dtc (H : Rheap) k : no_spring k ->
  let k1 := snd (joint_prestep H c dt k) in
  ~ joint_active k1 -> (forall H i, joint_cached H c dtc k1 i = H i) -> forall i, joint_step n c dt dtc H k i = H i.
Proof.
  intros NS k1 A C i. unfold joint_step.
  assert (E : joint_prestep H c dt k = (H, k1)).
  { unfold k1. destruct k; cbn in NS; try tauto; reflexivity. }
  rewrite E, inactive_iter by auto. cbn. apply C.
Qed.
Lemma clamp_zero m : 0 <= m -> nclamp (N:=RNum) 0 (- m) m = 0.
Proof. intros H. unR. rewrite RnclampE by lra. rcases; lra. Qed.
Lemma slide_satisfied n c dt dtc (H : Rheap) (p : slide) :
  let a := H (c_a c) in let b := H (c_b c) in
  let d := vdist (vadd (b_pos b) (anchor_arm b (sl_anchB p))) (vadd (b_pos a) (anchor_arm a (sl_anchA p))) in
  sl_min p <= d <= sl_max p -> forall i, joint_step n c dt dtc H (JSlide p) i = H i.
Proof.
  intros a b d [D1 D2]. unfold d, vdist in D1, D2. apply satisfied_step; [exact I| |].
  - cbn. unfold slide_prestep. cbv zeta. unR. fold a b. rewrite (proj2 (Rltb_false _ _) D2), (proj2 (Rltb_false _ _) D1).
    cbn. unfold veqb. cbn. unR. destruct (Reqb_spec 0 0); [cbn; discriminate|lra].
  - intros H' i. cbn. unfold slide_prestep, slide_cached. cbv zeta. unR. fold a b. rewrite (proj2 (Rltb_false _ _) D2), (proj2 (Rltb_false _ _) D1).
    apply imp_zero; cbn; unR; lra.
Qed.
Lemma rlimit_satisfied n c dt dtc (H : Rheap) (p : rlimit) :
  0 <= c_maxbias c -> rl_min p <= b_angle (H (c_b c)) - b_angle (H (c_a c)) <= rl_max p ->
  forall i, joint_step n c dt dtc H (JRLimit p) i = H i.
Proof.
  intros M [D1 D2].
  assert (B : rl_bias (rlimit_prestep H c dt p) = 0 /\ rl_j (rlimit_prestep H c dt p) = 0).
  { unfold rlimit_prestep. cbv zeta. unR. rewrite (proj2 (Rltb_false _ _) D2), (proj2 (Rltb_false _ _) D1). cbn [rl_bias rl_j].
    replace (- bias_coef (c_errorbias c) dt * 0 / dt) with 0 by (unfold Rdiv; ring). rewrite clamp_zero by auto.
    split; [reflexivity|]. destruct (Reqb_spec 0 0); lra. }
  destruct B as [B1 B2]. apply satisfied_step; [exact I| |].
  - cbn [joint_prestep snd joint_active]. rewrite B1. unR. destruct (Reqb_spec 0 0); [discriminate|lra].
  - intros H' i. cbn [joint_prestep snd joint_cached]. apply torque_zero. unR. rewrite B2. ring.
Qed.
Lemma ratchet_satisfied n c dt dtc (H : Rheap) (p : ratchet) :
  0 <= c_maxbias c -> (ra_angle p - (b_angle (H (c_b c)) - b_angle (H (c_a c)))) * ra_ratchet p <= 0 ->
  forall i, joint_step n c dt dtc H (JRatchet p) i = H i.
Proof.
  intros M D1.
  assert (B : ra_bias (ratchet_prestep H c dt p) = 0 /\ ra_j (ratchet_prestep H c dt p) = 0).
  { unfold ratchet_prestep. cbv zeta. unR. rewrite (proj2 (Rltb_false _ _) D1). cbn [ra_bias ra_j].
    replace (- bias_coef (c_errorbias c) dt * 0 / dt) with 0 by (unfold Rdiv; ring). rewrite clamp_zero by auto.
    split; [reflexivity|]. destruct (Reqb_spec 0 0); lra. }
  destruct B as [B1 B2]. apply satisfied_step; [exact I| |].
  - cbn [joint_prestep snd joint_active]. rewrite B1. unR. destruct (Reqb_spec 0 0); [discriminate|lra].
  - intros H' i. cbn [joint_prestep snd joint_cached]. apply torque_zero. unR. rewrite B2. ring.
Qed.

(** ** Directions *)
(** Slide joint: the accumulated impulse pulls the anchors together when they are too far apart, and pushes them
    apart when too close. *)
Lemma vdot_unit (v : @vec RNum) : 0 < vdot v v -> vdot (vunit v) v = vmag v.
Proof.
  intros P. unfold vunit, vmag. unR. assert (S : sqrt (vdot v v) * sqrt (vdot v v) = vdot v v) by (apply sqrt_sqrt; lra).
  assert (0 < sqrt (vdot v v)) by (now apply sqrt_lt_R0).
  set (m := sqrt (vdot v v)) in *. clearbody m. unfold vdot, vscale in *. cbn in *. unR. unfold vmag in *. 
  transitivity ((vx v * vx v + vy v * vy v) / m); [field; lra|]. rewrite <- S. field. lra.
Qed.
Lemma slide_direction (H H' : Rheap) c dt (p : slide) : 0 <= c_maxforce c * dt -> 0 <= sl_min p <= sl_max p ->
  let a := H (c_a c) in let b := H (c_b c) in
  let delta := vsub (vadd (b_pos b) (anchor_arm b (sl_anchB p))) (vadd (b_pos a) (anchor_arm a (sl_anchA p))) in
  let p1 := slide_prestep H c dt p in
  let p2 := snd (slide_apply H' c dt p1) in
  (sl_max p < vmag delta -> vdot (vscale (sl_n p2) (sl_j p2)) delta <= 0) /\
  (0 < vmag delta < sl_min p -> 0 <= vdot (vscale (sl_n p2) (sl_j p2)) delta).
Proof.
  intros M [Hm1 Hm2] a b delta p1 p2.
  assert (K : forall n : @vec RNum, sl_n p1 = n -> vdot n delta <> 0 -> sl_n p2 = n /\ sl_j p2 <= 0).
  { intros n En Hn. assert (A : veqb (sl_n p1) vzero = false).
    { rewrite En. unfold veqb, vzero. cbn [vx vy]. unR. destruct (Reqb_spec (vx n) 0) as [E1|]; [|reflexivity].
      destruct (Reqb_spec (vy n) 0) as [E2|]; [|reflexivity]. exfalso. apply Hn. unfold vdot. rewrite E1, E2. unR. ring. }
    split.
    - unfold p2, slide_apply. rewrite A. exact En.
    - destruct (slide_apply_bound (N:=RNum) H' c dt p1) as [_ B]; auto.
      + unR. apply Rleb_true. lra.
      + unR. now apply Rleb_true in B. }
  assert (Q : forall n : @vec RNum, vdot (vscale n (sl_j p2)) delta = sl_j p2 * vdot n delta).
  { intros n. unfold vdot, vscale. cbn. unR. ring. }
  assert (Pd : 0 < vmag delta -> 0 < vdot delta delta).
  { intros P. unfold vmag in P. unR. destruct (Rle_lt_dec (vdot delta delta) 0) as [L|L]; auto. rewrite sqrt_neg_0 in P; lra. }
  split.
  - intros L. assert (P : 0 < vmag delta) by lra. pose proof (vdot_unit delta (Pd P)) as U.
    destruct (K (vunit delta)) as [E1 E2].
    + unfold p1, slide_prestep. cbv zeta. unR. fold a b delta. rewrite (proj2 (Rltb_true _ _) L). reflexivity.
    + rewrite U. lra.
    + rewrite E1, Q, U. nra.
  - intros [P L]. pose proof (vdot_unit delta (Pd P)) as U.
    assert (U' : vdot (vneg (vunit delta)) delta = - vmag delta) by (rewrite <- U; unfold vdot, vneg; cbn; unR; ring).
    destruct (K (vneg (vunit delta))) as [E1 E2].
    + unfold p1, slide_prestep. cbv zeta. unR. fold a b delta. rewrite (proj2 (Rltb_false _ _)) by lra. rewrite (proj2 (Rltb_true _ _) L). reflexivity.
    + rewrite U'. lra.
    + rewrite E1, Q, U'. nra.
Qed.
(** Rotary limit: the accumulated torque turns the relative angle back towards the range. *)
Lemma rlimit_direction (H H' : Rheap) c dt (p : rlimit) : 0 <= c_maxforce c * dt -> 0 < dt -> 0 < bias_coef (c_errorbias c) dt -> 0 < c_maxbias c ->
  let ang := b_angle (H (c_b c)) - b_angle (H (c_a c)) in
  rl_min p <= rl_max p ->
  let p2 := snd (rlimit_apply H' c dt (rlimit_prestep H c dt p)) in
  (rl_max p < ang -> rl_j p2 <= 0) /\ (ang < rl_min p -> 0 <= rl_j p2).
Proof.
  intros M Dt Bc Mb ang L p2. set (p1 := rlimit_prestep H c dt p) in *.
  assert (Inv : 0 < / dt) by now apply Rinv_0_lt_compat.
  split; intros A.
  - assert (B : 0 < rl_bias p1).
    { unfold p1, rlimit_prestep. cbv zeta. unR. fold ang. rewrite (proj2 (Rltb_true _ _) A). cbn [rl_bias].
      rewrite RnclampE by lra. assert (0 < - bias_coef (c_errorbias c) dt * (rl_max p - ang) / dt).
      { unfold Rdiv. apply Rmult_lt_0_compat; auto. nra. }
      rcases; lra. }
    pose proof (rlimit_apply_bound (N:=RNum) H' c dt p1) as X. unR. rewrite Rleb_true in X. specialize (X M).
    rewrite (proj2 (Reqb_false _ _)) in X by lra. specialize (X eq_refl). cbv zeta in X. rewrite (proj2 (Rltb_false _ _)) in X by lra.
    destruct X as [_ X]. now apply Rleb_true in X.
  - assert (B : rl_bias p1 < 0).
    { unfold p1, rlimit_prestep. cbv zeta. unR. fold ang. rewrite (proj2 (Rltb_false _ _)) by lra. rewrite (proj2 (Rltb_true _ _) A). cbn [rl_bias].
      rewrite RnclampE by lra. assert (- bias_coef (c_errorbias c) dt * (rl_min p - ang) / dt < 0).
      { unfold Rdiv. assert (0 < bias_coef (c_errorbias c) dt * (rl_min p - ang) * / dt); [|lra]. apply Rmult_lt_0_compat; auto. nra. }
      rcases; lra. }
    pose proof (rlimit_apply_bound (N:=RNum) H' c dt p1) as X. unR. rewrite Rleb_true in X. specialize (X M).
    rewrite (proj2 (Reqb_false _ _)) in X by lra. specialize (X eq_refl). cbv zeta in X. rewrite (proj2 (Rltb_true _ _)) in X by lra.
    destruct X as [X _]. now apply Rleb_true in X.
Qed.
Lemma ratchet_direction (H' : Rheap) c dt (p : ratchet) : 0 <= c_maxforce c * dt -> ra_ratchet p <> 0 -> ra_bias p <> 0 ->
  let p2 := snd (ratchet_apply H' c dt p) in 0 <= ra_j p2 * ra_ratchet p.
Proof.
  intros M Hq B p2. unfold p2, ratchet_apply. unR. rewrite (proj2 (Reqb_false _ _) B). cbn. unR. now apply Rratchet_clamp.
Qed.
