(** Proofs about joints that are out of place (C69). *)
From Coq Require Import ZArith NArith Bool Reals Lra Lia List Arith.
From Verif Require Import Num NumReal Vec VecReal BB Transform Body BodySpec BodyProofs Shapes Solver SolverSpec SolverProofs SolverProofs2 SolverProofs5 Joints JointsSpec JointsProofs
  EquilProofs EquilProofs3 DecaySpec.
Import ListNotations.
Local Open Scope R_scope.

(** Where a body is and how it can be moved. *)
Definition spot (b b' : Rbody) : Prop :=
  b_minv b' = b_minv b /\ b_iinv b' = b_iinv b /\ b_angle b' = b_angle b /\ b_cog b' = b_cog b /\ b_pos b' = b_pos b /\ b_tf b' = b_tf b.
Definition spots (H H' : Rheap) : Prop := forall i, spot (H i) (H' i).
Lemma spots_trans H1 H2 H3 : spots H1 H2 -> spots H2 H3 -> spots H1 H3.
Proof. intros A B i. destruct (A i) as (? & ? & ? & ? & ? & ?), (B i) as (? & ? & ? & ? & ? & ?). unfold spot. intuition congruence. Qed.
Lemma frame_spots H H' : hframe H H' -> spots H H'.
Proof. intros F i. destruct (F i) as (? & ? & ? & ? & ? & ? & ? & ? & ? & ? & ?). unfold spot. intuition congruence. Qed.
Lemma velocity_spot (b : Rbody) g d dt : spot b (update_velocity b g d dt) /\ b_vbias (update_velocity b g d dt) = b_vbias b /\ b_wbias (update_velocity b g d dt) = b_wbias b.
Proof. unfold update_velocity, spot. destruct (b_type b); unB; repeat split. Qed.
Lemma integrate_spots g d dt L : forall H : Rheap, let H' := fold_left (fun H i => upd H i (update_velocity (N := RNum) (H i) g d dt)) L H in spots H H' /\ biases H H'.
Proof.
  induction L as [|x L IH]; intros H; cbv zeta; cbn [fold_left]; [split; intros i; unfold spot; auto 10|].
  destruct (IH (upd H x (update_velocity (H x) g d dt))) as [A B]. cbv zeta in A, B. destruct (velocity_spot (H x) g d dt) as (S & V & W).
  assert (X : spots H (upd H x (update_velocity (H x) g d dt)) /\ biases H (upd H x (update_velocity (H x) g d dt))).
  { split; intros i; unfold upd; destruct (Nat.eqb_spec i x) as [->|]; [exact S|unfold spot; auto 10|split; [exact V|exact W]|auto]. }
  destruct X. split; [eapply spots_trans; eauto|eapply biases_trans; eauto].
Qed.
Lemma damp_biases (H : Rheap) a b j : biases H (apply_damp H a b j).
Proof. unfold apply_damp. cbv zeta. eapply biases_trans; apply biases_upd; reflexivity. Qed.
Lemma apply_biases (H : Rheap) c dt k : biases H (fst (joint_apply H c dt k)).
Proof.
  destruct k; cbn [joint_apply]; unfold pivot_apply, pin_apply, slide_apply, groove_apply, gear_apply, motor_apply, rlimit_apply, ratchet_apply, spring_apply, rspring_apply; cbv zeta;
  repeat match goal with |- context [if ?x then _ else _] => destruct x end; cbn [fst];
  first [apply biases_refl|apply imp_biases|apply torque_biases|apply gear_biases|apply damp_biases].
Qed.
Lemma cached_one_biases (H : Rheap) c d k : biases H (joint_cached H c d k).
Proof.
  destruct k; cbn [joint_cached]; unfold pivot_cached, pin_cached, slide_cached, groove_cached, gear_cached, motor_cached, rlimit_cached, ratchet_cached;
  first [apply biases_refl|apply imp_biases|apply torque_biases|apply gear_biases].
Qed.

(** The joints whose PreStep moves nothing. *)
Lemma prestep_nothing (H : Rheap) c dt k : no_spring k -> fst (joint_prestep H c dt k) = H.
Proof. destruct k; cbn; tauto. Qed.
Lemma prestep_no_spring (H : Rheap) c dt k : no_spring k -> no_spring (snd (joint_prestep H c dt k)).
Proof. destruct k; cbn; tauto. Qed.
Lemma one_iterations (Q : @jclass RNum -> Prop) c dt : (forall H k, Q k -> Q (snd (joint_apply H c dt k))) -> forall m (H : Rheap) k, Q k ->
  exists H' k', hframe H H' /\ biases H H' /\ Q k' /\ iterations (S m) dt (World H [] [(c, k)]) = World (fst (joint_apply H' c dt k')) [] [(c, snd (joint_apply H' c dt k'))].
Proof.
  intros QQ. induction m as [|m IH]; intros H k K.
  - exists H, k. split; [apply hframe_refl|]. split; [apply biases_refl|]. split; [exact K|]. cbn [iterations]. unfold iteration. cbn [w_heap w_arbs w_joints arbs_apply joints_apply]. destruct (joint_apply H c dt k). reflexivity.
  - destruct (IH (fst (joint_apply H c dt k)) (snd (joint_apply H c dt k)) (QQ H k K)) as (H' & k' & F & B & K' & E). exists H', k'. split; [eapply hframe_trans; [apply joint_apply_frame|exact F]|].
    split; [eapply biases_trans; [apply apply_biases|exact B]|]. split; [exact K'|]. rewrite <- E. set (m' := S m). cbn [iterations]. f_equal. unfold iteration. cbn [w_heap w_arbs w_joints arbs_apply joints_apply]. destruct (joint_apply H c dt k). reflexivity.
Qed.
Lemma pull_last (Q : @jclass RNum -> Prop) q (w : Rworld) c k m prev : no_spring k -> w_joints w = [(c, k)] -> let H0 := move_all (u_dt q) (u_dyn q) (w_heap w) in
  Q (snd (joint_prestep H0 c (u_dt q) k)) -> (forall H k, Q k -> Q (snd (joint_apply H c (u_dt q) k))) ->
  exists H k', spots H0 H /\ biases H0 H /\ Q k' /\ pull_step q w (S m, prev) = World (fst (joint_apply H c (u_dt q) k')) [] [(c, snd (joint_apply H c (u_dt q) k'))].
Proof.
  intros NS J H0 Q0 QQ. unfold pull_step, full_step. cbn [fst snd]. fold H0. rewrite J. unfold solve. cbv zeta. unfold prestep_all. cbn [w_heap w_arbs w_joints map joints_prestep].
  pose proof (prestep_nothing H0 c (u_dt q) k NS) as P. destruct (joint_prestep H0 c (u_dt q) k) as [H1 k1] eqn:E1. cbn [fst snd] in *. subst H1. unfold integrate_all. cbn [w_heap w_arbs w_joints].
  destruct (integrate_spots (u_g q) (u_damping q) (u_dt q) (u_dyn q) H0) as [S2 B2]. cbv zeta in S2, B2. set (H2 := fold_left _ (u_dyn q) H0) in *. clearbody H2. unfold cached_all. cbn [w_heap w_arbs w_joints fold_left fst snd].
  match goal with |- context [joint_cached H2 c ?d k1] => set (dc := d) end.
  destruct (one_iterations Q c (u_dt q) QQ m (joint_cached H2 c dc k1) k1 Q0) as (H' & k' & F & B & K' & E). exists H', k'.
  split; [eapply spots_trans; [exact S2|]; apply frame_spots; eapply hframe_trans; [apply joint_cached_frame|exact F]|].
  split; [eapply biases_trans; [exact B2|]; eapply biases_trans; [apply cached_one_biases|exact B]|]. split; [exact K'|exact E].
Qed.

(** What the next step moves. *)
Lemma stay_put (x dt : R) : x = x + 0 * dt.
Proof. ring. Qed.
Lemma no_move (p : Rvec) (dt : R) : p = vadd p (vscale vzero dt).
Proof. apply vec_ext; unV; cbn; unR; apply stay_put. Qed.
Lemma moved_at (dt : R) L (H : Rheap) i : NoDup L -> (In i L -> move_all dt L H i = update_position (H i) dt) /\ (~ In i L -> move_all dt L H i = H i).
Proof. intros ND. exact (fold_upd (fun x => update_position (N := RNum) x dt) L ND H i). Qed.
Lemma next_place q (dt2 : R) (w : Rworld) c k m prev i : NoDup (u_dyn q) -> no_spring k -> w_joints w = [(c, k)] -> carried q (w_heap w i) i -> let w1 := pull_step q w (S m, prev) in
  carried q (w_heap w1 i) i /\
  let b1 := w_heap w1 i in let b' := move_all dt2 (u_dyn q) (w_heap w1) i in
  b_angle b' = b_angle b1 + b_w b1 * dt2 /\ b_pos b' = vadd (b_pos b1) (vscale (b_vel b1) dt2) /\ b_minv b' = b_minv b1 /\ b_iinv b' = b_iinv b1 /\ b_cog b' = b_cog b1.
Proof.
  intros ND NS J C. cbv zeta. destruct (pull_last (fun _ => True) q w c k m prev NS J I (fun _ _ _ => I)) as (H & k' & S & B & _ & E). rewrite E. cbn [w_heap]. set (H1 := fst (joint_apply H c (u_dt q) k')).
  assert (B1 : biases (move_all (u_dt q) (u_dyn q) (w_heap w)) H1) by (eapply biases_trans; [exact B|apply apply_biases]).
  destruct (moved_at (u_dt q) (u_dyn q) (w_heap w) i ND) as [M1 M2]. destruct (moved_at dt2 (u_dyn q) H1 i ND) as [N1 N2].
  destruct (in_dec Nat.eq_dec i (u_dyn q)) as [I|I].
  - split; [now left|]. rewrite (N1 I). destruct (B1 i) as [V W]. rewrite (M1 I) in V, W. unfold update_position, set_transform in V, W. unB. unfold update_position, set_transform. unB. rewrite V, W. split; [unR; clear; set (x := b_angle (H1 i) : R); set (y := b_w (H1 i) : R); change (x + (y + 0) * dt2 = x + y * dt2); ring|]. split; [|auto].
    apply vec_ext; unV; cbn; unR; ring.
  - destruct C as [C|(C1 & C2 & C3 & C4)]; [contradiction|]. rewrite (N2 I). assert (X : b_minv (H1 i) = 0 /\ b_iinv (H1 i) = 0 /\ b_vel (H1 i) = vzero /\ b_w (H1 i) = 0).
    { pose proof (solve_immobile (Datatypes.S m) 0 0 (u_g q) (u_damping q) (u_dt q) prev (u_dyn q) (World (move_all (u_dt q) (u_dyn q) (w_heap w)) [] (w_joints w)) i) as X. cbn [w_heap] in X. rewrite (M2 I) in X.
      destruct (X C1 C2 I) as (V & W & _). change (solve _ _ _ _ _ _ _ _ _) with (pull_step q w (Datatypes.S m, prev)) in V, W. rewrite E in V, W. cbn [w_heap] in V, W. fold H1 in V, W. rewrite V, W.
      pose proof (S i) as (Y1 & Y2 & _). rewrite (M2 I) in Y1, Y2. destruct (joint_apply_frame H c (u_dt q) k' i) as (_ & Z1 & _ & Z2 & _). fold H1 in Z1, Z2. repeat split; congruence. }
    destruct X as (X1 & X2 & X3 & X4). split; [right; auto|]. rewrite X3, X4. split; [unR; clear; set (x := b_angle (H1 i) : R); change (x = x + 0 * dt2); ring|]. split; [apply no_move|auto].
Qed.

(** ** Gears *)
Lemma gear_prestep_spots (H H' : Rheap) c dt p : spots H H' -> gear_prestep H' c dt p = gear_prestep H c dt p.
Proof. intros S. destruct (S (c_a c)) as (_ & A & B & _), (S (c_b c)) as (_ & C & D & _). unfold gear_prestep. cbv zeta. now rewrite A, B, C, D. Qed.
Lemma gear_step q (w : Rworld) c (p : gear) m prev : NoDup (u_dyn q) -> c_a c <> c_b c -> w_joints w = [(c, JGear p)] ->
  b_iinv (w_heap w (c_a c)) * ge_ratioinv p + ge_ratio p * b_iinv (w_heap w (c_b c)) <> 0 ->
  let w1 := pull_step q w (S m, prev) in
  exists p1, w_joints w1 = [(c, JGear p1)] /\ ge_phase p1 = ge_phase p /\ ge_ratio p1 = ge_ratio p /\ ge_ratioinv p1 = ge_ratioinv p /\
  b_iinv (w_heap w1 (c_a c)) = b_iinv (w_heap w (c_a c)) /\ b_iinv (w_heap w1 (c_b c)) = b_iinv (w_heap w (c_b c)) /\
  (Rabs (ge_j p1) < c_maxforce c * u_dt q -> b_w (w_heap w1 (c_b c)) * ge_ratio p - b_w (w_heap w1 (c_a c)) =
    nclamp (N := RNum) (- (1 - npow (N := RNum) (c_errorbias c) (u_dt q)) * gear_error c p (w_heap w1) / u_dt q) (- c_maxbias c) (c_maxbias c)).
Proof.
  intros ND AB J NZ. cbv zeta. set (H0 := move_all (N := RNum) (u_dt q) (u_dyn q) (w_heap w)).
  assert (II : forall i, b_iinv (H0 i) = b_iinv (w_heap w i)).
  { intros i. destruct (moved_at (u_dt q) (u_dyn q) (w_heap w) i ND) as [A B]. destruct (in_dec Nat.eq_dec i (u_dyn q)) as [I|I]; unfold H0; [rewrite (A I); reflexivity|now rewrite (B I)]. }
  destruct (pull_last (fun k => exists p', k = JGear (gear_prestep H0 c (u_dt q) p') /\ ge_phase p' = ge_phase p /\ ge_ratio p' = ge_ratio p /\ ge_ratioinv p' = ge_ratioinv p) q w c (JGear p) m prev I J) as (H & k' & S & B & (p' & -> & E1 & E2 & E3) & E).
  { exists p. cbn. auto. }
  { intros H k (p' & -> & E1 & E2 & E3). cbn [joint_apply gear_apply snd]. cbv zeta. eexists (Gear (ge_phase p') (ge_ratio p') (ge_ratioinv p') (ge_isum p') (ge_bias p') _). split; [reflexivity|auto]. }
  rewrite E. cbn [w_heap w_joints]. fold H0 in S. rewrite <- (gear_prestep_spots H0 H c (u_dt q) p' S).
  pose proof (gear_exact H H c (u_dt q) p' (hframe_refl H) AB) as X. cbv zeta in X. pose proof (joint_apply_frame H c (u_dt q) (JGear (gear_prestep H c (u_dt q) p'))) as F.
  assert (IA : forall i, b_iinv (H i) = b_iinv (w_heap w i)) by (intros i; rewrite <- II; apply (S i)). rewrite !IA in X. rewrite E2, E3 in X. specialize (X NZ).
  cbn [joint_apply] in *. destruct (gear_apply H c (u_dt q) (gear_prestep H c (u_dt q) p')) as [H1 p1] eqn:G. cbn [fst snd] in *. exists p1. split; [reflexivity|].
  assert (GP : ge_phase p1 = ge_phase p /\ ge_ratio p1 = ge_ratio p /\ ge_ratioinv p1 = ge_ratioinv p).
  { unfold gear_apply in G. cbv zeta in G. apply (f_equal snd) in G. cbn [snd] in G. rewrite <- G. cbn. auto. }
  destruct GP as (G1 & G2 & G3). repeat (split; [assumption|]). destruct (F (c_a c)) as (_ & _ & _ & FA & GA & _), (F (c_b c)) as (_ & _ & _ & FB & GB & _). split; [rewrite FA; apply IA|]. split; [rewrite FB; apply IA|].
  intros L. specialize (X L). rewrite X. unfold gear_prestep. cbv zeta. cbn [ge_bias]. unfold gear_error. rewrite GA, GB, E1, E2. reflexivity.
Qed.

Lemma placed q (w : Rworld) c k m prev : no_spring k -> w_joints w = [(c, k)] -> spots (move_all (u_dt q) (u_dyn q) (w_heap w)) (w_heap (pull_step q w (S m, prev))).
Proof.
  intros NS J. destruct (pull_last (fun _ => True) q w c k m prev NS J I (fun _ _ _ => I)) as (H & k' & S & _ & _ & E). rewrite E. cbn [w_heap].
  eapply spots_trans; [exact S|]. apply frame_spots, joint_apply_frame.
Qed.
Lemma pow_pos (e dt : R) : 0 < e -> npow (N := RNum) e dt = Rpower e dt.
Proof. intros P. unfold npow. cbn. unR. rcases; auto; lra. Qed.
Lemma pow_next (e dt : R) k : Rpower e dt * Rpower e (dt * INR k) = Rpower e (dt * INR (S k)).
Proof. rewrite S_INR. replace (dt * (INR k + 1)) with (dt + dt * INR k) by ring. now rewrite Rpower_plus. Qed.
Lemma pow_bounds (e dt : R) : 0 < e <= 1 -> 0 < dt -> 0 < Rpower e dt <= 1.
Proof.
  intros [A B] D. split; [apply exp_pos|]. unfold Rpower. rewrite <- exp_0. destruct (Req_dec (dt * ln e) 0) as [->|N]; [right; reflexivity|]. left. apply exp_increasing.
  assert (ln e <= 0). { rewrite <- ln_1. destruct B as [B| ->]; [left; now apply ln_increasing|right; reflexivity]. } nra.
Qed.

(** The steps after the first one. *)
Section Gear.
Variables (q : pulling) (c : Rcstr) (p0 : @gear RNum).
Hypotheses (ND : NoDup (u_dyn q)) (AB : c_a c <> c_b c) (DT : 0 < u_dt q) (EB : 0 < c_errorbias c <= 1) (MB : 0 <= c_maxbias c).
Definition geared (w : Rworld) : Prop := exists p, w_joints w = [(c, JGear p)] /\ ge_phase p = ge_phase p0 /\ ge_ratio p = ge_ratio p0 /\ ge_ratioinv p = ge_ratioinv p0 /\
  b_iinv (w_heap w (c_a c)) * ge_ratioinv p + ge_ratio p * b_iinv (w_heap w (c_b c)) <> 0 /\ carried q (w_heap w (c_a c)) (c_a c) /\ carried q (w_heap w (c_b c)) (c_b c).
Lemma geared_next (q2 : pulling) w m prev : u_dyn q2 = u_dyn q -> geared w -> let w1 := pull_step q w (S m, prev) in geared w1 /\
  (weak q w1 -> (1 - npow (N := RNum) (c_errorbias c) (u_dt q)) * Rabs (gear_error c p0 (w_heap w1)) <= c_maxbias c * u_dt q -> forall n pr, 
    gear_error c p0 (w_heap (pull_step q2 w1 (S n, pr))) = gear_error c p0 (w_heap w1) * (1 - (1 - Rpower (c_errorbias c) (u_dt q)) * (u_dt q2 / u_dt q))).
Proof.
  intros DYN (p & J & E1 & E2 & E3 & NZ & CA & CB). cbv zeta. pose proof (gear_step q w c p m prev ND AB J NZ) as X. cbv zeta in X. destruct X as (p1 & J1 & F1 & F2 & F3 & IA & IB & L).
  destruct (next_place q (u_dt q2) w c (JGear p) m prev (c_a c) ND I J CA) as (CA1 & NA & _). destruct (next_place q (u_dt q2) w c (JGear p) m prev (c_b c) ND I J CB) as (CB1 & NB & _). cbv zeta in *.
  set (w1 := pull_step q w (S m, prev)) in *. clearbody w1. split.
  - exists p1. rewrite IA, IB, F3, F2. repeat split; congruence || assumption.
  - intros W B n pr. pose proof (placed q2 w1 c (JGear p1) n pr I J1) as S. rewrite DYN in S. destruct (S (c_a c)) as (_ & _ & SA & _), (S (c_b c)) as (_ & _ & SB & _).
    unfold gear_error at 1. rewrite SA, SB, NA, NB. unfold weak in W. rewrite J1 in W. inversion W as [|? ? W1 _]; subst. unfold below_limit in W1. cbn in W1. specialize (L W1).
    set (e := gear_error c p0 (w_heap w1)) in *. assert (Ee : gear_error c p (w_heap w1) = e) by (unfold e, gear_error; now rewrite E1, E2). rewrite Ee in L.
    rewrite (pow_pos _ _ (proj1 EB)) in *. set (y := Rpower (c_errorbias c) (u_dt q)) in *. pose proof (pow_bounds _ _ EB DT) as Y. fold y in Y.
    rewrite clamp_in in L.
    + unfold e, gear_error in *. rewrite E2 in L. unR. set (A := b_angle (w_heap w1 (c_a c)) : R) in *. set (A2 := b_angle (w_heap w1 (c_b c)) : R) in *. set (u := b_w (w_heap w1 (c_a c)) : R) in *. set (v := b_w (w_heap w1 (c_b c)) : R) in *.
      set (r := ge_ratio p0 : R) in *. set (f := ge_phase p0 : R) in *. set (t := u_dt q) in *. set (t2 := u_dt q2) in *. change (v * r - u = - (1 - y) * (A2 * r - A - f) / t) in L. change ((A2 + v * t2) * r - (A + u * t2) - f = (A2 * r - A - f) * (1 - (1 - y) * (t2 / t))).
      replace ((A2 + v * t2) * r - (A + u * t2) - f) with (A2 * r - A - f + t2 * (v * r - u)) by ring. rewrite L. field. unfold t in *. lra.
    + unR. set (mb := c_maxbias c : R) in *. assert (K : Rabs (- (1 - y) * e / u_dt q) <= mb).
      { unfold Rdiv. rewrite !Rabs_mult, Rabs_Ropp, (Rabs_pos_eq (1 - y)) by lra. rewrite (Rabs_pos_eq (/ u_dt q)) by (left; now apply Rinv_0_lt_compat).
        apply Rmult_le_reg_r with (u_dt q); [exact DT|]. rewrite Rmult_assoc, Rinv_l by lra. lra. }
      exact K.
Qed.
Lemma geared_step w m prev : geared w -> let w1 := pull_step q w (S m, prev) in geared w1 /\
  (weak q w1 -> (1 - npow (N := RNum) (c_errorbias c) (u_dt q)) * Rabs (gear_error c p0 (w_heap w1)) <= c_maxbias c * u_dt q -> forall n pr, 
    gear_error c p0 (w_heap (pull_step q w1 (S n, pr))) = gear_error c p0 (w_heap w1) * Rpower (c_errorbias c) (u_dt q)).
Proof.
  intros G. destruct (geared_next q w m prev eq_refl G) as [A B]. split; [exact A|]. intros W X n pr. rewrite (B W X n pr). f_equal. unfold Rdiv. rewrite Rinv_r by lra. ring.
Qed.
Lemma geared_steps nps : Forall (fun np => (1 <= fst np)%nat) nps -> forall w m prev, geared w ->
  (forall k, (k < length nps)%nat -> weak q (fold_left (pull_step q) (firstn k nps) (pull_step q w (S m, prev)))) ->
  let w1 := pull_step q w (S m, prev) in (1 - npow (N := RNum) (c_errorbias c) (u_dt q)) * Rabs (gear_error c p0 (w_heap w1)) <= c_maxbias c * u_dt q ->
  gear_error c p0 (w_heap (fold_left (pull_step q) nps w1)) = gear_error c p0 (w_heap w1) * Rpower (c_errorbias c) (u_dt q * INR (length nps)).
Proof.
  induction nps as [|[[|n] pr] nps IH]; intros F w m prev G W; cbv zeta; intros B.
  - cbn [fold_left length INR]. rewrite Rmult_0_r, Rpower_O by apply EB. symmetry. apply Rmult_1_r.
  - inversion F; subst. cbn in *. lia.
  - destruct (geared_step w m prev G) as [G1 E1]. cbv zeta in *. specialize (E1 (W 0%nat ltac:(cbn; lia)) B n pr). set (w1 := pull_step q w (S m, prev)) in *. inversion F; subst.
    cbn [fold_left]. rewrite (IH ltac:(assumption) w1 n pr G1).
    + rewrite E1, Rmult_assoc, pow_next. reflexivity.
    + intros k K. exact (W (S k) ltac:(cbn; lia)).
    + rewrite E1, Rabs_mult. rewrite (pow_pos _ _ (proj1 EB)) in *. pose proof (pow_bounds _ _ EB DT) as Y. rewrite (Rabs_pos_eq (Rpower _ _)) by lra.
      eapply Rle_trans; [|exact B]. apply Rmult_le_compat_l; [lra|]. pose proof (Rabs_pos (gear_error c p0 (w_heap w1))) as P. nra.
Qed.
End Gear.
Theorem gear_decays (q : pulling) (c : Rcstr) (p : @gear RNum) (w : Rworld) m prev nps :
  NoDup (u_dyn q) -> c_a c <> c_b c -> 0 < u_dt q -> 0 < c_errorbias c <= 1 -> 0 <= c_maxbias c -> w_joints w = [(c, JGear p)] ->
  b_iinv (w_heap w (c_a c)) * ge_ratioinv p + ge_ratio p * b_iinv (w_heap w (c_b c)) <> 0 -> carried q (w_heap w (c_a c)) (c_a c) -> carried q (w_heap w (c_b c)) (c_b c) ->
  Forall (fun np => (1 <= fst np)%nat) nps -> let w1 := pull_step q w (S m, prev) in
  (forall k, (k < length nps)%nat -> weak q (fold_left (pull_step q) (firstn k nps) w1)) ->
  (1 - Rpower (c_errorbias c) (u_dt q)) * Rabs (gear_error c p (w_heap w1)) <= c_maxbias c * u_dt q ->
  gear_error c p (w_heap (fold_left (pull_step q) nps w1)) = gear_error c p (w_heap w1) * Rpower (c_errorbias c) (u_dt q * INR (length nps)).
Proof.
  intros ND AB DT EB MB J NZ CA CB F w1 W B. apply geared_steps; try assumption.
  - exists p. auto 10.
  - rewrite pow_pos by apply EB. exact B.
Qed.

(** ** Pivot joints between centres of gravity *)
Lemma no_arm (b : Rbody) : anchor_arm b (b_cog b) = vzero.
Proof. unfold anchor_arm. apply vec_ext; unV; cbn; unR; ring. Qed.
Lemma pivot_prestep_spots (H H' : Rheap) c dt p : spots H H' -> pivot_prestep H' c dt p = pivot_prestep H c dt p.
Proof.
  intros S. destruct (S (c_a c)) as (A1 & A2 & _ & A3 & A4 & A5), (S (c_b c)) as (B1 & B2 & _ & B3 & B4 & B5). unfold pivot_prestep, anchor_arm, ktensor. cbv zeta.
  now rewrite A1, A2, A3, A4, A5, B1, B2, B3, B4, B5.
Qed.
Lemma spot_pair (H H' : Rheap) a b : spots H H' -> movable_pair (H a) (H b) -> movable_pair (H' a) (H' b).
Proof. intros S. destruct (S a) as (A1 & A2 & _), (S b) as (B1 & B2 & _). unfold movable_pair. now rewrite A1, A2, B1, B2. Qed.
Lemma move_cogs dt L (H : Rheap) i : NoDup L -> b_cog (move_all dt L H i) = b_cog (H i) /\ b_minv (move_all dt L H i) = b_minv (H i) /\ b_iinv (move_all dt L H i) = b_iinv (H i).
Proof. intros ND. destruct (moved_at dt L H i ND) as [A B]. destruct (in_dec Nat.eq_dec i L) as [I|I]; [rewrite (A I)|rewrite (B I)]; repeat split. Qed.
Section Pivot.
Variables (q : pulling) (c : Rcstr) (aa ab : Rvec).
Hypotheses (ND : NoDup (u_dyn q)) (AB : c_a c <> c_b c) (DT : 0 < u_dt q) (EB : 0 < c_errorbias c <= 1) (MF : 0 <= c_maxforce c).
Definition pinned (w : Rworld) : Prop := exists p, w_joints w = [(c, JPivot p)] /\ pv_anchA p = aa /\ pv_anchB p = ab /\ b_cog (w_heap w (c_a c)) = aa /\ b_cog (w_heap w (c_b c)) = ab /\
  movable_pair (w_heap w (c_a c)) (w_heap w (c_b c)) /\ carried q (w_heap w (c_a c)) (c_a c) /\ carried q (w_heap w (c_b c)) (c_b c).
Lemma pivot_step w m prev : pinned w -> let w1 := pull_step q w (S m, prev) in pinned w1 /\
  (weak q w1 -> vsub (b_vel (w_heap w1 (c_b c))) (b_vel (w_heap w1 (c_a c))) = vclampmag (vscale (gap c (w_heap w1)) (- (1 - npow (N := RNum) (c_errorbias c) (u_dt q)) / u_dt q)%R) (c_maxbias c)).
Proof.
  intros (p & J & E1 & E2 & CA & CB & MP & KA & KB). cbv zeta.
  destruct (next_place q (u_dt q) w c (JPivot p) m prev (c_a c) ND I J KA) as (KA1 & _). destruct (next_place q (u_dt q) w c (JPivot p) m prev (c_b c) ND I J KB) as (KB1 & _). pose proof (placed q w c (JPivot p) m prev I J) as PL.
  set (H0 := move_all (N := RNum) (u_dt q) (u_dyn q) (w_heap w)) in *.
  destruct (move_cogs (u_dt q) (u_dyn q) (w_heap w) (c_a c) ND) as (A1 & A2 & A3). destruct (move_cogs (u_dt q) (u_dyn q) (w_heap w) (c_b c) ND) as (B1 & B2 & B3). fold H0 in A1, A2, A3, B1, B2, B3.
  assert (MP0 : movable_pair (H0 (c_a c)) (H0 (c_b c))) by (unfold movable_pair; now rewrite A2, A3, B2, B3).
  destruct (pull_last (fun k => exists p', k = JPivot (pivot_prestep H0 c (u_dt q) p') /\ pv_anchA p' = aa /\ pv_anchB p' = ab) q w c (JPivot p) m prev I J) as (H & k' & S & B & (p' & -> & F1 & F2) & E).
  { exists p. cbn. auto. }
  { intros H k (p' & -> & F1 & F2). cbn [joint_apply pivot_apply snd]. cbv zeta. eexists (Pivot (pv_anchA p') (pv_anchB p') (pv_r1 p') (pv_r2 p') (pv_k p') _ (pv_bias p')). split; [reflexivity|auto]. }
  fold H0 in S. set (w1 := pull_step q w (Datatypes.S m, prev)) in *. clearbody w1.
  rewrite <- (pivot_prestep_spots H0 H c (u_dt q) p' S) in E.
  pose proof (pivot_exact H H c (u_dt q) p' (hframe_refl H) AB (spot_pair _ _ _ _ S MP0) ltac:(apply Rmult_le_pos; [exact MF|left; exact DT])) as X. cbv zeta in X.
  pose proof (joint_apply_frame H c (u_dt q) (JPivot (pivot_prestep H c (u_dt q) p'))) as F.
  cbn [joint_apply] in *. destruct (pivot_apply H c (u_dt q) (pivot_prestep H c (u_dt q) p')) as [H1 p1] eqn:G. cbn [fst snd] in *. subst w1. cbn [w_heap w_joints] in *.
  assert (GP : pv_anchA p1 = aa /\ pv_anchB p1 = ab).
  { unfold pivot_apply in G. cbv zeta in G. apply (f_equal snd) in G. cbn [snd] in G. rewrite <- G. cbn. auto. }
  pose proof (PL (c_a c)) as (_ & _ & _ & PA & _). pose proof (PL (c_b c)) as (_ & _ & _ & PB & _).
  split.
  - exists p1. split; [reflexivity|]. split; [apply GP|]. split; [apply GP|]. split; [etransitivity; [exact PA|]; etransitivity; [exact A1|exact CA]|]. split; [etransitivity; [exact PB|]; etransitivity; [exact B1|exact CB]|]. split; [exact (spot_pair _ _ _ _ PL MP0)|]. split; assumption.
  - intros W. unfold weak in W. cbn [w_joints] in W. apply Forall_inv in W. cbn [fst snd] in W. rename W into W1. unfold below_limit in W1. cbn in W1. specialize (X W1).
    destruct (F (c_a c)) as (_ & _ & _ & _ & _ & _ & CA1 & PA1 & _), (F (c_b c)) as (_ & _ & _ & _ & _ & _ & CB1 & PB1 & _).
    destruct (S (c_a c)) as (_ & _ & _ & SA & _), (S (c_b c)) as (_ & _ & _ & SB & _).
    assert (R1 : anchor_arm (H (c_a c)) (pv_anchA p') = vzero) by (rewrite F1; replace aa with (b_cog (H (c_a c))) by (rewrite SA, A1; exact CA); apply no_arm).
    assert (R2 : anchor_arm (H (c_b c)) (pv_anchB p') = vzero) by (rewrite F2; replace ab with (b_cog (H (c_b c))) by (rewrite SB, B1; exact CB); apply no_arm).
    unfold pivot_prestep in X. cbv zeta in X. cbn [pv_r1 pv_r2 pv_bias] in X. rewrite R1, R2 in X. unfold gap. rewrite PA1, PB1.
    assert (XL : relative_velocity (H1 (c_a c)) (H1 (c_b c)) vzero vzero = vsub (b_vel (H1 (c_b c))) (b_vel (H1 (c_a c)))).
    { unfold relative_velocity. apply vec_ext; unV; cbn; unR; ring. }
    rewrite XL in X. rewrite X. f_equal. unfold bias_coef. f_equal. apply vec_ext; unV; cbn; unR; ring.
Qed.
Lemma pivot_next w m prev : pinned w -> let w1 := pull_step q w (S m, prev) in
  weak q w1 -> (1 - npow (N := RNum) (c_errorbias c) (u_dt q)) * vmag (gap c (w_heap w1)) <= c_maxbias c * u_dt q -> forall n pr, 
    gap c (w_heap (pull_step q w1 (S n, pr))) = vscale (gap c (w_heap w1)) (Rpower (c_errorbias c) (u_dt q)).
Proof.
  intros P. cbv zeta. pose proof P as (p & J & _ & _ & _ & _ & _ & KA & KB). destruct (pivot_step w m prev P) as [(p1 & J1 & _) X]. cbv zeta in *.
  destruct (next_place q (u_dt q) w c (JPivot p) m prev (c_a c) ND I J KA) as (_ & _ & NA & _). destruct (next_place q (u_dt q) w c (JPivot p) m prev (c_b c) ND I J KB) as (_ & _ & NB & _). cbv zeta in *.
  set (w1 := pull_step q w (S m, prev)) in *. clearbody w1. intros W B n pr. specialize (X W).
  pose proof (placed q w1 c (JPivot p1) n pr I J1) as S. destruct (S (c_a c)) as (_ & _ & _ & _ & SA & _), (S (c_b c)) as (_ & _ & _ & _ & SB & _).
  unfold gap at 1. rewrite SA, SB, NA, NB. rewrite (pow_pos _ _ (proj1 EB)) in *. set (y := Rpower (c_errorbias c) (u_dt q)) in *. pose proof (pow_bounds _ _ EB DT) as Y. fold y in Y.
  rewrite clampmag_in in X.
  - pose proof (f_equal (@vx RNum) X) as XX. pose proof (f_equal (@vy RNum) X) as XY. revert XX XY. clear - DT. unfold gap. set (a := w_heap w1 (c_a c)). set (b := w_heap w1 (c_b c)). unV. cbn. unR. intros XX XY.
    apply vec_ext; cbn.
    + match type of XX with ?l = ?r => match goal with |- ?g = _ => replace g with (vx (b_pos b) - vx (b_pos a) + u_dt q * l) by ring end end. rewrite XX. field. lra.
    + match type of XY with ?l = ?r => match goal with |- ?g = _ => replace g with (vy (b_pos b) - vy (b_pos a) + u_dt q * l) by ring end end. rewrite XY. field. lra.
  - rewrite mag_scale. assert (K : Rabs (- (1 - y) / u_dt q) = (1 - y) / u_dt q).
    { unfold Rdiv. rewrite Rabs_mult, Rabs_Ropp, (Rabs_pos_eq (1 - y)) by lra. rewrite (Rabs_pos_eq (/ u_dt q)) by (left; now apply Rinv_0_lt_compat). reflexivity. }
    rewrite K. set (g := vmag (gap c (w_heap w1)) : R) in *. apply Rmult_le_reg_r with (u_dt q); [exact DT|]. unfold Rdiv. replace ((1 - y) * / u_dt q * g * u_dt q) with ((1 - y) * g) by (field; lra). exact B.
Qed.
Lemma pivot_steps nps : Forall (fun np => (1 <= fst np)%nat) nps -> forall w m prev, pinned w ->
  (forall k, (k < length nps)%nat -> weak q (fold_left (pull_step q) (firstn k nps) (pull_step q w (S m, prev)))) ->
  let w1 := pull_step q w (S m, prev) in (1 - npow (N := RNum) (c_errorbias c) (u_dt q)) * vmag (gap c (w_heap w1)) <= c_maxbias c * u_dt q ->
  gap c (w_heap (fold_left (pull_step q) nps w1)) = vscale (gap c (w_heap w1)) (Rpower (c_errorbias c) (u_dt q * INR (length nps))).
Proof.
  induction nps as [|[[|n] pr] nps IH]; intros F w m prev G W; cbv zeta; intros B.
  - cbn [fold_left length INR]. rewrite Rmult_0_r, Rpower_O by apply EB. apply vec_ext; unV; cbn; unR; ring.
  - inversion F; subst. cbn in *. lia.
  - destruct (pivot_step w m prev G) as [G1 _]. pose proof (pivot_next w m prev G) as E1. cbv zeta in *. specialize (E1 (W 0%nat ltac:(cbn; lia)) B n pr). set (w1 := pull_step q w (S m, prev)) in *. inversion F; subst.
    cbn [fold_left]. rewrite (IH ltac:(assumption) w1 n pr G1).
    + rewrite E1. cbn [length]. rewrite <- pow_next. apply vec_ext; unV; cbn; unR; ring.
    + intros k K. exact (W (S k) ltac:(cbn; lia)).
    + rewrite E1, mag_scale. rewrite (pow_pos _ _ (proj1 EB)) in *. pose proof (pow_bounds _ _ EB DT) as Y. rewrite (Rabs_pos_eq (Rpower _ _)) by lra.
      eapply Rle_trans; [|exact B]. apply Rmult_le_compat_l; [lra|]. pose proof (mag_nonneg (gap c (w_heap w1))) as P. nra.
Qed.
End Pivot.
Theorem pivot_decays (q : pulling) (c : Rcstr) (p : @pivot RNum) (w : Rworld) m prev nps :
  NoDup (u_dyn q) -> c_a c <> c_b c -> 0 < u_dt q -> 0 < c_errorbias c <= 1 -> 0 <= c_maxforce c -> w_joints w = [(c, JPivot p)] ->
  pv_anchA p = b_cog (w_heap w (c_a c)) -> pv_anchB p = b_cog (w_heap w (c_b c)) -> movable_pair (w_heap w (c_a c)) (w_heap w (c_b c)) -> carried q (w_heap w (c_a c)) (c_a c) -> carried q (w_heap w (c_b c)) (c_b c) ->
  Forall (fun np => (1 <= fst np)%nat) nps -> let w1 := pull_step q w (S m, prev) in
  (forall k, (k < length nps)%nat -> weak q (fold_left (pull_step q) (firstn k nps) w1)) ->
  (1 - Rpower (c_errorbias c) (u_dt q)) * vmag (gap c (w_heap w1)) <= c_maxbias c * u_dt q ->
  gap c (w_heap (fold_left (pull_step q) nps w1)) = vscale (gap c (w_heap w1)) (Rpower (c_errorbias c) (u_dt q * INR (length nps))).
Proof.
  intros ND AB DT EB MF J AA AB' MP CA CB F w1 W B. eapply pivot_steps; try eassumption.
  - exists p. repeat (split; [eassumption || reflexivity|]). auto.
  - rewrite pow_pos by apply EB. exact B.
Qed.
