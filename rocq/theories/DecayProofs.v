(** Proofs about overlapping balls (C69). *)
From Coq Require Import ZArith NArith Bool Reals Lra Lia List Arith.
From Verif Require Import Num NumReal Vec VecReal BB Transform Body BodySpec BodyProofs Shapes Solver SolverSpec SolverProofs Joints JointsSpec JointsProofs Narrow Persist PersistProofs DecaySpec.
Import ListNotations.
Local Open Scope R_scope.

(** A body at rest but for a correction of its position along n. *)
Definition calm (n : Rvec) (s : R) (b : Rbody) : Prop :=
  b_vel b = vzero /\ b_w b = 0 /\ b_force b = vzero /\ b_torque b = 0 /\ b_wbias b = 0 /\ b_vbias b = vscale n s.
Lemma calm_move n s b dt : calm n s b -> let b' := update_position b dt in
  calm n 0 b' /\ b_pos b' = vadd (b_pos b) (vscale n (s * dt)) /\ b_minv b' = b_minv b /\ b_iinv b' = b_iinv b /\ b_cog b' = b_cog b /\ b_type b' = b_type b.
Proof.
  intros (A & B & C & D & E & F). cbv zeta. unfold update_position. unfold calm. unfold set_transform. unB. rewrite A, F. repeat split; auto; apply vec_ext; unV; cbn; unR; ring.
Qed.
Lemma calm_velocity n s b d dt : calm n s b -> update_velocity b vzero d dt = b.
Proof.
  intros (A & B & C & D & E & F). unfold update_velocity. destruct (b_type b); auto;
  (destruct b; cbn in *; subst; unfold set_force_fields, set_vel_fields; cbn; unV; cbn; unR; f_equal; [ring|f_equal; ring]).
Qed.

Lemma clamp_null (x u : R) : nclamp (N := RNum) x (- (u * 0)) (u * 0) = 0.
Proof. rewrite Rmult_0_r. unfold nclamp. unR. rcases; unfold Rmin; destruct Rle_dec; lra. Qed.

Section Push.
Variables (q : pushing) (l : balls) (n : Rvec) (ma mb : R).
Hypothesis Hab : l_a l <> l_b l.
Hypothesis Hn : vdot n n = 1.
Hypothesis HM : 0 < ma + mb.
Notation a := (l_a l). Notation b := (l_b l).
Let ra : R := ci_r (l_ca l). Let rb : R := ci_r (l_cb l).

(** The state of the two bodies. *)
Definition pair (H : Rheap) (t j : R) : Prop :=
  calm n (- (ma * j)) (H a) /\ calm n (mb * j) (H b) /\ b_minv (H a) = ma /\ b_minv (H b) = mb /\ vsub (b_pos (H b)) (b_pos (H a)) = vscale n t.
Definition central (s : Rsarb) (c : Rcontact) : Prop :=
  s_a s = a /\ s_b s = b /\ s_n s = n /\ k_r1 c = vscale n ra /\ k_r2 c = vscale n (- rb) /\ vdot (s_svr s) n = 0 /\ k_jn c = 0 /\ k_jt c = 0.
Lemma n_eq : vx n * vx n + vy n * vy n = 1.
Proof. revert Hn. unV. unR. auto. Qed.

(** One iteration. *)
Lemma push_once (H : Rheap) s c t j : pair H t j -> central s c -> k_bounce c = 0 -> k_nmass c = 1 / (ma + mb) -> k_jbias c = j -> 0 <= k_bias c ->
  let '(H', c') := contact_apply H s c in pair H' t (k_bias c / (ma + mb)) /\ central s c' /\ k_bounce c' = 0 /\ k_nmass c' = 1 / (ma + mb) /\ k_jbias c' = k_bias c / (ma + mb) /\ k_bias c' = k_bias c /\
    bframe (H a) (H' a) /\ bframe (H b) (H' b).
Proof.
  intros (CA & CB & MA & MB & T) (SA & SB & SN & R1 & R2 & SV & JN & JT) BO NM JB BI. pose proof n_eq as N1.
  unfold contact_apply. cbv zeta. rewrite SA, SB, SN, R1, R2, JN, JT, BO, NM, JB.
  destruct CA as (A1 & A2 & A3 & A4 & A5 & A6), CB as (B1 & B2 & B3 & B4 & B5 & B6).
  match goal with |- context [nmax (j + ?y)%num ?z] => assert (EB : nmax (Num := RNum) (j + y)%num z = k_bias c / (ma + mb)) end.
  { rewrite A5, B5, A6, B6. match goal with |- context [vdot ?x n] => replace (vdot x n) with (j * (ma + mb)) end.
    2: { unV. cbn. unR. replace (j * (ma + mb)) with (j * (ma + mb) * (vx n * vx n + vy n * vy n)) by (rewrite N1; ring). ring. }
    assert (0 <= k_bias c / (ma + mb)) by (apply Rmult_le_pos; [exact BI|left; now apply Rinv_0_lt_compat]).
    unR. replace (j + (k_bias c - j * (ma + mb)) * (1 / (ma + mb))) with (k_bias c / (ma + mb)) by (field; lra). now apply Rmax_left. }
  rewrite EB. clear EB.
  assert (EV : relative_velocity (N := RNum) (H a) (H b) (vscale n ra) (vscale n (- rb)) = vzero).
  { unfold relative_velocity. rewrite A1, A2, B1, B2. apply vec_ext; unV; cbn; unR; ring. }
  rewrite EV. match goal with |- context [nmax ?y ?z] => assert (EN : nmax (Num := RNum) y z = 0) end.
  { replace (vdot (vadd (@vzero RNum) (s_svr s)) n) with 0 by (rewrite <- SV; unV; cbn; unR; ring). unR. replace (0 + - (0 + 0) * (1 / (ma + mb))) with 0 by ring. apply Rmax_left; lra. }
  rewrite !EN. clear EN.
  match goal with |- context [nclamp ?x ?y ?z] => assert (ET : nclamp (N := RNum) x y z = 0) end.
  { apply clamp_null. }
  rewrite ET. clear ET EV. unR.
  set (H1 := apply_bias_impulses H a b _ _ _).
  match goal with |- context [apply_impulses H1 a b ?x ?y ?z] => assert (EZ : z = @vzero RNum) by (apply vec_ext; unV; cbn; unR; ring); rewrite EZ; clear EZ end.
  rewrite impulses_zero.
  cbn [k_bounce k_nmass k_jbias k_bias].
  assert (XA : H1 a = kick_bias (H a) (vscale n ra) (@V RNum (- vx (vscale (N := RNum) n (k_bias c / (ma + mb) - j)%R)) (- vy (vscale (N := RNum) n (k_bias c / (ma + mb) - j)%R)))).
  { unfold H1, apply_bias_impulses. cbv zeta. rewrite upd_same. now rewrite upd_ne by auto. }
  assert (XB : H1 b = kick_bias (N := RNum) (H b) (vscale n (- rb)%R) (vscale (N := RNum) n (k_bias c / (ma + mb) - j)%R)).
  { unfold H1, apply_bias_impulses. cbv zeta. rewrite upd_ne by auto. now rewrite upd_same. }
  unfold pair, central, calm. cbn [k_r1 k_r2 k_jn k_jt]. rewrite XA, XB. clear H1 XA XB. unfold kick_bias, bframe. unB. rewrite A1, A2, A3, A4, A5, A6, B1, B2, B3, B4, B5, B6, MA, MB.
  repeat (split; auto); try (apply vec_ext; unV; cbn; unR; ring); unV; cbn; unR; ring.
Qed.

Definition pressed (w : Rworld) (t j bias : R) : Prop := exists s c, w_arbs w = [with_contacts s [c]] /\ w_joints w = [] /\ pair (w_heap w) t j /\ central s c /\
  k_bounce c = 0 /\ k_nmass c = 1 / (ma + mb) /\ k_jbias c = j /\ k_bias c = bias.
Definition same_place (H H' : Rheap) : Prop := bframe (H a) (H' a) /\ bframe (H b) (H' b).
Lemma push_iteration w t j bias dt : 0 <= bias -> pressed w t j bias -> pressed (iteration dt w) t (bias / (ma + mb)) bias /\ same_place (w_heap w) (w_heap (iteration dt w)).
Proof.
  intros B (s & c & A & J & P & C & BO & NM & JB & BI). unfold iteration. rewrite A, J. cbn [arbs_apply joints_apply]. unfold arb_apply. cbn [s_contacts with_contacts contacts_apply].
  pose proof (push_once (w_heap w) (with_contacts s [c]) c t j P C BO NM JB) as X. rewrite BI in X. specialize (X B). destruct (contact_apply (w_heap w) (with_contacts s [c]) c) as [H' c']. destruct X as (P' & C' & BO' & NM' & JB' & BI' & FA & FB).
  cbn [w_heap w_arbs w_joints]. split; [|split; assumption]. exists s, c'. cbn [w_heap w_arbs w_joints]. repeat (split; [auto; fail|]); auto.
Qed.
Lemma push_iterations k : forall w t j bias dt, 0 <= bias -> pressed w t j bias -> (1 <= k)%nat -> pressed (iterations k dt w) t (bias / (ma + mb)) bias /\ same_place (w_heap w) (w_heap (iterations k dt w)).
Proof.
  induction k as [|k IH]; intros w t j bias dt B P K; [lia|]. cbn [iterations]. destruct (push_iteration w t j bias dt B P) as [P1 S1]. destruct k; [cbn [iterations]; auto|].
  destruct (IH _ _ _ _ dt B P1 ltac:(lia)) as [P2 S2]. split; [exact P2|]. destruct S1, S2. split; eapply bframe_trans; eauto.
Qed.

(** The whole step. *)
Hypothesis Hdyn : NoDup (p_dyn q).
Hypothesis Hdt : 0 < p_dt q.
Hypothesis Hra : 0 <= ra. Hypothesis Hrb : 0 <= rb.
Hypothesis Hslop : 0 <= p_slop q.
Hypothesis Hbias : 0 < p_bias q. Hypothesis Hbias1 : p_bias q <= 1.
Definition seated (H : Rheap) : Prop := coherent (H a) /\ coherent (H b) /\ ci_c (l_ca l) = b_cog (H a) /\ ci_c (l_cb l) = b_cog (H b).
Definition inv (w : Rworld) (t j : R) : Prop := pair (w_heap w) t j /\ seated (w_heap w) /\ w_joints w = [] /\
  (forall s c, In s (w_arbs w) -> In c (s_contacts s) -> k_jn c = 0 /\ k_jt c = 0) /\ (In a (p_dyn q) \/ ma = 0) /\ (In b (p_dyn q) \/ mb = 0).
Lemma moved_body (H : Rheap) i s c : calm n s (H i) -> coherent (H i) -> ci_c c = b_cog (H i) -> (In i (p_dyn q) \/ s = 0) -> let H' := move_all (p_dt q) (p_dyn q) H in
  calm n 0 (H' i) /\ coherent (H' i) /\ ci_c c = b_cog (H' i) /\ b_minv (H' i) = b_minv (H i) /\ b_pos (H' i) = vadd (b_pos (H i)) (vscale n (s * p_dt q)) /\ b_angle (H' i) = b_angle (H i).
Proof.
  intros C Co CC D. cbv zeta. unfold move_all. destruct (fold_upd (fun x => update_position x (p_dt q)) (p_dyn q) Hdyn H i) as [A B]. destruct (in_dec Nat.eq_dec i (p_dyn q)) as [I|I].
  - rewrite (A I). destruct (calm_move n s (H i) (p_dt q) C) as (X1 & X2 & X3 & X4 & X5 & X6). split; [exact X1|]. split; [apply update_position_coherent|]. split; [rewrite X5; exact CC|]. split; [exact X3|]. split; [exact X2|].
    destruct C as (_ & W & _ & _ & WB & _). unfold update_position, set_transform. unB. rewrite W, WB. unR. ring.
  - rewrite (B I). destruct D as [D|D]; [contradiction|]. subst s. split; [exact C|]. split; [exact Co|]. split; [exact CC|]. split; [reflexivity|]. split; [|reflexivity]. apply vec_ext; unV; cbn; rring.
Qed.
Lemma moved_pair (H : Rheap) t j : pair H t j -> seated H -> (In a (p_dyn q) \/ ma = 0) -> (In b (p_dyn q) \/ mb = 0) -> let H' := move_all (p_dt q) (p_dyn q) H in
  pair H' (t + (ma + mb) * j * p_dt q) 0 /\ seated H'.
Proof.
  intros (CA & CB & MA & MB & T) (S1 & S2 & S3 & S4) DA DB. cbv zeta.
  destruct (moved_body H a _ (l_ca l) CA S1 S3) as (A1 & A2 & A3 & A4 & A5 & _); [destruct DA as [|E]; [auto|right; rewrite E; ring]|].
  destruct (moved_body H b _ (l_cb l) CB S2 S4) as (B1 & B2 & B3 & B4 & B5 & _); [destruct DB as [|E]; [auto|right; rewrite E; ring]|].
  split; [|repeat split; assumption]. unfold pair. rewrite !Rmult_0_r, Ropp_0. rewrite A4, B4. repeat (split; [assumption|]). rewrite A5, B5.
  pose proof (f_equal (@vx RNum) T) as TX. pose proof (f_equal (@vy RNum) T) as TY. revert TX TY. unV. cbn. unR. intros TX TY. f_equal; lra.
Qed.
Definition axis (t : R) : Prop := 0 <= t /\ (t = 0 -> n = @V RNum 1 0).
Lemma found (H : Rheap) t j : pair H t j -> seated H -> axis t ->
  ball_info l H = if Rltb t (ra + rb) then NInfo n [NContact (vadd (b_pos (H a)) (vscale (N := RNum) n ra)) (vadd (b_pos (H b)) (vscale (N := RNum) n (- rb)%R)) 0%N] 0%N else NInfo vzero [] 0%N.
Proof.
  intros (CA & CB & MA & MB & T) (S1 & S2 & S3 & S4) [T0 AX]. pose proof n_eq as N1. unfold ball_info, circle_to_circle, circle_cache. cbv zeta. cbn [fst ci_tc ci_r]. rewrite S3, S4.
  change (tf_apply (b_tf (H a)) (b_cog (H a))) with (local_to_world (H a) (b_cog (H a))). change (tf_apply (b_tf (H b)) (b_cog (H b))) with (local_to_world (H b) (b_cog (H b))). rewrite !coherent_cog by assumption.
  rewrite T. replace (vmagsq (vscale (N := RNum) n t)) with (t * t) by (replace (t * t) with (t * t * (vx n * vx n + vy n * vy n)) by (rewrite N1; ring); unV; cbn; unR; ring).
  fold ra rb. replace (nltb (Num := RNum) (t * t)%R (nmul (Num := RNum) (nadd (Num := RNum) ra rb) (nadd (Num := RNum) ra rb))) with (Rltb t (ra + rb)).
  2: { unR. rcases; auto; nra. }
  destruct (Rltb t (ra + rb)); [|reflexivity]. replace (nsqrt (Num := RNum) (t * t)%R) with t by (symmetry; unR; apply sqrt_square; exact T0).
  match goal with |- context [if negb ?x then ?y else ?z] => replace (if negb x then y else z) with n end; [reflexivity|].
  unR. rcases; cbn [negb]; [now apply AX|]. apply vec_ext; unV; cbn; rfield; assumption.
Qed.
Lemma fold_carry_null old (c : Rcontact) : (forall o, In o old -> k_jn o = 0 /\ k_jt o = 0) -> k_jn c = 0 -> k_jt c = 0 ->
  let c' := fold_left carry old c in k_jn c' = 0 /\ k_jt c' = 0 /\ k_r1 c' = k_r1 c /\ k_r2 c' = k_r2 c.
Proof.
  revert c. induction old as [|o old IH]; intros c O J T; cbv zeta; cbn [fold_left]; [auto|]. destruct (O o (or_introl eq_refl)) as [OJ OT].
  assert (X : k_jn (carry c o) = 0 /\ k_jt (carry c o) = 0 /\ k_r1 (carry c o) = k_r1 c /\ k_r2 (carry c o) = k_r2 c) by (unfold carry; destruct (Z.eqb _ _); cbn; auto).
  destruct X as (X1 & X2 & X3 & X4). destruct (IH (carry c o) (fun o' I => O o' (or_intror I)) X1 X2) as (Y1 & Y2 & Y3 & Y4). repeat split; congruence.
Qed.

Let bc : R := 1 - Rpower (p_bias q) (p_dt q).
Definition speed (t : R) : R := bc * Rmax 0 (ra + rb - p_slop q - t) / p_dt q.
Lemma bc_pos : 0 <= bc.
Proof.
  unfold bc, Rpower. assert (L : ln (p_bias q) <= 0) by (rewrite <- ln_1; destruct Hbias1 as [X|X]; [left; now apply ln_increasing|rewrite X; lra]).
  assert (E : exp (p_dt q * ln (p_bias q)) <= exp 0) by (destruct (Rle_lt_or_eq_dec (p_dt q * ln (p_bias q)) 0) as [X|X]; [nra|left; now apply exp_increasing|rewrite X; lra]). rewrite exp_0 in E. lra.
Qed.
Lemma speed_pos t : 0 <= speed t.
Proof. unfold speed. pose proof bc_pos. pose proof (Rmax_l 0 (ra + rb - p_slop q - t)). apply Rmult_le_pos; [nra|]. left. now apply Rinv_0_lt_compat. Qed.
Lemma pow_is : npow (N := RNum) (p_bias q) (p_dt q) = Rpower (p_bias q) (p_dt q).
Proof. unfold npow. cbn. unR. rcases; auto; lra. Qed.
Lemma calm_all (H : Rheap) t j dt d : pair H t j -> let H' := fold_left (fun H i => upd H i (update_velocity (H i) (@vzero RNum) d dt)) (p_dyn q) H in H' a = H a /\ H' b = H b.
Proof.
  intros (CA & CB & _). cbv zeta. split; match goal with |- fold_left _ _ _ ?i = _ => destruct (fold_upd (fun x => update_velocity (N := RNum) x (@vzero RNum) d dt) (p_dyn q) Hdyn H i) as [A B]; destruct (in_dec Nat.eq_dec i (p_dyn q)) as [I|I]; [rewrite (A I); eapply calm_velocity; eassumption|exact (B I)] end.
Qed.
Lemma pair_same (H H' : Rheap) t j : H' a = H a -> H' b = H b -> pair H t j -> pair H' t j.
Proof. intros A B. unfold pair. now rewrite A, B. Qed.
Lemma seated_frame (H H' : Rheap) : same_place H H' -> seated H -> seated H'.
Proof.
  intros [FA FB] (S1 & S2 & S3 & S4). unfold bframe in *. destruct FA as (_ & _ & _ & _ & A1 & _ & A2 & A3 & _ & A4 & _), FB as (_ & _ & _ & _ & B1 & _ & B2 & B3 & _ & B4 & _).
  split; [eapply coherent_frame; [|exact S1]; repeat split; assumption|]. split; [eapply coherent_frame; [|exact S2]; repeat split; assumption|]. split; congruence.
Qed.
Lemma step_inv w t j o : inv w t j -> axis t -> 0 <= j -> (1 <= o_n o)%nat -> let t' := t + (ma + mb) * j * p_dt q in
  inv (ball_step q l w o) t' (speed t' / (ma + mb)) /\ axis t' /\ 0 <= speed t' / (ma + mb).
Proof.
  intros (P & S & JJ & AR & DA & DB) AX J K. cbv zeta. set (t' := t + (ma + mb) * j * p_dt q).
  assert (AX' : axis t').
  { destruct AX as [T0 T1]. assert (0 <= (ma + mb) * j * p_dt q) by (apply Rmult_le_pos; [apply Rmult_le_pos; lra|lra]). split; [unfold t'; lra|]. intros Z. apply T1. unfold t' in Z. lra. }
  assert (SP : 0 <= speed t' / (ma + mb)) by (apply Rmult_le_pos; [apply speed_pos|left; now apply Rinv_0_lt_compat]). split; [|split; assumption].
  destruct (moved_pair (w_heap w) t j P S DA DB) as [P1 S1]. fold t' in P1. unfold ball_step, full_step. set (H1 := move_all (N := RNum) (p_dt q) (p_dyn q) (w_heap w)) in *. clearbody H1. clearbody t'. rewrite JJ.
  rewrite pow_is. fold bc.
  unfold ball_arbs. rewrite (found H1 t' 0 P1 S1 AX'). unfold solve. cbv zeta. set (dc := if negb _ then _ else _). clearbody dc. unfold prestep_all. cbn [w_heap w_arbs w_joints joints_prestep].
  destruct (Rltb_spec t' (ra + rb)) as [LT|GE]; cbn [nf_arr].
  - (* touching *)
    set (s0 := update H1 a b _ _ _ _ _ _).
    assert (C0 : exists c, s_contacts s0 = [c] /\ central s0 c).
    { unfold s0, update. cbn [s_contacts nf_arr update_contacts nf_n]. eexists. split; [reflexivity|]. unfold update_contact.
      match goal with |- central _ (fold_left carry ?old ?c) => destruct (fold_carry_null old c) as (Y1 & Y2 & Y3 & Y4); [|reflexivity|reflexivity|] end.
      { intros o' I. unfold ball_arb in I. destruct (w_arbs w) as [|s' rest] eqn:EA; [destruct I|]. eapply AR; [left; reflexivity|exact I]. }
      unfold central. rewrite Y1, Y2, Y3, Y4. cbn [s_a s_b s_n s_svr k_r1 k_r2 nc_p1 nc_p2]. repeat (split; [reflexivity|]). split; [apply vec_ext; unV; cbn; unR; ring|]. split; [apply vec_ext; unV; cbn; unR; ring|]. split; [|auto].
      unfold surface_velocity. cbv zeta. cbn [nf_n]. pose proof n_eq as N1. set (v := vsub (mt_sv _) (mt_sv _)). clearbody v. clear -N1.
      assert (E : vdot (vsub v (vscale n (vdot v n))) n = vdot v n * (1 - (vx n * vx n + vy n * vy n))) by (unV; cbn; unR; ring). rewrite E, N1. rewrite Rminus_diag_eq by reflexivity. apply Rmult_0_r. }
    destruct C0 as (c0 & E0 & C0). cbn [map]. unfold arb_prestep. rewrite E0. cbn [map]. match goal with |- context [contact_prestep H1 s0 ?x ?y ?z c0] => set (c1 := contact_prestep H1 s0 x y z c0) end.
    assert (PR : central s0 c1 /\ k_bounce c1 = 0 /\ k_nmass c1 = 1 / (ma + mb) /\ k_jbias c1 = 0 /\ k_bias c1 = speed t').
    { destruct C0 as (A1 & A2 & A3 & A4 & A5 & A6 & A7 & A8). destruct P1 as ((B1 & B2 & _) & (D1 & D2 & _) & MA & MB & T). pose proof n_eq as N1. unfold c1, contact_prestep. cbv zeta. unfold central. cbn [k_r1 k_r2 k_jn k_jt k_bounce k_nmass k_jbias k_bias].
      split; [auto 10|]. rewrite A1, A2, A3, A4, A5. split.
      { unfold normal_relative_velocity, relative_velocity. rewrite B1, B2, D1, D2. unV. cbn. unR. ring. }
      split. { unfold kscalar, kscalar_body. rewrite MA, MB. unR. f_equal. unV. cbn. unR. ring. }
      split; [reflexivity|]. rewrite T. match goal with |- context [vdot ?x n] => replace (vdot x n) with (t' - ra - rb) end.
      2: { replace (t' - ra - rb) with ((t' - ra - rb) * (vx n * vx n + vy n * vy n)) by (rewrite N1; ring). unV. cbn. unR. ring. }
      unfold speed, bc. unR. replace (Rmax 0 (ra + rb - p_slop q - t')) with (- Rmin 0 (t' - ra - rb + p_slop q)). { unfold Rdiv. ring. }
      unfold Rmin, Rmax. repeat destruct Rle_dec; lra. }
    clearbody c1. destruct PR as (C1 & BO & NM & JB & BI). unfold integrate_all. cbn [w_heap w_arbs w_joints]. destruct (calm_all H1 t' 0 (p_dt q) (p_damping q) P1) as [XA XB]. cbv zeta in XA, XB.
    set (H2 := fold_left _ (p_dyn q) H1) in *. clearbody H2. pose proof (pair_same H1 H2 t' 0 XA XB P1) as P2.
    assert (S2 : seated H2) by (unfold seated; rewrite XA, XB; exact S1).
    unfold cached_all. cbn [w_heap w_arbs w_joints fold_left].
    match goal with |- context [arb_cached ?d H2 ?s] => replace (arb_cached d H2 s) with H2 end.
    2: { symmetry. unfold arb_cached. destruct (s_first _); auto. cbn [with_contacts s_contacts fold_left]. unfold contact_cached. destruct C1 as (_ & _ & _ & _ & _ & _ & Z1 & Z2).
         rewrite Z1, Z2. match goal with |- apply_impulses _ _ _ _ _ ?z = _ => replace z with (@vzero RNum) by (apply vec_ext; unV; cbn; unR; ring) end. apply impulses_zero. }
    destruct (push_iterations (o_n o) (World H2 [with_contacts s0 [c1]] []) t' 0 (speed t') (p_dt q) (speed_pos t')) as [PR SP']; [|exact K|].
    { exists s0, c1. cbn [w_heap w_arbs w_joints]. auto 10. }
    set (w' := iterations _ _ _) in *. clearbody w'. destruct PR as (s & c & A & JW & P3 & C3 & _). cbn [w_heap] in SP'. repeat (split; [first [exact P3|exact JW|exact (seated_frame _ _ SP' S2)]|]).
    split; [|split; assumption]. intros s' c' I I'. rewrite A in I. destruct I as [<-|[]]. cbn [with_contacts s_contacts] in I'. destruct I' as [<-|[]]. destruct C3 as (_ & _ & _ & _ & _ & _ & X & Y). split; assumption.
  - (* apart *)
    cbn [map]. unfold integrate_all. cbn [w_heap w_arbs w_joints]. destruct (calm_all H1 t' 0 (p_dt q) (p_damping q) P1) as [XA XB]. cbv zeta in XA, XB.
    set (H2 := fold_left _ (p_dyn q) H1) in *. clearbody H2. pose proof (pair_same H1 H2 t' 0 XA XB P1) as P2. unfold cached_all. cbn [w_heap w_arbs w_joints fold_left].
    assert (IT : forall k, iterations k (p_dt q) (@World RNum H2 [] []) = World H2 [] []) by (induction k; cbn [iterations]; auto). rewrite IT.
    assert (Z : speed t' / (ma + mb) = 0) by (unfold speed; rewrite Rmax_left by lra; field; lra). rewrite Z. split; [exact P2|]. split; [unfold seated; cbn [w_heap]; rewrite XA, XB; exact S1|]. split; [reflexivity|]. split; [intros s c []|split; assumption].
Qed.

(** Any number of steps. *)
Definition excess (t : R) : R := Rmax 0 (ra + rb - p_slop q - t).
Lemma excess_next t : excess (t + speed t * p_dt q) = excess t * Rpower (p_bias q) (p_dt q).
Proof.
  pose proof bc_pos as B. assert (P : 0 < Rpower (p_bias q) (p_dt q)) by apply exp_pos.
  assert (E : speed t * p_dt q = bc * excess t) by (unfold speed, excess; field; lra). rewrite E. unfold excess at 1. unfold excess, Rmax at 1 2 3. fold bc in B.
  assert (X : 1 - bc = Rpower (p_bias q) (p_dt q)) by (unfold bc; ring). rewrite <- X in *. repeat destruct Rle_dec; try lra; nra.
Qed.
Lemma steps_inv os : Forall (fun o => (1 <= o_n o)%nat) os -> forall w t, inv w t (speed t / (ma + mb)) -> axis t -> 
  let t' := t + excess t - excess t * Rpower (p_bias q) (p_dt q * INR (length os)) in
  inv (fold_left (ball_step q l) os w) t' (speed t' / (ma + mb)) /\ axis t'.
Proof.
  induction os as [|o os IH]; intros F w t I A; cbv zeta; cbn [fold_left length].
  - cbn [INR]. rewrite Rmult_0_r, Rpower_O by assumption. replace (t + excess t - excess t * 1) with t by ring. auto.
  - inversion F; subst. destruct (step_inv w t _ o I A) as (I1 & A1 & _); [apply Rmult_le_pos; [apply speed_pos|left; now apply Rinv_0_lt_compat]|assumption|]. cbv zeta in *.
    replace (t + (ma + mb) * (speed t / (ma + mb)) * p_dt q) with (t + speed t * p_dt q) in * by (field; lra).
    destruct (IH ltac:(assumption) _ _ I1 A1) as [I2 A2]. rewrite excess_next in *. 
    match type of A2 with axis ?x => replace x with (t + excess t - excess t * Rpower (p_bias q) (p_dt q * INR (S (length os)))) in * end; [auto|].
    rewrite S_INR. replace (p_dt q * (INR (length os) + 1)) with (p_dt q + p_dt q * INR (length os)) by ring. rewrite Rpower_plus.
    assert (E : speed t * p_dt q = (1 - Rpower (p_bias q) (p_dt q)) * excess t) by (unfold speed, excess; fold bc; field; lra). rewrite E. ring.
Qed.
End Push.

Definition quiet_pair (l : balls) (H : Rheap) : Prop := b_vel (H (l_a l)) = vzero /\ b_vel (H (l_b l)) = vzero /\ b_w (H (l_a l)) = 0 /\ b_w (H (l_b l)) = 0.
Lemma direction (p r : Rvec) : exists n : Rvec, vdot n n = 1 /\ vsub r p = vscale n (vdist p r) /\ (vdist p r = 0 -> n = @V RNum 1 0).
Proof.
  destruct (Req_dec (vdist p r) 0) as [Z|Z].
  - exists (@V RNum 1 0). split; [unV; cbn; unR; ring|]. split; [|auto]. rewrite Z. assert (X : vsub r p = vzero).
    { assert (Y : vsub p r = vzero) by (apply mag_0; exact Z). pose proof (f_equal (@vx RNum) Y) as A. pose proof (f_equal (@vy RNum) Y) as B. revert A B. unV. cbn. unR. intros. f_equal; lra. }
    rewrite X. apply vec_ext; unV; cbn; unR; ring.
  - assert (Y : vsub r p <> vzero). { intros Y. apply Z. unfold vdist. replace (vsub p r) with (@vzero RNum); [apply mag_0; reflexivity|]. pose proof (f_equal (@vx RNum) Y) as A. pose proof (f_equal (@vy RNum) Y) as B. revert A B. unV. cbn. unR. intros. f_equal; lra. }
    exists (vunit (vsub r p)). split; [now apply unit_dot|]. split; [|contradiction]. replace (vdist p r) with (vmag (vsub r p)); [symmetry; now apply unit_scale|].
    unfold vdist, vmag. f_equal. unV. cbn. unR. ring.
Qed.
Theorem overlap_decays (q : pushing) (l : balls) (w : Rworld) (o : moment) (os : list moment) :
  l_a l <> l_b l -> NoDup (p_dyn q) -> 0 < p_dt q -> 0 <= ci_r (l_ca l) -> 0 <= ci_r (l_cb l) -> 0 <= p_slop q -> 0 < p_bias q <= 1 ->
  w_arbs w = [] -> w_joints w = [] -> ball_ok q (w_heap w (l_a l)) (l_a l) (l_ca l) -> ball_ok q (w_heap w (l_b l)) (l_b l) (l_cb l) -> 0 < b_minv (w_heap w (l_a l)) + b_minv (w_heap w (l_b l)) ->
  Forall (fun o => (1 <= o_n o)%nat) (o :: os) ->
  let w' := fold_left (ball_step q l) (o :: os) w in let x := overlap l (w_heap w) in
  (x <= p_slop q -> overlap l (w_heap w') = x) /\
  (p_slop q <= x -> overlap l (w_heap w') = p_slop q + (x - p_slop q) * Rpower (p_bias q) (p_dt q * INR (length os))) /\
  b_vel (w_heap w' (l_a l)) = vzero /\ b_vel (w_heap w' (l_b l)) = vzero /\ b_w (w_heap w' (l_a l)) = 0 /\ b_w (w_heap w' (l_b l)) = 0.
Proof.
  intros AB ND DT RA RB SL [B0 B1] WA WJ OA OB MM F. cbv zeta. destruct (direction (b_pos (w_heap w (l_a l))) (b_pos (w_heap w (l_b l)))) as (n & N1 & N2 & N3).
  set (t := vdist (b_pos (w_heap w (l_a l))) (b_pos (w_heap w (l_b l))) : R) in *. assert (T0 : 0 <= t) by apply mag_nonneg.
  set (ma := b_minv (w_heap w (l_a l)) : R) in *. set (mb := b_minv (w_heap w (l_b l)) : R) in *.
  assert (I0 : inv q l n ma mb w t 0).
  { destruct OA as ((A1 & A2 & A3 & A4 & A5 & A6) & (m & j & ops & A7) & A8 & A9 & A10), OB as ((D1 & D2 & D3 & D4 & D5 & D6) & (m' & j' & ops' & D7) & D8 & D9 & D10).
    split; [|split; [|split; [exact WJ|split; [rewrite WA; intros s c []|split; assumption]]]].
    - split; [|split; [|split; [reflexivity|split; [reflexivity|exact N2]]]]; repeat split; try assumption; [rewrite A5|rewrite D5]; apply vec_ext; unV; cbn; unR; ring.
    - split; [rewrite A7; apply history_coherent|]. split; [rewrite D7; apply history_coherent|]. split; assumption. }
  inversion F; subst. cbn [fold_left]. destruct (step_inv q l n ma mb AB N1 MM ND DT RA RB SL B0 B1 w t 0 o I0) as (I1 & A1 & _); [split; assumption|lra|assumption|]. cbv zeta in *.
  replace (t + (ma + mb) * 0 * p_dt q) with t in I1, A1 by ring.
  destruct (steps_inv q l n ma mb AB N1 MM ND DT RA RB SL B0 B1 os ltac:(assumption) _ _ I1 A1) as [I2 A2]. cbv zeta in *. set (t' := t + _ - _) in *. set (w' := fold_left _ os _) in *. clearbody w'.
  destruct I2 as ((C1 & C2 & _ & _ & T) & _). assert (D : vdist (b_pos (w_heap w' (l_a l))) (b_pos (w_heap w' (l_b l))) = t').
  { unfold vdist. replace (vsub (b_pos (w_heap w' (l_a l))) (b_pos (w_heap w' (l_b l)))) with (vscale n (- t'))%R.
    - rewrite mag_scale, Rabs_Ropp, Rabs_pos_eq by apply A2. replace (vmag n) with 1; [apply Rmult_1_r|]. unfold vmag. rewrite <- sqrt_1. unR. f_equal. rewrite <- N1. unV. cbn. unR. ring.
    - pose proof (f_equal (@vx RNum) T) as TX. pose proof (f_equal (@vy RNum) T) as TY. revert TX TY. unV. cbn. unR. intros. apply vec_ext; cbn; lra. }
  unfold overlap. rewrite D. fold t. unfold t', excess. split; [|split].
  - intros X. rewrite Rmax_left by lra. ring.
  - intros X. rewrite Rmax_right by lra. ring.
  - destruct C1 as (E1 & E2 & _), C2 as (E3 & E4 & _). auto.
Qed.
