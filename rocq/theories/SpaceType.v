(** Body.SetType keeps the invariant. *)
From Coq Require Import ZArith List Bool Arith Lia Permutation.
From Verif Require Import Num Space SpaceSpec SpaceInv SpaceMove SpaceWake SpaceActivate SpaceOps SpaceShapes.
Import ListNotations.
Local Open Scope nat_scope.

Section Type_.
Context {N : Num}.

Lemma ix_same Q s dx : winv Q s -> (forall e, In e dx <-> In e (s_dix s)) -> NoDup dx -> winv Q (set_ix s dx (s_six s)).
Proof.
  intros W E ND. set (s' := set_ix _ _ _). assert (E1 : s_dix s' = dx) by reflexivity. know s' s. clearbody s'.
  pose proof W as [I CL G KN WL WR]. apply (winv_of Q Q s); unfold roots, nexts; auto.
  - split; unfold ty; intros; rewrite ?TE, ?LE, ?OE, ?COE in *.
    all: try solve [xf s'; destruct I; eauto].
    xf s'. rewrite E. apply (is_dix _ _ _ I).
  - intros u v H P. unfold ty. xf s'. apply CL; auto.
  - intros y. unfold ty. xf s'. apply KN.
Qed.

Ltac t0 T0 s0 := match goal with |- context[b_type (s_body ?z _)] => change (s_body z) with (s_body s0) end; rewrite T0; clear T0; simpl.
Lemma type_move s b t s' :
  winv [] s -> parked s b = false -> (forall v, linked s b v -> parked s v = false) ->
  (b_in (s_body s b) = true \/ ((forall x, sh_in (s_shape s x) = true -> sh_body (s_shape s x) <> b) /\ no_con_in s b)) ->
  (forall y, b_type (s_body s' y) = if Nat.eqb b y then t else b_type (s_body s y)) ->
  (forall y, b_idle (s_body s' y) = if Nat.eqb b y then n0 else b_idle (s_body s y)) ->
  (forall y, b_shapes (s_body s' y) = b_shapes (s_body s y)) -> (forall y, b_arbs (s_body s' y) = b_arbs (s_body s y)) ->
  (forall y, b_cons (s_body s' y) = b_cons (s_body s y)) -> (forall y, b_in (s_body s' y) = b_in (s_body s y)) ->
  (forall y, b_root (s_body s' y) = b_root (s_body s y)) -> (forall y, b_next (s_body s' y) = b_next (s_body s y)) ->
  s_shape s' = s_shape s -> s_arb s' = s_arb s -> s_con s' = s_con s -> s_arbs s' = s_arbs s -> s_cache s' = s_cache s ->
  s_cons s' = s_cons s -> s_comps s' = s_comps s -> s_roused s' = s_roused s -> s_lock s' = s_lock s -> s_ids s' = s_ids s ->
  s_arbc s' = s_arbc s -> s_all s' = s_all s ->
  (forall y, In y (s_dyn s') <-> b_in (s_body s y) = true /\ b_type (s_body s' y) <> Static /\ parked s y = false) -> NoDup (s_dyn s') ->
  (forall y, In y (s_sta s') <-> b_in (s_body s y) = true /\ b_type (s_body s' y) = Static) -> NoDup (s_sta s') ->
  (forall h x, In (h, x) (s_dix s') <-> sh_in (s_shape s x) = true /\ h = sh_id (s_shape s x) /\
    b_type (s_body s' (sh_body (s_shape s x))) <> Static /\ parked s (sh_body (s_shape s x)) = false) -> NoDup (s_dix s') ->
  (forall h x, In (h, x) (s_six s') <-> sh_in (s_shape s x) = true /\ h = sh_id (s_shape s x) /\
    (b_type (s_body s' (sh_body (s_shape s x))) = Static \/ parked s (sh_body (s_shape s x)) = true)) -> NoDup (s_six s') ->
  winv [] s'.
Proof.
  intros W PB LP HB E1 E2 E3 E4 E5 E6 E7 E8 L1 L2 L3 L4 L5 L6 L7 L8 L9 L10 L11 L12 D1 D2 D3 D4 D5 D6 D7 D8.
  pose proof W as [I CL G KN WL WR].
  assert (TE : forall x, threaded s' x <-> threaded s x) by (apply threaded_eq; assumption).
  assert (LE : forall x, live s' x <-> live s x) by (apply live_eq; assumption).
  assert (LK : forall u v, linked s' u v -> linked s u v) by (apply linked_eq; assumption).
  (* the owners change only between bodies that are awake *)
  assert (OW : forall x, threaded s x -> (parked s (owner s' x) = false <-> parked s (owner s x) = false)).
  { intros x T. assert (T2 : In x (b_arbs (s_body s (ar_b (s_arb s x))))) by (apply (ia_s _ _ _ I); auto).
    assert (F : ar_a (s_arb s x) = b -> parked s (ar_b (s_arb s x)) = false).
    { intros <-. apply LP. left. exists x. auto. }
    unfold owner, is_type, ty. rewrite L2, E1. destruct (Nat.eqb_spec b (ar_a (s_arb s x))) as [D|D]; [|reflexivity].
    rewrite <- D in *. specialize (F eq_refl). destruct (btype_eqb t Static), (btype_eqb (b_type (s_body s b)) Static); rewrite ?F, ?PB; tauto. }
  assert (COW : forall c, co_in (s_con s c) = true -> (parked s (cowner s' c) = false <-> parked s (cowner s c) = false)).
  { intros c T.
    assert (F : co_a (s_con s c) = b -> parked s (co_b (s_con s c)) = false).
    { intros <-. apply LP. right. exists c. auto. }
    unfold cowner, is_type, ty. rewrite L3, E1. destruct (Nat.eqb_spec b (co_a (s_con s c))) as [D|D]; [|reflexivity].
    rewrite <- D in *. specialize (F eq_refl). destruct (btype_eqb t Static), (btype_eqb (b_type (s_body s b)) Static); rewrite ?F, ?PB; tauto. }
  apply (winv_of [] [] s); unfold roots, nexts; auto.
  - split; unfold ty; intros; rewrite ?TE, ?LE in *.
    all: try solve [xf s'; destruct I; eauto].
    + xf s'. rewrite D1, E1. reflexivity.
    + xf s'. rewrite D3, E1. reflexivity.
    + xf s'. destruct (Nat.eqb_spec b b0); [congruence|]. apply (ib_pd _ _ _ I); auto.
    + xf s'. destruct (Nat.eqb_spec b (sh_body (s_shape s x))) as [D|D]; [|apply (is_h _ _ _ I); auto].
      destruct HB as [HB|[HB _]]; [right; congruence|]. exfalso. eapply HB; eauto.
    + xf s'. rewrite D5, E1. reflexivity.
    + xf s'. rewrite D7, E1. reflexivity.
    + rewrite OW, L4 by auto. apply (ia_own _ _ _ I); auto.
    + xf s'. destruct (Nat.eqb_spec b (co_a (s_con s c))) as [D|D]; [|apply (ic_ha _ _ _ I); auto].
      destruct HB as [HB|[_ HB]]; [right; congruence|]. exfalso. apply HB in H. destruct H. congruence.
    + xf s'. destruct (Nat.eqb_spec b (co_b (s_con s c))) as [D|D]; [|apply (ic_hb _ _ _ I); auto].
      destruct HB as [HB|[_ HB]]; [right; congruence|]. exfalso. apply HB in H. destruct H. congruence.
    + rewrite L6, L3, (ic_own _ _ _ I). split; intros [H1 H2]; split; auto; apply COW; auto.
  - intros u v H P. unfold ty. xf s'. destruct (Nat.eqb_spec b v) as [D|D].
    + subst v. assert (F : parked s u = false) by (apply LP; eapply linked_sym; eauto). congruence.
    + apply CL; auto.
  - intros y. unfold ty. xf s'. destruct (b =? y); auto.
Qed.

Definition type_effect (s : space) (b : nat) (t : btype) (s' : space) : Prop :=
  (forall y, b_in (s_body s' y) = b_in (s_body s y)) /\ s_shape s' = s_shape s /\ s_con s' = s_con s /\
  (forall y, ty s' y = if Nat.eqb b y then t else ty s y) /\ (forall y, roots s' y = roots s y).
Lemma btype_eqb_spec a b : reflect (a = b) (btype_eqb a b).
Proof. destruct a, b; constructor; congruence. Qed.
Lemma entries_set s b v : b_shapes v = b_shapes (s_body s b) -> entries (set_body s b v) b = entries s b.
Proof. intros E. unfold entries. simpl. rewrite upd_same, E. reflexivity. Qed.

Lemma set_type_ok s b t : winv [] s -> valid (OSetType b t) s -> exists s', set_type b t s = Some s' /\ winv [] s' /\ type_effect s b t s'.
Proof.
  intros W [L [SL [HB HS]]]. pose proof W as [I CL G KN WL WR].
  assert (PB : parked s b = false).
  { apply parked_no. split; [apply sleeping_roots; auto|]. rewrite (WR L). auto. }
  assert (LP : forall v, linked s b v -> parked s v = false).
  { intros v LV. destruct (parked s v) eqn:PV; auto. exfalso. destruct (CL _ _ (linked_sym _ _ _ _ _ I LV) PV) as [T|[P _]]; [|congruence].
    specialize (HS T v LV). apply parked_spec in PV. destruct PV as [PV|PV]; [apply sleeping_roots in HS; congruence|]. rewrite (WR L) in PV. auto. }
  assert (HI : b_in (s_body s b) = true \/ ((forall x, sh_in (s_shape s x) = true -> sh_body (s_shape s x) <> b) /\ no_con_in s b)).
  { destruct HB as [[HB _]|[_ [H1 H2]]]; [left; exact HB|right]. split; auto. intros x H <-. apply (is_i _ _ _ I) in H as J. apply H1 in J.
    unfold contains_shape in J. congruence. }
  unfold set_type. destruct (btype_eqb_spec (ty s b) t) as [OT|OT].
  { exists s. split; auto. split; auto. repeat split; auto. intros y. destruct (Nat.eqb_spec b y); subst; auto. }
  cbv zeta. set (s0 := set_body s b _).
  assert (BI : b_in (s_body s0 b) = b_in (s_body s b)) by (unfold s0; simpl; rewrite upd_same; reflexivity).
  assert (T0 : forall y, b_type (s_body s0 y) = if Nat.eqb b y then t else b_type (s_body s y)).
  { intros y. unfold s0; simpl. unfold upd. destruct (Nat.eqb_spec b y); subst; reflexivity. }
  assert (I0 : forall y, b_idle (s_body s0 y) = if Nat.eqb b y then n0 else b_idle (s_body s y)).
  { intros y. unfold s0; simpl. unfold upd. destruct (Nat.eqb_spec b y); subst; reflexivity. }
  assert (EF : type_effect s b t s0).
  { split; [|split; [reflexivity|split; [reflexivity|split; [exact T0|]]]]; intros y; unfold roots; unfold s0; simpl; unfold upd; destruct (Nat.eqb_spec b y); subst; reflexivity. }
  rewrite BI. destruct HB as [[CB AS]|[CB [NS NC]]]; unfold contains_body in CB; rewrite CB; simpl negb; cbv iota.
  2:{ (* not in the space *)
    exists s0. split; auto. split; auto. destruct HI as [HI|[HI _]]; [congruence|].
    apply (type_move s b t); auto.
    all: try (intros y; unfold s0; simpl; unfold upd; destruct (Nat.eqb_spec b y); subst; reflexivity).
    - intros y. rewrite T0. simpl. rewrite (ib_dyn _ _ _ I). unfold ty. destruct (Nat.eqb_spec b y); [subst|tauto]. intuition congruence.
    - apply (ib_dynn _ _ _ I).
    - intros y. rewrite T0. simpl. rewrite (ib_sta _ _ _ I). unfold ty. destruct (Nat.eqb_spec b y); [subst|tauto]. intuition congruence.
    - apply (ib_stan _ _ _ I).
    - intros h x. rewrite T0. simpl. rewrite (is_dix _ _ _ I). unfold ty. destruct (Nat.eqb_spec b (sh_body (s_shape s x))) as [D|D]; [|tauto].
      split; intros [H _]; exfalso; eapply HI; eauto.
    - apply (is_dn _ _ _ I).
    - intros h x. rewrite T0. simpl. rewrite (is_six _ _ _ I). unfold ty. destruct (Nat.eqb_spec b (sh_body (s_shape s x))) as [D|D]; [|tauto].
      split; intros [H _]; exfalso; eapply HI; eauto.
    - apply (is_sn _ _ _ I). }
  assert (L0 : s_lock s0 = 0%Z) by exact L. try rewrite L0; try rewrite L. simpl negb. cbv iota.
  assert (EN : forall e, In e (entries s b) <-> sh_body (s_shape s (snd e)) = b /\ sh_in (s_shape s (snd e)) = true /\ fst e = sh_id (s_shape s (snd e))).
  { intros e. rewrite (entries_in _ _ _ _ _ I). split.
    - intros [H1 H2]. split; [apply (is_b _ _ _ I); auto|]. split; auto. apply AS; auto.
    - intros [H1 [H2 H3]]. split; auto. rewrite <- H1. apply (is_i _ _ _ I); auto. }
  assert (END := entries_nd _ _ _ b I).
  assert (ES : entries s0 b = entries s b) by (apply entries_set; reflexivity).
  destruct (btype_eqb_spec (ty s b) Static) as [OS|OS].
  - (* from static *)
    assert (TS : t <> Static) by congruence.
    change (entries (set_lists s0 (s_dyn s0 ++ [b]) (remove1 b (s_sta s0))) b) with (entries s0 b). rewrite ES. simpl s_six. simpl s_dix.
    destruct (ix_move_all (entries s b) (s_six s) (s_dix s)) as [six [dix [E [X1 [X2 [X3 X4]]]]]]; auto.
    { intros [h x] H. apply EN in H. simpl in H. destruct H as [H1 [H2 H3]]. apply (is_six _ _ _ I). rewrite H1. auto. }
    { intros [h x] H J. apply EN in H. apply (is_dix _ _ _ I) in J. simpl in H. destruct H as [H1 _]. rewrite H1 in J. tauto. }
    { apply (is_sn _ _ _ I). } { apply (is_dn _ _ _ I). }
    rewrite E. eexists. split; [reflexivity|]. split; [|exact EF].
    apply (type_move s b t); auto.
    all: try (intros y; unfold s0; simpl; unfold upd; destruct (Nat.eqb_spec b y); subst; reflexivity).
    + intros y. t0 T0 s0. rewrite in_app_iff, (ib_dyn _ _ _ I). simpl. unfold ty in *. destruct (Nat.eqb_spec b y); [subst|]; intuition congruence.
    + simpl. apply nd_snoc; [apply (ib_dynn _ _ _ I)|]. rewrite (ib_dyn _ _ _ I). tauto.
    + intros y. t0 T0 s0. rewrite remove1_spec, (ib_sta _ _ _ I) by apply (ib_stan _ _ _ I). unfold ty in *. destruct (Nat.eqb_spec b y); [subst|]; intuition congruence.
    + simpl. apply remove1_nd, (ib_stan _ _ _ I).
    + intros h x. t0 T0 s0. rewrite X2, EN, (is_dix _ _ _ I). simpl. unfold ty in *.
      destruct (Nat.eqb_spec b (sh_body (s_shape s x))) as [D|D].
      * rewrite <- D. intuition congruence.
      * intuition congruence.
    + intros h x. t0 T0 s0. rewrite X1, EN, (is_six _ _ _ I). simpl. unfold ty in *.
      destruct (Nat.eqb_spec b (sh_body (s_shape s x))) as [D|D].
      * rewrite <- D. intuition congruence.
      * intuition congruence.
  - destruct (btype_eqb_spec t Static) as [TS|TS].
    + (* to static *)
      assert (BA : body_activate b s0 = Some s0).
      { unfold body_activate. replace (is_type s0 b Dynamic) with false; auto. symmetry. apply is_type_f. unfold ty. rewrite T0, Nat.eqb_refl. congruence. }
      rewrite BA.
      change (entries (set_lists s0 (remove1 b (s_dyn s0)) (s_sta s0 ++ [b])) b) with (entries s0 b). rewrite ES. simpl s_six. simpl s_dix.
      destruct (ix_move_all (entries s b) (s_dix s) (s_six s)) as [dix [six [E [X1 [X2 [X3 X4]]]]]]; auto.
      { intros [h x] H. apply EN in H. simpl in H. destruct H as [H1 [H2 H3]]. apply (is_dix _ _ _ I). rewrite H1. auto. }
      { intros [h x] H J. apply EN in H. apply (is_six _ _ _ I) in J. simpl in H. destruct H as [H1 _]. rewrite H1 in J. destruct J as [_ [_ [J|J]]]; congruence. }
      { apply (is_dn _ _ _ I). } { apply (is_sn _ _ _ I). }
      rewrite E. eexists. split; [reflexivity|]. split; [|exact EF].
      apply (type_move s b t); auto.
      all: try (intros y; unfold s0; simpl; unfold upd; destruct (Nat.eqb_spec b y); subst; reflexivity).
      * intros y. t0 T0 s0. rewrite remove1_spec, (ib_dyn _ _ _ I) by apply (ib_dynn _ _ _ I). unfold ty in *. destruct (Nat.eqb_spec b y); [subst|]; intuition congruence.
      * simpl. apply remove1_nd, (ib_dynn _ _ _ I).
      * intros y. t0 T0 s0. rewrite in_app_iff, (ib_sta _ _ _ I). simpl. unfold ty in *. destruct (Nat.eqb_spec b y); [subst|]; intuition congruence.
      * simpl. apply nd_snoc; [apply (ib_stan _ _ _ I)|]. rewrite (ib_sta _ _ _ I). tauto.
      * intros h x. t0 T0 s0. rewrite X1, EN, (is_dix _ _ _ I). simpl. unfold ty in *.
        destruct (Nat.eqb_spec b (sh_body (s_shape s x))) as [D|D].
        -- rewrite <- D. intuition congruence.
        -- intuition congruence.
      * intros h x. t0 T0 s0. rewrite X2, EN, (is_six _ _ _ I). simpl. unfold ty in *.
        destruct (Nat.eqb_spec b (sh_body (s_shape s x))) as [D|D].
        -- rewrite <- D. intuition congruence.
        -- intuition congruence.
    + (* between dynamic and kinematic *)
      assert (W0 : winv [] s0).
      { apply (type_move s b t); auto.
        all: try (intros y; unfold s0; simpl; unfold upd; destruct (Nat.eqb_spec b y); subst; reflexivity).
        - intros y. rewrite T0. simpl. rewrite (ib_dyn _ _ _ I). unfold ty in *. destruct (Nat.eqb_spec b y); [subst|]; intuition congruence.
        - apply (ib_dynn _ _ _ I).
        - intros y. rewrite T0. simpl. rewrite (ib_sta _ _ _ I). unfold ty in *. destruct (Nat.eqb_spec b y); [subst|]; intuition congruence.
        - apply (ib_stan _ _ _ I).
        - intros h x. rewrite T0. simpl. rewrite (is_dix _ _ _ I). unfold ty in *. destruct (Nat.eqb_spec b (sh_body (s_shape s x))) as [D|D]; [rewrite <- D|]; intuition congruence.
        - apply (is_dn _ _ _ I).
        - intros h x. rewrite T0. simpl. rewrite (is_six _ _ _ I). unfold ty in *. destruct (Nat.eqb_spec b (sh_body (s_shape s x))) as [D|D]; [rewrite <- D|]; intuition congruence.
        - apply (is_sn _ _ _ I). }
      destruct (body_activate_ok [] s0 b W0) as [s1 [E [W1 K]]]. rewrite E. pose proof (k_core _ _ _ K) as C. pose proof (w_p _ _ W1) as I1.
      assert (P1 : parked s1 b = false) by (exact (after_wake _ _ _ _ W0 L0 K)).
      assert (T1 : ty s1 b <> Static).
      { rewrite (ce_type _ _ _ C). unfold ty. rewrite T0, Nat.eqb_refl. auto. }
      assert (SI : forall x, In x (b_shapes (s_body s1 b)) -> sh_in (s_shape s1 x) = true).
      { intros x H. rewrite <- (ce_sh _ _ C) in H. rewrite <- (ce_shape _ _ C). unfold s0 in H. simpl in H. rewrite upd_same in H. apply AS. exact H. }
      destruct (ix_move_back (entries s1 b) (s_dix s1)) as [dx [E2 [X1 X2]]].
      { eapply entries_nd; eauto. }
      { intros [h x] H. apply (entries_in _ _ _ _ _ I1) in H. simpl in H. destruct H as [H1 H2]. apply (is_dix _ _ _ I1).
        pose proof (is_b _ _ _ I1 _ _ H1) as BE. rewrite BE. auto. }
      { apply (is_dn _ _ _ I1). }
      rewrite E2. eexists. split; [reflexivity|]. split; [apply ix_same; auto|].
      destruct EF as [F1 [F2 [F3 [F4 F5]]]]. split; [|split; [|split; [|split]]]; unfold roots.
      * intros y. simpl. rewrite <- (ce_in _ _ C). apply F1.
      * simpl. rewrite <- (ce_shape _ _ C). auto.
      * simpl. rewrite <- (ce_con _ _ C). auto.
      * intros y. change (ty s1 y = if b =? y then t else ty s y). rewrite (ce_type _ _ _ C). apply F4.
      * intros y. change (roots s1 y = roots s y). rewrite <- F5. apply (k_out _ _ _ K). intros [H _]. apply H. rewrite F5. apply sleeping_roots; auto.
Qed.
End Type_.
