(** Body.Activate keeps the invariant; exactly one group wakes. *)
From Coq Require Import ZArith List Bool Arith Lia Permutation.
From Verif Require Import Num Space SpaceSpec SpaceInv SpaceMove SpaceWake.
Import ListNotations.
Local Open Scope nat_scope.

Section Activate.
Context {N : Num}.

(* y is in the sleeping group of b *)
Definition same_group (s : space) (b y : nat) : Prop := roots s b <> None /\ roots s y = roots s b.
Record waked (s : space) (b : nat) (s' : space) : Prop := {
  k_core : core_eq s s';
  k_sta : s_sta s' = s_sta s; k_lock : s_lock s' = s_lock s; k_ids : s_ids s' = s_ids s;
  k_arbc : s_arbc s' = s_arbc s; k_all : s_all s' = s_all s;
  k_arbs : exists l, s_arbs s' = s_arbs s ++ l; k_cons : exists l, s_cons s' = s_cons s ++ l;
  k_in : forall y, same_group s b y -> roots s' y = None;
  k_out : forall y, ~ same_group s b y -> roots s' y = roots s y /\ (s_lock s = 0%Z -> parked s' y = parked s y);
  k_comps : s_comps s' = match roots s b with Some r => remove1 r (s_comps s) | None => s_comps s end;
  k_roused : s_lock s = 0%Z -> s_roused s' = s_roused s;
  k_dyn : s_lock s = 0%Z -> exists l, s_dyn s' = s_dyn s ++ l /\ NoDup l /\ forall y, In y l <-> same_group s b y;
  k_locked : s_lock s <> 0%Z -> (forall y, parked s' y = parked s y) /\ lists_eq s s';
  k_idle : ty s b = Dynamic -> b_idle (s_body s' b) = n0;
  k_ros : reset_or_same s s' }.

Lemma tame_waked s b s1 s' : tame s1 s' -> reset_or_same s1 s' -> waked s b s1 -> (ty s b = Dynamic -> b_idle (s_body s1 b) = n0) -> waked s b s'.
Proof.
  intros T RS K KI. destruct T as [C L R X M U LK TK]. destruct K.
  assert (PE : forall y, parked s' y = parked s1 y) by (intros; apply parked_eq; auto).
  split; try congruence.
  - eapply core_trans; eauto.
  - rewrite <- (le_sta _ _ L). auto.
  - rewrite <- (le_ids _ _ L). auto.
  - rewrite <- (le_arbc _ _ L). auto.
  - rewrite <- (le_all _ _ L). auto.
  - rewrite <- (le_arbs _ _ L). auto.
  - rewrite <- (le_cons _ _ L). auto.
  - intros y H. rewrite R. auto.
  - intros y H. rewrite R, PE. auto.
  - intros H. rewrite U; auto.
  - intros H. rewrite <- (le_dyn _ _ L). auto.
  - intros H. destruct (k_locked0 H) as [A B]. split; [intros; rewrite PE; auto|eapply lists_trans; eauto].
  - intros D. specialize (KI D). specialize (RS b). destruct RS; congruence.
  - eapply ros_trans; eauto.
Qed.

(* after the loop over the group *)
Lemma wake_post Q s r l s1 pl :
  winv Q s -> In r (s_comps s) -> chain (nexts s) r l -> (forall b, In b l <-> roots s b = Some r) ->
  woken s l s1 -> rest_eq s s1 -> pinv (parked s1) Q s1 -> NoDup (s_roused s1) ->
  (forall y, In y (s_roused s1) -> In y (s_roused s) \/ In y l) ->
  (forall y, In y l -> parked s1 y = pl) -> (forall y, ~ In y l -> parked s1 y = parked s y) ->
  (s_lock s = 0%Z -> s_roused s1 = []) ->
  winv Q (set_comps s1 (remove1 r (s_comps s1))).
Proof.
  intros WI HR CH ML W RE PI NR SR PL PN LR. destruct WI as [I CL G KN WL WR].
  assert (C : core_eq s s1) by (destruct RE; eapply woken_core; eauto).
  assert (RT : forall y, roots s1 y = if mem y l then None else roots s y).
  { intros y. unfold roots. rewrite (W y). destruct (mem y l); reflexivity. }
  assert (NT : forall y, ~ In y l -> nexts s1 y = nexts s y).
  { intros y H. unfold nexts. rewrite (W y), (proj2 (mem_false y l)); auto. }
  assert (RO : forall y, ~ In y l -> roots s1 y = roots s y) by (intros y H; rewrite RT, (proj2 (mem_false y l)); auto).
  assert (RI : forall y, In y l -> roots s1 y = None) by (intros y H; rewrite RT, (proj2 (mem_spec y l)); auto).
  set (s2 := set_comps s1 _).
  split.
  - eapply pinv_core with (s := s1); [split; reflexivity|split; reflexivity|]. exact PI.
  - intros u v H P. change (parked s2) with (parked s1) in *. change (roots s2) with (roots s1). change (ty s2) with (ty s1).
    apply (linked_core s2 s) in H; [|apply core_sym; eapply core_trans; [exact C|split; reflexivity]].
    rewrite (ce_type _ _ _ C). destruct (in_dec Nat.eq_dec u l) as [U|U].
    + assert (PU : parked s u = true) by (apply parked_spec; left; apply ML in U; congruence).
      destruct (CL _ _ H PU) as [|[P' E]]; auto. right. assert (V : In v l) by (apply ML; rewrite <- E; apply ML; auto).
      rewrite (PL _ V), <- (PL _ U), P, (RI _ U), (RI _ V). auto.
    + rewrite PN in P by auto. destruct (CL _ _ H P) as [|[P' E]]; auto. right.
      assert (V : ~ In v l) by (intros V; apply U; apply ML; rewrite E; apply ML; auto).
      rewrite (PN _ V), (RO _ U), (RO _ V). auto.
  - destruct G as [G1 G2 G3 G4 G5 G6].
    assert (SC : s_comps s2 = remove1 r (s_comps s)) by (simpl; rewrite (re_comps _ _ RE); reflexivity).
    split; rewrite ?SC; change (roots s2) with (roots s1); change (nexts s2) with (nexts s1); change (s_roused s2) with (s_roused s1).
    + apply remove1_nd; auto.
    + intros r' H. apply remove1_spec in H; auto. destruct H as [H D]. destruct (G2 r' H) as [l' [A [B E]]]. exists l'.
      assert (DJ : forall y, In y l' -> ~ In y l) by (intros y Y1 Y2; apply E in Y1; apply ML in Y2; congruence).
      split; [eapply chain_ext; eauto; intros y Y; symmetry; apply NT; auto|]. split; auto.
      intros b. rewrite E. rewrite RT. destruct (mem b l) eqn:M; [|reflexivity].
      apply mem_spec, ML in M. split; congruence.
    + intros b r' H. rewrite RT in H. destruct (mem b l) eqn:M; [discriminate|]. apply remove1_spec; auto. split; [eapply G3; eauto|].
      intros ->. apply mem_false in M. apply M, ML. auto.
    + intros b H. destruct (in_dec Nat.eq_dec b l) as [U|U].
      * unfold nexts. rewrite (W b), (proj2 (mem_spec b l) U). reflexivity.
      * rewrite NT by auto. apply G4. rewrite <- RO; auto.
    + auto.
    + intros b H. destruct (SR _ H) as [H1|H1]; auto. rewrite RT. destruct (mem b l); auto.
  - intros b H. change (ty s2 b) with (ty s1 b) in H. rewrite (ce_type _ _ _ C) in H. change (s_body s2 b) with (s_body s1 b).
    rewrite (W b). destruct (mem b l); simpl; auto.
  - simpl. rewrite (re_lock _ _ RE). auto.
  - simpl. rewrite (re_lock _ _ RE). auto.
Qed.

Lemma group_of Q s b r : winv Q s -> roots s b = Some r -> In r (s_comps s) /\ roots s r = Some r /\
  exists l, chain (nexts s) r l /\ NoDup l /\ (forall y, In y l <-> roots s y = Some r) /\ length l <= length (s_all s).
Proof.
  intros W H. destruct W as [I CL G KN WL WR]. pose proof (g_root _ G _ _ H) as R. destruct (g_chain _ G _ R) as [l [C [ND E]]].
  split; auto. split; [apply E; eapply chain_head; eauto|]. exists l. split; auto. split; auto. split; auto.
  apply NoDup_incl_length; auto. intros y Y. apply (ib_all _ _ _ I). apply (ib_pd _ _ _ I).
  apply parked_spec. left. apply E in Y. congruence.
Qed.

Lemma body_activate_ok Q s b : winv Q s -> exists s', body_activate b s = Some s' /\ winv Q s' /\ waked s b s'.
Proof.
  intros W. unfold body_activate.
  destruct (is_type s b Dynamic) eqn:T; simpl negb; cbv iota.
  2:{ exists s. split; auto. split; auto. apply is_type_f in T.
      assert (R : roots s b = None).
      { destruct (roots s b) eqn:R; auto. exfalso. apply T. eapply (ib_pd _ _ _ (w_p _ _ W)). apply parked_spec. left. congruence. }
      split; try reflexivity; auto using core_refl, ros_refl; try (exists []; rewrite app_nil_r; reflexivity).
      - intros y [H _]. congruence.
      - rewrite R. reflexivity.
      - intros _. exists []. rewrite app_nil_r. split; auto. split; [constructor|]. intros y. unfold same_group. simpl. intuition.
      - intros _. split; auto using lists_refl.
      - intros H. congruence. }
  set (s0 := set_body s b (w_idle (s_body s b) n0)).
  assert (T0 : tame s s0) by (apply idle_tame; auto).
  assert (W0 : winv Q s0) by (eapply tame_winv; eauto).
  assert (D0 : reset_or_same s s0) by apply ros_idle.
  assert (I0 : b_idle (s_body s0 b) = n0) by (simpl; rewrite upd_same; reflexivity).
  assert (SG : forall y, same_group s0 b y <-> same_group s b y) by (intros y; unfold same_group; rewrite !(t_roots _ _ T0); reflexivity).
  change (b_root (s_body s0 b)) with (roots s0 b).
  assert (MAIN : exists s1,
    match roots s0 b with
    | Some r => if is_sleeping s0 r then if b_in (s_body s0 r) then
          match wake_loop (S (length (s_all s0))) (Some r) s0 with
          | Some s1 => Some (set_comps s1 (remove1 r (s_comps s1))) | None => None end else None else Some s0
    | None => Some s0 end = Some s1 /\ winv Q s1 /\ waked s0 b s1).
  { destruct (roots s0 b) as [r|] eqn:R.
    2:{ exists s0. split; auto. split; auto.
        split; try reflexivity; auto using core_refl, ros_refl; try (exists []; rewrite app_nil_r; reflexivity).
        - intros y [H _]. congruence.
        - rewrite R. reflexivity.
        - intros _. exists []. rewrite app_nil_r. split; auto. split; [constructor|]. intros y. unfold same_group. simpl. intuition.
        - intros _. split; auto using lists_refl. }
    destruct (group_of _ _ _ _ W0 R) as [HR [RR [l [CH [ND [ML LL]]]]]].
    assert (SL : is_sleeping s0 r = true) by (unfold is_sleeping; unfold roots in RR; rewrite RR; auto). rewrite SL.
    assert (BI : b_in (s_body s0 r) = true).
    { apply (ib_pd _ _ _ (w_p _ _ W0)). apply parked_spec. left. congruence. } rewrite BI.
    assert (SGL : forall y, same_group s0 b y <-> In y l).
    { intros y. unfold same_group. rewrite ML, R. intuition congruence. }
    destruct (Z.eq_dec (s_lock s0) 0) as [L|L].
    - destruct (wake_unlocked Q l r s0 (parked s0) (S (length (s_all s0)))) as [s1 [E [PI [WK [RE [RU DD]]]]]]; auto.
      { apply (w_p _ _ W0). } { intros y Y. apply parked_spec. left. apply ML in Y. congruence. }
      rewrite E. eexists. split; [reflexivity|].
      assert (RT : forall y, roots s1 y = if mem y l then None else roots s0 y).
      { intros y. unfold roots. rewrite (WK y). destruct (mem y l); reflexivity. }
      assert (PQ : forall y, minus_l (parked s0) l y = parked s1 y).
      { intros y. unfold minus_l, parked, is_sleeping, waiting. change (b_root (s_body s1 y)) with (roots s1 y).
        change (b_root (s_body s0 y)) with (roots s0 y). rewrite RT, RU, (w_r _ _ W0 L). destruct (mem y l); simpl; [apply andb_false_r|apply andb_true_r]. }
      assert (PI1 : pinv (parked s1) Q s1) by (eapply pinv_ext; eauto).
      split.
      + apply (wake_post Q s0 r l s1 false); auto.
        * rewrite RU, (w_r _ _ W0 L). constructor.
        * rewrite RU, (w_r _ _ W0 L). intros y [].
        * intros y Y. rewrite <- PQ. unfold minus_l. rewrite (proj2 (mem_spec _ _) Y). apply andb_false_r.
        * intros y Y. rewrite <- PQ. unfold minus_l. rewrite (proj2 (mem_false _ _) Y). apply andb_true_r.
        * rewrite RU. auto using (w_r _ _ W0).
      + assert (C : core_eq s0 s1) by (destruct RE; eapply woken_core; eauto). destruct RE.
        split; simpl; auto.
        * eapply core_trans; [exact C|split; reflexivity].
        * intros y Y. change (roots s1 y = None). rewrite RT. apply SGL in Y. rewrite (proj2 (mem_spec _ _) Y). auto.
        * intros y Y. change (roots s1 y = roots s0 y /\ (s_lock s0 = 0%Z -> parked s1 y = parked s0 y)). rewrite SGL in Y.
          rewrite RT, <- PQ. unfold minus_l. rewrite (proj2 (mem_false _ _) Y), andb_true_r. auto.
        * rewrite R, re_comps. reflexivity.
        * intros _. exists l. split; auto. split; auto. intros y. rewrite SGL. reflexivity.
        * intros H. exfalso. apply H. exact L.
        * intros _. rewrite (WK b). destruct (mem b l); auto.
        * intros y. simpl. rewrite (WK y). destruct (mem y l); auto.
    - destruct (wake_locked l r s0 (S (length (s_all s0)))) as [s1 [E [WK [RE [LE [NR SR]]]]]]; auto.
      { apply (g_rn _ (w_g _ _ W0)). }
      rewrite E. eexists. split; [reflexivity|].
      assert (RT : forall y, roots s1 y = if mem y l then None else roots s0 y).
      { intros y. unfold roots. rewrite (WK y). destruct (mem y l); reflexivity. }
      assert (C : core_eq s0 s1) by (destruct RE; eapply woken_core; eauto).
      assert (PQ : forall y, parked s0 y = parked s1 y).
      { intros y. apply eq_iff_eq_true. rewrite !parked_spec, RT, SR. destruct (mem y l) eqn:M.
        - apply mem_spec in M. split; auto. intros _. left. apply ML in M. congruence.
        - apply mem_false in M. tauto. }
      assert (PI1 : pinv (parked s1) Q s1) by (eapply pinv_ext; [exact PQ|]; eapply pinv_core; eauto; apply (w_p _ _ W0)).
      split.
      + apply (wake_post Q s0 r l s1 true); auto.
        * intros y. rewrite SR. auto.
        * intros y Y. rewrite <- PQ. apply parked_spec. left. apply ML in Y. congruence.
        * contradiction.
      + destruct RE. split; simpl; auto.
        * eapply core_trans; [exact C|split; reflexivity].
        * intros y Y. change (roots s1 y = None). rewrite RT. apply SGL in Y. rewrite (proj2 (mem_spec _ _) Y). auto.
        * intros y Y. change (roots s1 y = roots s0 y /\ (s_lock s0 = 0%Z -> parked s1 y = parked s0 y)). rewrite SGL in Y.
          rewrite RT, (proj2 (mem_false _ _) Y). auto.
        * rewrite R, re_comps. reflexivity.
        * contradiction.
        * contradiction.
        * intros _. split; [intros y; change (parked s1 y = parked s0 y); auto|]. eapply lists_trans; [exact LE|split; reflexivity].
        * intros _. rewrite (WK b). destruct (mem b l); auto.
        * intros y. simpl. rewrite (WK y). destruct (mem y l); auto. }
  destruct MAIN as [s1 [E [W1 K1]]]. rewrite E. eexists. split; [reflexivity|].
  assert (T1 := resets_tame b (b_arbs (s_body s1 b)) s1). set (s2 := fold_left _ _ _) in *.
  split; [eapply tame_winv; eauto|].
  assert (TD : ty s b = Dynamic) by (apply is_type_t; auto).
  assert (TD0 : ty s0 b = Dynamic) by (rewrite (ce_type _ _ _ (t_core _ _ T0)); auto).
  assert (K2 : waked s0 b s2).
  { eapply tame_waked; eauto. apply ros_resets. intros _. apply (k_idle _ _ _ K1). auto. }
  destruct K2. destruct T0 as [C L R X M U LK TK].
  assert (PE : forall y, parked s0 y = parked s y) by (intros; apply parked_eq; auto).
  split; try congruence; try assumption.
  - eapply core_trans; eauto.
  - intros y H. apply k_in0. apply SG. auto.
  - intros y H. rewrite <- (R y), <- (PE y). apply k_out0. rewrite SG. auto.
  - rewrite k_comps0, R, M. reflexivity.
  - intros H. destruct (k_dyn0 H) as [l [A [B D]]]. exists l. split; auto. split; auto. intros y. rewrite D. apply SG.
  - intros H. destruct (k_locked0 H) as [A B]. split; [intros; rewrite A; auto|]. eapply lists_trans; eauto.
  - intros _. auto.
  - eapply ros_trans; eauto.
Qed.
End Activate.
