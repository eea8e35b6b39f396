(** Proofs for C55. *)
From Coq Require Import ZArith List Bool Arith Lia.
From Verif Require Import Num NumFloat Space SpaceSpec SpaceInv SpaceMove SpaceWake SpaceActivate SpaceCons SpaceMain SpaceMore SpaceRuns SpaceEach.
Import ListNotations.
Local Open Scope nat_scope.

Section Each.
Context {N : Num}.

(** A callback that wakes nobody. *)
Definition wakes_nobody (cb : callback) : Prop := forall b s y, In y (cb b s) -> is_sleeping s y = false.

(** ** What activating does while the space is locked *)
Record kept (s s' : space) : Prop := {
  kp_dyn : s_dyn s' = s_dyn s; kp_sta : s_sta s' = s_sta s; kp_dix : s_dix s' = s_dix s; kp_six : s_six s' = s_six s;
  kp_cons : s_cons s' = s_cons s; kp_lock : s_lock s' = s_lock s; kp_all : s_all s' = s_all s;
  kp_comps : incl (s_comps s') (s_comps s);
  kp_next : forall b, b_next (s_body s' b) = b_next (s_body s b) \/ b_next (s_body s' b) = None }.
Lemma kept_refl s : kept s s. Proof. split; auto. apply incl_refl. Qed.
Lemma kept_trans s1 s2 s3 : kept s1 s2 -> kept s2 s3 -> kept s1 s3.
Proof.
  intros [] []. split; try congruence; [eapply incl_tran; eauto|]. intros b. destruct (kp_next1 b) as [E|E]; auto. destruct (kp_next0 b) as [F|F]; rewrite F in E; auto.
Qed.
Lemma kept_body s b v : b_next v = b_next (s_body s b) \/ b_next v = None -> kept s (set_body s b v).
Proof.
  intros H. split; simpl; auto; [apply incl_refl|]. intros y. unfold upd. destruct (Nat.eqb_spec b y) as [->|]; auto.
Qed.
Lemma kept_reset b s : kept s (reset_idle b s).
Proof. unfold reset_idle. destruct (is_type s b Static); [apply kept_refl|]. apply kept_body. simpl. auto. Qed.
Lemma kept_space_activate b s s' : s_lock s <> 0%Z -> space_activate b s = Some s' -> kept s s'.
Proof.
  intros L. unfold space_activate. apply Z.eqb_neq in L. rewrite L. simpl. intros E. inversion E. clear E. destruct (mem b (s_roused s)); [apply kept_refl|].
  split; simpl; auto. apply incl_refl.
Qed.
Lemma kept_wake n : forall cur s s', s_lock s <> 0%Z -> wake_loop n cur s = Some s' -> kept s s'.
Proof.
  induction n as [|n IH]; intros [b|] s s' L E; simpl in E; try discriminate; try (inversion E; apply kept_refl).
  destruct (space_activate _ _) as [s1|] eqn:A; [|discriminate].
  assert (K0 : kept s (set_body s b (w_sleep (w_idle (s_body s b) n0) None None))) by (apply kept_body; simpl; auto).
  assert (K1 := kept_space_activate b (set_body s b (w_sleep (w_idle (s_body s b) n0) None None)) s1 L A).
  pose proof (kept_trans _ _ _ K0 K1) as K. eapply kept_trans; [exact K|]. eapply IH; eauto. rewrite (kp_lock _ _ K). auto.
Qed.
Lemma kept_fold {A} (f : space -> A -> space) (H : forall s a, kept s (f s a)) l : forall s, kept s (fold_left f l s).
Proof. induction l as [|a l IH]; intros s; simpl; [apply kept_refl|]. eapply kept_trans; [apply H|apply IH]. Qed.
Lemma kept_activate b s s' : s_lock s <> 0%Z -> body_activate b s = Some s' -> kept s s'.
Proof.
  intros L. unfold body_activate. destruct (is_type s b Dynamic); [|intros E; inversion E; apply kept_refl]. cbn [negb].
  set (s0 := set_body s b (w_idle (s_body s b) n0)). assert (K0 : kept s s0) by (apply kept_body; simpl; auto).
  assert (L0 : s_lock s0 <> 0%Z) by (rewrite (kp_lock _ _ K0); auto). clearbody s0.
  set (w := match b_root (s_body s0 b) with Some _ => _ | None => _ end). intros E. destruct w as [s1|] eqn:W; [|discriminate]. unfold w in W. clear w.
  inversion E as [E']. clear E E'. assert (K1 : kept s0 s1).
  { destruct (b_root (s_body s0 b)) as [r|]; [|inversion W; apply kept_refl]. destruct (is_sleeping s0 r); [|inversion W; apply kept_refl].
    destruct (b_in (s_body s0 r)); [|discriminate]. destruct (wake_loop _ _ _) as [s2|] eqn:WL; [|discriminate]. inversion W. apply kept_wake in WL; auto.
    eapply kept_trans; [exact WL|]. split; simpl; auto. intros x X. eapply remove1_in; eauto. }
  eapply kept_trans; [exact K0|]. eapply kept_trans; [exact K1|]. apply kept_fold. intros; apply kept_reset.
Qed.
Lemma activate_reachable b s : reachable s -> exists s', body_activate b s = Some s' /\ reachable s'.
Proof. intros R. destruct (no_panic s (OTouch b) R I) as [s' [E R']]. eauto. Qed.
Lemma call_list l : forall s, reachable s -> s_lock s <> 0%Z -> exists s', ofold body_activate l s = Some s' /\ reachable s' /\ kept s s'.
Proof.
  induction l as [|b l IH]; intros s R L; [exists s; split; [reflexivity|split; auto; apply kept_refl]|].
  destruct (activate_reachable b s R) as [s1 [E1 R1]]. pose proof (kept_activate _ _ _ L E1) as K1.
  destruct (IH s1 R1) as [s2 [E2 [R2 K2]]]; [rewrite (kp_lock _ _ K1); auto|]. exists s2. rewrite ofold_cons, E1. split; auto. split; auto. eapply kept_trans; eauto.
Qed.
Lemma call_any cb b s : reachable s -> s_lock s <> 0%Z -> exists s', call cb b s = Some s' /\ reachable s' /\ kept s s'.
Proof. apply call_list. Qed.

(** ** Activating a body that is awake *)
Record same (s s' : space) : Prop := {
  sm_kept : kept s s'; sm_comps : s_comps s' = s_comps s; sm_next : forall b, b_next (s_body s' b) = b_next (s_body s b);
  sm_root : forall b, b_root (s_body s' b) = b_root (s_body s b) }.
Lemma same_refl s : same s s. Proof. split; auto. apply kept_refl. Qed.
Lemma same_trans s1 s2 s3 : same s1 s2 -> same s2 s3 -> same s1 s3.
Proof. intros [] []. split; [eapply kept_trans; eauto|congruence|intros; congruence|intros; congruence]. Qed.
Lemma same_idle s b x : same s (set_body s b (w_idle (s_body s b) x)).
Proof. split; [apply kept_body; simpl; auto|reflexivity| |]; intros y; simpl; unfold upd; destruct (Nat.eqb_spec b y) as [->|]; auto. Qed.
Lemma same_activate b s : is_sleeping s b = false -> exists s', body_activate b s = Some s' /\ same s s'.
Proof.
  intros A. unfold body_activate. destruct (is_type s b Dynamic); [|exists s; split; auto; apply same_refl]. cbn [negb].
  pose proof (same_idle s b n0) as K. set (s0 := set_body s b _) in *. clearbody s0.
  replace (b_root (s_body s0 b)) with (@None nat); [|rewrite (sm_root _ _ K); unfold is_sleeping in A; destruct (b_root _); [discriminate|auto]].
  eexists. split; [reflexivity|]. eapply same_trans; [exact K|]. clear K.
  generalize (b_arbs (s_body s0 b)). intros l. revert s0. induction l as [|x l IH]; intros s0; simpl; [apply same_refl|].
  eapply same_trans; [|apply IH]. unfold reset_idle. destruct (is_type _ _ _); [apply same_refl|apply same_idle].
Qed.
Lemma same_sleeping s s' b : same s s' -> is_sleeping s' b = is_sleeping s b.
Proof. intros S. unfold is_sleeping. rewrite (sm_root _ _ S). reflexivity. Qed.
Lemma call_same_list l : forall s, (forall y, In y l -> is_sleeping s y = false) -> exists s', ofold body_activate l s = Some s' /\ same s s'.
Proof.
  induction l as [|b l IH]; intros s A; [exists s; split; [reflexivity|apply same_refl]|].
  destruct (same_activate b s) as [s1 [E1 S1]]; [apply A; left; auto|].
  destruct (IH s1) as [s2 [E2 S2]]; [intros y Y; rewrite (same_sleeping s s1); auto; apply A; right; auto|]. exists s2. rewrite ofold_cons, E1. split; auto. eapply same_trans; eauto.
Qed.
Lemma call_same cb b s : wakes_nobody cb -> exists s', call cb b s = Some s' /\ same s s'.
Proof. intros W. apply call_same_list. intros y. apply W. Qed.

(** ** Loops, any callback *)
Lemma list_any cb l : forall s, reachable s -> s_lock s <> 0%Z -> exists s', each_list cb l s = Some (l, s') /\ reachable s' /\ kept s s'.
Proof.
  induction l as [|b l IH]; intros s R L; simpl; [exists s; split; auto; split; auto; apply kept_refl|].
  destruct (call_any cb b s R L) as [s1 [E1 [R1 K1]]]. rewrite E1. destruct (IH s1 R1) as [s2 [E2 [R2 K2]]]; [rewrite (kp_lock _ _ K1); auto|].
  exists s2. rewrite E2. split; auto. split; auto. eapply kept_trans; eauto.
Qed.
Lemma chain_any cb s0 : forall l b fuel s, visits s0 b l -> kept s0 s -> length l <= fuel -> reachable s -> s_lock s <> 0%Z ->
  exists t u s', each_chain fuel cb (Some b) s = Some (b :: t, s') /\ l = b :: t ++ u /\ reachable s' /\ kept s0 s'.
Proof.
  induction l as [|a l IH]; intros b fuel s V K F R L; [inversion V|].
  destruct fuel as [|fuel]; [simpl in F; lia|]. simpl. assert (a = b) by (inversion V; auto). subst a.
  destruct (call_any cb b s R L) as [s1 [E1 [R1 K1]]]. rewrite E1. assert (L1 : s_lock s1 <> 0%Z) by (rewrite (kp_lock _ _ K1); auto). pose proof (kept_trans _ _ _ K K1) as K2.
  destruct (kp_next _ _ K b) as [NX|NX].
  - inversion V as [? NN|? c ? NN VV]; subst.
    + rewrite NX, NN. exists [], [], s1. destruct fuel; simpl; auto.
    + rewrite NX, NN. destruct (IH c fuel s1 VV K2 ltac:(simpl in F; lia) R1 L1) as [t [u [s2 [E2 [D2 [R2 K3]]]]]]. rewrite E2. exists (c :: t), u, s2. simpl. rewrite D2. auto.
  - rewrite NX. exists [], l, s1. destruct fuel; simpl; auto.
Qed.
Lemma members_fit s r l : reachable s -> visits s r l -> NoDup l -> (forall b, In b l <-> group s b = Some r) -> length l <= S (length (s_all s)).
Proof.
  intros R V ND G. apply le_S. apply NoDup_incl_length; auto. intros b B. apply G in B. apply sleeping_group in B; auto. apply (ib_all _ _ _ (w_p _ _ (reachable_ok s R))). tauto.
Qed.
Lemma group_any cb s0 n : forall k arr s, reachable s0 -> incl arr (s_comps s0) -> kept s0 s -> reachable s -> s_lock s <> 0%Z ->
  exists t s', each_group n k arr cb s = Some (t, s') /\ reachable s' /\ kept s0 s' /\ forall b, In b t -> is_sleeping s0 b = true.
Proof.
  induction n as [|n IH]; intros k arr s R0 A K R L; simpl; [exists [], s; simpl; tauto|].
  destruct (nth_error arr k) as [r|] eqn:E; [|exists [], s; simpl; tauto].
  assert (IR : In r (s_comps s0)) by (apply A; eapply nth_error_In; eauto).
  destruct (group_list s0 r R0 IR) as [l [V [ND G]]].
  assert (F : length l <= S (length (s_all s))) by (rewrite (kp_all _ _ K); eapply members_fit; eauto).
  destruct (chain_any cb s0 l r _ s V K F R L) as [t [u [s1 [E1 [D1 [R1 K1]]]]]].
  change (match call cb r s with Some s2 => also [r] (each_chain (length (s_all s)) cb (b_next (s_body s r)) s2) | None => None end) with (each_chain (S (length (s_all s))) cb (Some r) s).
  rewrite E1. cbn [then_].
  destruct (IH (S k) (s_comps s1 ++ skipn (length (s_comps s1)) arr) s1) as [t2 [s2 [E2 [R2 [K2 C2]]]]]; auto.
  - apply incl_app; [apply (kp_comps _ _ K1)|]. intros x X. apply A. rewrite <- (firstn_skipn (length (s_comps s1)) arr). apply in_or_app. right. auto.
  - rewrite (kp_lock _ _ K1), <- (kp_lock _ _ K). auto.
  - exists ((r :: t) ++ t2), s2. rewrite E2. split; [reflexivity|]. split; auto. split; auto. intros b B. apply in_app_iff in B. destruct B as [B|B]; auto.
    assert (IB : In b l) by (rewrite D1; destruct B as [<-|B]; [left; auto|right; apply in_app_iff; auto]).
    apply G in IB. unfold is_sleeping. unfold group in IB. rewrite IB. reflexivity.
Qed.

(** ** Loops, callbacks that wake nobody *)
Lemma list_same cb l (W : wakes_nobody cb) : forall s, exists s', each_list cb l s = Some (l, s') /\ same s s'.
Proof.
  induction l as [|b l IH]; intros s; simpl; [exists s; split; auto; apply same_refl|].
  destruct (call_same cb b s W) as [s1 [E1 S1]]. rewrite E1. destruct (IH s1) as [s2 [E2 S2]]. exists s2. rewrite E2. split; auto. eapply same_trans; eauto.
Qed.
Lemma visits_same s s' b l : same s s' -> visits s b l -> visits s' b l.
Proof. intros S. induction 1; [constructor 1|econstructor 2; eauto]; rewrite (sm_next _ _ S); auto. Qed.
Lemma chain_same cb (W : wakes_nobody cb) : forall l b fuel s, visits s b l -> length l <= fuel -> exists s', each_chain fuel cb (Some b) s = Some (l, s') /\ same s s'.
Proof.
  induction l as [|a l IH]; intros b fuel s V F; [inversion V|]. destruct fuel as [|fuel]; [simpl in F; lia|]. assert (a = b) by (inversion V; auto). subst a. simpl.
  destruct (call_same cb b s W) as [s1 [E1 S1]]. rewrite E1. inversion V as [? NN|? c ? NN VV]; subst; rewrite NN.
  - exists s1. destruct fuel; simpl; auto.
  - destruct (IH c fuel s1) as [s2 [E2 S2]]; [eapply visits_same; eauto|simpl in F; lia|]. exists s2. rewrite E2. split; auto. eapply same_trans; eauto.
Qed.
Lemma group_same cb (W : wakes_nobody cb) s0 n : forall k s, reachable s0 -> same s0 s -> k + n = length (s_comps s0) ->
  exists t s', each_group n k (s_comps s0) cb s = Some (t, s') /\ same s0 s' /\ NoDup t /\
    forall b, In b t <-> exists r, In r (skipn k (s_comps s0)) /\ group s0 b = Some r.
Proof.
  induction n as [|n IH]; intros k s R0 S L; simpl.
  - exists [], s. split; auto. split; auto. split; [constructor|]. intros b. rewrite skipn_all2 by lia. simpl. split; [tauto|]. intros [r [[] _]].
  - destruct (nth_error (s_comps s0) k) as [r|] eqn:E; [|apply nth_error_None in E; lia].
    assert (IR : In r (s_comps s0)) by (eapply nth_error_In; eauto).
    destruct (group_list s0 r R0 IR) as [l [V [ND G]]].
    assert (F : length l <= Datatypes.S (length (s_all s))) by (rewrite (kp_all _ _ (sm_kept _ _ S)); eapply members_fit; eauto).
    destruct (chain_same cb W l r _ s (visits_same _ _ _ _ S V) F) as [s1 [E1 S1]].
    change (match call cb r s with Some s2 => also [r] (each_chain (length (s_all s)) cb (b_next (s_body s r)) s2) | None => None end) with (each_chain (Datatypes.S (length (s_all s))) cb (Some r) s).
    rewrite E1. cbn [then_]. pose proof (same_trans _ _ _ S S1) as S2. rewrite (sm_comps _ _ S2), skipn_all, app_nil_r.
    destruct (IH (Datatypes.S k) s1 R0 S2 ltac:(lia)) as [t [s2 [E2 [S3 [NT MT]]]]]. rewrite E2. exists (l ++ t), s2. split; [reflexivity|]. split; auto.
    assert (SK : skipn k (s_comps s0) = r :: skipn (Datatypes.S k) (s_comps s0)).
    { clear -E. revert E. generalize (s_comps s0). induction k as [|k IH]; intros [|a m] E; simpl in *; try discriminate; [congruence|]. apply IH; auto. }
    pose proof (groups_nodup s0 R0) as NG.
    assert (NR : ~ In r (skipn (Datatypes.S k) (s_comps s0))).
    { rewrite <- (firstn_skipn k (s_comps s0)), SK in NG. apply NoDup_remove_2 in NG. intros X. apply NG. apply in_app_iff. auto. }
    split.
    + apply nd_app; auto. intros b B C. apply G in B. apply MT in C. destruct C as [q [Q1 Q2]]. assert (q = r) by congruence. subst q. contradiction.
    + intros b. rewrite in_app_iff, G, MT, SK. simpl. split.
      * intros [H|[q [H1 H2]]]; [exists r; auto|exists q; auto].
      * intros [q [[<-|H1] H2]]; [auto|right; exists q; auto].
Qed.

(** ** The methods of a space *)
Lemma locked_ok s : reachable s -> s_lock s = 0%Z -> reachable (lock s) /\ s_lock (lock s) <> 0%Z.
Proof. intros R L. destruct (no_panic s OLock R I) as [s' [E R']]. simpl in E. inversion E; subst. split; auto. simpl. lia. Qed.
Lemma unlocked_ok t s : reachable s -> s_lock s = 1%Z -> exists s', unlocked (Some (t, s)) = Some (t, s') /\ reachable s' /\ s_lock s' = 0%Z.
Proof.
  intros R L. destruct (no_panic s OUnlock R) as [s' [E R']]; [simpl; lia|]. exists s'. destruct (unlock_wakes s s' R L E) as [L' _]. simpl in E. unfold unlocked. rewrite E. auto.
Qed.
Lemma reach_lock_groups s r : In r (s_comps s) <-> In r (s_comps (lock s)). Proof. reflexivity. Qed.

(* every callback: the enumeration runs to its end, meets only bodies of the space, and misses none that was awake *)
Lemma each_body_any cb s : reachable s -> s_lock s = 0%Z -> exists t s', each_body cb s = Some (t, s') /\ reachable s' /\ s_lock s' = 0%Z /\
  (forall b, In b t -> contains_body s b = true) /\ (forall b, contains_body s b = true -> is_sleeping s b = false -> In b t).
Proof.
  intros R L. destruct (locked_ok s R L) as [R0 L0]. unfold each_body.
  destruct (list_any cb (s_dyn s) (lock s) R0 L0) as [s1 [E1 [R1 K1]]]. rewrite E1. cbn [then_].
  destruct (list_any cb (s_sta s1) s1 R1) as [s2 [E2 [R2 K2]]]; [rewrite (kp_lock _ _ K1); auto|]. rewrite E2. cbn [then_]. pose proof (kept_trans _ _ _ K1 K2) as K12.
  assert (KI : incl (s_comps s2) (s_comps (lock s))) by apply (kp_comps _ _ K12).
  destruct (group_any cb (lock s) (length (s_comps s2)) 0 (s_comps s2) s2 R0 KI K12 R2) as [t [s3 [E3 [R3 [K3 T3]]]]]; [rewrite (kp_lock _ _ K12); auto|].
  unfold each_groups. rewrite E3. cbn [also].
  destruct (unlocked_ok (s_dyn s ++ s_sta s1 ++ t) s3 R3) as [s4 [E4 [R4 L4]]]; [rewrite (kp_lock _ _ K3); simpl; lia|].
  rewrite E4. do 2 eexists. split; [reflexivity|]. split; auto. split; auto.
  replace (s_sta s1) with (s_sta s) by (symmetry; apply (kp_sta _ _ K1)).
  split; intros b; rewrite !in_app_iff; destruct (bodies_listed s b R L) as [_ [_ [B1 [B2 B3]]]].
  - intros [H|[H|H]]; [apply B2 in H; tauto|apply B1 in H; tauto|]. apply T3 in H. apply B3 in H. tauto.
  - intros C A. destruct (btype_eqb (ty s b) Static) eqn:T.
    + right. left. apply B1. split; auto. destruct (ty s b); try discriminate; auto.
    + left. apply B2. split; auto. split; auto. intros X. rewrite X in T. discriminate.
Qed.
Lemma groups_same cb (W : wakes_nobody cb) s s2 : reachable s -> s_lock s = 0%Z -> same (lock s) s2 ->
  exists t s', each_groups cb s2 = Some (t, s') /\ same (lock s) s' /\ NoDup t /\ forall b, In b t <-> is_sleeping s b = true.
Proof.
  intros R L S2. destruct (locked_ok s R L) as [R0 L0]. unfold each_groups. rewrite (sm_comps _ _ S2).
  destruct (group_same cb W (lock s) (length (s_comps (lock s))) 0 s2 R0 S2 eq_refl) as [t [s3 [E3 [S3 [NT MT]]]]].
  exists t, s3. split; auto. split; auto. split; auto. intros b. rewrite MT. simpl skipn. split.
  - intros [r [H1 H2]]. unfold group in H2. simpl in H2. unfold is_sleeping. rewrite H2. reflexivity.
  - intros H. unfold is_sleeping in H. destruct (b_root (s_body s b)) as [r|] eqn:E; [|discriminate]. exists r. split; auto. apply (sleeping_group s b r R) in E. tauto.
Qed.
(* after an enumeration whose callback wakes nobody *)
Lemma same_end t s s3 : reachable s -> s_lock s = 0%Z -> same (lock s) s3 -> reachable s3 ->
  exists s', unlocked (Some (t, s3)) = Some (t, s') /\ reachable s' /\ s_lock s' = 0%Z.
Proof. intros R L S R3. apply unlocked_ok; auto. rewrite (kp_lock _ _ (sm_kept _ _ S)). simpl. lia. Qed.
Lemma list_same_r cb l (W : wakes_nobody cb) s : reachable s -> s_lock s <> 0%Z -> exists s', each_list cb l s = Some (l, s') /\ same s s' /\ reachable s'.
Proof.
  intros R L. destruct (list_same cb l W s) as [s1 [E1 S1]]. destruct (list_any cb l s R L) as [s2 [E2 [R2 _]]]. assert (s1 = s2) by congruence. subst. eauto.
Qed.
Lemma groups_same_r cb (W : wakes_nobody cb) s s2 : reachable s -> s_lock s = 0%Z -> same (lock s) s2 -> reachable s2 ->
  exists t s', each_groups cb s2 = Some (t, s') /\ same (lock s) s' /\ reachable s' /\ NoDup t /\ forall b, In b t <-> is_sleeping s b = true.
Proof.
  intros R L S2 R2. destruct (groups_same cb W s s2 R L S2) as [t [s3 [E3 [S3 [NT MT]]]]].
  destruct (locked_ok s R L) as [R0 L0].
  destruct (group_any cb (lock s) (length (s_comps s2)) 0 (s_comps s2) s2 R0 (kp_comps _ _ (sm_kept _ _ S2)) (sm_kept _ _ S2) R2) as [t' [s3' [E3' [R3 _]]]]; [rewrite (kp_lock _ _ (sm_kept _ _ S2)); auto|].
  unfold each_groups in E3. assert (s3 = s3') by congruence. subst s3'. exists t, s3. auto.
Qed.
Lemma each_body_exact cb s : reachable s -> s_lock s = 0%Z -> wakes_nobody cb -> exists t s', each_body cb s = Some (t, s') /\ reachable s' /\ s_lock s' = 0%Z /\
  NoDup t /\ forall b, In b t <-> contains_body s b = true.
Proof.
  intros R L W. destruct (locked_ok s R L) as [R0 L0]. unfold each_body.
  destruct (list_same_r cb (s_dyn s) W (lock s) R0 L0) as [s1 [E1 [S1 R1]]]. rewrite E1. cbn [then_].
  destruct (list_same_r cb (s_sta s1) W s1 R1) as [s2 [E2 [S2 R2]]]; [rewrite (kp_lock _ _ (sm_kept _ _ S1)); auto|]. rewrite E2. cbn [then_]. pose proof (same_trans _ _ _ S1 S2) as S12.
  destruct (groups_same_r cb W s s2 R L S12 R2) as [t [s3 [E3 [S3 [R3 [NT MT]]]]]]. rewrite E3. cbn [also].
  destruct (same_end (s_dyn s ++ s_sta s1 ++ t) s s3 R L S3 R3) as [s4 [E4 [R4 L4]]]. rewrite E4. do 2 eexists. split; [reflexivity|]. split; auto. split; auto.
  replace (s_sta s1) with (s_sta s) by (symmetry; apply (kp_sta _ _ (sm_kept _ _ S1))).
  assert (BL := fun b => bodies_listed s b R L). destruct (BL 0) as [ND [NS _]]. split.
  - apply nd_app; auto; [apply nd_app; auto|]; intros b H1 H2; destruct (BL b) as [_ [_ [B1 [B2 B3]]]].
    + apply B1 in H1. apply MT, B3 in H2. destruct H1, H2; congruence.
    + apply B2 in H1. apply in_app_iff in H2. destruct H2 as [H2|H2]; [apply B1 in H2; tauto|apply MT in H2; destruct H1 as [_ [_ H1]]; congruence].
  - intros b. destruct (BL b) as [_ [_ [B1 [B2 B3]]]]. rewrite !in_app_iff, MT, B1, B2. split; [|intros C].
    + intros [H|[H|H]]; [tauto|tauto|apply B3 in H; tauto].
    + destruct (is_sleeping s b) eqn:SL; auto. destruct (ty s b) eqn:T; auto; left; repeat split; auto; discriminate.
Qed.
Lemma each_static_body_exact cb s : reachable s -> s_lock s = 0%Z -> exists t s', each_static_body cb s = Some (t, s') /\ reachable s' /\ s_lock s' = 0%Z /\
  NoDup t /\ forall b, In b t <-> contains_body s b = true /\ ty s b = Static.
Proof.
  intros R L. destruct (locked_ok s R L) as [R0 L0]. unfold each_static_body.
  destruct (list_any cb (s_sta s) (lock s) R0 L0) as [s1 [E1 [R1 K1]]]. rewrite E1.
  destruct (unlocked_ok (s_sta s) s1 R1) as [s4 [E4 [R4 L4]]]; [rewrite (kp_lock _ _ K1); simpl; lia|]. rewrite E4. do 2 eexists. split; [reflexivity|]. split; auto. split; auto.
  split; [apply (bodies_listed s 0 R L)|]. intros b. apply (bodies_listed s b R L).
Qed.
Lemma each_dynamic_body_exact cb s : reachable s -> s_lock s = 0%Z -> wakes_nobody cb -> exists t s', each_dynamic_body cb s = Some (t, s') /\ reachable s' /\ s_lock s' = 0%Z /\
  NoDup t /\ forall b, In b t <-> contains_body s b = true /\ ty s b <> Static.
Proof.
  intros R L W. destruct (locked_ok s R L) as [R0 L0]. unfold each_dynamic_body.
  destruct (list_same_r cb (s_dyn s) W (lock s) R0 L0) as [s1 [E1 [S1 R1]]]. rewrite E1. cbn [then_].
  destruct (groups_same_r cb W s s1 R L S1 R1) as [t [s3 [E3 [S3 [R3 [NT MT]]]]]]. rewrite E3. cbn [also].
  destruct (same_end (s_dyn s ++ t) s s3 R L S3 R3) as [s4 [E4 [R4 L4]]]. rewrite E4. do 2 eexists. split; [reflexivity|]. split; auto. split; auto.
  assert (BL := fun b => bodies_listed s b R L). destruct (BL 0) as [ND [NS _]]. split.
  - apply nd_app; auto. intros b H1 H2. destruct (BL b) as [_ [_ [B1 [B2 B3]]]]. apply B2 in H1. apply MT in H2. destruct H1 as [_ [_ H1]]; congruence.
  - intros b. destruct (BL b) as [_ [_ [B1 [B2 B3]]]]. rewrite !in_app_iff, MT, B2. split; [intros [H|H]; [tauto|apply B3 in H; destruct H as [H ->]; split; auto; discriminate]|].
    intros [C D]. destruct (is_sleeping s b) eqn:SL; auto.
Qed.

(** ** Shapes *)
Lemma nodup_snd (l : list (nat * nat)) : NoDup l -> (forall a b x, In (a, x) l -> In (b, x) l -> a = b) -> NoDup (map snd l).
Proof.
  induction 1 as [|[a x] l H ND IH]; simpl; intros U; [constructor|]. constructor.
  - intros I. apply in_map_iff in I. destruct I as [[b y] [E I]]. simpl in E. subst y. apply H. rewrite (U a b x); auto.
  - apply IH. intros. eapply U; eauto.
Qed.
Lemma index_lists s : reachable s -> s_lock s = 0%Z -> NoDup (map snd (s_dix s)) /\ NoDup (map snd (s_six s)) /\
  (forall x, In x (map snd (s_dix s)) <-> contains_shape s x = true /\ ty s (sh_body (s_shape s x)) <> Static /\ is_sleeping s (sh_body (s_shape s x)) = false) /\
  (forall x, In x (map snd (s_six s)) <-> contains_shape s x = true /\ (ty s (sh_body (s_shape s x)) = Static \/ is_sleeping s (sh_body (s_shape s x)) = true)).
Proof.
  intros R L. assert (SL := fun x => shapes_listed s x R L). destruct (SL 0) as [ND [NS _]]. split; [|split; [|split]].
  - apply nodup_snd; auto. intros a b x A B. apply SL in A, B. destruct A as [_ [A _]], B as [_ [B _]]. congruence.
  - apply nodup_snd; auto. intros a b x A B. apply SL in A, B. destruct A as [_ [A _]], B as [_ [B _]]. congruence.
  - intros x. rewrite in_map_iff. split.
    + intros [[h y] [E H]]. simpl in E. subst y. apply SL in H. tauto.
    + intros H. exists (sh_id (s_shape s x), x). split; auto. apply SL. tauto.
  - intros x. rewrite in_map_iff. split.
    + intros [[h y] [E H]]. simpl in E. subst y. apply SL in H. tauto.
    + intros H. exists (sh_id (s_shape s x), x). split; auto. apply SL. tauto.
Qed.
Lemma each_list_end cb l s : reachable s -> s_lock s = 0%Z -> exists s', unlocked (each_list cb l (lock s)) = Some (l, s') /\ reachable s' /\ s_lock s' = 0%Z.
Proof.
  intros R L. destruct (locked_ok s R L) as [R0 L0]. destruct (list_any cb l (lock s) R0 L0) as [s1 [E1 [R1 K1]]]. rewrite E1.
  apply unlocked_ok; auto. rewrite (kp_lock _ _ K1). simpl. lia.
Qed.
Lemma each_static_shape_exact cb s : reachable s -> s_lock s = 0%Z -> exists t s', each_static_shape cb s = Some (t, s') /\ reachable s' /\ s_lock s' = 0%Z /\
  NoDup t /\ forall x, In x t <-> contains_shape s x = true /\ (ty s (sh_body (s_shape s x)) = Static \/ is_sleeping s (sh_body (s_shape s x)) = true).
Proof.
  intros R L. destruct (each_list_end cb (map snd (s_six s)) s R L) as [s' [E [R' L']]]. exists (map snd (s_six s)), s'. destruct (index_lists s R L) as [A [B [C D]]]. auto.
Qed.
Lemma each_dynamic_shape_exact cb s : reachable s -> s_lock s = 0%Z -> exists t s', each_dynamic_shape cb s = Some (t, s') /\ reachable s' /\ s_lock s' = 0%Z /\
  NoDup t /\ forall x, In x t <-> contains_shape s x = true /\ ty s (sh_body (s_shape s x)) <> Static /\ is_sleeping s (sh_body (s_shape s x)) = false.
Proof.
  intros R L. destruct (each_list_end cb (map snd (s_dix s)) s R L) as [s' [E [R' L']]]. exists (map snd (s_dix s)), s'. destruct (index_lists s R L) as [A [B [C D]]]. auto.
Qed.
Lemma each_shape_exact cb s : reachable s -> s_lock s = 0%Z -> exists t s', each_shape cb s = Some (t, s') /\ reachable s' /\ s_lock s' = 0%Z /\
  NoDup t /\ (forall x, In x t <-> contains_shape s x = true) /\ length t = shape_count s.
Proof.
  intros R L. destruct (locked_ok s R L) as [R0 L0]. unfold each_shape.
  destruct (list_any cb (map snd (s_dix s)) (lock s) R0 L0) as [s1 [E1 [R1 K1]]]. rewrite E1. cbn [then_].
  destruct (list_any cb (map snd (s_six s1)) s1 R1) as [s2 [E2 [R2 K2]]]; [rewrite (kp_lock _ _ K1); auto|]. rewrite E2. cbn [also].
  destruct (unlocked_ok (map snd (s_dix s) ++ map snd (s_six s1)) s2 R2) as [s4 [E4 [R4 L4]]]; [rewrite (kp_lock _ _ (kept_trans _ _ _ K1 K2)); simpl; lia|].
  rewrite E4. do 2 eexists. split; [reflexivity|]. split; auto. split; auto. rewrite (kp_six _ _ K1). simpl. destruct (index_lists s R L) as [A [B [C D]]]. split; [|split].
  - apply nd_app; auto. intros x X Y. apply C in X. apply D in Y. destruct X as [_ [X1 X2]], Y as [_ [Y|Y]]; congruence.
  - intros x. rewrite in_app_iff, C, D. split; [tauto|]. intros H. destruct (is_sleeping s (sh_body (s_shape s x))) eqn:S; auto. destruct (ty s (sh_body (s_shape s x))); auto; left; repeat split; auto; discriminate.
  - rewrite app_length, !map_length. unfold shape_count, static_shape_count, dynamic_shape_count. lia.
Qed.
Lemma each_constraint_exact cb s : reachable s -> s_lock s = 0%Z -> exists t s', each_constraint cb s = Some (t, s') /\ reachable s' /\ s_lock s' = 0%Z /\
  NoDup t /\ forall c, In c t <-> contains_constraint s c = true /\ is_sleeping s (co_a (s_con s c)) = false /\ is_sleeping s (co_b (s_con s c)) = false.
Proof.
  intros R L. destruct (each_list_end cb (s_cons s) s R L) as [s' [E [R' L']]]. exists (s_cons s), s'. split; auto. split; auto. split; auto.
  split; [apply (constraints_listed s 0 R L)|]. intros c. apply (constraints_listed s c R L).
Qed.

(** ** Removing every constraint of a body while enumerating them *)
Lemma filter_head c l : filter_constraints c (c :: l) = Some l.
Proof. simpl. rewrite Nat.eqb_refl. reflexivity. Qed.
Lemma remove_con_effect c b l s : reachable s -> s_lock s = 0%Z -> b_cons (s_body s b) = c :: l ->
  exists s', remove_constraint c s = Some s' /\ reachable s' /\ s_lock s' = 0%Z /\ b_cons (s_body s' b) = l /\
    (forall d, contains_constraint s' d = if Nat.eqb d c then false else contains_constraint s d) /\
    (forall d, co_a (s_con s' d) = co_a (s_con s d) /\ co_b (s_con s' d) = co_b (s_con s d)).
Proof.
  intros R L H. assert (IC : In c (b_cons (s_body s b))) by (rewrite H; left; auto). apply (constraint_lists s b R) in IC. destruct IC as [V EB].
  pose proof (reachable_ok s R) as W. destruct (no_panic s (ORemoveConstraint c) R (conj L V)) as [s' [E R']]. simpl in E. exists s'. split; auto. split; auto.
  destruct (remove_constraint_ok s c W (conj L V)) as [s'' [E' [_ [_ [_ CE]]]]]. assert (s'' = s') by congruence. subst s''. clear E'.
  assert (AB : co_a (s_con s c) <> co_b (s_con s c)) by (apply (ic_ne _ _ _ (w_p _ _ W)); auto).
  unfold remove_constraint in E. destruct (wake_two [] s (co_a (s_con s c)) (co_b (s_con s c)) W L) as [s1 [s2 [E1 [E2 [_ [C [_ [_ L2]]]]]]]]. rewrite E1, E2 in E.
  rewrite (ce_co _ _ C) in H. unfold body_remove_constraint in E. cbn [s_body set_cons] in E.
  destruct (filter_constraints c (b_cons (s_body s2 (co_a (s_con s c))))) as [la|] eqn:FA; [|discriminate E]. cbn [s_body set_body] in E. rewrite upd_other in E by auto.
  cbn [s_body set_cons] in E. destruct (filter_constraints c (b_cons (s_body s2 (co_b (s_con s c))))) as [lb|] eqn:FB; [|discriminate E]. injection E as E'. subst s'.
  split; [exact L2|]. split.
  - simpl. unfold upd. destruct EB as [<-|<-].
    + destruct (Nat.eqb_spec (co_b (s_con s c)) (co_a (s_con s c))); [congruence|]. rewrite Nat.eqb_refl. simpl. rewrite H, filter_head in FA. congruence.
    + rewrite Nat.eqb_refl. simpl. rewrite H, filter_head in FB. congruence.
  - split; intros d.
    + unfold contains_constraint. rewrite CE, (Nat.eqb_sym d c). destruct (Nat.eqb c d); auto.
    + rewrite CE. destruct (Nat.eqb_spec c d); subst; auto.
Qed.
Lemma each_con_remove b l : forall s, reachable s -> s_lock s = 0%Z -> b_cons (s_body s b) = l ->
  exists s', each_con_of (length l) remove_constraint b (hd_error l) s = Some (l, s') /\ reachable s' /\ s_lock s' = 0%Z /\
    (forall d, contains_constraint s' d = true <-> contains_constraint s d = true /\ ~ In d l) /\ b_cons (s_body s' b) = [].
Proof.
  induction l as [|c l IH]; intros s R L H; simpl.
  - exists s. split; auto. split; auto. split; auto. split; auto. intros d. tauto.
  - rewrite H. simpl. rewrite Nat.eqb_refl. destruct (remove_con_effect c b l s R L H) as [s1 [E1 [R1 [L1 [H1 [C1 _]]]]]]. rewrite E1.
    destruct (IH s1 R1 L1 H1) as [s2 [E2 [R2 [L2 [C2 H2]]]]]. rewrite E2. exists s2. split; [reflexivity|]. split; auto. split; auto. split; auto.
    intros d. rewrite C2, C1. destruct (Nat.eqb_spec d c).
    + subst. split; [intros [? _]; discriminate|]. intros [_ X]. exfalso. apply X. auto.
    + split; [intros [A B]; split; auto; intros [X|X]; congruence|]. intros [A B]. auto.
Qed.
Lemma each_constraint_of_remove b s : reachable s -> s_lock s = 0%Z ->
  exists t s', each_constraint_of remove_constraint b s = Some (t, s') /\ reachable s' /\ NoDup t /\
    (forall c, In c t <-> contains_constraint s c = true /\ (co_a (s_con s c) = b \/ co_b (s_con s c) = b)) /\
    (forall c, contains_constraint s' c = true <-> contains_constraint s c = true /\ co_a (s_con s c) <> b /\ co_b (s_con s c) <> b).
Proof.
  intros R L. destruct (each_con_remove b _ s R L eq_refl) as [s' [E [R' [L' [C H]]]]]. destruct (constraint_lists s b R) as [ND IC].
  exists (b_cons (s_body s b)), s'. split; auto. split; auto. split; auto. split; auto. intros c. rewrite C, IC. intuition.
Qed.
End Each.

(** ** Runs *)
Local Existing Instance FNum.
(* the order of the calls *)
Definition order (c : calls) : option (list nat) := match c with Some (t, _) => Some t | None => None end.
Definition quiet : callback := fun _ _ => [].
(* a callback that wakes the body it is given *)
Definition self_waker : callback := fun b _ => [b].
Notation lone := (runb three_h (space0 (tyf []) (fun x => x) (fun _ => Co 0 0 false false))).
Lemma quiet_ok : wakes_nobody quiet. Proof. intros b s y []. Qed.
Lemma waker_skips : exists s : space, reachable s /\ s_lock s = 0%Z /\ map (contains_body s) [0; 1; 2] = [true; true; true] /\
  order (each_body self_waker s) = Some [0; 2; 2] /\ order (each_body quiet s) = Some [0; 1; 2].
Proof.
  destruct (sees_ex lone (fun _ => true)) as [s [E _]]; [vm_compute; reflexivity|].
  assert (Q : forall A (f : space -> A) v, match lone with Some s => f s | None => v end = v -> f s = v) by (intros A f v; rewrite E; auto).
  exists s. split; [eapply runb_reachable; exact E|].
  assert (H : (s_lock s, map (contains_body s) [0; 1; 2], order (each_body self_waker s), order (each_body quiet s)) = (0%Z, [true; true; true], Some [0; 2; 2], Some [0; 1; 2])).
  { apply (Q _ (fun s => (s_lock s, map (contains_body s) [0; 1; 2], order (each_body self_waker s), order (each_body quiet s)))). vm_compute. reflexivity. }
  repeat (apply pair_equal_spec in H; destruct H as [H ?]). repeat split; auto.
Qed.
(* the callback for body 3 wakes body 2; bodies 1 and 2, which slept together, are never met *)
Lemma group_skipped : exists s cb, reachable s /\ s_lock s = 0%Z /\ contains_body s 1 = true /\ contains_body s 2 = true /\ is_sleeping s 1 = true /\ is_sleeping s 2 = true /\
  order (each_body cb s) = Some [3; 0].
Proof.
  destruct (sees_ex (runb piled_h piled0) (fun _ => true)) as [s [E _]]; [vm_compute; reflexivity|].
  assert (Q : forall A (f : space -> A) v, match runb piled_h piled0 with Some s => f s | None => v end = v -> f s = v) by (intros A f v; rewrite E; auto).
  exists s, (fun b _ => if Nat.eqb b 3 then [2] else []). split; [eapply runb_reachable; exact E|].
  match goal with |- ?a = ?x /\ ?b = ?y /\ ?c = ?z /\ ?d = ?u /\ ?e = ?v /\ ?f = ?w => assert (H : (a, b, c, d, e, f) = (x, y, z, u, v, w)) end.
  { apply (Q _ (fun s => (s_lock s, contains_body s 1, contains_body s 2, is_sleeping s 1, is_sleeping s 2, order (each_body (fun b _ => if Nat.eqb b 3 then [2] else []) s)))). vm_compute. reflexivity. }
  repeat (apply pair_equal_spec in H; destruct H as [H ?]). repeat split; auto.
Qed.
(* called from a callback of a step, after another callback woke 1: bodies 1 and 2 are in no list until the space is unlocked *)
Lemma locked_misses : exists s, reachable s /\ s_lock s = 1%Z /\ contains_body s 1 = true /\ contains_body s 2 = true /\ is_sleeping s 1 = false /\ is_sleeping s 2 = false /\
  order (each_body quiet s) = Some [3; 0].
Proof.
  destruct (sees_ex (runb (piled_h ++ [OLock; OTouch 1]) piled0) (fun _ => true)) as [s [E _]]; [vm_compute; reflexivity|].
  assert (Q : forall A (f : space -> A) v, match runb (piled_h ++ [OLock; OTouch 1]) piled0 with Some s => f s | None => v end = v -> f s = v) by (intros A f v; rewrite E; auto).
  exists s. split; [eapply runb_reachable; exact E|].
  match goal with |- ?a = ?x /\ ?b = ?y /\ ?c = ?z /\ ?d = ?u /\ ?e = ?v /\ ?f = ?w => assert (H : (a, b, c, d, e, f) = (x, y, z, u, v, w)) end.
  { apply (Q _ (fun s => (s_lock s, contains_body s 1, contains_body s 2, is_sleeping s 1, is_sleeping s 2, order (each_body quiet s)))). vm_compute. reflexivity. }
  repeat (apply pair_equal_spec in H; destruct H as [H ?]). repeat split; auto.
Qed.
Lemma sleeping_constraint : exists s c, reachable s /\ s_lock s = 0%Z /\ contains_constraint s c = true /\ order (each_constraint quiet s) = Some [].
Proof.
  destruct (sees_ex (runb piled_h piled0) (fun _ => true)) as [s [E _]]; [vm_compute; reflexivity|].
  assert (Q : forall A (f : space -> A) v, match runb piled_h piled0 with Some s => f s | None => v end = v -> f s = v) by (intros A f v; rewrite E; auto).
  exists s, 0. split; [eapply runb_reachable; exact E|].
  match goal with |- ?a = ?x /\ ?b = ?y /\ ?c = ?z => assert (H : (a, b, c) = (x, y, z)) end.
  { apply (Q _ (fun s => (s_lock s, contains_constraint s 0, order (each_constraint quiet s)))). vm_compute. reflexivity. }
  repeat (apply pair_equal_spec in H; destruct H as [H ?]). repeat split; auto.
Qed.
(* every list at once, on the ground 0 with the sleeping boxes 1 and 2 and the moving box 3 *)
Lemma ex_each : exists s, reachable s /\ s_lock s = 0%Z /\ map (is_sleeping s) [0; 1; 2; 3] = [false; true; true; false] /\
  order (each_body quiet s) = Some [3; 0; 1; 2] /\ order (each_dynamic_body quiet s) = Some [3; 1; 2] /\ order (each_static_body quiet s) = Some [0] /\
  order (each_shape quiet s) = Some [3; 2; 1; 0] /\ order (each_static_shape quiet s) = Some [2; 1; 0] /\ order (each_dynamic_shape quiet s) = Some [3] /\
  (dynamic_body_count s, static_body_count s, shape_count s) = (1, 1, 4).
Proof.
  destruct (sees_ex (runb piled_h piled0) (fun _ => true)) as [s [E _]]; [vm_compute; reflexivity|].
  assert (Q : forall A (f : space -> A) v, match runb piled_h piled0 with Some s => f s | None => v end = v -> f s = v) by (intros A f v; rewrite E; auto).
  exists s. split; [eapply runb_reachable; exact E|].
  match goal with |- ?a = ?x /\ ?b = ?y /\ ?c = ?z /\ ?d = ?u /\ ?e = ?v /\ ?f = ?w /\ ?g = ?p /\ ?h = ?q /\ ?i = ?r => assert (H : (a, b, c, d, e, f, g, h, i) = (x, y, z, u, v, w, p, q, r)) end.
  { apply (Q _ (fun s => (s_lock s, map (is_sleeping s) [0; 1; 2; 3], order (each_body quiet s), order (each_dynamic_body quiet s), order (each_static_body quiet s), order (each_shape quiet s), order (each_static_shape quiet s), order (each_dynamic_shape quiet s),
      (dynamic_body_count s, static_body_count s, shape_count s)))). vm_compute. reflexivity. }
  repeat (apply pair_equal_spec in H; destruct H as [H ?]). repeat split; auto.
Qed.
(* three constraints, two of them on body 0 *)
Notation jointed := (runb [OAddBody 0; OAddBody 1; OAddBody 2; OAddConstraint 0; OAddConstraint 1; OAddConstraint 2] (space0 (tyf []) (fun x => x) (fun c => match c with 0 => Co 0 1 true false | 1 => Co 1 2 true false | _ => Co 2 0 true false end))).
Lemma ex_each_of : exists s s', reachable s /\ s_lock s = 0%Z /\ each_constraint_of remove_constraint 0 s = Some ([2; 0], s') /\
  map (contains_constraint s) [0; 1; 2] = [true; true; true] /\ map (contains_constraint s') [0; 1; 2] = [false; true; false].
Proof.
  destruct (sees_ex jointed (fun s => sees (option_map snd (each_constraint_of remove_constraint 0 s)) (fun _ => true))) as [s [E H]]; [vm_compute; reflexivity|].
  assert (Q : forall A (f : space -> A) v, match jointed with Some s => f s | None => v end = v -> f s = v) by (intros A f v; rewrite E; auto).
  destruct (each_constraint_of remove_constraint 0 s) as [[t s']|] eqn:F; [|discriminate]. exists s, s'. split; [eapply runb_reachable; exact E|].
  assert (X : match each_constraint_of remove_constraint 0 s with Some (t, s') => (s_lock s, t, map (contains_constraint s) [0; 1; 2], map (contains_constraint s') [0; 1; 2]) | None => (0%Z, [], [], []) end = (0%Z, [2; 0], [true; true; true], [false; true; false])).
  { apply (Q _ (fun s => match each_constraint_of remove_constraint 0 s with Some (t, s') => (s_lock s, t, map (contains_constraint s) [0; 1; 2], map (contains_constraint s') [0; 1; 2]) | None => (0%Z, [], [], []) end)). vm_compute. reflexivity. }
  rewrite F in X. repeat (apply pair_equal_spec in X; destruct X as [X ?]). subst t. auto.
Qed.
