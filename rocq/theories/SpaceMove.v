(** One body leaves the simulation, one body comes back. *)
From Coq Require Import ZArith List Bool Arith Lia Permutation.
From Verif Require Import Num Space SpaceSpec SpaceInv.
Import ListNotations.
Local Open Scope nat_scope.

Section Move.
Context {N : Num}.

Definition minus (P : nat -> bool) (b : nat) : nat -> bool := fun y => P y && negb (Nat.eqb y b).
Definition plus (P : nat -> bool) (b : nat) : nat -> bool := fun y => P y || Nat.eqb y b.
Lemma minus_t P b y : minus P b y = true <-> P y = true /\ y <> b.
Proof. unfold minus. rewrite andb_true_iff, negb_true_iff, Nat.eqb_neq. reflexivity. Qed.
Lemma minus_f P b y : minus P b y = false <-> P y = false \/ y = b.
Proof. unfold minus. destruct (P y), (Nat.eqb_spec y b); simpl; intuition congruence. Qed.
Lemma plus_t P b y : plus P b y = true <-> P y = true \/ y = b.
Proof. unfold plus. rewrite orb_true_iff, Nat.eqb_eq. reflexivity. Qed.
Lemma plus_f P b y : plus P b y = false <-> P y = false /\ y <> b.
Proof. unfold plus. rewrite orb_false_iff, Nat.eqb_neq. reflexivity. Qed.

Lemma is_type_t s b t : is_type s b t = true <-> ty s b = t.
Proof. unfold is_type. destruct (ty s b), t; simpl; intuition congruence. Qed.
Lemma is_type_f s b t : is_type s b t = false <-> ty s b <> t.
Proof. rewrite <- is_type_t. destruct (is_type s b t); intuition congruence. Qed.

(* a body that is not static takes along exactly the arbiters it owns *)
Lemma owns_owner s b x : ty s b <> Static -> (b = ar_a (s_arb s x) \/ b = ar_b (s_arb s x)) ->
  (owns_arb s b x = true <-> owner s x = b).
Proof.
  intros D E. unfold owns_arb, owner. rewrite orb_true_iff, Nat.eqb_eq.
  destruct (is_type s (ar_a (s_arb s x)) Static) eqn:T.
  - rewrite is_type_t in T. destruct E as [->| ->]; [congruence|]. intuition.
  - split; [intros [H|H]; congruence|auto].
Qed.
Lemma cowns_owner s b x : ty s b <> Static -> (b = co_a (s_con s x) \/ b = co_b (s_con s x)) ->
  (owns_con s b x = true <-> cowner s x = b).
Proof.
  intros D E. unfold owns_con, cowner. rewrite orb_true_iff, Nat.eqb_eq.
  destruct (is_type s (co_a (s_con s x)) Static) eqn:T.
  - rewrite is_type_t in T. destruct E as [->| ->]; [congruence|]. intuition.
  - split; [intros [H|H]; congruence|auto].
Qed.
Lemma owner_end s x : owner s x = ar_a (s_arb s x) \/ owner s x = ar_b (s_arb s x).
Proof. unfold owner. destruct (is_type _ _ _); auto. Qed.
Lemma cowner_end s x : cowner s x = co_a (s_con s x) \/ cowner s x = co_b (s_con s x).
Proof. unfold cowner. destruct (is_type _ _ _); auto. Qed.
Lemma threaded_end P Q s b x : pinv P Q s -> In x (b_arbs (s_body s b)) -> threaded s x.
Proof. intros I H. destruct (ia_e _ _ _ I _ _ H) as [->| ->]; [exact H|]. apply (ia_s _ _ _ I). auto. Qed.
Lemma threaded_owner P Q s x : pinv P Q s -> threaded s x -> In x (b_arbs (s_body s (owner s x))).
Proof. intros I H. destruct (owner_end s x) as [->| ->]; [exact H|]. apply (ia_s _ _ _ I). auto. Qed.
Lemma mine_arbs P Q s b x : pinv P Q s -> ty s b <> Static ->
  (In x (filter (owns_arb s b) (b_arbs (s_body s b))) <-> threaded s x /\ owner s x = b).
Proof.
  intros I D. rewrite filter_In. split.
  - intros [H O]. split; [eapply threaded_end; eauto|]. apply owns_owner; auto. eapply ia_e; eauto.
  - intros [H <-]. pose proof (threaded_owner _ _ _ _ I H) as J. split; auto. apply owns_owner; auto.
    destruct (owner_end s x) as [-> | ->]; auto.
Qed.
Lemma mine_cons P Q s b c : pinv P Q s -> ty s b <> Static ->
  (In c (filter (owns_con s b) (b_cons (s_body s b))) <-> co_in (s_con s c) = true /\ cowner s c = b).
Proof.
  intros I D. rewrite filter_In, (ic_e _ _ _ I). split.
  - intros [[H E] O]. split; auto. apply cowns_owner; auto.
  - intros [H <-]. assert (E : cowner s c = co_a (s_con s c) \/ cowner s c = co_b (s_con s c)) by apply cowner_end.
    split; auto. apply cowns_owner; auto.
Qed.

Lemma entries_in P Q s b e : pinv P Q s -> (In e (entries s b) <-> In (snd e) (b_shapes (s_body s b)) /\ fst e = sh_id (s_shape s (snd e))).
Proof.
  intros I. unfold entries. rewrite in_map_iff. destruct e as [h x]; simpl. split.
  - intros [y [E H]]. inversion E; subst. auto.
  - intros [H ->]. exists x; auto.
Qed.
Lemma entries_nd P Q s b : pinv P Q s -> NoDup (entries s b).
Proof.
  intros I. unfold entries. generalize (is_n _ _ _ I b). induction 1 as [|x l H ND IH]; simpl; constructor; auto.
  rewrite in_map_iff. intros [y [E J]]. inversion E; subst. contradiction.
Qed.

Lemma same_shapes_refl x : same_shapes x x = true.
Proof. unfold same_shapes. rewrite !Nat.eqb_refl. reflexivity. Qed.
Lemma same_shapes_sym x y : same_shapes x y = same_shapes y x.
Proof.
  unfold same_shapes. rewrite (Nat.eqb_sym (ar_sa x) (ar_sa y)), (Nat.eqb_sym (ar_sb x) (ar_sb y)),
    (Nat.eqb_sym (ar_sb x) (ar_sa y)), (Nat.eqb_sym (ar_sa x) (ar_sb y)). f_equal. apply andb_comm.
Qed.

(* restoring arbiters none of which is in the cache *)
Lemma cache_insert_all s l c :
  NoDup l -> NoDup c -> (forall x, In x l -> ~ In x c) ->
  (forall x y, (In x l \/ In x c) -> (In y l \/ In y c) -> same_shapes (s_arb s x) (s_arb s y) = true -> x = y) ->
  (forall x, In x (fold_left (fun c x => cache_insert s x c) l c) <-> In x l \/ In x c) /\
  NoDup (fold_left (fun c x => cache_insert s x c) l c).
Proof.
  intros ND. revert c. induction ND as [|x l H ND IH]; intros c NC D U; simpl; [intuition|].
  assert (E : cache_insert s x c = x :: c).
  { unfold cache_insert. destruct (existsb _ c) eqn:E; auto. apply existsb_exists in E. destruct E as [y [Y S]].
    exfalso. assert (x = y) by (apply U; simpl; auto). subst. apply (D y); simpl; auto. }
  rewrite E. destruct (IH (x :: c)) as [A B].
  - constructor; auto. apply D; simpl; auto.
  - intros y Y [<-|Z]; [contradiction|]. apply (D y); simpl; auto.
  - intros y z Y Z. apply U; simpl in *; tauto.
  - split; auto. intros y. rewrite A. simpl. tauto.
Qed.

(* what the elementary moves do not touch *)
Record frame (s s' : space) : Prop := {
  fr_body : s_body s' = s_body s; fr_shape : s_shape s' = s_shape s; fr_arb : s_arb s' = s_arb s; fr_con : s_con s' = s_con s;
  fr_sta : s_sta s' = s_sta s; fr_comps : s_comps s' = s_comps s; fr_roused : s_roused s' = s_roused s;
  fr_lock : s_lock s' = s_lock s; fr_ids : s_ids s' = s_ids s; fr_arbc : s_arbc s' = s_arbc s; fr_all : s_all s' = s_all s }.
Lemma frame_refl s : frame s s. Proof. split; auto. Qed.
Lemma frame_trans s s' s'' : frame s s' -> frame s' s'' -> frame s s''.
Proof. intros [] []; split; congruence. Qed.

Lemma activate_move P Q s b : pinv P Q s -> P b = true -> s_lock s = 0%Z ->
  exists s', space_activate b s = Some s' /\ pinv (minus P b) Q s' /\ frame s s' /\
    (exists l, s_arbs s' = s_arbs s ++ l) /\ (exists l, s_cons s' = s_cons s ++ l) /\ s_dyn s' = s_dyn s ++ [b].
Proof.
  intros I HP L. unfold space_activate. rewrite L. simpl (negb _).
  destruct (ib_pd _ _ _ I b HP) as [TD BI]. assert (TS : ty s b <> Static) by congruence.
  destruct (ix_move_all (entries s b) (s_six s) (s_dix s)) as [six [dix [E [S6 [S7 [N6 N7]]]]]].
  { eapply entries_nd; eauto. }
  { intros [h x] H. rewrite (entries_in _ _ _ _ _ I) in H. simpl in H. destruct H as [H ->]. apply (is_six _ _ _ I).
    split; [eapply is_p; eauto|]. split; auto. right. rewrite (is_b _ _ _ I _ _ H). auto. }
  { intros [h x] H. rewrite (entries_in _ _ _ _ _ I) in H. simpl in H. destruct H as [H ->]. rewrite (is_dix _ _ _ I).
    intros [_ [_ [_ F]]]. rewrite (is_b _ _ _ I _ _ H) in F. congruence. }
  { apply (is_sn _ _ _ I). } { apply (is_dn _ _ _ I). }
  rewrite E. eexists. split; [reflexivity|].
  set (mine := filter (owns_arb s b) (b_arbs (s_body s b))).
  assert (MI : forall x, In x mine <-> threaded s x /\ owner s x = b) by (intros; eapply mine_arbs; eauto).
  assert (MA : forall x, In x mine -> ~ In x (s_arbs s)).
  { intros x H J. apply MI in H. destruct H as [H O]. apply (ia_own _ _ _ I _ H) in J. congruence. }
  assert (MN : NoDup mine) by (apply NoDup_filter, (ia_n _ _ _ I)).
  assert (MC : forall x, In x mine -> ~ In x (s_cache s)).
  { intros x H J. apply (MA x H). apply (ia_ct _ _ _ I); auto. apply MI in H. tauto. }
  destruct (cache_insert_all s mine (s_cache s)) as [CI CN]; auto.
  { apply (ia_cn _ _ _ I). }
  { intros x y X Y. apply (ia_u _ _ _ I); unfold live; rewrite ?MI in *; tauto. }
  set (cache := fold_left _ mine _) in *.
  split; [|split; [|split; [|split]]].
  - assert (LV : forall x, threaded s x \/ In x cache -> live s x).
    { intros x. rewrite CI, MI. unfold live. tauto. }
    split; simpl; unfold live, threaded, ty; simpl;
      try first [ apply (ib_all _ _ _ I) | apply (ib_alln _ _ _ I) | apply (ib_sta _ _ _ I) | apply (ib_stan _ _ _ I)
            | apply (is_n _ _ _ I) | apply (is_b _ _ _ I) | apply (is_i _ _ _ I) | apply (is_h _ _ _ I) | apply (is_lt _ _ _ I)
            | apply (is_inj _ _ _ I) | apply (is_pos _ _ _ I) | apply (ia_n _ _ _ I) | apply (ia_e _ _ _ I) | apply (ia_s _ _ _ I)
            | apply (ic_n _ _ _ I) | apply (ic_e _ _ _ I) | apply (ic_ne _ _ _ I) | apply (ic_ha _ _ _ I) | apply (ic_hb _ _ _ I)
            | assumption ].
    + intros y. rewrite in_app_iff, (ib_dyn _ _ _ I), minus_f. simpl. intuition (subst; auto).
    + apply nd_snoc; [apply (ib_dynn _ _ _ I)|]. rewrite (ib_dyn _ _ _ I). intros [_ [_ F]]. congruence.
    + intros y. rewrite minus_t. intros [H _]. apply (ib_pd _ _ _ I); auto.
    + intros y x. rewrite minus_t. intros [H _]. apply (is_p _ _ _ I); auto.
    + intros h x. rewrite S7, (is_dix _ _ _ I), (entries_in _ _ _ _ _ I), minus_f. simpl. unfold ty in *. split.
      * intros [[H1 [H2 [H3 H4]]]|[H1 H2]]; [tauto|]. pose proof (is_b _ _ _ I _ _ H1) as B. rewrite B.
        split; [eapply is_p; eauto|]. repeat split; auto.
      * intros [H1 [H2 [H3 [H4|H4]]]]; [tauto|]. right. split; auto. rewrite <- H4. apply (is_i _ _ _ I); auto.
    + intros h x. rewrite S6, (is_six _ _ _ I), (entries_in _ _ _ _ _ I), minus_t. simpl. unfold ty in *. split.
      * intros [[H1 [H2 H3]] H4]. split; auto. split; auto. destruct H3 as [H3|H3]; auto. right. split; auto.
        intros Eb. apply H4. split; auto. rewrite <- Eb. apply (is_i _ _ _ I); auto.
      * intros [H1 [H2 H3]]. split; [tauto|]. intros [H4 _]. apply (is_b _ _ _ I) in H4. destruct H3 as [H3|[_ H3]]; congruence.
    + intros x H. apply (ia_ne _ _ _ I), LV; auto.
    + intros x H. apply (ia_sa _ _ _ I), LV; auto.
    + intros x H. apply (ia_sb _ _ _ I), LV; auto.
    + apply nd_app; auto; [apply (ia_an _ _ _ I)|]. intros x H J. apply (MA x); auto.
    + intros x H. apply in_app_iff in H. destruct H as [H|H]; [apply (ia_at _ _ _ I); auto|]. left. apply MI in H. apply H.
    + intros x H. rewrite in_app_iff, (ia_own _ _ _ I _ H), MI, minus_f. unfold owner, is_type, ty; simpl.
      unfold owner, is_type, ty, threaded in *; simpl in *. tauto.
    + intros x H. apply CI. apply in_app_iff in H. destruct H as [H|H]; auto. right. apply (ia_ac _ _ _ I); auto.
    + intros x H T. apply in_app_iff. apply CI in H. destruct H; auto. left. apply (ia_ct _ _ _ I); auto.
    + intros x H. destruct (ia_q _ _ _ I x H) as [H1 H2]. split; auto. apply in_app_iff; auto.
    + intros x y X Y. apply (ia_u _ _ _ I); apply LV; auto.
    + intros x H. apply (ia_lt _ _ _ I), LV; auto.
    + intros c. rewrite in_app_iff, (ic_own _ _ _ I), (mine_cons _ _ _ _ _ I TS), minus_f.
      unfold cowner, is_type, ty; simpl. tauto.
    + apply nd_app; [apply (ic_cn _ _ _ I)|apply NoDup_filter, (ic_n _ _ _ I)|].
      intros c H J. rewrite (mine_cons _ _ _ _ _ I TS) in J. rewrite (ic_own _ _ _ I) in H. destruct H, J. congruence.
  - split; reflexivity.
  - simpl. eauto.
  - simpl. eauto.
  - reflexivity.
Qed.

(* UncacheArbiter for a list of arbiters *)
Lemma uncache_all l s :
  NoDup l -> NoDup (s_arbs s) -> NoDup (s_cache s) -> (forall x, In x l -> In x (s_arbs s)) ->
  (forall x y, In x l -> In y (s_cache s) -> same_shapes (s_arb s x) (s_arb s y) = true -> x = y) ->
  exists s', ofold uncache_arbiter l s = Some s' /\
    s' = set_arbs s (s_arbs s') (s_cache s') /\
    (forall x, In x (s_arbs s') <-> In x (s_arbs s) /\ ~ In x l) /\ NoDup (s_arbs s') /\
    (forall x, In x (s_cache s') <-> In x (s_cache s) /\ ~ In x l) /\ NoDup (s_cache s').
Proof.
  intros ND. revert s. induction ND as [|x l H ND IH]; intros s NA NC M U.
  - exists s. simpl. split; [reflexivity|]. split; [destruct s; reflexivity|]. intuition.
  - rewrite ofold_cons. unfold uncache_arbiter at 1.
    assert (X : In x (s_arbs s)) by (apply M; simpl; auto). rewrite (proj2 (mem_spec _ _) X).
    set (s1 := set_arbs s _ _).
    assert (A1 : forall y, In y (s_arbs s1) <-> In y (s_arbs s) /\ y <> x) by (intros; apply swap_remove_spec; auto).
    assert (C1 : forall y, In y (s_cache s1) <-> In y (s_cache s) /\ y <> x).
    { intros y. simpl. unfold cache_remove. rewrite filter_In, negb_true_iff. split.
      - intros [Y F]. split; auto. intros ->. rewrite same_shapes_refl in F. discriminate.
      - intros [Y D]. split; auto. destruct (same_shapes _ _) eqn:E; auto. exfalso. apply D. symmetry. apply U; simpl; auto. }
    destruct (IH s1) as [s' [E [F [A [NA' [C NC']]]]]].
    + simpl. apply swap_remove_nd; auto.
    + simpl. apply NoDup_filter; auto.
    + intros y Y. apply A1. split; [apply M; simpl; auto|]. intros ->; contradiction.
    + intros y z Y Z S. apply C1 in Z. apply U; simpl; auto; tauto.
    + exists s'. split; auto. split; [rewrite F at 1; reflexivity|].
      split; [intros y; rewrite A, A1; simpl; intuition congruence|]. split; auto.
      split; [intros y; rewrite C, C1; simpl; intuition congruence|auto].
Qed.
Lemma remove1_all l m : NoDup m -> (forall x, In x (fold_left (fun m c => remove1 c m) l m) <-> In x m /\ ~ In x l) /\ NoDup (fold_left (fun m c => remove1 c m) l m).
Proof.
  revert m. induction l as [|c l IH]; intros m ND; simpl; [intuition|].
  destruct (IH (remove1 c m) (remove1_nd _ _ ND)) as [A B]. split; auto. intros x. rewrite A, remove1_spec by auto. intuition congruence.
Qed.

Lemma deactivate_move P Q s b : pinv P Q s -> P b = false -> ty s b = Dynamic -> b_in (s_body s b) = true ->
  (forall x, In x (b_shapes (s_body s b)) -> sh_in (s_shape s x) = true) -> 
  exists s', space_deactivate b s = Some s' /\ pinv (plus P b) Q s' /\ frame s s' /\ s_dyn s' = remove1 b (s_dyn s).
Proof.
  intros I HP TD BI SI. unfold space_deactivate. assert (TS : ty s b <> Static) by congruence.
  destruct (ix_move_all (entries s b) (s_dix s) (s_six s)) as [dix [six [E [S6 [S7 [N6 N7]]]]]].
  { eapply entries_nd; eauto. }
  { intros [h x] H. rewrite (entries_in _ _ _ _ _ I) in H. simpl in H. destruct H as [H ->]. apply (is_dix _ _ _ I).
    pose proof (is_b _ _ _ I _ _ H) as B. rewrite B. auto. }
  { intros [h x] H. rewrite (entries_in _ _ _ _ _ I) in H. simpl in H. destruct H as [H ->]. rewrite (is_six _ _ _ I).
    pose proof (is_b _ _ _ I _ _ H) as B. rewrite B. intros [_ [_ [F|F]]]; congruence. }
  { apply (is_dn _ _ _ I). } { apply (is_sn _ _ _ I). }
  rewrite E.
  set (mine := filter (owns_arb s b) (b_arbs (s_body s b))).
  assert (MI : forall x, In x mine <-> threaded s x /\ owner s x = b) by (intros; eapply mine_arbs; eauto).
  assert (MN : NoDup mine) by (apply NoDup_filter, (ia_n _ _ _ I)).
  assert (MA : forall x, In x mine -> In x (s_arbs s)).
  { intros x H. apply MI in H. destruct H as [H O]. apply (ia_own _ _ _ I _ H). congruence. }
  set (s1 := set_ix (set_lists s (remove1 b (s_dyn s)) (s_sta s)) dix six).
  destruct (uncache_all mine s1) as [s2 [E2 [F2 [A2 [NA [C2 NC]]]]]]; auto.
  { apply (ia_an _ _ _ I). } { apply (ia_cn _ _ _ I). }
  { intros x y X Y. apply (ia_u _ _ _ I); unfold live; [|auto]. apply MI in X. tauto. }
  rewrite E2. eexists. split; [reflexivity|].
  assert (RC := remove1_all (filter (owns_con s b) (b_cons (s_body s b))) (s_cons s) (ic_cn _ _ _ I)). destruct RC as [RC RN].
  rewrite F2. simpl. clear E2 F2.
  set (arbs := s_arbs s2) in *. set (cache := s_cache s2) in *. clearbody arbs cache. simpl in A2, C2. clear s2.
  split; [|split].
  - assert (LV : forall x, threaded s x \/ In x cache -> live s x) by (intros x; rewrite C2; unfold live; tauto).
    split; simpl; unfold live, threaded, ty; simpl;
      try first [ apply (ib_all _ _ _ I) | apply (ib_alln _ _ _ I) | apply (ib_sta _ _ _ I) | apply (ib_stan _ _ _ I)
            | apply (is_n _ _ _ I) | apply (is_b _ _ _ I) | apply (is_i _ _ _ I) | apply (is_h _ _ _ I) | apply (is_lt _ _ _ I)
            | apply (is_inj _ _ _ I) | apply (is_pos _ _ _ I) | apply (ia_n _ _ _ I) | apply (ia_e _ _ _ I) | apply (ia_s _ _ _ I)
            | apply (ic_n _ _ _ I) | apply (ic_e _ _ _ I) | apply (ic_ne _ _ _ I) | apply (ic_ha _ _ _ I) | apply (ic_hb _ _ _ I)
            | assumption ].
    + intros y. rewrite remove1_spec, (ib_dyn _ _ _ I), plus_f by apply (ib_dynn _ _ _ I). tauto.
    + apply remove1_nd, (ib_dynn _ _ _ I).
    + intros y. rewrite plus_t. intros [H| ->]; auto. apply (ib_pd _ _ _ I); auto.
    + intros y x. rewrite plus_t. intros [H| ->] J; auto. eapply (is_p _ _ _ I); eauto.
    + intros h x. rewrite S6, (is_dix _ _ _ I), (entries_in _ _ _ _ _ I), plus_f. simpl. unfold ty in *. split.
      * intros [[H1 [H2 [H3 H4]]] H5]. repeat split; auto. intros Eb. apply H5. split; auto. rewrite <- Eb. apply (is_i _ _ _ I); auto.
      * intros [H1 [H2 [H3 [H4 H5]]]]. split; [tauto|]. intros [H6 _]. apply (is_b _ _ _ I) in H6. congruence.
    + intros h x. rewrite S7, (is_six _ _ _ I), (entries_in _ _ _ _ _ I), plus_t. simpl. unfold ty in *. split.
      * intros [[H1 [H2 H3]]|[H1 H2]]; [tauto|]. pose proof (is_b _ _ _ I _ _ H1) as B. rewrite B. auto.
      * intros [H1 [H2 [H3|[H3|H3]]]]; [tauto|tauto|]. right. split; auto. rewrite <- H3. apply (is_i _ _ _ I); auto.
    + intros x H. apply (ia_ne _ _ _ I), LV; auto.
    + intros x H. apply (ia_sa _ _ _ I), LV; auto.
    + intros x H. apply (ia_sb _ _ _ I), LV; auto.
    + intros x H. apply A2 in H. apply (ia_at _ _ _ I); tauto.
    + intros x H. rewrite A2, (ia_own _ _ _ I _ H), MI, plus_f. unfold owner, is_type, ty; simpl.
      unfold owner, is_type, ty, threaded in *; simpl in *. tauto.
    + intros x H. apply C2. apply A2 in H. split; [apply (ia_ac _ _ _ I)|]; tauto.
    + intros x H T. apply A2. apply C2 in H. split; [apply (ia_ct _ _ _ I); tauto|tauto].
    + intros x H. destruct (ia_q _ _ _ I x H) as [H1 H2]. split; auto. apply A2. split; auto. rewrite MI. tauto.
    + intros x y X Y. apply (ia_u _ _ _ I); apply LV; auto.
    + intros x H. apply (ia_lt _ _ _ I), LV; auto.
    + intros c. rewrite RC, (ic_own _ _ _ I), (mine_cons _ _ _ _ _ I TS), plus_f. unfold cowner, is_type, ty; simpl. tauto.
  - split; reflexivity.
  - reflexivity.
Qed.
End Move.
