(** Every operation obeying the rules succeeds and keeps the space consistent; what follows from it. *)
From Coq Require Import ZArith List Bool Arith Lia Permutation.
From Verif Require Import Num Space SpaceSpec SpaceInv SpaceMove SpaceWake SpaceActivate SpaceOps SpaceShapes SpaceCons SpaceType.
From Verif Require Import SpaceFlood SpaceSleep SpaceStep SpaceProcess.
Import ListNotations.
Local Open Scope nat_scope.

Section Main.
Context {N : Num}.

Lemma space0_ok tys sb cn : winv [] (space0 tys sb cn).
Proof.
  assert (T : forall x, ~ threaded (space0 tys sb cn) x) by (intros x H; exact H).
  assert (LV : forall x, ~ live (space0 tys sb cn) x) by (intros x [H|H]; [apply T in H; auto|exact H]).
  split; simpl; auto; try lia.
  - split; simpl; intros; try solve [constructor]; try solve [intuition discriminate]; try solve [exfalso; eapply LV; eauto]; try solve [exfalso; eapply T; eauto]; try discriminate; try lia.
  - intros u v [[x [H _]]|[c [H _]]]; [destruct H|discriminate].
  - split; simpl; try constructor; try tauto; try discriminate; intros; discriminate.
  - intros b _. reflexivity.
Qed.

(* who is contained afterwards *)
Record effect (o : op) (s s' : space) : Prop := {
  ef_b : forall b, b_in (s_body s' b) = match says_body b o with Some v => v | None => b_in (s_body s b) end;
  ef_s : forall x, sh_in (s_shape s' x) = match says_shape x o with Some v => v | None => sh_in (s_shape s x) end;
  ef_c : forall c, co_in (s_con s' c) = match says_con c o with Some v => v | None => co_in (s_con s c) end;
  ef_o : forall x, sh_body (s_shape s' x) = sh_body (s_shape s x);
  ef_e : forall c, co_a (s_con s' c) = co_a (s_con s c) /\ co_b (s_con s' c) = co_b (s_con s c) /\ co_collide (s_con s' c) = co_collide (s_con s c) }.
Lemma effect_same o s s' : (forall b, says_body b o = None) -> (forall x, says_shape x o = None) -> (forall c, says_con c o = None) ->
  (forall b, b_in (s_body s' b) = b_in (s_body s b)) -> s_shape s' = s_shape s -> s_con s' = s_con s -> effect o s s'.
Proof. intros A B C D E F. split; intros; rewrite ?A, ?B, ?C, ?D, ?E, ?F; auto. Qed.
Lemma effect_core o s s' : (forall b, says_body b o = None) -> (forall x, says_shape x o = None) -> (forall c, says_con c o = None) ->
  core_eq s s' -> effect o s s'.
Proof. intros A B C D. apply effect_same; auto; intros; symmetry; apply D. Qed.

Lemma sstep_ok o s : winv [] s -> valid o s -> exists s', sstep o s = Some s' /\ winv [] s' /\ effect o s s'.
Proof.
  intros W V. destruct o; simpl sstep.
  - eexists. split; [reflexivity|]. split; [apply attach_ok; auto|]. apply effect_same; auto. intros b. simpl. unfold upd. destruct (Nat.eqb_spec (sh_body (s_shape s x)) b); subst; reflexivity.
  - eexists. split; [reflexivity|]. split; [apply add_body_ok; auto|]. split; intros; simpl; unfold upd; auto.
    + rewrite (Nat.eqb_sym b0 b). destruct (is_type s b Static); simpl; destruct (Nat.eqb_spec b b0); subst; reflexivity.
    + destruct (is_type s b Static); reflexivity.
    + destruct (is_type s b Static); reflexivity.
    + destruct (is_type s b Static); reflexivity.
    + destruct (is_type s b Static); auto.
  - destruct (remove_body_ok s b W V) as [s' [E [W' [A [B C]]]]]. exists s'. split; auto. split; auto. split; intros; simpl; rewrite ?A, ?B, ?C; auto.
    rewrite (Nat.eqb_sym b0 b). destruct (b =? b0); reflexivity.
  - destruct (add_shape_ok s x W V) as [s' [E [W' [A [B C]]]]]. exists s'. split; auto. split; auto. split; intros; simpl; rewrite ?A, ?B, ?C; auto.
    + rewrite (Nat.eqb_sym x0 x). destruct (x =? x0); reflexivity.
    + destruct (Nat.eqb_spec x x0); subst; reflexivity.
  - destruct (remove_shape_ok s x W V) as [s' [E [W' [A [B [C D]]]]]]. exists s'. split; auto. split; auto. split; intros; simpl; rewrite ?A, ?B, ?C; auto.
    + rewrite (Nat.eqb_sym x0 x). destruct (x =? x0); reflexivity.
    + destruct (Nat.eqb_spec x x0); subst; reflexivity.
  - destruct (add_constraint_ok s c W V) as [s' [E [W' [A [B C]]]]]. exists s'. split; auto. split; auto. split; intros; simpl; rewrite ?A, ?B, ?C; auto.
    + rewrite (Nat.eqb_sym c0 c). destruct (c =? c0); reflexivity.
    + destruct (Nat.eqb_spec c c0); subst; auto.
  - destruct (remove_constraint_ok s c W V) as [s' [E [W' [A [B C]]]]]. exists s'. split; auto. split; auto. split; intros; simpl; rewrite ?A, ?B, ?C; auto.
    + rewrite (Nat.eqb_sym c0 c). destruct (c =? c0); reflexivity.
    + destruct (Nat.eqb_spec c c0); subst; auto.
  - destruct (set_type_ok s b t W V) as [s' [E [W' [A [B [C D]]]]]]. exists s'. split; auto. split; auto. apply effect_same; auto.
  - destruct (body_activate_ok [] s b W) as [s' [E [W' K]]]. exists s'. split; auto. split; auto. apply effect_core; auto. apply (k_core _ _ _ K).
  - destruct (activate_static_ok [] s b flt W) as [s' [E [W' [C _]]]]. exists s'. split; auto. split; auto. apply effect_core; auto.
  - destruct (gravity_loop_ok [] (length (s_comps s)) 0 (s_comps s) s W) as [s' [E [W' C]]]. exists s'. split; auto. split; auto. apply effect_core; auto.
  - eexists. split; [reflexivity|]. split; [apply lock_ok; auto|]. apply effect_same; auto.
  - destruct (unlock_ok [] s W V) as [s' [E [W' U]]]. exists s'. split; auto. split; auto. apply effect_same; auto; intros; rewrite ?(u_body _ _ U), ?(u_shape _ _ U), ?(u_con _ _ U); auto.
  - destruct (step_ok thr dt fast evs old late s W V) as [s' [E [W' [C _]]]]. exists s'. split; auto. split; auto. apply effect_same; auto; apply C.
Qed.

Lemma run_ok h : forall s, winv [] s -> valid_run h s -> exists s', srun h s = Some s' /\ winv [] s'.
Proof.
  induction h as [|o h IH]; intros s W V.
  - exists s. auto.
  - inversion V as [|? ? ? V1 V2]; subst. destruct (sstep_ok o s W V1) as [s1 [E [W1 _]]]. unfold srun. rewrite ofold_cons, E. apply IH; auto.
Qed.
Lemma reachable_ok s : reachable s -> winv [] s.
Proof.
  intros [tys [sb [cn [h [V E]]]]]. destruct (run_ok h _ (space0_ok tys sb cn) V) as [s' [E' W]]. congruence.
Qed.
(** Nothing that obeys the rules panics, and the state after it is reachable again. *)
Lemma no_panic s o : reachable s -> valid o s -> exists s', sstep o s = Some s' /\ reachable s'.
Proof.
  intros R V. destruct (sstep_ok o s (reachable_ok s R) V) as [s' [E _]]. exists s'. split; auto.
  destruct R as [tys [sb [cn [h [VR ER]]]]]. exists tys, sb, cn, (h ++ [o]). split.
  - revert VR ER. generalize (space0 tys sb cn). induction h as [|p h IH]; intros t VR ER.
    + simpl in *. inversion ER; subst. constructor; auto. intros; constructor.
    + inversion VR as [|? ? ? V1 V2]; subst. simpl. constructor; auto. intros t' Et. apply IH; auto. unfold srun in ER. rewrite ofold_cons, Et in ER. exact ER.
  - unfold srun in *. rewrite ofold_app, ER. unfold ofold. simpl. exact E.
Qed.
Lemma all_succeed tys sb cn h : valid_run h (space0 tys sb cn) -> exists s, srun h (space0 tys sb cn) = Some s.
Proof. intros V. destruct (run_ok h _ (space0_ok tys sb cn) V) as [s' [E _]]. eauto. Qed.

(** ** Membership *)
Lemma contains_last h : forall s s', winv [] s -> valid_run h s -> srun h s = Some s' ->
  (forall b, b_in (s_body s' b) = fold_left (fun r o => match says_body b o with Some v => v | None => r end) h (b_in (s_body s b))) /\
  (forall x, sh_in (s_shape s' x) = fold_left (fun r o => match says_shape x o with Some v => v | None => r end) h (sh_in (s_shape s x))) /\
  (forall c, co_in (s_con s' c) = fold_left (fun r o => match says_con c o with Some v => v | None => r end) h (co_in (s_con s c))).
Proof.
  induction h as [|o h IH]; intros s s' W V E.
  - simpl in *. inversion E; subst. auto.
  - inversion V as [|? ? ? V1 V2]; subst. destruct (sstep_ok o s W V1) as [s1 [E1 [W1 EF]]]. unfold srun in E. rewrite ofold_cons, E1 in E.
    destruct (IH s1 s' W1 (V2 s1 E1) E) as [A [B C]]. simpl. split; [|split]; intros.
    + rewrite A, (ef_b _ _ _ EF). reflexivity.
    + rewrite B, (ef_s _ _ _ EF). reflexivity.
    + rewrite C, (ef_c _ _ _ EF). reflexivity.
Qed.
Lemma contains_last_said tys sb cn h s : valid_run h (space0 tys sb cn) -> srun h (space0 tys sb cn) = Some s ->
  (forall b, contains_body s b = last_said (says_body b) h) /\
  (forall x, contains_shape s x = last_said (says_shape x) h) /\
  (forall c, contains_constraint s c = last_said (says_con c) h).
Proof. intros V E. exact (contains_last h _ _ (space0_ok tys sb cn) V E). Qed.

Lemma sleeping_parked s b : s_lock s = 0%Z -> winv [] s -> parked s b = is_sleeping s b.
Proof. intros L W. apply awake_parked. apply (w_r _ _ W L). Qed.
(* where a contained body is listed *)
Lemma bodies_listed s b : reachable s -> s_lock s = 0%Z ->
  NoDup (s_dyn s) /\ NoDup (s_sta s) /\
  (In b (s_sta s) <-> contains_body s b = true /\ ty s b = Static) /\
  (In b (s_dyn s) <-> contains_body s b = true /\ ty s b <> Static /\ is_sleeping s b = false) /\
  (is_sleeping s b = true -> contains_body s b = true /\ ty s b = Dynamic).
Proof.
  intros R L. pose proof (reachable_ok s R) as W. pose proof (w_p _ _ W) as I. rewrite <- (sleeping_parked s b L W).
  split; [apply (ib_dynn _ _ _ I)|]. split; [apply (ib_stan _ _ _ I)|]. split; [apply (ib_sta _ _ _ I)|]. split; [apply (ib_dyn _ _ _ I)|].
  intros P. apply (ib_pd _ _ _ I) in P. tauto.
Qed.
Lemma shapes_listed s x : reachable s -> s_lock s = 0%Z ->
  NoDup (s_dix s) /\ NoDup (s_six s) /\
  (forall h, In (h, x) (s_six s) <-> contains_shape s x = true /\ h = sh_id (s_shape s x) /\
     (ty s (sh_body (s_shape s x)) = Static \/ is_sleeping s (sh_body (s_shape s x)) = true)) /\
  (forall h, In (h, x) (s_dix s) <-> contains_shape s x = true /\ h = sh_id (s_shape s x) /\
     ty s (sh_body (s_shape s x)) <> Static /\ is_sleeping s (sh_body (s_shape s x)) = false) /\
  (contains_shape s x = true -> In x (b_shapes (s_body s (sh_body (s_shape s x))))).
Proof.
  intros R L. pose proof (reachable_ok s R) as W. pose proof (w_p _ _ W) as I. rewrite <- (sleeping_parked s _ L W).
  split; [apply (is_dn _ _ _ I)|]. split; [apply (is_sn _ _ _ I)|]. split; [intros; apply (is_six _ _ _ I)|]. split; [intros; apply (is_dix _ _ _ I)|].
  apply (is_i _ _ _ I).
Qed.
Lemma ids_distinct s x y : reachable s -> contains_shape s x = true -> contains_shape s y = true -> sh_id (s_shape s x) = sh_id (s_shape s y) -> x = y.
Proof. intros R. apply (is_inj _ _ _ (w_p _ _ (reachable_ok s R))). Qed.
Lemma shapes_attached s b : reachable s -> NoDup (b_shapes (s_body s b)) /\ forall x, In x (b_shapes (s_body s b)) -> sh_body (s_shape s x) = b.
Proof. intros R. pose proof (w_p _ _ (reachable_ok s R)) as I. split; [apply (is_n _ _ _ I)|apply (is_b _ _ _ I)]. Qed.

(* an id given to a shape has not been given before *)
Lemma new_id s x s' : reachable s -> valid (OAddShape x) s -> sstep (OAddShape x) s = Some s' ->
  sh_id (s_shape s' x) = s_ids s /\ (forall y, contains_shape s y = true -> sh_id (s_shape s y) < s_ids s).
Proof.
  intros R V E. pose proof (reachable_ok s R) as W. destruct (add_shape_ok s x W V) as [s1 [E1 [W' [A [B C]]]]].
  simpl in E. assert (s1 = s') by congruence. subst s1. rewrite B, Nat.eqb_refl. split; auto. intros y Y. apply (is_lt _ _ _ (w_p _ _ W)) in Y. lia.
Qed.

(** ** Constraints *)
Lemma constraint_lists s b : reachable s -> NoDup (b_cons (s_body s b)) /\
  forall c, In c (b_cons (s_body s b)) <-> contains_constraint s c = true /\ (co_a (s_con s c) = b \/ co_b (s_con s c) = b).
Proof.
  intros R. pose proof (w_p _ _ (reachable_ok s R)) as I. split; [apply (ic_n _ _ _ I)|]. intros c. rewrite (ic_e _ _ _ I). unfold contains_constraint. intuition.
Qed.
Lemma constraints_listed s c : reachable s -> s_lock s = 0%Z -> NoDup (s_cons s) /\
  (In c (s_cons s) <-> contains_constraint s c = true /\ is_sleeping s (co_a (s_con s c)) = false /\ is_sleeping s (co_b (s_con s c)) = false).
Proof.
  intros R L. pose proof (reachable_ok s R) as W. pose proof (w_p _ _ W) as I. split; [apply (ic_cn _ _ _ I)|]. rewrite (ic_own _ _ _ I).
  rewrite <- !(sleeping_parked s _ L W). unfold contains_constraint.
  split; [|intros [A [B C]]; split; auto; destruct (cowner_end s c) as [O|O]; rewrite O; auto].
  intros [A B]. split; auto.
  assert (LAB : linked s (co_a (s_con s c)) (co_b (s_con s c))) by (right; exists c; auto).
  assert (LBA : linked s (co_b (s_con s c)) (co_a (s_con s c))) by (eapply linked_sym; eauto).
  unfold cowner in B. destruct (is_type s (co_a (s_con s c)) Static) eqn:S.
  - split; auto. eapply static_awake; eauto. apply is_type_t; auto.
  - split; auto. destruct (parked s (co_b (s_con s c))) eqn:P; auto. apply is_type_f in S.
    destruct (w_cl _ _ W _ _ LBA P) as [|[? _]]; congruence.
Qed.
Lemma reject_spec s a b : reachable s ->
  query_reject_constraints s a b = true <-> exists c, contains_constraint s c = true /\ co_collide (s_con s c) = false /\
    ((co_a (s_con s c) = a /\ co_b (s_con s c) = b) \/ (co_a (s_con s c) = b /\ co_b (s_con s c) = a)).
Proof.
  intros R. destruct (constraint_lists s a R) as [_ L]. unfold query_reject_constraints. rewrite existsb_exists. split.
  - intros [c [H1 H2]]. apply L in H1. apply andb_true_iff in H2. destruct H2 as [H2 H3]. apply negb_true_iff in H2.
    rewrite orb_true_iff, !andb_true_iff, !Nat.eqb_eq in H3. exists c. tauto.
  - intros [c [H1 [H2 H3]]]. exists c. split; [apply L; split; auto; tauto|]. apply andb_true_iff. split; [apply negb_true_iff; auto|].
    rewrite orb_true_iff, !andb_true_iff, !Nat.eqb_eq. tauto.
Qed.
Lemma reject_sym s a b : reachable s -> query_reject_constraints s a b = query_reject_constraints s b a.
Proof.
  intros R. apply eq_iff_eq_true. rewrite !reject_spec by auto. split; intros [c H]; exists c; tauto.
Qed.

(** ** Contacts *)
Lemma contact_lists s b : reachable s -> NoDup (b_arbs (s_body s b)) /\
  forall x, In x (b_arbs (s_body s b)) ->
    (b = ar_a (s_arb s x) \/ b = ar_b (s_arb s x)) /\ ar_a (s_arb s x) <> ar_b (s_arb s x) /\
    In x (b_arbs (s_body s (ar_a (s_arb s x)))) /\ In x (b_arbs (s_body s (ar_b (s_arb s x)))) /\
    contains_shape s (ar_sa (s_arb s x)) = true /\ contains_shape s (ar_sb (s_arb s x)) = true /\
    sh_body (s_shape s (ar_sa (s_arb s x))) = ar_a (s_arb s x) /\ sh_body (s_shape s (ar_sb (s_arb s x))) = ar_b (s_arb s x).
Proof.
  intros R. pose proof (w_p _ _ (reachable_ok s R)) as I. split; [apply (ia_n _ _ _ I)|]. intros x H.
  pose proof (threaded_end _ _ _ _ _ I H) as T. assert (LV : live s x) by (left; auto).
  destruct (ia_sa _ _ _ I x LV), (ia_sb _ _ _ I x LV).
  split; [apply (ia_e _ _ _ I); auto|]. split; [apply (ia_ne _ _ _ I); auto|]. split; auto. split; [apply (ia_s _ _ _ I); auto|]. auto.
Qed.
(* between steps the arbiters of the space are exactly those in the lists of awake bodies *)
Lemma contacts_listed s x : reachable s -> s_lock s = 0%Z -> NoDup (s_arbs s) /\
  (In x (s_arbs s) <-> In x (b_arbs (s_body s (ar_a (s_arb s x)))) /\ is_sleeping s (ar_a (s_arb s x)) = false /\ is_sleeping s (ar_b (s_arb s x)) = false).
Proof.
  intros R L. pose proof (reachable_ok s R) as W. pose proof (w_p _ _ W) as I. split; [apply (ia_an _ _ _ I)|].
  rewrite <- !(sleeping_parked s _ L W). split.
  - intros H. destruct (ia_at _ _ _ I x H) as [T|[]]. split; [exact T|]. apply (both_awake [] s x); auto.
  - intros [T [A B]]. apply (ia_own _ _ _ I); auto. destruct (owner_end s x) as [O|O]; rewrite O; auto.
Qed.
Lemma unthread_two s x y z : reachable s -> In x (b_arbs (s_body s (ar_a (s_arb s x)))) ->
  (In z (b_arbs (s_body (unthread x s) y)) <-> In z (b_arbs (s_body s y)) /\ z <> x) /\ NoDup (b_arbs (s_body (unthread x s) y)) /\
  (y <> ar_a (s_arb s x) -> y <> ar_b (s_arb s x) -> b_arbs (s_body (unthread x s) y) = b_arbs (s_body s y)).
Proof.
  intros R T. pose proof (w_p _ _ (reachable_ok s R)) as I. rewrite unthread_body. simpl.
  assert (ND := ia_n _ _ _ I y). split; [|split].
  - destruct (Nat.eqb_spec (ar_a (s_arb s x)) y) as [E|E], (Nat.eqb_spec (ar_b (s_arb s x)) y) as [E'|E'].
    + rewrite !remove1_spec by auto using remove1_nd. tauto.
    + rewrite !remove1_spec by auto. tauto.
    + rewrite !remove1_spec by auto. tauto.
    + split; [|tauto]. intros H. split; auto. intros ->. destruct (ia_e _ _ _ I y x H); congruence.
  - destruct (_ =? y), (_ =? y); auto using remove1_nd.
  - intros A B. destruct (Nat.eqb_spec (ar_a (s_arb s x)) y), (Nat.eqb_spec (ar_b (s_arb s x)) y); congruence.
Qed.

(** ** Sleeping *)
Lemma sleeping_group s b r : reachable s -> group s b = Some r ->
  In r (s_comps s) /\ is_sleeping s r = true /\ contains_body s b = true /\ ty s b = Dynamic /\
  (forall v, linked s b v -> ty s v = Static \/ group s v = Some r) /\ (forall v, connected s b v -> group s v = Some r).
Proof.
  intros R G. pose proof (reachable_ok s R) as W. pose proof (w_g _ _ W) as GR.
  assert (IR : In r (s_comps s)) by (eapply (g_root _ GR); eauto).
  assert (CL : forall u v, group s u = Some r -> linked s u v -> ty s v = Static \/ group s v = Some r).
  { intros u v GU LV. destruct (w_cl _ _ W u v LV) as [|[_ E]]; auto; [apply parked_spec; left; unfold roots; unfold group in GU; congruence|].
    right. unfold group in *. unfold roots in E. congruence. }
  assert (PB : parked s b = true) by (apply parked_spec; left; unfold roots; unfold group in G; congruence).
  apply (ib_pd _ _ _ (w_p _ _ W)) in PB.
  split; auto. split.
  { destruct (g_chain _ GR r IR) as [l [A [B D]]]. apply chain_head, D in A. unfold is_sleeping. unfold roots in A. rewrite A. reflexivity. }
  split; [tauto|]. split; [tauto|]. split; [intros v; apply CL; auto|].
  induction 1 as [|v w C IH LV D]; auto. destruct (CL v w IH LV); [congruence|auto].
Qed.
(* the list of the group: following sleepingNext from the root visits exactly the group, once each *)
Inductive visits (s : space) : nat -> list nat -> Prop :=
| vi_one b : b_next (s_body s b) = None -> visits s b [b]
| vi_cons b c l : b_next (s_body s b) = Some c -> visits s c l -> visits s b (b :: l).
Lemma group_list s r : reachable s -> In r (s_comps s) -> exists l, visits s r l /\ NoDup l /\ forall b, In b l <-> group s b = Some r.
Proof.
  intros R H. destruct (g_chain _ (w_g _ _ (reachable_ok s R)) r H) as [l [A [B C]]]. exists l. split; [|split; auto].
  clear -A. induction A; econstructor; eauto.
Qed.
Lemma groups_nodup s : reachable s -> NoDup (s_comps s). Proof. intros R. apply (g_nd _ (w_g _ _ (reachable_ok s R))). Qed.

Lemma falls_asleep s thr dt fast evs old s' : reachable s -> valid (OStep (Some thr) dt fast evs old []) s -> sstep (OStep (Some thr) dt fast evs old []) s = Some s' ->
  forall b, is_sleeping s b = false -> is_sleeping s' b = true ->
    (forall y, connected s' b y <-> group s' y = group s' b) /\
    (forall y, connected s' b y -> nltb (b_idle (s_body s' y)) thr = false).
Proof.
  intros R V E b B1 B2. pose proof (reachable_ok s R) as W. destruct (step_ok (Some thr) dt fast evs old [] s W V) as [s1 [E1 [W1 [_ [_ [SL _]]]]]].
  simpl in E. assert (s1 = s') by congruence. subst s1.
  destruct (sl_new _ _ _ (SL thr eq_refl eq_refl) b) as [A C]; auto.
  { rewrite sleeping_parked; auto. apply V. }
  split; auto. intros y. rewrite A. unfold is_sleeping, roots, group in *. split; [tauto|]. intros G. split; auto. rewrite G. exact B2.
Qed.
Lemma stays_awake_why s thr dt fast evs old s' : reachable s -> valid (OStep (Some thr) dt fast evs old []) s -> sstep (OStep (Some thr) dt fast evs old []) s = Some s' ->
  forall b, contains_body s' b = true -> ty s' b = Dynamic -> is_sleeping s' b = false ->
    exists y, connected s' b y /\ nltb (b_idle (s_body s' y)) thr = true.
Proof.
  intros R V E b. pose proof (reachable_ok s R) as W. destruct (step_ok (Some thr) dt fast evs old [] s W V) as [s1 [E1 [W1 [_ [_ [SL _]]]]]].
  simpl in E. assert (s1 = s') by congruence. subst s1. apply (sl_awake _ _ _ (SL thr eq_refl eq_refl) b).
Qed.
Lemma idle_times s thr dt fast evs old late s' : reachable s -> valid (OStep (Some thr) dt fast evs old late) s -> sstep (OStep (Some thr) dt fast evs old late) s = Some s' ->
  forall y, contains_body s y = true -> ty s y = Dynamic -> is_sleeping s y = false ->
    b_idle (s_body s' y) = n0 \/ (fast y = false /\ (b_idle (s_body s' y) = nadd (b_idle (s_body s y)) dt \/ b_idle (s_body s' y) = nadd n0 dt)).
Proof.
  intros R V E y B T S. pose proof (reachable_ok s R) as W. destruct (step_ok (Some thr) dt fast evs old late s W V) as [s1 [E1 [W1 [_ [_ [_ SL]]]]]].
  simpl in E. assert (s1 = s') by congruence. subst s1. apply (SL thr eq_refl y); auto.
  apply (ib_dyn _ _ _ (w_p _ _ W)). split; auto. split; [congruence|]. rewrite sleeping_parked; auto. apply V.
Qed.

(** ** Waking *)
Lemma wakes s b s' : reachable s -> sstep (OTouch b) s = Some s' ->
  (forall y, group s b <> None -> group s y = group s b -> is_sleeping s' y = false) /\
  (forall y, group s b = None \/ group s y <> group s b -> group s' y = group s y).
Proof.
  intros R E. pose proof (reachable_ok s R) as W. destruct (body_activate_ok [] s b W) as [s1 [E1 [W1 K]]].
  simpl in E. assert (s1 = s') by congruence. subst s1. split.
  - intros y H1 H2. apply sleeping_roots. apply (k_in _ _ _ K). split; auto.
  - intros y H. apply (k_out _ _ _ K). intros [H1 H2]. destruct H; auto.
Qed.
Lemma nodup_perm {A} (l m : list A) : NoDup l -> NoDup m -> (forall x, In x l <-> In x m) -> Permutation l m.
Proof. apply NoDup_Permutation. Qed.
(* the lists depend only on what is contained, on the types and on who sleeps *)
Lemma same_lists s s' : reachable s -> reachable s' -> s_lock s = 0%Z -> s_lock s' = 0%Z ->
  (forall b, contains_body s b = contains_body s' b) -> (forall x, s_shape s x = s_shape s' x) -> (forall c, s_con s c = s_con s' c) ->
  (forall b, ty s b = ty s' b) -> (forall b, is_sleeping s b = is_sleeping s' b) ->
  Permutation (s_dyn s) (s_dyn s') /\ Permutation (s_sta s) (s_sta s') /\ Permutation (s_dix s) (s_dix s') /\ Permutation (s_six s) (s_six s') /\
  Permutation (s_cons s) (s_cons s').
Proof.
  intros R R' L L' A B C D E. 
  assert (BL := fun b => bodies_listed s b R L). assert (BL' := fun b => bodies_listed s' b R' L').
  assert (SL := fun b => shapes_listed s b R L). assert (SL' := fun b => shapes_listed s' b R' L').
  assert (CL := fun c => constraints_listed s c R L). assert (CL' := fun c => constraints_listed s' c R' L').
  unfold contains_constraint, contains_shape in *.
  split; [|split; [|split; [|split]]]; apply NoDup_Permutation.
  - apply (BL 0). - apply (BL' 0).
  - intros b. destruct (BL b) as [_ [_ [_ [H _]]]], (BL' b) as [_ [_ [_ [H' _]]]]. rewrite H, H', A, D, E. tauto.
  - apply (BL 0). - apply (BL' 0).
  - intros b. destruct (BL b) as [_ [_ [H _]]], (BL' b) as [_ [_ [H' _]]]. rewrite H, H', A, D. tauto.
  - apply (SL 0). - apply (SL' 0).
  - intros [h x]. destruct (SL x) as [_ [_ [_ [H _]]]], (SL' x) as [_ [_ [_ [H' _]]]]. rewrite H, H', B, D, E. tauto.
  - apply (SL 0). - apply (SL' 0).
  - intros [h x]. destruct (SL x) as [_ [_ [H _]]], (SL' x) as [_ [_ [H' _]]]. rewrite H, H', B, D, E. tauto.
  - apply (CL 0). - apply (CL' 0).
  - intros c. destruct (CL c) as [_ H], (CL' c) as [_ H']. rewrite H, H', C, !E. tauto.
Qed.
(* waking while the space is locked is put off until it is unlocked *)
Lemma unlock_wakes s s' : reachable s -> s_lock s = 1%Z -> sstep OUnlock s = Some s' -> s_lock s' = 0%Z /\
  (forall b, group s' b = group s b) /\
  (forall b, In b (s_dyn s') <-> contains_body s b = true /\ ty s b <> Static /\ is_sleeping s b = false).
Proof.
  intros R L E. pose proof (reachable_ok s R) as W. assert (V : valid OUnlock s) by (simpl; lia).
  destruct (unlock_ok [] s W V) as [s1 [E1 [W1 U]]]. simpl in E. assert (s1 = s') by congruence. subst s1.
  assert (L' : s_lock s' = 0%Z) by (rewrite (u_lock _ _ U), L; reflexivity).
  split; auto. split; [intros; unfold group; rewrite (u_body _ _ U); auto|].
  intros b. rewrite (ib_dyn _ _ _ (w_p _ _ W1)), (sleeping_parked s' b L' W1). unfold contains_body, is_sleeping, ty. rewrite (u_body _ _ U). tauto.
Qed.

(** ** Types *)
Lemma set_type_spec s b t s' : reachable s -> valid (OSetType b t) s -> sstep (OSetType b t) s = Some s' ->
  ty s' b = t /\ (forall y, y <> b -> ty s' y = ty s y) /\
  (forall y, contains_body s' y = contains_body s y) /\ (forall x, s_shape s' x = s_shape s x) /\ (forall c, s_con s' c = s_con s c) /\
  (forall y, group s' y = group s y).
Proof.
  intros R V E. destruct (set_type_ok s b t (reachable_ok s R) V) as [s1 [E1 [W1 [A [B [C [D F]]]]]]]. simpl in E.
  assert (s1 = s') by congruence. subst s1. split; [rewrite D, Nat.eqb_refl; auto|].
  split; [intros y Y; rewrite D; destruct (Nat.eqb_spec b y); congruence|]. split; auto. split; [intros; rewrite B; auto|]. split; [intros; rewrite C; auto|]. exact F.
Qed.
End Main.
