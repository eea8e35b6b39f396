(** The second half of Step: ProcessComponents, the contact cache and the late callbacks. *)
From Coq Require Import ZArith List Bool Arith Lia Permutation.
From Verif Require Import Num Space SpaceSpec SpaceInv SpaceMove SpaceWake SpaceActivate SpaceOps SpaceShapes SpaceFlood SpaceSleep SpaceStep.
Import ListNotations.
Local Open Scope nat_scope.

Section Process.
Context {N : Num}.

(** ** Idle times *)
Lemma idle_update_tame dt fast b s : tame s (idle_update dt fast b s).
Proof.
  unfold idle_update. destruct (is_type s b Dynamic) eqn:T; [|apply tame_refl]. apply is_type_t in T. apply idle_tame. congruence.
Qed.
Lemma idle_updates dt fast l : forall s, NoDup l ->
  tame s (fold_left (fun s b => idle_update dt fast b s) l s) /\
  (forall y, ~ In y l -> b_idle (s_body (fold_left (fun s b => idle_update dt fast b s) l s) y) = b_idle (s_body s y)) /\
  (forall y, In y l -> ty s y = Dynamic -> b_idle (s_body (fold_left (fun s b => idle_update dt fast b s) l s) y) =
     if fast y then n0 else nadd (b_idle (s_body s y)) dt).
Proof.
  induction l as [|b l IH]; intros s ND; simpl; [split; [apply tame_refl|tauto]|]. inversion ND as [|? ? NI ND']; subst.
  destruct (IH (idle_update dt fast b s) ND') as [A1 [A2 A3]].
  pose proof (idle_update_tame dt fast b s) as T.
  assert (O : forall y, b <> y -> b_idle (s_body (idle_update dt fast b s) y) = b_idle (s_body s y)).
  { intros y H. unfold idle_update. destruct (is_type s b Dynamic); auto. simpl. rewrite upd_other; auto. }
  split; [eapply tame_trans; eauto|]. split.
  - intros y H. rewrite A2, O; tauto.
  - intros y [<-|H] D.
    + rewrite A2 by auto. unfold idle_update. rewrite (proj2 (is_type_t s b Dynamic) D). simpl. rewrite upd_same. reflexivity.
    + rewrite A3; auto.
      * rewrite O; auto. intros ->; contradiction.
      * rewrite (ce_type _ _ _ (t_core _ _ T)). auto.
Qed.

(** ** Contacts *)
Definition kin_touch (s : space) : Prop := forall u v, in_contact s u v -> ty s v = Kinematic -> ty s u = Dynamic -> b_idle (s_body s u) = n0.
Lemma in_contact_core s s' u v : core_eq s s' -> in_contact s' u v -> in_contact s u v.
Proof. intros [] [x H]. exists x. rewrite ce_ar, ce_arb. exact H. Qed.
Lemma kin_touch_core s s' : core_eq s s' -> reset_or_same s s' -> kin_touch s -> kin_touch s'.
Proof.
  intros C R K u v H. rewrite !(ce_type _ _ _ C). intros A B. destruct (R u) as [-> |]; auto. apply (K u v); auto. eapply in_contact_core; eauto.
Qed.

Lemma pushed s x m s' : winv (x :: m) s -> NoDup (x :: m) -> parked s (ar_a (s_arb s x)) = false -> parked s (ar_b (s_arb s x)) = false ->
  s' = set_body (set_body s (ar_a (s_arb s x)) (w_arbs (s_body s (ar_a (s_arb s x))) (x :: b_arbs (s_body s (ar_a (s_arb s x))))))
         (ar_b (s_arb s x)) (w_arbs (s_body s (ar_b (s_arb s x))) (x :: b_arbs (s_body s (ar_b (s_arb s x))))) ->
  winv m s' /\ cast s s' /\ (forall u v, in_contact s' u v -> in_contact s u v \/
     (u = ar_a (s_arb s x) /\ v = ar_b (s_arb s x)) \/ (u = ar_b (s_arb s x) /\ v = ar_a (s_arb s x))) /\
  s_arb s' = s_arb s /\ s_lock s' = s_lock s /\ (forall y, b_idle (s_body s' y) = b_idle (s_body s y)) /\ (forall y, parked s' y = parked s y).
Proof.
  intros W ND PA PB ES. pose proof W as [I CL G KN WL WR]. set (a := ar_a (s_arb s x)) in *. set (b := ar_b (s_arb s x)) in *.
  destruct (ia_q _ _ _ I x ltac:(simpl; auto)) as [UT XA]. inversion ND as [|? ? NI ND']; subst x0 l.
  assert (NE : a <> b) by (apply (ia_ne _ _ _ I); right; apply (ia_ac _ _ _ I); auto).
  assert (NB : forall y, ~ In x (b_arbs (s_body s y))) by (intros y H; apply UT; eapply threaded_end; eauto).
  assert (K8 : forall y, b_arbs (s_body s' y) = if Nat.eqb a y || Nat.eqb b y then x :: b_arbs (s_body s y) else b_arbs (s_body s y)).
  { intros y. rewrite ES. simpl. unfold upd. destruct (Nat.eqb_spec b y) as [D|D]; [rewrite D; rewrite orb_true_r; reflexivity|].
    destruct (Nat.eqb_spec a y) as [D'|D']; [rewrite D'|]; reflexivity. }
  know s' s. 
  assert (K8' : forall y z, In z (b_arbs (s_body s' y)) <-> In z (b_arbs (s_body s y)) \/ (z = x /\ (y = a \/ y = b))).
  { intros y z. rewrite K8. destruct (Nat.eqb_spec a y), (Nat.eqb_spec b y); simpl; intuition congruence. }
  assert (K9 : forall y, NoDup (b_arbs (s_body s' y))).
  { intros y. rewrite K8. destruct (Nat.eqb a y || Nat.eqb b y); [constructor; auto|]; apply (ia_n _ _ _ I). }
  clear ES K8.
  assert (TE : forall z, threaded s' z <-> threaded s z \/ z = x).
  { intros z. unfold threaded. xf s'. rewrite K8'. unfold a. split; [tauto|]. intros [|]; auto. subst; auto. }
  assert (CX : In x (s_cache s)) by (apply (ia_ac _ _ _ I); auto).
  assert (LE : forall z, live s' z <-> live s z).
  { intros z. unfold live. rewrite TE. xf s'. split; [|tauto]. intros [[|]|]; auto. subst; auto. }
  assert (IC : forall u v, in_contact s' u v -> in_contact s u v \/ (u = a /\ v = b) \/ (u = b /\ v = a)).
  { intros u v [z [H1 H2]]. xf s'. apply K8' in H1. destruct H1 as [H1|[-> H1]]; [left; exists z; auto|].
    destruct H2 as [[? ?]|[? ?]]; auto. }
  assert (LK : forall u v, linked s' u v -> linked s u v \/ (u = a /\ v = b) \/ (u = b /\ v = a)).
  { intros u v [H|[c H]]; [destruct (IC _ _ H); auto; left; left; auto|]. left. right. exists c. xf s'. auto. }
  split; [|split; [split; auto|split; [auto|split; [auto|split; [auto|split; auto]]]]].
  2:{ intros y. apply parked_eq; unfold roots; auto. }
  apply (winv_of (x :: m) m s); unfold roots, nexts; auto.
  - split; unfold ty; intros; rewrite ?TE, ?LE, ?OE, ?COE in *.
    all: try solve [xf s'; destruct I; eauto].
    + apply K8' in H. xf s'. destruct H as [H|[-> H]]; auto. apply (ia_e _ _ _ I); auto.
    + xf s'. rewrite K8'. rewrite (ia_s _ _ _ I). split; intros [H|H]; auto; [right; unfold b; subst; auto|tauto].
    + xf s'. destruct (ia_at _ _ _ I _ H) as [|[|]]; auto.
    + xf s'. destruct H as [H| ->]; [apply (ia_own _ _ _ I); auto|]. split; auto. intros _. unfold owner. destruct (is_type s _ _); auto.
    + xf s'. destruct H0 as [H0| ->]; auto. apply (ia_ct _ _ _ I); auto.
    + xf s'. destruct (ia_q _ _ _ I x0 ltac:(simpl; auto)) as [Q1 Q2]. split; auto. intros [|]; [auto|subst; contradiction].
  - intros u v H P. unfold ty. xf s'. destruct (LK u v H) as [H1|[[-> ->]|[-> ->]]]; [apply CL; auto|congruence|congruence].
  - intros y. unfold ty. xf s'. apply KN.
Qed.

(* while contacts are pushed: [m] are left, [s0] is the state at the beginning *)
Record pushing (sleep : bool) (s0 : space) (m : list nat) (s : space) : Prop := {
  pu_w : winv m s; pu_nd : NoDup m; pu_l : s_lock s = 0%Z; pu_cast : cast s0 s; pu_arb : s_arb s = s_arb s0; pu_k : sleep = true -> kin_touch s;
  pu_id : reset_or_same s0 s; pu_no : sleep = false -> forall y, parked s y = false;
  pu_st : forall y, parked s0 y = false -> parked s y = false }.
Lemma wake_pushing sleep s0 m s b : pushing sleep s0 m s -> exists s', body_activate b s = Some s' /\ pushing sleep s0 m s' /\ waked s b s'.
Proof.
  intros H. destruct (body_activate_ok _ s b (pu_w _ _ _ _ H)) as [s' [E [W K]]]. exists s'. split; auto. split; auto.
  destruct H. split; auto.
  - rewrite (k_lock _ _ _ K); auto.
  - eapply cast_trans; [exact pu_cast0|]. apply core_cast, (k_core _ _ _ K).
  - rewrite <- (ce_arb _ _ (k_core _ _ _ K)). auto.
  - intros S. eapply kin_touch_core; [exact (k_core _ _ _ K)|exact (k_ros _ _ _ K)|auto].
  - eapply ros_trans; eauto. apply (k_ros _ _ _ K).
  - intros S y. apply (stays_awake s b); auto.
  - intros y Y. apply (stays_awake s b); auto.
Qed.
Lemma push_contact_ok sleep s0 x m s : pushing sleep s0 (x :: m) s -> exists s', push_contact sleep x s = Some s' /\ pushing sleep s0 m s'.
Proof.
  intros H. unfold push_contact. set (a := ar_a (s_arb s x)). set (b := ar_b (s_arb s x)).
  assert (S1 : exists s1, (if sleep && (is_type s b Kinematic || is_sleeping s a) then body_activate a s else Some s) = Some s1 /\
    pushing sleep s0 (x :: m) s1 /\ parked s1 a = false /\ core_eq s s1 /\ s_arb s1 = s_arb s /\ (sleep = true -> ty s b = Kinematic -> ty s a = Dynamic -> b_idle (s_body s1 a) = n0)).
  { destruct sleep; simpl.
    - destruct (is_type s b Kinematic || is_sleeping s a) eqn:E.
      + destruct (wake_pushing _ _ _ _ a H) as [s1 [E1 [P1 K]]]. exists s1. split; auto. split; auto.
        split; [exact (after_wake _ _ _ _ (pu_w _ _ _ _ H) (pu_l _ _ _ _ H) K)|]. split; [apply (k_core _ _ _ K)|].
        split; [rewrite (ce_arb _ _ (k_core _ _ _ K)); auto|]. intros _ _. apply (k_idle _ _ _ K).
      + apply orb_false_iff in E. destruct E as [E1 E2]. exists s. split; auto. split; auto.
        split; [apply parked_no; rewrite (w_r _ _ (pu_w _ _ _ _ H) (pu_l _ _ _ _ H)); split; [apply sleeping_roots; auto|auto]|].
        split; [apply core_refl|]. split; auto. intros _ T. apply is_type_f in E1. contradiction.
    - exists s. split; auto. split; auto. split; [apply (pu_no _ _ _ _ H); auto|]. split; [apply core_refl|]. split; auto. discriminate. }
  destruct S1 as [s1 [-> [H1 [PA [C1 [AR1 I1]]]]]].
  assert (S2 : exists s2, (if sleep && (is_type s1 a Kinematic || is_sleeping s1 b) then body_activate b s1 else Some s1) = Some s2 /\
    pushing sleep s0 (x :: m) s2 /\ parked s2 a = false /\ parked s2 b = false /\ core_eq s1 s2 /\ s_arb s2 = s_arb s1 /\ reset_or_same s1 s2 /\
    (sleep = true -> ty s1 a = Kinematic -> ty s1 b = Dynamic -> b_idle (s_body s2 b) = n0)).
  { destruct sleep; simpl.
    - destruct (is_type s1 a Kinematic || is_sleeping s1 b) eqn:E.
      + destruct (wake_pushing _ _ _ _ b H1) as [s2 [E2 [P2 K]]]. exists s2. split; auto. split; auto.
        split; [apply (stays_awake s1 b); auto; apply (pu_l _ _ _ _ H1)|].
        split; [exact (after_wake _ _ _ _ (pu_w _ _ _ _ H1) (pu_l _ _ _ _ H1) K)|]. split; [apply (k_core _ _ _ K)|].
        split; [rewrite (ce_arb _ _ (k_core _ _ _ K)); auto|]. split; [apply (k_ros _ _ _ K)|]. intros _ _. apply (k_idle _ _ _ K).
      + apply orb_false_iff in E. destruct E as [E1 E2]. exists s1. split; auto. split; auto. split; auto.
        split; [apply parked_no; rewrite (w_r _ _ (pu_w _ _ _ _ H1) (pu_l _ _ _ _ H1)); split; [apply sleeping_roots; auto|auto]|].
        split; [apply core_refl|]. split; auto. split; [apply ros_refl|]. intros _ T. apply is_type_f in E1. contradiction.
    - exists s1. split; auto. split; auto. split; auto. split; [apply (pu_no _ _ _ _ H1); auto|]. split; [apply core_refl|]. split; auto.
      split; [apply ros_refl|discriminate]. }
  destruct S2 as [s2 [-> [H2 [PA2 [PB2 [C2 [AR2 [RS2 I2]]]]]]]].
  assert (EA : a = ar_a (s_arb s2 x)) by (rewrite AR2, AR1; reflexivity). assert (EB : b = ar_b (s_arb s2 x)) by (rewrite AR2, AR1; reflexivity).
  assert (TA : forall y, ty s2 y = ty s y) by (intros; rewrite (ce_type _ _ _ C2); apply (ce_type _ _ _ C1)).
  assert (TA1 : forall y, ty s1 y = ty s y) by (intros; apply (ce_type _ _ _ C1)).
  assert (IA : sleep = true -> ty s b = Kinematic -> ty s a = Dynamic -> b_idle (s_body s2 a) = n0).
  { intros A B D. destruct (RS2 a) as [-> |]; auto. }
  assert (IB : sleep = true -> ty s a = Kinematic -> ty s b = Dynamic -> b_idle (s_body s2 b) = n0).
  { intros A B D. apply I2; rewrite ?TA1; auto. }
  clearbody a b. clear I1 I2 RS2 C1 C2 AR1 AR2 H H1 PA TA1. subst a b.
  destruct (ia_q _ _ _ (w_p _ _ (pu_w _ _ _ _ H2)) x ltac:(simpl; auto)) as [UT XA].
  assert (NB : forall y, ~ In x (b_arbs (s_body s2 y))) by (intros y J; apply UT; eapply threaded_end; [exact (w_p _ _ (pu_w _ _ _ _ H2))|eauto]).
  assert (NE : ar_a (s_arb s2 x) <> ar_b (s_arb s2 x)).
  { apply (ia_ne _ _ _ (w_p _ _ (pu_w _ _ _ _ H2))). right. apply (ia_ac _ _ _ (w_p _ _ (pu_w _ _ _ _ H2))); auto. }
  assert (E1 : push_arbiter x (ar_a (s_arb s2 x)) s2 = Some (set_body s2 (ar_a (s_arb s2 x)) (w_arbs (s_body s2 (ar_a (s_arb s2 x))) (x :: b_arbs (s_body s2 (ar_a (s_arb s2 x))))))).
  { unfold push_arbiter. rewrite (proj2 (mem_false _ _) (NB _)). reflexivity. }
  rewrite E1. unfold push_arbiter. simpl s_body. rewrite upd_other by auto. rewrite (proj2 (mem_false _ _) (NB _)). eexists. split; [reflexivity|]. 
  destruct (pushed s2 x m _ (pu_w _ _ _ _ H2) (pu_nd _ _ _ _ H2) PA2 PB2 eq_refl) as [W [CA [IC [AR [LK [ID PK]]]]]].
  match goal with |- pushing _ _ _ ?t => set (s' := t) in * end.
  destruct H2. split; auto.
  - inversion pu_nd0; auto.
  - eapply cast_trans; eauto.
  - intros S u v H. rewrite !(cast_ty _ _ _ CA), ID. destruct (IC u v H) as [H'|[[-> ->]|[-> ->]]]; [apply pu_k0; auto| |].
    + rewrite !TA. apply IA; auto.
    + rewrite !TA. apply IB; auto.
  - intros y. rewrite ID. apply pu_id0.
  - intros S y. rewrite PK. auto.
  - intros y. rewrite PK. auto.
Qed.

(** ** Constraints *)
Definition kin_join (s : space) (c : nat) : Prop :=
  (ty s (co_b (s_con s c)) = Kinematic -> ty s (co_a (s_con s c)) = Dynamic -> b_idle (s_body s (co_a (s_con s c))) = n0) /\
  (ty s (co_a (s_con s c)) = Kinematic -> ty s (co_b (s_con s c)) = Dynamic -> b_idle (s_body s (co_b (s_con s c))) = n0).
Lemma kin_join_core s s' c : core_eq s s' -> reset_or_same s s' -> kin_join s c -> kin_join s' c.
Proof.
  intros C R [A B]. unfold kin_join. rewrite !(ce_type _ _ _ C), <- (ce_con _ _ C).
  split; intros X Y; [destruct (R (co_a (s_con s c))) as [-> |]|destruct (R (co_b (s_con s c))) as [-> |]]; auto.
Qed.
Record holding (s0 : space) (m : list nat) (s : space) : Prop := {
  ho_w : winv [] s; ho_l : s_lock s = 0%Z; ho_core : core_eq s0 s; ho_id : reset_or_same s0 s;
  ho_st : forall y, parked s0 y = false -> parked s y = false;
  ho_k : forall c, In c (s_cons s0) -> In c m \/ kin_join s c }.
Lemma wake_holding s0 m s b : holding s0 m s -> exists s', body_activate b s = Some s' /\ holding s0 m s' /\ waked s b s'.
Proof.
  intros H. destruct (body_activate_ok _ s b (ho_w _ _ _ H)) as [s' [E [W K]]]. exists s'. split; auto. split; auto.
  destruct H. split; auto.
  - rewrite (k_lock _ _ _ K); auto.
  - eapply core_trans; [exact ho_core0|]. apply (k_core _ _ _ K).
  - eapply ros_trans; eauto. apply (k_ros _ _ _ K).
  - intros y Y. apply (stays_awake s b); auto.
  - intros c J. destruct (ho_k0 c J) as [|KJ]; auto. right. eapply kin_join_core; [exact (k_core _ _ _ K)|exact (k_ros _ _ _ K)|auto].
Qed.
Lemma hold_ok s0 c m s : holding s0 (c :: m) s -> exists s', hold_constraint c s = Some s' /\ holding s0 m s'.
Proof.
  intros H. unfold hold_constraint. cbv zeta. set (a := co_a (s_con s c)). set (b := co_b (s_con s c)).
  assert (S1 : exists s1, (if is_type s b Kinematic then body_activate a s else Some s) = Some s1 /\
    holding s0 (c :: m) s1 /\ core_eq s s1 /\ (ty s b = Kinematic -> ty s a = Dynamic -> b_idle (s_body s1 a) = n0)).
  { destruct (is_type s b Kinematic) eqn:E.
    - destruct (wake_holding _ _ _ a H) as [s1 [E1 [P1 K]]]. exists s1. split; auto. split; auto. split; [apply (k_core _ _ _ K)|]. intros _. apply (k_idle _ _ _ K).
    - exists s. split; auto. split; auto. split; [apply core_refl|]. apply is_type_f in E. intros; contradiction. }
  destruct S1 as [s1 [-> [H1 [C1 I1]]]].
  assert (S2 : exists s2, (if is_type s1 a Kinematic then body_activate b s1 else Some s1) = Some s2 /\
    holding s0 (c :: m) s2 /\ core_eq s1 s2 /\ reset_or_same s1 s2 /\ (ty s1 a = Kinematic -> ty s1 b = Dynamic -> b_idle (s_body s2 b) = n0)).
  { destruct (is_type s1 a Kinematic) eqn:E.
    - destruct (wake_holding _ _ _ b H1) as [s2 [E1 [P1 K]]]. exists s2. split; auto. split; auto. split; [apply (k_core _ _ _ K)|].
      split; [apply (k_ros _ _ _ K)|]. intros _. apply (k_idle _ _ _ K).
    - exists s1. split; auto. split; auto. split; [apply core_refl|]. split; [apply ros_refl|]. apply is_type_f in E. intros; contradiction. }
  destruct S2 as [s2 [-> [H2 [C2 [R2 I2]]]]]. exists s2. split; auto.
  assert (C : core_eq s s2) by (eapply core_trans; eauto).
  assert (KJ : kin_join s2 c).
  { unfold kin_join. rewrite <- (ce_con _ _ C). fold a b. rewrite !(ce_type _ _ _ C). split; intros X Y.
    - destruct (R2 a) as [-> |]; auto.
    - apply I2; rewrite (ce_type _ _ _ C1); auto. }
  destruct H2. split; auto. intros c' J. destruct (ho_k0 c' J) as [[<-|]|]; auto.
Qed.

(** ** All of ProcessComponents *)
Lemma parked_kin Q s u : winv Q s -> ty s u <> Dynamic -> parked s u = false.
Proof. intros W T. destruct (parked s u) eqn:P; auto. apply (ib_pd _ _ _ (w_p _ _ W)) in P. tauto. Qed.

(* what a step that puts groups to sleep has done; [s5] is the state after it *)
Record slept (thr : num) (s4 s5 : space) : Prop := {
  sl_new : forall b, parked s4 b = false -> is_sleeping s5 b = true ->
    (forall y, connected s5 b y <-> is_sleeping s5 y = true /\ roots s5 y = roots s5 b) /\
    (forall y, connected s5 b y -> nltb (b_idle (s_body s5 y)) thr = false);
  sl_awake : forall b, b_in (s_body s5 b) = true -> ty s5 b = Dynamic -> is_sleeping s5 b = false ->
    exists y, connected s5 b y /\ nltb (b_idle (s_body s5 y)) thr = true }.

Lemma process_ok thr dt fast s : winv (s_arbs s) s -> s_lock s = 0%Z ->
  match thr with
  | None => forall b, parked s b = false
  | Some t => nltb n0 t = true /\
      (forall b x, b_in (s_body s b) = true -> ty s b = Dynamic -> In x (b_shapes (s_body s b)) -> sh_in (s_shape s x) = true)
  end ->
  exists s', process_components thr dt fast s = Some s' /\ winv [] s' /\ cast s s' /\ s_lock s' = 0%Z /\
    (forall t, thr = Some t -> slept t s s' /\
      forall y, In y (s_dyn s) -> ty s y = Dynamic ->
        b_idle (s_body s' y) = n0 \/ (fast y = false /\ b_idle (s_body s' y) = nadd (b_idle (s_body s y)) dt)).
Proof.
  intros W L V. unfold process_components. set (sleep := match thr with Some _ => true | None => false end).
  set (s0 := if sleep then _ else s).
  assert (A0 : tame s s0 /\ (sleep = true -> forall y, In y (s_dyn s) -> ty s y = Dynamic -> b_idle (s_body s0 y) = if fast y then n0 else nadd (b_idle (s_body s y)) dt)).
  { unfold s0. destruct sleep; [|split; [apply tame_refl|discriminate]].
    destruct (idle_updates dt fast (s_dyn s) s (ib_dynn _ _ _ (w_p _ _ W))) as [A1 [A2 A3]]. split; auto. }
  destruct A0 as [T0 ID0]. clearbody s0. pose proof (tame_winv _ _ _ T0 W) as W0. pose proof (t_lists _ _ T0) as LS0.
  rewrite (le_arbs _ _ LS0) in W0.
  assert (PK0 : forall y, parked s0 y = parked s y) by (intros; apply parked_eq; [apply (t_roots _ _ T0)|apply (t_roused _ _ T0)]).
  destruct (ofold_inv (push_contact sleep) (s_arbs s0) s0 (pushing sleep s0)) as [s1 [E1 H1]].
  { split; auto using cast_refl, ros_refl.
    - apply (ia_an _ _ _ (w_p _ _ W0)).
    - rewrite (t_lock _ _ T0). auto.
    - intros _ u v [x [HX HE]] TV TU. exfalso. pose proof (w_p _ _ W0) as I.
      pose proof (threaded_end _ _ _ _ _ I HX) as TH.
      assert (NA : ~ In x (s_arbs s0)) by (intros J; apply (ia_q _ _ _ I) in J; tauto).
      assert (LV : linked s0 u v) by (left; exists x; auto).
      assert (PO : parked s0 (owner s0 x) = true). { destruct (parked s0 (owner s0 x)) eqn:P; auto. apply (ia_own _ _ _ I) in P; auto. }
      assert (PV : parked s0 v = false) by (eapply parked_kin; eauto; congruence).
      assert (PU : parked s0 u = true). { destruct (owner_end s0 x) as [O|O], HE as [[<- <-]|[<- <-]]; congruence. }
      destruct (w_cl _ _ W0 _ _ LV PU) as [|[? _]]; congruence.
    - intros S y. rewrite PK0. destruct thr; [discriminate|auto]. }
  { intros x m t. apply push_contact_ok. }
  rewrite E1. pose proof (pu_w _ _ _ _ H1) as W1.
  assert (CA1 : cast s s1) by (eapply cast_trans; [apply core_cast, (t_core _ _ T0)|exact (pu_cast _ _ _ _ H1)]).
  destruct thr as [t|].
  2:{ exists s1. split; auto. split; auto. split; auto. split; [apply (pu_l _ _ _ _ H1)|discriminate]. }
  destruct V as [TP VS].
  destruct (ofold_inv hold_constraint (s_cons s1) s1 (holding s1)) as [s2 [E2 H2]].
  { split; auto using core_refl, ros_refl. apply (pu_l _ _ _ _ H1). }
  { intros c m s'. apply hold_ok. }
  rewrite E2. pose proof (ho_w _ _ _ H2) as W2. pose proof (ho_core _ _ _ H2) as C2.
  assert (CA2 : cast s s2) by (eapply cast_trans; [exact CA1|apply core_cast; auto]).
  assert (R2 : s_roused s2 = []) by (apply (w_r _ _ W2), (ho_l _ _ _ H2)).
  assert (RP : forall y, roots s2 y = None <-> parked s2 y = false).
  { intros y. rewrite parked_no, R2. simpl. tauto. }
  assert (SW : sw t (parked s2) s2 (parked s2) (fun _ => False) [] (s_dyn s2) s2).
  { pose proof W2 as [I CL G KN WL WR]. split; auto using core_refl; try tauto.
    - apply (g_nd _ G).
    - intros r H. destruct (g_chain _ G r H) as [l [A [B D]]]. exists l. split; auto. split; auto. intros b. rewrite D. split; [|tauto].
      intros E. split; auto. apply parked_spec. left. congruence.
    - intros b P. apply parked_spec in P. rewrite R2 in P. destruct P as [P|[]]. destruct (roots s2 b) as [r|] eqn:E; [|congruence].
      exists r. split; auto. eapply (g_root _ G); eauto.
    - intros u r P E. apply RP in P. congruence.
    - intros u P _. apply (g_next _ G). apply RP. auto.
    - intros b [].
    - apply (ho_l _ _ _ H2).
    - intros u v [H|[c [H1' HE]]] TV TU.
      + apply (kin_touch_core s1 s2 C2 (ho_id _ _ _ H2) (pu_k _ _ _ _ H1 eq_refl) u v); auto.
      + assert (PV : parked s2 v = false) by (eapply parked_kin; eauto; congruence).
        assert (CI : In c (s_cons s1)).
        { apply (ic_own _ _ _ (w_p _ _ W1)). rewrite (ce_con _ _ C2). split; auto.
          destruct (parked s1 (cowner s1 c)) eqn:P; auto. exfalso.
          assert (PV1 : parked s1 v = false) by (eapply parked_kin; eauto; rewrite <- (ce_type _ _ _ C2); congruence).
          assert (PU1 : parked s1 u = true). { destruct (cowner_end s1 c) as [O|O], HE as [[EA EB]|[EA EB]]; rewrite O, (ce_con _ _ C2) in P; congruence. }
          assert (LU : linked s1 u v) by (right; exists c; rewrite (ce_con _ _ C2); auto).
          destruct (w_cl _ _ W1 _ _ LU PU1) as [X|[X _]]; [rewrite <- (ce_type _ _ _ C2) in X|]; congruence. }
        destruct (ho_k _ _ _ H2 c CI) as [[]|[KA KB]]. destruct HE as [[<- <-]|[<- <-]]; auto.
    - intros b x. unfold ty. rewrite (cs_in _ _ CA2), (cs_ty _ _ CA2), (cs_sh _ _ CA2), (cs_shape _ _ CA2). apply VS.
    - intros b A B. congruence. }
  destruct (sweep_ok t TP (parked s2) s2 (S (length (s_dyn s2))) _ _ _ _ _ SW) as [s3 [P3 [F3 [pre3 [E3 SW3]]]]]; [lia|].
  simpl length in E3. rewrite E3. exists s3. split; auto.
  destruct (sw_end _ _ _ _ _ _ _ SW3) as [W3 [PP AW]].
  assert (CA3 : cast s s3) by (eapply cast_trans; [exact CA2|apply core_cast; apply (q_core _ _ _ _ _ _ _ _ SW3)]).
  split; auto. split; auto. split; [apply (q_lock _ _ _ _ _ _ _ _ SW3)|].
  intros t' Et. inversion Et; subst t'. clear Et.
  assert (R3 : s_roused s3 = []) by (apply (q_roused _ _ _ _ _ _ _ _ SW3)).
  assert (PS : forall y, P3 y = is_sleeping s3 y) by (intros y; rewrite <- PP; apply awake_parked; auto).
  split; [split|].
  - intros b NP SB. rewrite <- PS in SB.
    assert (NP2 : parked s2 b = false).
    { apply (ho_st _ _ _ H2), (pu_st _ _ _ _ H1). rewrite PK0; auto. }
    destruct (q_new _ _ _ _ _ _ _ _ SW3 b SB NP2) as [A B]. split; auto. intros y. rewrite <- PS. apply A.
  - intros b BI TB SB. apply AW; auto. rewrite PS; auto.
  - intros y Y TY. rewrite (q_idle _ _ _ _ _ _ _ _ SW3).
    destruct (ho_id _ _ _ H2 y) as [-> |]; auto. destruct (pu_id _ _ _ _ H1 y) as [-> |]; auto.
    rewrite (ID0 eq_refl y Y TY). destruct (fast y); auto.
Qed.

(** ** The whole step *)
Lemma drop_cached s c : winv [] s -> (forall x, In x c -> In x (s_cache s)) -> NoDup c -> (forall x, In x (s_arbs s) -> In x c) ->
  winv [] (set_arbs s (s_arbs s) c).
Proof.
  intros W H1 H2 H3. set (s' := set_arbs s (s_arbs s) c). assert (SC : s_cache s' = c) by reflexivity. know s' s. clearbody s'.
  assert (LE : forall z, live s' z -> live s z) by (intros z; unfold live; rewrite TE, SC; intuition).
  pose proof W as [I CL G KN WL WR].
  apply (winv_of [] [] s); unfold roots, nexts; auto.
  - split; unfold ty; intros; rewrite ?TE, ?OE, ?COE in *.
    all: try (match goal with X : live _ _ |- _ => apply LE in X end). all: try (match goal with X : live _ _ |- _ => apply LE in X end).
    all: try solve [xf s'; destruct I; eauto].
    all: try rewrite SC in *.
    all: try solve [xf s'; auto].
  - intros u v H P. unfold ty. xf s'. apply CL; auto.
  - intros y. unfold ty. xf s'. apply KN.
Qed.
Lemma late_ok l s : winv [] s -> exists s', ofold body_activate l s = Some s' /\ winv [] s' /\ core_eq s s' /\ s_lock s' = s_lock s /\ reset_or_same s s'.
Proof.
  intros W. destruct (ofold_inv body_activate l s (fun _ s' => winv [] s' /\ core_eq s s' /\ s_lock s' = s_lock s /\ reset_or_same s s')) as [s' [E H]].
  - split; auto using core_refl, ros_refl.
  - intros b m s1 [W1 [C1 [L1 R1]]]. destruct (body_activate_ok _ s1 b W1) as [s2 [E [W2 K]]]. exists s2. split; auto. split; auto.
    split; [eapply core_trans; [exact C1|apply (k_core _ _ _ K)]|]. split; [rewrite (k_lock _ _ _ K); auto|]. eapply ros_trans; [exact R1|apply (k_ros _ _ _ K)].
  - exists s'. auto.
Qed.

Lemma step_ok thr dt fast evs old late s : winv [] s -> valid (OStep thr dt fast evs old late) s ->
  exists s', step thr dt fast evs old late s = Some s' /\ winv [] s' /\ cast s s' /\ s_lock s' = 0%Z /\
    (forall t, thr = Some t -> late = [] -> slept t s s') /\
    (forall t, thr = Some t -> forall y, In y (s_dyn s) -> ty s y = Dynamic ->
        b_idle (s_body s' y) = n0 \/ (fast y = false /\ (b_idle (s_body s' y) = nadd (b_idle (s_body s y)) dt \/ b_idle (s_body s' y) = nadd n0 dt))).
Proof.
  intros W [L [EV V]]. unfold step.
  destruct (first_half s evs W L EV) as [s3 [s4 [E3 [E4 [W4 [CA4 [L4 [RT4 [D4 ID4]]]]]]]]]. rewrite E3, E4.
  assert (R4 : s_roused s4 = []) by (apply (w_r _ _ W4); auto).
  assert (PK4 : forall y, parked s4 y = parked s y).
  { intros y. rewrite !awake_parked; [|apply (w_r _ _ W); auto|auto]. unfold is_sleeping. pose proof (RT4 y) as X. unfold roots in X. rewrite X. reflexivity. }
  destruct (process_ok thr dt fast s4 W4 L4) as [s5 [E5 [W5 [CA5 [L5 SL]]]]].
  { destruct thr as [t|].
    - destruct V as [V1 V2]. split; auto. intros b x. unfold ty. rewrite (cs_in _ _ CA4), (cs_ty _ _ CA4), (cs_sh _ _ CA4), (cs_shape _ _ CA4). apply V2.
    - intros b. rewrite PK4, awake_parked; auto. apply (w_r _ _ W); auto. }
  rewrite E5. set (s6 := set_arbs s5 (s_arbs s5) _).
  assert (W6 : winv [] s6).
  { apply drop_cached; auto.
    - intros x H. apply filter_In in H. tauto.
    - apply NoDup_filter. apply (ia_cn _ _ _ (w_p _ _ W5)).
    - intros x H. apply filter_In. split; [apply (ia_ac _ _ _ (w_p _ _ W5)); auto|]. unfold keep_cached.
      rewrite (proj2 (mem_spec x (s_arbs s5)) H), orb_true_r. reflexivity. }
  destruct (late_ok late (lock s6) (lock_ok _ _ W6)) as [s7 [E7 [W7 [C7 [L7 R7]]]]]. rewrite E7.
  assert (L7' : s_lock s7 = 1%Z) by (rewrite L7; simpl; rewrite L5; reflexivity).
  destruct (unlock_ok _ s7 W7) as [s8 [E8 [W8 U]]]; [lia|]. rewrite E8. exists s8. split; auto. split; auto.
  split.
  { eapply cast_trans; [exact CA4|]. eapply cast_trans; [exact CA5|]. apply (cast_trans s5 (lock s6)); [split; reflexivity|].
    eapply cast_trans; [apply core_cast; exact C7|]. split; intros; rewrite ?(u_body _ _ U), ?(u_shape _ _ U), ?(u_con _ _ U); auto. }
  split; [rewrite (u_lock _ _ U); lia|]. split.
  - intros t -> ->. simpl in E7. inversion E7; subst s7. clear E7. destruct (SL t eq_refl) as [[S1 S2] _].
    assert (BD : s_body s8 = s_body s5) by (rewrite (u_body _ _ U); reflexivity).
    assert (CO : core_eq s5 s8) by (split; intros; rewrite ?(u_body _ _ U), ?(u_shape _ _ U), ?(u_con _ _ U), ?(u_arb _ _ U); reflexivity).
    assert (SB : forall y, is_sleeping s8 y = is_sleeping s5 y) by (intros; unfold is_sleeping; rewrite BD; reflexivity).
    assert (CN : forall u v, connected s8 u v <-> connected s5 u v).
    { intros u v. split; apply connected_core; auto using core_sym. }
    split.
    + intros b NP B. rewrite SB in B. destruct (S1 b) as [A1 A2]; auto; [rewrite PK4; auto|]. split.
      * intros y. rewrite CN, SB. unfold roots. rewrite BD. apply A1.
      * intros y. rewrite CN, BD. apply A2.
    + intros b B1 B2 B3. unfold ty in B2. rewrite BD in B1, B2. rewrite SB in B3. destruct (S2 b B1 B2 B3) as [y [Y1 Y2]].
      exists y. rewrite CN, BD. auto.
  - intros t -> y Y TY. rewrite (u_body _ _ U). destruct (SL t eq_refl) as [_ S3].
    rewrite <- D4 in Y. rewrite <- (cast_ty _ _ _ CA4) in TY. destruct (R7 y) as [-> |]; auto. simpl.
    destruct (S3 y Y TY) as [|[A ->]]; auto. right. split; auto. destruct (ID4 y) as [-> | ->]; auto.
Qed.
End Process.
