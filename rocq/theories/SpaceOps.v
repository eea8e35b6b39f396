(** Adding and removing bodies and shapes, attaching shapes, locking and unlocking keep the invariant. *)
From Coq Require Import ZArith List Bool Arith Lia Permutation.
From Verif Require Import Num Space SpaceSpec SpaceInv SpaceMove SpaceWake SpaceActivate.
Import ListNotations.
Local Open Scope nat_scope.

(* rewrite the fields of the new state s' with the known equations *)
Ltac xf s' := repeat match goal with
  | E : forall y, ?f (s_body s' y) = _ |- context[?f (s_body s' ?z)] => rewrite (E z)
  | E : forall y, ?f (s_body s' y) = _, H : context[?f (s_body s' ?z)] |- _ => rewrite (E z) in H
  | E : forall y, ?f (s_shape s' y) = _ |- context[?f (s_shape s' ?z)] => rewrite (E z)
  | E : forall y, ?f (s_shape s' y) = _, H : context[?f (s_shape s' ?z)] |- _ => rewrite (E z) in H
  | E : forall y, ?f (s_con s' y) = _ |- context[?f (s_con s' ?z)] => rewrite (E z)
  | E : forall y, ?f (s_con s' y) = _, H : context[?f (s_con s' ?z)] |- _ => rewrite (E z) in H
  | E : ?g s' = _ |- context[?g s'] => rewrite E
  | E : ?g s' = _, H : context[?g s'] |- _ => lazymatch type of H with g s' = _ => fail | _ => rewrite E in H end
  end.

Section Ops.
Context {N : Num}.

(* the invariant is about the new state if all the fields agree *)
Lemma threaded_eq s s' : (forall y, b_arbs (s_body s' y) = b_arbs (s_body s y)) -> s_arb s' = s_arb s -> forall x, threaded s' x <-> threaded s x.
Proof. intros A B x. unfold threaded. rewrite B, A. reflexivity. Qed.
Lemma live_eq s s' : (forall y, b_arbs (s_body s' y) = b_arbs (s_body s y)) -> s_arb s' = s_arb s -> s_cache s' = s_cache s -> forall x, live s' x <-> live s x.
Proof. intros A B C x. unfold live. rewrite (threaded_eq s s'), C by auto. reflexivity. Qed.
Lemma owner_eq s s' : (forall y, b_type (s_body s' y) = b_type (s_body s y)) -> s_arb s' = s_arb s -> forall x, owner s' x = owner s x.
Proof. intros A B x. unfold owner, is_type, ty. rewrite B, A. reflexivity. Qed.
Lemma cowner_eq s s' : (forall y, b_type (s_body s' y) = b_type (s_body s y)) -> s_con s' = s_con s -> forall x, cowner s' x = cowner s x.
Proof. intros A B x. unfold cowner, is_type, ty. rewrite B, A. reflexivity. Qed.

Lemma linked_eq s s' : (forall y, b_arbs (s_body s' y) = b_arbs (s_body s y)) -> s_arb s' = s_arb s -> s_con s' = s_con s ->
  forall u v, linked s' u v -> linked s u v.
Proof. intros A B C u v [[x H]|[c H]]; [left; exists x|right; exists c]; rewrite ?A, ?B, ?C in H; auto. Qed.

Lemma after_wake Q s b s' : winv Q s -> s_lock s = 0%Z -> waked s b s' -> parked s' b = false.
Proof.
  intros W L K. apply parked_no. split.
  - destruct (roots s b) eqn:R.
    + apply (k_in _ _ _ K). split; congruence.
    + rewrite <- R. apply (k_out _ _ _ K). intros [H _]. auto.
  - rewrite (k_roused _ _ _ K L), (w_r _ _ W L). auto.
Qed.
Lemma stays_awake s b s' y : s_lock s = 0%Z -> waked s b s' -> parked s y = false -> parked s' y = false.
Proof.
  intros L K P. destruct (proj1 (parked_no _ _) P) as [R NR].
  rewrite (proj2 (k_out _ _ _ K y ltac:(intros [A B]; congruence)) L). auto.
Qed.
Lemma stays_roots s b s' y : waked s b s' -> roots s y = None -> roots s' y = None.
Proof. intros K R. rewrite (proj1 (k_out _ _ _ K y ltac:(intros [A B]; congruence))). auto. Qed.

End Ops.
(* the parts of s' that are the same as in s *)
Tactic Notation "know_body" constr(s') constr(s) uconstr(f) := let h := fresh "KW" in try assert (h : forall y, f (s_body s' y) = f (s_body s y)) by
  (intros y; try subst s'; simpl; unfold upd; repeat match goal with |- context[Nat.eqb ?a y] => destruct (Nat.eqb_spec a y); [subst|] end; reflexivity).
Tactic Notation "know_list" constr(s') constr(s) uconstr(g) := let h := fresh "KW" in try assert (h : g s' = g s) by (try subst s'; reflexivity).
Ltac know s' s :=
  know_body s' s b_type; know_body s' s b_idle; know_body s' s b_shapes; know_body s' s b_arbs; know_body s' s b_cons;
  know_body s' s b_in; know_body s' s b_root; know_body s' s b_next;
  know_list s' s s_shape; know_list s' s s_arb; know_list s' s s_con; know_list s' s s_dyn; know_list s' s s_sta;
  know_list s' s s_dix; know_list s' s s_six; know_list s' s s_arbs; know_list s' s s_cache; know_list s' s s_cons;
  know_list s' s s_comps; know_list s' s s_roused; know_list s' s s_lock; know_list s' s s_ids; know_list s' s s_arbc; know_list s' s s_all;
  try (assert (TE : forall x, threaded s' x <-> threaded s x) by (apply threaded_eq; assumption));
  try (assert (LE : forall x, live s' x <-> live s x) by (apply live_eq; assumption));
  try (assert (OE : forall x, owner s' x = owner s x) by (apply owner_eq; assumption));
  try (assert (COE : forall x, cowner s' x = cowner s x) by (apply cowner_eq; assumption));
  try (assert (LK : forall u v, linked s' u v -> linked s u v) by (apply linked_eq; assumption)).

Section Ops2.
Context {N : Num}.
(** ** Lock and Unlock *)
Lemma lock_ok Q s : winv Q s -> winv Q (lock s).
Proof.
  intros [I CL [G1 G2 G3 G4 G5 G6] KN WL WR]. split.
  - eapply pinv_core with (s := s); [split; reflexivity|split; reflexivity|exact I].
  - exact CL.
  - split; auto.
  - exact KN.
  - simpl. lia.
  - simpl. intros; lia.
Qed.
Lemma unrouse Q l : forall s P, NoDup l -> pinv P Q s -> (forall b, In b l -> P b = true) -> s_lock s = 0%Z ->
  exists s', ofold space_activate l s = Some s' /\ pinv (minus_l P l) Q s' /\ frame s s' /\
    s_dyn s' = s_dyn s ++ l /\ (exists m, s_arbs s' = s_arbs s ++ m) /\ (exists m, s_cons s' = s_cons s ++ m).
Proof.
  induction l as [|b l IH]; intros s P ND I HP L.
  - exists s. split; auto. split; [eapply pinv_ext; [|exact I]; intros y; unfold minus_l; simpl; rewrite andb_true_r; auto|].
    split; [apply frame_refl|]. rewrite app_nil_r. split; auto. split; exists []; rewrite app_nil_r; auto.
  - inversion ND as [|? ? NI ND']; subst. rewrite ofold_cons.
    destruct (activate_move P Q s b I) as [s2 [E [I2 [FR [[ma XA] [[mc XC] XD]]]]]]; [apply HP; simpl; auto|exact L|]. rewrite E.
    destruct (IH s2 (minus P b)) as [s' [E' [I' [FR' [D' [[ma' A'] [mc' C']]]]]]]; auto.
    { intros y Y. apply minus_t. split; [apply HP; simpl; auto|]. intros ->; contradiction. }
    { rewrite (fr_lock _ _ FR). auto. }
    exists s'. split; auto. split.
    { eapply pinv_ext; [|exact I']. intros y. unfold minus_l, minus. rewrite mem_cons. destruct (P y), (y =? b), (mem y l); reflexivity. }
    split; [eapply frame_trans; eauto|]. split; [rewrite D', XD, <- app_assoc; reflexivity|].
    split; [exists (ma ++ ma'); rewrite A', XA, app_assoc; auto|exists (mc ++ mc'); rewrite C', XC, app_assoc; auto].
Qed.
Record unlocked (s s' : space) : Prop := {
  u_body : s_body s' = s_body s; u_shape : s_shape s' = s_shape s; u_arb : s_arb s' = s_arb s; u_con : s_con s' = s_con s;
  u_comps : s_comps s' = s_comps s; u_lock : s_lock s' = (s_lock s - 1)%Z; u_ids : s_ids s' = s_ids s;
  u_arbc : s_arbc s' = s_arbc s; u_all : s_all s' = s_all s; u_sta : s_sta s' = s_sta s;
  u_none : s_roused s = [] -> lists_eq s s' /\ s_roused s' = [];
  u_done : s_lock s' = 0%Z -> s_roused s' = [] }.
Lemma unlock_ok Q s : winv Q s -> (0 < s_lock s)%Z -> exists s', unlock s = Some s' /\ winv Q s' /\ unlocked s s'.
Proof.
  intros [I CL [G1 G2 G3 G4 G5 G6] KN WL WR] L. unfold unlock. set (s1 := set_lock s (s_lock s - 1)).
  assert (I1 : pinv (parked s) Q s1) by (eapply pinv_core with (s := s); [split; reflexivity|split; reflexivity|exact I]).
  destruct (Z.eqb_spec (s_lock s1) 0) as [Z0|Z0]; simpl negb; cbv iota.
  - destruct (unrouse Q (s_roused s1) s1 (parked s) G5 I1) as [s2 [E [I2 [FR [D [MA MC]]]]]]; auto.
    { intros b H. apply parked_spec. right. auto. }
    rewrite E. eexists. split; [reflexivity|]. set (s3 := set_roused s2 []).
    assert (RT : forall y, roots s3 y = roots s y) by (intros; unfold roots; simpl; rewrite (fr_body _ _ FR); reflexivity).
    assert (PE : forall y, minus_l (parked s) (s_roused s1) y = parked s3 y).
    { intros y. apply eq_iff_eq_true. rewrite parked_spec, RT. unfold minus_l. rewrite andb_true_iff, parked_spec, negb_true_iff, mem_false.
      simpl. split; [tauto|]. intros [H|[]]. split; auto. }
    split.
    + split.
      * eapply pinv_ext; [exact PE|]. eapply pinv_core with (s := s2); [split; reflexivity|split; reflexivity|exact I2].
      * intros u v H P. rewrite !RT. assert (C : core_eq s3 s) by (destruct FR as [F1 F2 F3 F4]; simpl in *; split; simpl; intros; rewrite ?F1, ?F2, ?F3, ?F4; try reflexivity; try assumption).
        apply (linked_core s3 s) in H; auto. rewrite <- (ce_type _ _ _ C).
        assert (RU : roots s u <> None) by (apply parked_spec in P; rewrite RT in P; simpl in P; tauto).
        destruct (CL u v H) as [|[P' E']]; auto; [apply parked_spec; auto|]. right. split; auto.
        apply parked_spec. left. rewrite RT. congruence.
      * split; simpl; rewrite ?(fr_comps _ _ FR); auto; try constructor.
        -- intros r H. destruct (G2 r H) as [l [A [B C]]]. exists l. split; [|split; auto].
           ++ eapply chain_ext; eauto. intros y _. unfold nexts. simpl. rewrite (fr_body _ _ FR). reflexivity.
           ++ intros b. change (In b l <-> roots s3 b = Some r). rewrite RT. apply C.
        -- intros b r H. change (roots s3 b = Some r) in H. rewrite RT in H. eapply G3; eauto.
        -- intros b H. change (roots s3 b = None) in H. rewrite RT in H. change (nexts s3 b = None).
           unfold nexts. simpl. rewrite (fr_body _ _ FR). apply G4; auto.
        -- intros b [].
      * intros b H. simpl. rewrite (fr_body _ _ FR). apply KN. unfold ty in *. simpl in H. rewrite (fr_body _ _ FR) in H. exact H.
      * simpl. rewrite (fr_lock _ _ FR). simpl in *. lia.
      * reflexivity.
    + destruct FR. split; simpl; auto.
      intros R0. split; auto. simpl in E. unfold s1 in E. simpl in E. rewrite R0 in E. simpl in E. assert (H0 : s2 = set_lock s (s_lock s - 1)) by (inversion E; auto). clear -H0. subst s2. split; reflexivity.
  - exists s1. split; auto. split.
    + split; auto; [split; auto| |]; simpl in *; intros; lia.
    + split; simpl; auto; [intros; split; auto; split; reflexivity|]. intros; simpl in *; contradiction.
Qed.


Lemma winv_of Q0 Q s s' : winv Q0 s -> (forall y, roots s' y = roots s y) -> (forall y, nexts s' y = nexts s y) ->
  s_comps s' = s_comps s -> s_roused s' = s_roused s -> s_lock s' = s_lock s ->
  pinv (parked s) Q s' ->
  (forall u v, linked s' u v -> parked s u = true -> ty s' v = Static \/ (parked s v = true /\ roots s u = roots s v)) ->
  kin s' -> winv Q s'.
Proof.
  intros [I CL [G1 G2 G3 G4 G5 G6] KN WL WR] RT NX E1 E2 E3 I' CL' KN'.
  assert (PE : forall y, parked s y = parked s' y) by (intros; symmetry; apply parked_eq; auto).
  split; auto.
  - eapply pinv_ext; eauto.
  - intros u v H P. rewrite !RT, <- !PE in *. auto.
  - split; rewrite ?E1, ?E2; auto.
    + intros r H. destruct (G2 r H) as [l [A [B C]]]. exists l. split; [eapply chain_ext; eauto|]. split; auto. intros y. rewrite RT. apply C.
    + intros y r. rewrite RT. apply G3.
    + intros y. rewrite RT, NX. apply G4.
    + intros y. rewrite RT. apply G6.
  - congruence.
  - rewrite E2, E3. auto.
Qed.


(** ** AttachShape *)
Lemma attach_ok s x : winv [] s -> valid (OAttach x) s -> winv [] (attach_shape x s).
Proof.
  intros W [V1 V2]. unfold attach_shape. set (b := sh_body (s_shape s x)) in *.
  set (s' := set_body s b _).
  assert (E8 : forall y, b_shapes (s_body s' y) = if Nat.eqb b y then b_shapes (s_body s y) ++ [x] else b_shapes (s_body s y)).
  { intros; unfold s', set_body, upd; simpl; destruct (Nat.eqb_spec b y); subst; reflexivity. }
  know s' s. clearbody s'. pose proof W as [I CL G KN WL WR].
  assert (NX : sh_in (s_shape s x) = false).
  { destruct (sh_in (s_shape s x)) eqn:H; auto. apply (is_i _ _ _ I) in H. contradiction. }
  apply (winv_of [] [] s); unfold roots, nexts; auto.
  - destruct I. unfold ty in *. split; unfold ty; intros; rewrite ?TE, ?LE, ?OE, ?COE in *; xf s'; eauto.
    + destruct (b =? b0); auto. apply nd_snoc; auto. intros H.
      assert (b = b0) by (apply is_b in H; auto). subst; auto.
    + destruct (Nat.eqb_spec b b0); auto. apply in_app_iff in H. destruct H as [H|[<-|[]]]; auto.
    + destruct (Nat.eqb_spec b (sh_body (s_shape s x0))); auto. apply in_app_iff; auto.
    + destruct (Nat.eqb_spec b b0); [|eauto]. subst. congruence.
  - intros u v H P. unfold ty. xf s'. apply CL; auto.
  - intros y. unfold ty. xf s'. apply KN.
Qed.

(** ** AddBody, RemoveBody *)
Lemma add_body_ok s b : winv [] s -> valid (OAddBody b) s -> winv [] (add_body b s).
Proof.
  intros W [V1 V2]. unfold contains_body in V2.
  assert (E8 : forall y, b_in (s_body (add_body b s) y) = if Nat.eqb b y then true else b_in (s_body s y)).
  { intros; unfold add_body, set_body, set_all, set_lists, upd; simpl. destruct (is_type s b Static); simpl; destruct (Nat.eqb_spec b y); subst; reflexivity. }
  assert (E9 : s_all (add_body b s) = b :: s_all s) by reflexivity.
  assert (E10 : s_dyn (add_body b s) = if is_type s b Static then s_dyn s else s_dyn s ++ [b]).
  { unfold add_body. destruct (is_type s b Static); reflexivity. }
  assert (E11 : s_sta (add_body b s) = if is_type s b Static then s_sta s ++ [b] else s_sta s).
  { unfold add_body. destruct (is_type s b Static); reflexivity. }
  assert (E12 : exists d t, add_body b s = set_all (set_body (set_lists s d t) b (w_in (s_body s b) true)) (b :: s_all s)).
  { unfold add_body. destruct (is_type s b Static); simpl; eauto. }
  set (s' := add_body b s) in *. clearbody s'. destruct E12 as [d [t E12]].
  know s' s. clear E12. pose proof W as [I CL G KN WL WR].
  assert (PB : parked s b = false). { destruct (parked s b) eqn:P; auto. apply (ib_pd _ _ _ I) in P. destruct P; congruence. }
  assert (NA : ~ In b (s_all s)) by (rewrite (ib_all _ _ _ I); congruence).
  apply (winv_of [] [] s); unfold roots, nexts; auto.
  - destruct I. unfold ty in *. split; unfold ty; intros; rewrite ?TE, ?LE, ?OE, ?COE in *; xf s'; eauto.
    + simpl. rewrite ib_all. destruct (Nat.eqb_spec b b0); subst; intuition.
    + constructor; auto.
    + destruct (is_type s b Static) eqn:T.
      * apply is_type_t in T. unfold ty in T. rewrite ib_dyn. destruct (Nat.eqb_spec b b0); subst; intuition congruence.
      * apply is_type_f in T. unfold ty in T. rewrite in_app_iff, ib_dyn. simpl. destruct (Nat.eqb_spec b b0); subst; intuition congruence.
    + destruct (is_type s b Static) eqn:T; auto. apply nd_snoc; auto. rewrite ib_dyn. intros [? _]; congruence.
    + destruct (is_type s b Static) eqn:T.
      * apply is_type_t in T. unfold ty in T. rewrite in_app_iff, ib_sta. simpl. destruct (Nat.eqb_spec b b0); subst; intuition congruence.
      * apply is_type_f in T. unfold ty in T. rewrite ib_sta. destruct (Nat.eqb_spec b b0); subst; intuition congruence.
    + destruct (is_type s b Static) eqn:T; auto. apply nd_snoc; auto. rewrite ib_sta. intros [? _]; congruence.
    + destruct (b =? b0); auto. split; auto. apply ib_pd; auto.
    + destruct (Nat.eqb_spec b (sh_body (s_shape s x))); auto.
    + destruct (Nat.eqb_spec b (co_a (s_con s c))); auto.
    + destruct (Nat.eqb_spec b (co_b (s_con s c))); auto.
  - intros u v H P. unfold ty. xf s'. apply CL; auto.
  - intros y. unfold ty. xf s'. apply KN.
Qed.

Lemma remove_body_ok s b : winv [] s -> valid (ORemoveBody b) s -> exists s', remove_body b s = Some s' /\ winv [] s' /\
    (forall y, b_in (s_body s' y) = if Nat.eqb b y then false else b_in (s_body s y)) /\ s_shape s' = s_shape s /\ s_con s' = s_con s.
Proof.
  intros W0 [L0 [V1 [V2 V3]]]. unfold remove_body. destruct (body_activate_ok [] s b W0) as [s1 [E [W K]]]. rewrite E. clear E.
  assert (PB := after_wake _ _ _ _ W0 L0 K).
  assert (C := k_core _ _ _ K).
  assert (NS : forall x, sh_in (s_shape s1 x) = true -> sh_body (s_shape s1 x) <> b).
  { intros x H <-. pose proof (is_i _ _ _ (w_p _ _ W) x H) as J. rewrite <- (ce_sh _ _ C) in J. apply V2 in J.
    unfold contains_shape in J. rewrite (ce_shape _ _ C) in J. congruence. }
  assert (NC : forall c, co_in (s_con s1 c) = true -> co_a (s_con s1 c) <> b /\ co_b (s_con s1 c) <> b).
  { intros c. rewrite <- (ce_con _ _ C). apply V3. }
  assert (CI := ce_in _ _ C). assert (CS := ce_shape _ _ C). assert (CC := ce_con _ _ C).
  assert (BI : b_in (s_body s1 b) = true) by (rewrite <- (ce_in _ _ C); exact V1).
  clear W0 L0 V1 V2 V3 K C.
  eexists. split; [reflexivity|]. set (s' := set_all _ _). 
  enough (GOAL : winv [] s' /\ (forall y, b_in (s_body s' y) = if Nat.eqb b y then false else b_in (s_body s1 y)) /\ s_shape s' = s_shape s1 /\ s_con s' = s_con s1).
  { destruct GOAL as [G1 [G2 [G3 G4]]]. split; auto. split; [intros; rewrite CI; auto|]. split; congruence. }
  clear CI CS CC. clear s. rename s1 into s.
  assert (E8 : forall y, b_in (s_body s' y) = if Nat.eqb b y then false else b_in (s_body s y)).
  { intros; unfold s', set_body, set_all, set_lists, upd; simpl. destruct (is_type s b Static); simpl; destruct (Nat.eqb_spec b y); subst; reflexivity. }
  assert (E9 : s_all s' = remove1 b (s_all s)).
  { unfold s'. destruct (is_type s b Static); reflexivity. }
  assert (E10 : s_dyn s' = if is_type s b Static then s_dyn s else remove1 b (s_dyn s)).
  { unfold s'. destruct (is_type s b Static); reflexivity. }
  assert (E11 : s_sta s' = if is_type s b Static then remove1 b (s_sta s) else s_sta s).
  { unfold s'. destruct (is_type s b Static); reflexivity. }
  assert (E12 : exists d t, s' = set_all (set_body (set_lists s d t) b (w_in (s_body s b) false)) (remove1 b (s_all s))).
  { unfold s'. destruct (is_type s b Static); simpl; eauto. }
  clearbody s'. destruct E12 as [d [t E12]].
  know s' s. clear E12. pose proof W as [I CL G KN WL WR].
  split; [|split; auto].
  apply (winv_of [] [] s); unfold roots, nexts; auto.
  - destruct I. unfold ty in *. split; unfold ty; intros; rewrite ?TE, ?LE, ?OE, ?COE in *; xf s'; eauto.
    + rewrite remove1_spec, ib_all by auto. destruct (Nat.eqb_spec b b0); subst; intuition.
    + apply remove1_nd; auto.
    + destruct (is_type s b Static) eqn:T.
      * apply is_type_t in T. unfold ty in T. rewrite ib_dyn. destruct (Nat.eqb_spec b b0); subst; intuition congruence.
      * apply is_type_f in T. unfold ty in T. rewrite remove1_spec, ib_dyn by auto. destruct (Nat.eqb_spec b b0); subst; intuition congruence.
    + destruct (is_type s b Static) eqn:T; auto using remove1_nd.
    + destruct (is_type s b Static) eqn:T.
      * apply is_type_t in T. unfold ty in T. rewrite remove1_spec, ib_sta by auto. destruct (Nat.eqb_spec b b0); subst; intuition congruence.
      * apply is_type_f in T. unfold ty in T. rewrite ib_sta. destruct (Nat.eqb_spec b b0); subst; intuition congruence.
    + destruct (is_type s b Static) eqn:T; auto using remove1_nd.
    + destruct (Nat.eqb_spec b b0); [congruence|auto].
    + destruct (Nat.eqb_spec b (sh_body (s_shape s x))); auto. exfalso. eapply NS; eauto.
    + destruct (Nat.eqb_spec b (co_a (s_con s c))); auto. destruct (NC c); congruence.
    + destruct (Nat.eqb_spec b (co_b (s_con s c))); auto. destruct (NC c); congruence.
  - intros u v H P. unfold ty. xf s'. apply CL; auto.
  - intros y. unfold ty. xf s'. apply KN.
Qed.
End Ops2.
