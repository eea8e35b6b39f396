(** The first half of Step: the contact lists are emptied and the collisions found again. *)
From Coq Require Import ZArith List Bool Arith Lia Permutation.
From Verif Require Import Num Space SpaceSpec SpaceInv SpaceMove SpaceWake SpaceActivate SpaceOps SpaceShapes.
Import ListNotations.
Local Open Scope nat_scope.

Section Step.
Context {N : Num}.

(* what no step changes *)
Record cast (s s' : space) : Prop := {
  cs_ty : forall b, b_type (s_body s' b) = b_type (s_body s b); cs_sh : forall b, b_shapes (s_body s' b) = b_shapes (s_body s b);
  cs_co : forall b, b_cons (s_body s' b) = b_cons (s_body s b); cs_in : forall b, b_in (s_body s' b) = b_in (s_body s b);
  cs_shape : s_shape s' = s_shape s; cs_con : s_con s' = s_con s }.
Lemma cast_refl s : cast s s. Proof. split; auto. Qed.
Lemma cast_trans s s' s'' : cast s s' -> cast s' s'' -> cast s s''.
Proof. intros [] []; split; intros; congruence. Qed.
Lemma core_cast s s' : core_eq s s' -> cast s s'. Proof. intros []; split; auto. Qed.
Lemma cast_ty s s' b : cast s s' -> ty s' b = ty s b. Proof. intros C. apply (cs_ty _ _ C). Qed.

(** ** Emptying the contact lists *)
Lemma unthread_all l : forall s, (forall y, NoDup (b_arbs (s_body s y))) ->
  (forall x, In x l -> is_sleeping s (ar_a (s_arb s x)) || is_sleeping s (ar_b (s_arb s x)) = false) ->
  (forall y, NoDup (b_arbs (s_body (fold_left (fun s x => unthread_awake x s) l s) y))) /\
  (forall y z, In z (b_arbs (s_body (fold_left (fun s x => unthread_awake x s) l s) y)) <->
    In z (b_arbs (s_body s y)) /\ ~ (In z l /\ (y = ar_a (s_arb s z) \/ y = ar_b (s_arb s z)))) /\
  (forall y, exists k, s_body (fold_left (fun s x => unthread_awake x s) l s) y = w_arbs (s_body s y) k) /\
  (exists bd, fold_left (fun s x => unthread_awake x s) l s = Sp bd (s_shape s) (s_arb s) (s_con s) (s_dyn s) (s_sta s) (s_dix s) (s_six s)
     (s_arbs s) (s_cache s) (s_cons s) (s_comps s) (s_roused s) (s_lock s) (s_ids s) (s_arbc s) (s_all s)).
Proof.
  induction l as [|x l IH]; intros s ND AW.
  - simpl. split; auto. split; [intuition|]. split; [intros y; exists (b_arbs (s_body s y)); destruct (s_body s y); reflexivity|].
    exists (s_body s). destruct s; reflexivity.
  - change (fold_left (fun s x => unthread_awake x s) (x :: l) s) with (fold_left (fun s x => unthread_awake x s) l (unthread_awake x s)).
    assert (E : unthread_awake x s = unthread x s) by (unfold unthread_awake; rewrite AW by (simpl; auto); reflexivity). rewrite E.
    destruct (IH (unthread x s)) as [A1 [A2 [A3 [bd A4]]]].
    { intros y. rewrite unthread_body. simpl. destruct (_ =? y), (_ =? y); repeat apply remove1_nd; auto. }
    { intros z Z. change (s_arb (unthread x s)) with (s_arb s). unfold is_sleeping. rewrite !unthread_body. apply (AW z). simpl; auto. }
    split; auto. split; [|split].
    + intros y z. rewrite A2, unthread_body. simpl.
      assert (Z : In z (if ar_b (s_arb s x) =? y then remove1 x (if ar_a (s_arb s x) =? y then remove1 x (b_arbs (s_body s y)) else b_arbs (s_body s y))
        else if ar_a (s_arb s x) =? y then remove1 x (b_arbs (s_body s y)) else b_arbs (s_body s y)) <->
        In z (b_arbs (s_body s y)) /\ ~ (z = x /\ (y = ar_a (s_arb s x) \/ y = ar_b (s_arb s x)))).
      { destruct (Nat.eqb_spec (ar_b (s_arb s x)) y), (Nat.eqb_spec (ar_a (s_arb s x)) y); rewrite ?remove1_spec by auto using remove1_nd; intuition congruence. }
      rewrite Z. split.
      * intros [[H1 H2] H3]. split; auto. intros [[->|H4] H5]; auto.
      * intros [H1 H2]. split; [split; auto|]; [intros [-> H3]; auto|intros [H3 H4]; auto].
    + intros y. destruct (A3 y) as [k K]. rewrite K, unthread_body. exists k. reflexivity.
    + exists bd. rewrite A4. reflexivity.
Qed.
Lemma awake_parked s b : s_roused s = [] -> parked s b = is_sleeping s b.
Proof. intros R. unfold parked, waiting. rewrite R. simpl. apply orb_false_r. Qed.
(* both ends of a threaded arbiter of the space are awake *)
Lemma both_awake Q s x : winv Q s -> threaded s x -> In x (s_arbs s) -> parked s (ar_a (s_arb s x)) = false /\ parked s (ar_b (s_arb s x)) = false.
Proof.
  intros W T H. pose proof (w_p _ _ W) as I. apply (ia_own _ _ _ I) in H; auto.
  assert (LAB : linked s (ar_a (s_arb s x)) (ar_b (s_arb s x))) by (left; exists x; auto).
  assert (LBA : linked s (ar_b (s_arb s x)) (ar_a (s_arb s x))) by (eapply linked_sym; eauto).
  unfold owner in H. destruct (is_type s (ar_a (s_arb s x)) Static) eqn:S.
  - split; auto. eapply static_awake; eauto. apply is_type_t; auto.
  - split; auto. destruct (parked s (ar_b (s_arb s x))) eqn:P; auto. apply is_type_f in S.
    destruct (w_cl _ _ W _ _ LBA P) as [|[? _]]; congruence.
Qed.
Lemma clear_contacts s : winv [] s -> s_lock s = 0%Z -> let s1 := fold_left (fun s x => unthread_awake x s) (s_arbs s) s in
  let s2 := lock (set_arbs s1 [] (s_cache s1)) in
  winv [] s2 /\ cast s s2 /\ s_arbs s2 = [] /\ s_roused s2 = [] /\ s_lock s2 = 1%Z /\ (forall y, roots s2 y = roots s y) /\ s_dyn s2 = s_dyn s /\
  (forall y, b_idle (s_body s2 y) = b_idle (s_body s y)).
Proof.
  intros W L s1 s2. pose proof (w_r _ _ W L) as R0. pose proof (w_p _ _ W) as I.
  assert (AT : forall x, In x (s_arbs s) -> threaded s x) by (intros x H; destruct (ia_at _ _ _ I x H) as [|[]]; auto).
  destruct (unthread_all (s_arbs s) s) as [A1 [A2 [A3 [bd A4]]]].
  { apply (ia_n _ _ _ I). }
  { intros x H. destruct (both_awake _ _ _ W (AT x H) H) as [P1 P2]. rewrite awake_parked in P1, P2 by auto. rewrite P1, P2. reflexivity. }
  fold s1 in A1, A2, A3, A4.
  set (s' := set_arbs s1 [] (s_cache s1)) in *.
  cut (winv [] s' /\ cast s s' /\ s_roused s' = [] /\ s_lock s' = 0%Z /\ (forall y, roots s' y = roots s y) /\ s_dyn s' = s_dyn s /\
    forall y, b_idle (s_body s' y) = b_idle (s_body s y)).
  { intros [B1 [B2 [B3 [B4 [B5 [B6 B7]]]]]]. split; [apply lock_ok; auto|]. split; [destruct B2; split; auto|]. split; auto. split; auto.
    split; [unfold s2; simpl in *; lia|]. split; auto. }
  assert (BD : forall y, exists k, s_body s' y = w_arbs (s_body s y) k) by exact A3.
  assert (K1 : forall y, b_type (s_body s' y) = b_type (s_body s y)) by (intros y; destruct (BD y) as [k ->]; reflexivity).
  assert (K2 : forall y, b_idle (s_body s' y) = b_idle (s_body s y)) by (intros y; destruct (BD y) as [k ->]; reflexivity).
  assert (K3 : forall y, b_shapes (s_body s' y) = b_shapes (s_body s y)) by (intros y; destruct (BD y) as [k ->]; reflexivity).
  assert (K4 : forall y, b_cons (s_body s' y) = b_cons (s_body s y)) by (intros y; destruct (BD y) as [k ->]; reflexivity).
  assert (K5 : forall y, b_in (s_body s' y) = b_in (s_body s y)) by (intros y; destruct (BD y) as [k ->]; reflexivity).
  assert (K6 : forall y, b_root (s_body s' y) = b_root (s_body s y)) by (intros y; destruct (BD y) as [k ->]; reflexivity).
  assert (K7 : forall y, b_next (s_body s' y) = b_next (s_body s y)) by (intros y; destruct (BD y) as [k ->]; reflexivity).
  assert (K8 : forall y z, In z (b_arbs (s_body s' y)) <-> In z (b_arbs (s_body s y)) /\ ~ In z (s_arbs s)).
  { intros y z. change (s_body s' y) with (s_body s1 y). rewrite A2. split; intros [H1 H2]; split; auto.
    - intros H3. apply H2. split; auto. apply (ia_e _ _ _ I); auto.
    - tauto. }
  assert (K9 : forall y, NoDup (b_arbs (s_body s' y))) by exact A1.
  assert (K10 : s_arbs s' = []) by reflexivity.
  assert (ES : s' = Sp bd (s_shape s) (s_arb s) (s_con s) (s_dyn s) (s_sta s) (s_dix s) (s_six s)
     [] (s_cache s) (s_cons s) (s_comps s) (s_roused s) (s_lock s) (s_ids s) (s_arbc s) (s_all s)) by (unfold s'; rewrite A4; reflexivity).
  clear BD A1 A2 A3 A4. clearbody s'. clear s1 s2.
  know s' s. clear ES.
  split; [|split; [split; auto|split; [congruence|split; [congruence|]]]].
  2:{ unfold roots. auto. }
  assert (TE : forall z, threaded s' z <-> threaded s z /\ ~ In z (s_arbs s)).
  { intros z. unfold threaded. xf s'. apply K8. }
  assert (LE : forall z, live s' z <-> live s z).
  { intros z. unfold live. rewrite TE. xf s'. split; [tauto|]. intros [H|H]; auto. destruct (mem z (s_arbs s)) eqn:M.
    - right. apply (ia_ac _ _ _ I). apply mem_spec; auto.
    - left. split; auto. apply mem_false; auto. }
  assert (LK : forall u v, linked s' u v -> linked s u v).
  { intros u v [[x [H1 H2]]|[c H]]; [left; exists x|right; exists c]; xf s'; auto. apply K8 in H1. tauto. }
  pose proof W as [_ CL G KN WL WR].
  apply (winv_of [] [] s); unfold roots, nexts; auto.
  - split; unfold ty; intros; rewrite ?LE, ?OE, ?COE in *.
    all: try solve [xf s'; destruct I; eauto].
    + apply K8 in H. xf s'. apply (ia_e _ _ _ I). tauto.
    + rewrite TE, K8. xf s'. rewrite (ia_s _ _ _ I). tauto.
    + rewrite K10. constructor.
    + apply TE in H. rewrite K10. destruct H as [H1 H2]. rewrite (ia_own _ _ _ I) in H2 by auto. split; [intros []|]. intros H3. contradiction.
    + rewrite K10 in H. destruct H.
    + apply TE in H0. xf s'. destruct H0 as [H1 H2]. exfalso. apply H2. apply (ia_ct _ _ _ I); auto.
  - intros u v H P. unfold ty. xf s'. apply CL; auto.
  - intros y. unfold ty. xf s'. apply KN.
Qed.

(** ** The collisions *)
Lemma same_shapes_spec v w : same_shapes v w = true <-> same_two (ar_sa v) (ar_sb v) (ar_sa w) (ar_sb w).
Proof.
  unfold same_shapes, same_two. rewrite orb_true_iff, !andb_true_iff, !Nat.eqb_eq. intuition congruence.
Qed.
Lemma same_two_sym a b c d : same_two a b c d -> same_two c d a b.
Proof. unfold same_two. intuition congruence. Qed.
Lemma same_two_trans a b c d e f : same_two a b c d -> same_two c d e f -> same_two a b e f.
Proof. unfold same_two. intuition congruence. Qed.
Lemma upd_eq {A} (f : nat -> A) k v y : upd f k v y = if Nat.eqb k y then v else f y. Proof. reflexivity. Qed.

(* [X]: the arbiter used for the collision, found in the cache or new *)
Lemma use_arbiter s X v (fresh acc : bool) s' :
  winv (s_arbs s) s -> s_roused s = [] ->
  (fresh = false -> In X (s_cache s) /\ same_shapes v (s_arb s X) = true) ->
  (fresh = true -> X = s_arbc s /\ forall z, live s z -> same_shapes v (s_arb s z) = false) ->
  sh_in (s_shape s (ar_sa v)) = true -> sh_body (s_shape s (ar_sa v)) = ar_a v ->
  sh_in (s_shape s (ar_sb v)) = true -> sh_body (s_shape s (ar_sb v)) = ar_b v -> ar_a v <> ar_b v ->
  (acc = true -> ~ In X (s_arbs s)) ->
  s' = Sp (s_body s) (s_shape s) (upd (s_arb s) X v) (s_con s) (s_dyn s) (s_sta s) (s_dix s) (s_six s)
     (if acc then s_arbs s ++ [X] else s_arbs s) (if fresh then X :: s_cache s else s_cache s) (s_cons s) (s_comps s) (s_roused s) (s_lock s) (s_ids s)
     (if fresh then S (s_arbc s) else s_arbc s) (s_all s) ->
  winv (s_arbs s') s'.
Proof.
  intros W R HO HN A1 A2 B1 B2 NE NA ES. pose proof W as [I CL G KN WL WR].
  assert (UT : ~ threaded s X).
  { intros T. destruct fresh.
    - destruct (HN eq_refl) as [-> _]. pose proof (ia_lt _ _ _ I (s_arbc s) (or_introl T)). lia.
    - destruct (HO eq_refl) as [H _]. pose proof (ia_ct _ _ _ I X H T) as J. apply (ia_q _ _ _ I) in J. tauto. }
  assert (NB : forall y, ~ In X (b_arbs (s_body s y))) by (intros y H; apply UT; eapply threaded_end; eauto).
  assert (SA : forall z, s_arb s' z = if Nat.eqb X z then v else s_arb s z) by (intros; rewrite ES; reflexivity).
  assert (SB : s_arbs s' = if acc then s_arbs s ++ [X] else s_arbs s) by (rewrite ES; reflexivity).
  assert (SC : s_cache s' = if fresh then X :: s_cache s else s_cache s) by (rewrite ES; reflexivity).
  assert (SN : s_arbc s' = if fresh then S (s_arbc s) else s_arbc s) by (rewrite ES; reflexivity).
  know s' s. clear ES.
  assert (TE : forall z, threaded s' z <-> threaded s z).
  { intros z. unfold threaded. rewrite SA. xf s'. destruct (Nat.eqb_spec X z); [subst|tauto]. split; intros H; [destruct (NB _ H)|destruct (UT H)]. }
  assert (CI : forall z, In z (s_cache s') <-> In z (s_cache s) \/ z = X).
  { intros z. rewrite SC. destruct fresh; simpl; [intuition congruence|]. split; auto. intros [|]; auto. subst. apply HO; auto. }
  assert (AI : forall z, In z (s_arbs s') <-> In z (s_arbs s) \/ (acc = true /\ z = X)).
  { intros z. rewrite SB. destruct acc; [rewrite in_app_iff; simpl; intuition congruence|]. intuition congruence. }
  assert (LE : forall z, live s' z <-> live s z \/ z = X).
  { intros z. unfold live. rewrite TE, CI. tauto. }
  assert (LK : forall u w, linked s' u w -> linked s u w).
  { intros u w [[x [H1 H2]]|[c H]]; [left; exists x|right; exists c]; xf s'; auto. rewrite SA in H2.
    destruct (Nat.eqb_spec X x); [subst; destruct (NB _ H1)|auto]. }
  assert (OW : forall z, threaded s z -> owner s' z = owner s z).
  { intros z T. unfold owner, is_type, ty. xf s'. rewrite SA. destruct (Nat.eqb_spec X z); [subst; contradiction|reflexivity]. }
  assert (XL : fresh = false -> live s X) by (intros F; right; apply HO; auto).
  assert (SS : forall z, live s z -> same_shapes v (s_arb s z) = true -> z = X).
  { intros z LZ E. destruct fresh.
    - rewrite (proj2 (HN eq_refl) z LZ) in E. discriminate.
    - apply (ia_u _ _ _ I); auto. destruct (HO eq_refl) as [_ E2]. apply same_shapes_spec in E, E2. apply same_shapes_spec.
      eapply same_two_trans; [|exact E2]. apply same_two_sym; auto. }
  apply (winv_of (s_arbs s) _ s); unfold roots, nexts; auto.
  - split; unfold ty; intros; rewrite ?TE, ?LE, ?COE in *.
    all: try solve [xf s'; destruct I; eauto].
    + rewrite SA. xf s'. destruct (Nat.eqb_spec X x); [subst; destruct (NB _ H)|]. apply (ia_e _ _ _ I); auto.
    + rewrite SA. xf s'. destruct (Nat.eqb_spec X x); [subst|apply (ia_s _ _ _ I)]. split; intros H; [destruct (UT H)|destruct (NB _ H)].
    + rewrite SA. destruct (Nat.eqb_spec X x); auto. destruct H; [apply (ia_ne _ _ _ I); auto|congruence].
    + rewrite SA. xf s'. destruct (Nat.eqb_spec X x); auto. destruct H; [apply (ia_sa _ _ _ I); auto|congruence].
    + rewrite SA. xf s'. destruct (Nat.eqb_spec X x); auto. destruct H; [apply (ia_sb _ _ _ I); auto|congruence].
    + rewrite SB. destruct acc; [apply nd_snoc; auto|]; apply (ia_an _ _ _ I).
    + rewrite OW, AI by auto. rewrite <- (ia_own _ _ _ I) by auto. split; auto. intros [|[_ ->]]; auto. contradiction.
    + apply AI in H. apply CI. destruct H as [H|[_ ->]]; auto. left. apply (ia_ac _ _ _ I); auto.
    + rewrite SC. destruct fresh; [|apply (ia_cn _ _ _ I)]. constructor; [|apply (ia_cn _ _ _ I)].
      destruct (HN eq_refl) as [-> _]. intros H. pose proof (ia_lt _ _ _ I (s_arbc s) (or_intror H)). lia.
    + apply CI in H. destruct H as [H| ->]; [|contradiction]. apply AI. left. apply (ia_ct _ _ _ I); auto.
    + split; auto. apply AI in H. destruct H as [H|[_ ->]]; auto. apply (ia_q _ _ _ I) in H. tauto.
    + rewrite !SA in H1. destruct (Nat.eqb_spec X x) as [E1|E1], (Nat.eqb_spec X y) as [E2|E2]; subst; auto.
      * symmetry. apply SS; auto. destruct H0; [auto|congruence].
      * apply SS; auto; [destruct H; [auto|congruence]|]. rewrite same_shapes_sym. auto.
      * apply (ia_u _ _ _ I); auto; intuition congruence.
    + rewrite SN. destruct H as [H|H].
      * pose proof (ia_lt _ _ _ I x H). destruct fresh; lia.
      * subst x. destruct fresh; [destruct (HN eq_refl) as [-> _]; lia|]. apply (ia_lt _ _ _ I); auto.
  - intros u w H P. unfold ty. xf s'. apply CL; auto.
  - intros y. unfold ty. xf s'. apply KN.
Qed.

(* the state in the first half of a step that began with [s0] *)
Record half (s0 : space) (l : list event) (s : space) : Prop := {
  h_w : winv (s_arbs s) s; h_cast : cast s0 s; h_r : s_roused s = []; h_l : s_lock s = 1%Z; h_ev : events_ok s0 l;
  h_rt : forall y, roots s y = roots s0 y; h_dyn : s_dyn s = s_dyn s0;
  h_ar : forall c d acc x, In (Collides c d acc) l -> In x (s_arbs s) -> ~ same_two c d (ar_sa (s_arb s x)) (ar_sb (s_arb s x));
  h_id : forall y, b_idle (s_body s y) = b_idle (s_body s0 y) \/ b_idle (s_body s y) = n0 }.
Lemma event_ok s0 e l s : half s0 (e :: l) s -> exists s', do_event e s = Some s' /\ half s0 l s'.
Proof.
  intros H. pose proof (h_w _ _ _ H) as W. pose proof (w_p _ _ W) as I. pose proof (h_cast _ _ _ H) as CA. pose proof (h_r _ _ _ H) as R.
  destruct e as [sa sb acc|b].
  - pose proof (h_ev _ _ _ H) as EV. inversion EV as [| |? ? ? ? E1 E2 E3 E4 E5 E6 E7]; subst. clear EV.
    eexists. split; [reflexivity|]. unfold contains_shape in *. rewrite <- (cs_shape _ _ CA) in E1, E2, E3, E4, E5.
    rewrite <- (cast_ty _ _ _ CA) in E4. apply sleeping_roots in E5. rewrite <- (h_rt _ _ _ H) in E5.
    unfold collide. set (v := Ar sa sb _ _).
    assert (NL : find (fun y => same_shapes v (s_arb s y)) (s_cache s) = None -> forall z, live s z -> same_shapes v (s_arb s z) = false).
    { intros F z [T|C]; [|eapply find_none in F; eauto]. destruct (same_shapes v (s_arb s z)) eqn:SS; auto. exfalso.
      destruct (mem z (s_cache s)) eqn:M. { apply mem_spec in M. pose proof (find_none _ _ F z M) as F2. simpl in F2. congruence. }
      apply mem_false in M. assert (NA : ~ In z (s_arbs s)) by (intros J; apply M, (ia_ac _ _ _ I); auto).
      assert (P : parked s (owner s z) = true). { destruct (parked s (owner s z)) eqn:P; auto. apply (ia_own _ _ _ I) in P; auto. }
      assert (PA : parked s (sh_body (s_shape s sa)) = false) by (apply parked_no; rewrite R; auto).
      destruct (ia_sa _ _ _ I z (or_introl T)) as [X1 X2], (ia_sb _ _ _ I z (or_introl T)) as [Y1 Y2].
      assert (LAB : linked s (ar_a (s_arb s z)) (ar_b (s_arb s z))) by (left; exists z; auto).
      assert (LBA : linked s (ar_b (s_arb s z)) (ar_a (s_arb s z))) by (eapply linked_sym; eauto).
      apply same_shapes_spec in SS. simpl in SS. destruct SS as [[S1 S2]|[S1 S2]].
      - rewrite <- S1 in X2. rewrite X2 in *. destruct (owner_end s z) as [O|O]; rewrite O in P; [congruence|].
        destruct (w_cl _ _ W _ _ LBA P) as [|[? _]]; congruence.
      - rewrite <- S1 in Y2. rewrite Y2 in *. destruct (owner_end s z) as [O|O]; rewrite O in P; [|congruence].
        destruct (w_cl _ _ W _ _ LAB P) as [|[? _]]; congruence. }
    assert (EX : exists X (fresh : bool), 
      (fresh = false -> In X (s_cache s) /\ same_shapes v (s_arb s X) = true) /\
      (fresh = true -> X = s_arbc s /\ forall z, live s z -> same_shapes v (s_arb s z) = false) /\
      (let '(x, s1) := match find (fun y => same_shapes v (s_arb s y)) (s_cache s) with
        | Some y => (y, set_arb s y v)
        | None => (s_arbc s, set_arbc (set_arbs (set_arb s (s_arbc s) v) (s_arbs s) (s_arbc s :: s_cache s)) (S (s_arbc s)))
        end in if acc then set_arbs s1 (s_arbs s1 ++ [x]) (s_cache s1) else s1) =
      Sp (s_body s) (s_shape s) (upd (s_arb s) X v) (s_con s) (s_dyn s) (s_sta s) (s_dix s) (s_six s)
        (if acc then s_arbs s ++ [X] else s_arbs s) (if fresh then X :: s_cache s else s_cache s) (s_cons s) (s_comps s) (s_roused s) (s_lock s) (s_ids s)
        (if fresh then S (s_arbc s) else s_arbc s) (s_all s)).
    { destruct (find _ _) as [y|] eqn:F.
      - exists y, false. split; [intros _; apply find_some in F; auto|]. split; [discriminate|]. destruct acc; destruct s; reflexivity.
      - exists (s_arbc s), true. split; [discriminate|]. split; [intros _; auto|]. destruct acc; destruct s; reflexivity. }
    destruct EX as [X [fresh [HO [HN ->]]]]. set (s' := Sp _ _ _ _ _ _ _ _ _ _ _ _ _ _ _ _ _).
    assert (NX : ~ In X (s_arbs s)).
    { intros J. destruct fresh.
      - destruct (HN eq_refl) as [-> _]. pose proof (ia_lt _ _ _ I (s_arbc s) (or_intror (ia_ac _ _ _ I _ J))). lia.
      - destruct (HO eq_refl) as [_ SS]. apply same_shapes_spec in SS. apply (h_ar _ _ _ H sa sb acc X); simpl; auto. }
    assert (W' : winv (s_arbs s') s') by (eapply (use_arbiter s X v fresh acc); eauto).
    split; auto.
    + eapply cast_trans; [exact CA|]. split; reflexivity.
    + apply (h_l _ _ _ H).
    + apply (h_rt _ _ _ H).
    + apply (h_dyn _ _ _ H).
    + intros c d acc' x HC HX. simpl. unfold upd. destruct (Nat.eqb_spec X x) as [->|NE].
      * simpl. intros SS. apply (E6 c d acc' HC). apply same_two_sym; auto.
      * apply (h_ar _ _ _ H c d acc'); simpl; auto. simpl in HX. destruct acc; auto. apply in_app_iff in HX. destruct HX as [|[|[]]]; congruence.
    + apply (h_id _ _ _ H).
  - pose proof (h_ev _ _ _ H) as EV. inversion EV as [|? ? E1 E2|]; subst. clear EV.
    apply sleeping_roots in E1. rewrite <- (h_rt _ _ _ H) in E1.
    destruct (body_activate_ok _ s b W) as [s' [E [W' K]]]. exists s'. split; auto.
    assert (LN : s_lock s <> 0%Z) by (rewrite (h_l _ _ _ H); lia).
    destruct (k_locked _ _ _ K LN) as [PK LS].
    assert (RT : forall y, roots s' y = roots s y) by (intros y; apply (k_out _ _ _ K); intros [A _]; auto).
    assert (RO : s_roused s' = []).
    { destruct (s_roused s') as [|y k] eqn:RR; auto. exfalso.
      assert (Y : In y (s_roused s')) by (rewrite RR; simpl; auto). assert (P : parked s' y = true) by (apply parked_spec; auto).
      rewrite PK in P. apply parked_spec in P. rewrite R in P. destruct P as [P|[]]. apply (g_rr _ (w_g _ _ W')) in Y. rewrite RT in Y. auto. }
    split; auto.
    + rewrite <- (le_arbs _ _ LS). auto.
    + eapply cast_trans; [exact CA|]. apply core_cast, (k_core _ _ _ K).
    + rewrite (k_lock _ _ _ K). apply (h_l _ _ _ H).
    + intros y. rewrite RT. apply (h_rt _ _ _ H).
    + rewrite <- (le_dyn _ _ LS). apply (h_dyn _ _ _ H).
    + intros c d acc x HC HX. rewrite <- (le_arbs _ _ LS) in HX. rewrite <- (ce_arb _ _ (k_core _ _ _ K)). apply (h_ar _ _ _ H c d acc); simpl; auto.
    + intros y. destruct (k_ros _ _ _ K y) as [-> |]; auto. apply (h_id _ _ _ H).
Qed.
Lemma first_half s evs : winv [] s -> s_lock s = 0%Z -> events_ok s evs ->
  let s1 := fold_left (fun s x => unthread_awake x s) (s_arbs s) s in
  exists s3 s4, ofold do_event evs (lock (set_arbs s1 [] (s_cache s1))) = Some s3 /\ unlock s3 = Some s4 /\
    winv (s_arbs s4) s4 /\ cast s s4 /\ s_lock s4 = 0%Z /\ (forall y, roots s4 y = roots s y) /\ s_dyn s4 = s_dyn s /\
    (forall y, b_idle (s_body s4 y) = b_idle (s_body s y) \/ b_idle (s_body s4 y) = n0).
Proof.
  intros W L EV s1. destruct (clear_contacts s W L) as [A1 [A2 [A3 [A4 [A5 [A6 [A7 A8]]]]]]]. fold s1 in A1, A2, A3, A4, A5, A6, A7, A8.
  destruct (ofold_inv do_event evs (lock (set_arbs s1 [] (s_cache s1))) (half s)) as [s3 [E H]].
  { split; auto. }
  { intros e l t. apply event_ok. }
  destruct (unlock_ok _ s3 (h_w _ _ _ H)) as [s4 [E4 [W4 U]]]; [rewrite (h_l _ _ _ H); lia|].
  destruct (u_none _ _ U (h_r _ _ _ H)) as [LS RO].
  exists s3, s4. split; auto. split; auto. split; [rewrite <- (le_arbs _ _ LS); auto|].
  split; [eapply cast_trans; [exact (h_cast _ _ _ H)|]; split; intros; rewrite ?(u_body _ _ U), ?(u_shape _ _ U), ?(u_con _ _ U); auto|].
  split; [rewrite (u_lock _ _ U), (h_l _ _ _ H); lia|].
  split; [intros y; unfold roots; rewrite (u_body _ _ U); apply (h_rt _ _ _ H)|].
  split; [rewrite <- (le_dyn _ _ LS); apply (h_dyn _ _ _ H)|]. intros y. rewrite (u_body _ _ U). apply (h_id _ _ _ H).
Qed.
End Step.
