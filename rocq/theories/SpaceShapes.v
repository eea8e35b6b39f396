(** Adding and removing shapes keeps the invariant. *)
From Coq Require Import ZArith List Bool Arith Lia Permutation.
From Verif Require Import Num Space SpaceSpec SpaceInv SpaceMove SpaceWake SpaceActivate SpaceOps.
Import ListNotations.
Local Open Scope nat_scope.

Section Shapes.
Context {N : Num}.

Lemma static_awake Q s b : winv Q s -> ty s b = Static -> parked s b = false.
Proof. intros W T. destruct (parked s b) eqn:P; auto. apply (ib_pd _ _ _ (w_p _ _ W)) in P. destruct P; congruence. Qed.

(** ** AddShape *)
Lemma wake_owner s b : winv [] s -> s_lock s = 0%Z ->
  exists s1, (if is_type s b Static then Some s else body_activate b s) = Some s1 /\ winv [] s1 /\ parked s1 b = false /\
    core_eq s s1 /\ s_ids s1 = s_ids s /\ s_lock s1 = 0%Z.
Proof.
  intros W L. destruct (is_type s b Static) eqn:T.
  - exists s. split; auto. split; auto. split; [eapply static_awake; eauto; apply is_type_t; auto|]. split; auto using core_refl.
  - destruct (body_activate_ok [] s b W) as [s1 [E [W1 K]]]. exists s1. split; auto. split; auto. split; [exact (after_wake _ _ _ _ W L K)|].
    split; [apply (k_core _ _ _ K)|]. split; [apply (k_ids _ _ _ K)|]. rewrite (k_lock _ _ _ K); auto.
Qed.
Lemma add_shape_ok s x : winv [] s -> valid (OAddShape x) s -> exists s', add_shape x s = Some s' /\ winv [] s' /\
    (forall y, b_in (s_body s' y) = b_in (s_body s y)) /\
    (forall y, s_shape s' y = if Nat.eqb x y then Sh (sh_body (s_shape s x)) true (s_ids s) else s_shape s y) /\
    s_con s' = s_con s.
Proof.
  intros W0 [L0 [V1 [V2 V3]]]. unfold contains_shape in V1. unfold add_shape. set (b := sh_body (s_shape s x)) in *.
  destruct (wake_owner s b W0 L0) as [s1 [E [W [PB [C [ID _]]]]]]. rewrite E. clear E.
  assert (ES : is_type s b Static = is_type s1 b Static) by (apply ce_is_type; auto). rewrite ES. clear ES.
  assert (BB : b = sh_body (s_shape s1 x)) by (rewrite <- (ce_shape _ _ C); reflexivity).
  rewrite (ce_shape _ _ C) in V1. rewrite (ce_sh _ _ C) in V2.
  assert (US : ty s1 b = Static \/ b_in (s_body s1 b) = true).
  { unfold usable, contains_body, ty in *. rewrite <- (ce_ty _ _ C), <- (ce_in _ _ C). exact V3. }
  assert (CI := ce_in _ _ C). assert (CS := ce_shape _ _ C). assert (CC := ce_con _ _ C).
  cut (exists s', match (if is_type s1 b Static then ix_insert (s_ids s1, x) (s_six s1) else ix_insert (s_ids s1, x) (s_dix s1)) with
    | None => None
    | Some ix =>
      let s2 := set_ids (set_shape s1 x (Sh b (sh_in (s_shape s1 x)) (s_ids s1))) (S (s_ids s1)) in
      let s3 := if is_type s1 b Static then set_ix s2 (s_dix s2) ix else set_ix s2 ix (s_six s2) in
      Some (set_shape s3 x (Sh b true (s_ids s1)))
    end = Some s' /\ winv [] s' /\ (forall y, b_in (s_body s' y) = b_in (s_body s1 y)) /\
    (forall y, s_shape s' y = if Nat.eqb x y then Sh b true (s_ids s1) else s_shape s1 y) /\ s_con s' = s_con s1).
  { intros [s' [G1 [G2 [G3 [G4 G5]]]]]. exists s'. split; [exact G1|]. split; auto. split; [intros; rewrite CI; auto|]. split; [|congruence].
    intros y. rewrite G4, CS, ID. reflexivity. }
  clear V3 L0 W0 C CI CS CC ID. clearbody b. clear s. rename s1 into s. pose proof W as [I CL G KN WL WR].
  assert (N1 : ~ In (s_ids s, x) (s_six s)) by (rewrite (is_six _ _ _ I); intros [? _]; congruence).
  assert (N2 : ~ In (s_ids s, x) (s_dix s)) by (rewrite (is_dix _ _ _ I); intros [? _]; congruence).
  rewrite !ix_insert_spec by auto.
  match goal with |- exists s', ?t = _ /\ _ => assert (EX : exists s', t = Some s' /\
      s_dix s' = (if is_type s b Static then s_dix s else (s_ids s, x) :: s_dix s) /\
      s_six s' = (if is_type s b Static then (s_ids s, x) :: s_six s else s_six s) /\
      (forall y, s_shape s' y = if Nat.eqb x y then Sh b true (s_ids s) else s_shape s y) /\ s_ids s' = S (s_ids s) /\
      exists a b c d, s' = Sp (s_body s) a (s_arb s) (s_con s) (s_dyn s) (s_sta s) b c (s_arbs s) (s_cache s)
     (s_cons s) (s_comps s) (s_roused s) (s_lock s) d (s_arbc s) (s_all s)) end.
  { destruct (is_type s b Static); (eexists; split; [reflexivity|]; split; [reflexivity|]; split; [reflexivity|]; split; [|split; [reflexivity|]; do 4 eexists; reflexivity]).
    all: intros y; simpl; unfold upd; destruct (x =? y); reflexivity. }
  destruct EX as [s' [E [E1 [E2 [E3 [E4 [a0 [b0 [c0 [d0 E5]]]]]]]]]]. rewrite E. clear E.
  know s' s. clear E5 a0 b0 c0 d0.
  exists s'. split; auto. split; [|split; [|split]; auto; intros; congruence].
  assert (S1 : forall y, sh_body (s_shape s' y) = sh_body (s_shape s y)) by (intros; rewrite E3; destruct (Nat.eqb_spec x y); subst; auto).
  assert (S2 : forall y, sh_in (s_shape s' y) = if Nat.eqb x y then true else sh_in (s_shape s y)) by (intros; rewrite E3; destruct (Nat.eqb_spec x y); subst; auto).
  assert (S3 : forall y, sh_id (s_shape s' y) = if Nat.eqb x y then s_ids s else sh_id (s_shape s y)) by (intros; rewrite E3; destruct (Nat.eqb_spec x y); subst; auto).
  clear E3.
  apply (winv_of [] [] s); unfold roots, nexts; auto.
  - destruct I. unfold ty in *. split; unfold ty; intros; rewrite ?TE, ?LE, ?OE, ?COE in *; xf s'; eauto.
    + destruct (Nat.eqb_spec x x0); subst; auto.
    + destruct (Nat.eqb_spec x x0); subst; auto.
    + destruct (Nat.eqb_spec x x0); subst; eauto.
    + destruct (is_type s b Static) eqn:T.
      * apply is_type_t in T. unfold ty in T. rewrite is_dix. destruct (Nat.eqb_spec x x0); subst; intuition congruence.
      * apply is_type_f in T. unfold ty in T. simpl. rewrite is_dix. destruct (Nat.eqb_spec x x0) as [D|D].
        -- subst. intuition congruence.
        -- split; [intros [F|F]; [congruence|auto]|auto].
    + destruct (is_type s b Static) eqn:T.
      * apply is_type_t in T. unfold ty in T. simpl. rewrite is_six. destruct (Nat.eqb_spec x x0) as [D|D].
        -- subst. intuition congruence.
        -- split; [intros [F|F]; [congruence|auto]|auto].
      * apply is_type_f in T. unfold ty in T. rewrite is_six. destruct (Nat.eqb_spec x x0); subst; intuition congruence.
    + destruct (is_type s b Static); auto. constructor; auto.
    + destruct (is_type s b Static); auto. constructor; auto.
    + destruct (Nat.eqb_spec x x0); subst; [lia|]. apply is_lt in H. lia.
    + destruct (Nat.eqb_spec x x0), (Nat.eqb_spec x y); subst; auto.
      * apply is_lt in H0. lia.
      * apply is_lt in H. lia.
    + destruct (ia_sa _ H). split; auto. destruct (x =? _); auto.
    + destruct (ia_sb _ H). split; auto. destruct (x =? _); auto.
  - intros u v H P. unfold ty. xf s'. apply CL; auto.
  - intros y. unfold ty. xf s'. apply KN.
Qed.

(** ** ActivateStatic *)
Definition hits (s : space) (flt : option nat) (x : nat) : bool :=
  match flt with None => true | Some f => Nat.eqb f (ar_sa (s_arb s x)) || Nat.eqb f (ar_sb (s_arb s x)) end.
Lemma activate_static_ok Q s b flt : winv Q s -> exists s', activate_static b flt s = Some s' /\ winv Q s' /\ core_eq s s' /\
  s_ids s' = s_ids s /\ s_lock s' = s_lock s /\
  (s_lock s = 0%Z -> forall y, parked s y = false -> parked s' y = false) /\
  (s_lock s = 0%Z -> forall x, In x (b_arbs (s_body s b)) -> hits s flt x = true -> parked s' (other_arb s b x) = false).
Proof.
  intros W. unfold activate_static.
  destruct (ofold_inv (fun (x : nat) (s : space) =>
    let hit := match flt with None => true | Some f => Nat.eqb f (ar_sa (s_arb s x)) || Nat.eqb f (ar_sb (s_arb s x)) end in
    if hit then body_activate (other_arb s b x) s else Some s) (b_arbs (s_body s b)) s
    (fun m s1 => winv Q s1 /\ core_eq s s1 /\ s_ids s1 = s_ids s /\ s_lock s1 = s_lock s /\
      (s_lock s = 0%Z -> forall y, parked s y = false -> parked s1 y = false) /\
      (s_lock s = 0%Z -> forall x, In x (b_arbs (s_body s b)) -> hits s flt x = true -> In x m \/ parked s1 (other_arb s b x) = false)))
    as [s' [E [W' [C [ID [L [M1 M2]]]]]]].
  - split; auto. split; [apply core_refl|]. auto 8.
  - intros x m s1 [W1 [C [ID [L [M1 M2]]]]]. cbv zeta.
    assert (HE : match flt with None => true | Some f => Nat.eqb f (ar_sa (s_arb s1 x)) || Nat.eqb f (ar_sb (s_arb s1 x)) end = hits s flt x).
    { unfold hits. rewrite <- (ce_arb _ _ C). reflexivity. }
    assert (OT : other_arb s1 b x = other_arb s b x) by (unfold other_arb; rewrite <- (ce_arb _ _ C); reflexivity).
    rewrite HE, OT. destruct (hits s flt x) eqn:HX.
    + destruct (body_activate_ok Q s1 (other_arb s b x) W1) as [s2 [E [W2 K]]]. exists s2. split; auto. split; auto.
      split; [eapply core_trans; eauto; apply (k_core _ _ _ K)|]. split; [rewrite (k_ids _ _ _ K); auto|]. split; [rewrite (k_lock _ _ _ K); auto|].
      split; intros L0; assert (L1 : s_lock s1 = 0%Z) by congruence.
      * intros y P. eapply stays_awake; eauto.
      * intros z Z1 Z2. destruct (M2 L0 z Z1 Z2) as [[<-|J]|J]; auto.
        -- right. exact (after_wake _ _ _ _ W1 L1 K).
        -- right. eapply stays_awake; eauto.
    + exists s1. split; auto. split; auto. split; auto. split; auto. split; auto. split; auto.
      intros L0 z Z1 Z2. destruct (M2 L0 z Z1 Z2) as [[<-|J]|J]; auto. congruence.
  - exists s'. split; auto. split; auto. split; auto. split; auto. split; auto. split; auto.
    intros L0 x X1 X2. destruct (M2 L0 x X1 X2) as [[]|]; auto.
Qed.

(** ** RemoveShape *)
Definition cut_arb (x : nat) (s : space) : space := set_arbs (unthread x s) (remove1 x (s_arbs s)) (s_cache s).
Lemma unthread_body x s y :
  s_body (unthread x s) y = w_arbs (s_body s y)
    (let l1 := if Nat.eqb (ar_a (s_arb s x)) y then remove1 x (b_arbs (s_body s y)) else b_arbs (s_body s y) in
     if Nat.eqb (ar_b (s_arb s x)) y then remove1 x l1 else l1).
Proof.
  unfold unthread. simpl. unfold upd at 1.
  destruct (Nat.eqb_spec (ar_b (s_arb s x)) y) as [Eb|Nb].
  - subst y. unfold upd. destruct (Nat.eqb_spec (ar_a (s_arb s x)) (ar_b (s_arb s x))) as [Ea|Na]; simpl; [rewrite Ea|]; reflexivity.
  - unfold upd. destruct (Nat.eqb_spec (ar_a (s_arb s x)) y) as [Ea|Na]; simpl; [subst y; reflexivity|]. destruct (s_body s y); reflexivity.
Qed.
Lemma cut_all l : forall s, (forall y, NoDup (b_arbs (s_body s y))) ->
  (forall y, NoDup (b_arbs (s_body (fold_left (fun s x => cut_arb x s) l s) y))) /\
  (forall y z, In z (b_arbs (s_body (fold_left (fun s x => cut_arb x s) l s) y)) <->
    In z (b_arbs (s_body s y)) /\ ~ (In z l /\ (y = ar_a (s_arb s z) \/ y = ar_b (s_arb s z)))) /\
  (forall y, exists k, s_body (fold_left (fun s x => cut_arb x s) l s) y = w_arbs (s_body s y) k) /\
  (exists bd, fold_left (fun s x => cut_arb x s) l s = Sp bd (s_shape s) (s_arb s) (s_con s) (s_dyn s) (s_sta s) (s_dix s) (s_six s)
     (fold_left (fun m c => remove1 c m) l (s_arbs s)) (s_cache s)
     (s_cons s) (s_comps s) (s_roused s) (s_lock s) (s_ids s) (s_arbc s) (s_all s)).
Proof.
  induction l as [|x l IH]; intros s ND.
  - simpl. split; auto. split; [intuition|]. split; [intros y; exists (b_arbs (s_body s y)); destruct (s_body s y); reflexivity|].
    exists (s_body s). destruct s; reflexivity.
  - change (fold_left (fun s x => cut_arb x s) (x :: l) s) with (fold_left (fun s x => cut_arb x s) l (cut_arb x s)).
    assert (B : forall y, s_body (cut_arb x s) y = s_body (unthread x s) y) by reflexivity.
    destruct (IH (cut_arb x s)) as [A1 [A2 [A3 [bd A4]]]].
    { intros y. rewrite B, unthread_body. simpl. destruct (_ =? y), (_ =? y); repeat apply remove1_nd; auto. }
    split; auto. split; [|split].
    + intros y z. rewrite A2, B, unthread_body. simpl.
      assert (Z : In z (if ar_b (s_arb s x) =? y then remove1 x (if ar_a (s_arb s x) =? y then remove1 x (b_arbs (s_body s y)) else b_arbs (s_body s y))
        else if ar_a (s_arb s x) =? y then remove1 x (b_arbs (s_body s y)) else b_arbs (s_body s y)) <->
        In z (b_arbs (s_body s y)) /\ ~ (z = x /\ (y = ar_a (s_arb s x) \/ y = ar_b (s_arb s x)))).
      { destruct (Nat.eqb_spec (ar_b (s_arb s x)) y), (Nat.eqb_spec (ar_a (s_arb s x)) y); rewrite ?remove1_spec by auto using remove1_nd; intuition congruence. }
      rewrite Z. split.
      * intros [[H1 H2] H3]. split; auto. intros [[->|H4] H5]; auto.
      * intros [H1 H2]. split; [split; auto|]; [intros [-> H3]; auto|intros [H3 H4]; auto].
    + intros y. destruct (A3 y) as [k K]. rewrite K, B, unthread_body. exists k. reflexivity.
    + exists bd. rewrite A4. reflexivity.
Qed.

Definition touches (s : space) (x z : nat) : Prop := ar_sa (s_arb s z) = x \/ ar_sb (s_arb s z) = x.
Lemma wake_for_shape s x : winv [] s -> s_lock s = 0%Z -> sh_in (s_shape s x) = true ->
  let b := sh_body (s_shape s x) in
  exists s1, (if is_type s b Static then activate_static b (Some x) s else body_activate b s) = Some s1 /\ winv [] s1 /\ parked s1 b = false /\
    core_eq s s1 /\ s_lock s1 = 0%Z /\ (forall z, threaded s1 z -> touches s1 x z -> In z (s_arbs s1)).
Proof.
  intros W L H b. destruct (is_type s b Static) eqn:T.
  - destruct (activate_static_ok [] s b (Some x) W) as [s1 [E [W1 [C [ID [L1 [M1 M2]]]]]]].
    assert (T1 : ty s1 b = Static) by (apply is_type_t; rewrite <- (ce_is_type _ _ C); auto).
    exists s1. split; auto. split; auto. split; [eapply static_awake; eauto|]. split; auto. split; [congruence|].
    intros z Z1 Z2. pose proof (w_p _ _ W1) as I1. apply (ia_own _ _ _ I1); auto.
    assert (LV : live s1 z) by (left; auto).
    destruct (ia_sa _ _ _ I1 z LV) as [_ A1]. destruct (ia_sb _ _ _ I1 z LV) as [_ A2]. pose proof (ia_ne _ _ _ I1 z LV) as NE.
    rewrite <- (ce_shape _ _ C) in A1, A2.
    assert (HB : In z (b_arbs (s_body s b)) /\ hits s (Some x) z = true).
    { unfold hits. rewrite (ce_arb _ _ C), orb_true_iff, !Nat.eqb_eq, (ce_ar _ _ C). split; [|destruct Z2; auto].
      destruct Z2 as [Z2|Z2].
      - replace b with (ar_a (s_arb s1 z)); auto. rewrite <- A1, Z2. reflexivity.
      - replace b with (ar_b (s_arb s1 z)); [apply (ia_s _ _ _ I1); auto|]. rewrite <- A2, Z2. reflexivity. }
    specialize (M2 L z (proj1 HB) (proj2 HB)). unfold other_arb in M2. rewrite (ce_arb _ _ C) in M2. unfold owner.
    destruct Z2 as [Z2|Z2].
    + assert (EA : ar_a (s_arb s1 z) = b) by (rewrite <- A1, Z2; reflexivity). rewrite EA in *.
      rewrite Nat.eqb_refl in M2. rewrite (proj2 (is_type_t _ _ _) T1). exact M2.
    + assert (EB : ar_b (s_arb s1 z) = b) by (rewrite <- A2, Z2; reflexivity). rewrite EB in *.
      destruct (Nat.eqb_spec (ar_a (s_arb s1 z)) b) as [Q|Q]; [congruence|].
      destruct (is_type s1 (ar_a (s_arb s1 z)) Static); [|exact M2]. eapply static_awake; eauto.
  - destruct (body_activate_ok [] s b W) as [s1 [E [W1 K]]]. exists s1. split; auto. split; auto.
    pose proof (after_wake _ _ _ _ W L K) as PB. split; auto. pose proof (k_core _ _ _ K) as C. split; auto. split; [rewrite (k_lock _ _ _ K); auto|].
    intros z Z1 Z2. pose proof (w_p _ _ W1) as I1. apply (ia_own _ _ _ I1); auto.
    destruct (parked s1 (owner s1 z)) eqn:PO; auto. exfalso.
    assert (LV : live s1 z) by (left; auto).
    destruct (ia_sa _ _ _ I1 z LV) as [_ A1]. destruct (ia_sb _ _ _ I1 z LV) as [_ A2].
    rewrite <- (ce_shape _ _ C) in A1, A2.
    assert (T1 : ty s1 b <> Static) by (rewrite (ce_type _ _ _ C); apply is_type_f; auto).
    assert (EB : ar_a (s_arb s1 z) = b \/ ar_b (s_arb s1 z) = b).
    { destruct Z2 as [Z2|Z2]; [left; rewrite <- A1, Z2|right; rewrite <- A2, Z2]; reflexivity. }
    assert (LKD : owner s1 z = b \/ linked s1 (owner s1 z) b).
    { destruct (owner_end s1 z) as [O|O], EB as [EB|EB]; try (left; congruence); right; left; exists z; split;
        try (apply (threaded_owner _ _ _ _ I1 Z1)); rewrite O; [left|right]; auto. }
    destruct LKD as [LKD|LKD]; [congruence|].
    destruct (w_cl _ _ W1 _ _ LKD PO) as [?|[? _]]; congruence.
Qed.
Lemma matches_touches P Q s x z : pinv P Q s -> live s z -> (filter_matches s (sh_body (s_shape s x)) x z = true <-> touches s x z).
Proof.
  intros I LV. destruct (ia_sa _ _ _ I z LV) as [_ A1]. destruct (ia_sb _ _ _ I z LV) as [_ A2].
  unfold filter_matches, touches. rewrite orb_true_iff, !andb_true_iff, !Nat.eqb_eq. split.
  - intros [[_ H]|[_ H]]; auto.
  - intros [H|H]; subst x; auto.
Qed.

Lemma remove_shape_ok s x : winv [] s -> valid (ORemoveShape x) s -> exists s', remove_shape x s = Some s' /\ winv [] s' /\
    (forall y, b_in (s_body s' y) = b_in (s_body s y)) /\
    (forall y, s_shape s' y = if Nat.eqb x y then Sh (sh_body (s_shape s x)) false 0 else s_shape s y) /\
    s_con s' = s_con s /\
    (forall y, b_shapes (s_body s' y) = if Nat.eqb (sh_body (s_shape s x)) y then swap_remove x (b_shapes (s_body s y)) else b_shapes (s_body s y)).
Proof.
  intros W0 [L0 V1]. unfold contains_shape in V1. unfold remove_shape. set (b := sh_body (s_shape s x)) in *.
  destruct (wake_for_shape s x W0 L0 V1) as [s1 [E [W [PB [C [_ TH]]]]]]. fold b in E, PB. rewrite E. clear E.
  assert (ES : is_type s b Static = is_type s1 b Static) by (apply ce_is_type; auto). rewrite ES. clear ES.
  assert (BB : b = sh_body (s_shape s1 x)) by (rewrite <- (ce_shape _ _ C); reflexivity).
  rewrite (ce_shape _ _ C) in V1.
  assert (CI := ce_in _ _ C). assert (CS := ce_shape _ _ C). assert (CC := ce_con _ _ C). assert (CSH := ce_sh _ _ C).
  match goal with |- exists s', ?t = _ /\ _ => cut (exists s', t = Some s' /\ winv [] s' /\ (forall y, b_in (s_body s' y) = b_in (s_body s1 y)) /\
    (forall y, s_shape s' y = if Nat.eqb x y then Sh b false 0 else s_shape s1 y) /\ s_con s' = s_con s1 /\
    (forall y, b_shapes (s_body s' y) = if Nat.eqb b y then swap_remove x (b_shapes (s_body s1 y)) else b_shapes (s_body s1 y))) end.
  { intros [s' [G1 [G2 [G3 [G4 [G5 G6]]]]]]. exists s'. split; [exact G1|]. split; auto. split; [intros; rewrite CI; auto|]. split; [|split; [congruence|]].
    - intros y. rewrite G4, CS. reflexivity.
    - intros y. rewrite G6, CSH. reflexivity. }
  clear L0 W0 C CI CS CC CSH. clearbody b. clear s. rename s1 into s. pose proof W as [I CL G KN WL WR].
  (* the filtered state *)
  set (d := detach_shape x s).
  assert (DB : forall y, s_body d y = if Nat.eqb b y then w_shapes (s_body s b) (swap_remove x (b_shapes (s_body s b))) else s_body s y).
  { intros y. unfold d, detach_shape. rewrite <- BB. reflexivity. }
  assert (DA : forall y, b_arbs (s_body d y) = b_arbs (s_body s y)) by (intros; rewrite DB; destruct (Nat.eqb_spec b y); subst; reflexivity).
  assert (DX : s_arb d = s_arb s) by reflexivity.
  assert (DC : s_cache d = s_cache s) by reflexivity.
  set (bad := filter (filter_matches d b x) (s_cache d)).
  destruct (cut_all bad d) as [A1 [A2 [A3 [bd A4]]]].
  { intros y. rewrite DA. apply (ia_n _ _ _ I). }
  assert (FE : filter_arbiters b x d = set_arbs (fold_left (fun s x => cut_arb x s) bad d) (fold_left (fun m c => remove1 c m) bad (s_arbs d))
     (filter (fun z => negb (filter_matches d b x z)) (s_cache d))).
  { unfold filter_arbiters. fold bad. change (fun s x => set_arbs (unthread x s) (remove1 x (s_arbs s)) (s_cache s)) with (fun s x => cut_arb x s).
    rewrite A4. reflexivity. }
  assert (BADI : forall z, In z bad <-> In z (s_cache s) /\ filter_matches s b x z = true) by (intros; unfold bad; rewrite filter_In; reflexivity).
  assert (MT : forall z, live s z -> (filter_matches s b x z = true <-> touches s x z)).
  { intros z LV. rewrite BB. eapply matches_touches; eauto. }
  assert (TE : forall e, In e (s_dix s) \/ In e (s_six s) -> True) by auto. clear TE.
  (* the indices *)
  assert (SXD : ty s b <> Static -> In (sh_id (s_shape s x), x) (s_dix s)).
  { intros T. rewrite (is_dix _ _ _ I), <- BB. auto. }
  assert (SXS : ty s b = Static -> In (sh_id (s_shape s x), x) (s_six s)).
  { intros T. rewrite (is_six _ _ _ I), <- BB. auto. }
  rewrite FE, A4. cbv zeta. cbn [s_shape s_dix s_six set_arbs].
  change (s_shape d) with (s_shape s). change (s_dix d) with (s_dix s). change (s_six d) with (s_six s).
  match goal with |- exists s', ?t = _ /\ _ => assert (EX : exists s' dx sx, t = Some s' /\
    (if is_type s b Static then dx = s_dix s /\ (forall e, In e sx <-> In e (s_six s) /\ e <> (sh_id (s_shape s x), x)) /\ NoDup sx
     else sx = s_six s /\ (forall e, In e dx <-> In e (s_dix s) /\ e <> (sh_id (s_shape s x), x)) /\ NoDup dx) /\
    s' = Sp bd (upd (s_shape s) x (Sh b false 0)) (s_arb s) (s_con s) (s_dyn s) (s_sta s) dx sx
     (fold_left (fun m c => remove1 c m) bad (s_arbs s)) (filter (fun z => negb (filter_matches s b x z)) (s_cache s))
     (s_cons s) (s_comps s) (s_roused s) (s_lock s) (s_ids s) (s_arbc s) (s_all s)) end.
  { destruct (is_type s b Static) eqn:T.
    - apply is_type_t in T. destruct (ix_remove_spec _ _ (SXS T)) as [ix [X1 [X2 X3]]]. rewrite X1. do 3 eexists. split; [reflexivity|].
      split; [split; [reflexivity|split; [exact X2|apply X3, (is_sn _ _ _ I)]]|]. reflexivity.
    - apply is_type_f in T. destruct (ix_remove_spec _ _ (SXD T)) as [ix [X1 [X2 X3]]]. rewrite X1. do 3 eexists. split; [reflexivity|].
      split; [split; [reflexivity|split; [exact X2|apply X3, (is_dn _ _ _ I)]]|]. reflexivity. }
  destruct EX as [s' [dx [sx [E [EIX ES]]]]]. rewrite E. clear E FE.
  assert (BD : forall y, exists k, s_body s' y = w_arbs (s_body d y) k).
  { intros y. destruct (A3 y) as [k K]. exists k. rewrite <- K, A4, ES. reflexivity. }
  assert (K1 : forall y, b_type (s_body s' y) = b_type (s_body s y)).
  { intros y. destruct (BD y) as [k ->]. rewrite DB. destruct (Nat.eqb_spec b y); subst; reflexivity. }
  assert (K2 : forall y, b_idle (s_body s' y) = b_idle (s_body s y)).
  { intros y. destruct (BD y) as [k ->]. rewrite DB. destruct (Nat.eqb_spec b y); subst; reflexivity. }
  assert (K3 : forall y, b_shapes (s_body s' y) = if Nat.eqb b y then swap_remove x (b_shapes (s_body s y)) else b_shapes (s_body s y)).
  { intros y. destruct (BD y) as [k ->]. rewrite DB. destruct (Nat.eqb_spec b y) as [e|]; [rewrite e|]; reflexivity. }
  assert (K4 : forall y, b_cons (s_body s' y) = b_cons (s_body s y)).
  { intros y. destruct (BD y) as [k ->]. rewrite DB. destruct (Nat.eqb_spec b y); subst; reflexivity. }
  assert (K5 : forall y, b_in (s_body s' y) = b_in (s_body s y)).
  { intros y. destruct (BD y) as [k ->]. rewrite DB. destruct (Nat.eqb_spec b y); subst; reflexivity. }
  assert (K6 : forall y, b_root (s_body s' y) = b_root (s_body s y)).
  { intros y. destruct (BD y) as [k ->]. rewrite DB. destruct (Nat.eqb_spec b y); subst; reflexivity. }
  assert (K7 : forall y, b_next (s_body s' y) = b_next (s_body s y)).
  { intros y. destruct (BD y) as [k ->]. rewrite DB. destruct (Nat.eqb_spec b y); subst; reflexivity. }
  assert (K8 : forall y z, In z (b_arbs (s_body s' y)) <-> In z (b_arbs (s_body s y)) /\ ~ touches s x z).
  { intros y z. replace (s_body s' y) with (s_body (fold_left (fun s x => cut_arb x s) bad d) y) by (rewrite A4, ES; reflexivity).
    rewrite A2, DA, DX, BADI. split.
    - intros [H1 H2]. split; auto. intros T. apply H2.
      pose proof (threaded_end _ _ _ _ _ I H1) as TH1.
      split; [split; [apply (ia_ac _ _ _ I); auto|apply MT; [left|]; auto]|]. apply (ia_e _ _ _ I); auto.
    - intros [H1 H2]. split; auto. intros [[H3 H4] _]. apply H2. apply MT; auto. right; auto. }
  assert (K9 : forall y, NoDup (b_arbs (s_body s' y))).
  { intros y. replace (s_body s' y) with (s_body (fold_left (fun s x => cut_arb x s) bad d) y) by (rewrite A4, ES; reflexivity). apply A1. }
  destruct (remove1_all bad (s_arbs s) (ia_an _ _ _ I)) as [R1 R2].
  assert (K10 : forall z, In z (s_arbs s') <-> In z (s_arbs s) /\ ~ touches s x z).
  { intros z. rewrite ES. simpl. rewrite R1, BADI. split; intros [H1 H2]; split; auto; intros H3; apply H2.
    - split; [apply (ia_ac _ _ _ I); auto|]. apply MT; auto. right. apply (ia_ac _ _ _ I); auto.
    - apply MT; [right|]; tauto. }
  assert (K11 : NoDup (s_arbs s')) by (rewrite ES; exact R2).
  assert (K12 : forall z, In z (s_cache s') <-> In z (s_cache s) /\ ~ touches s x z).
  { intros z. rewrite ES. simpl. rewrite filter_In, negb_true_iff. split; intros [H1 H2]; split; auto.
    - intros H3. apply MT in H3; [congruence|right; auto].
    - destruct (filter_matches s b x z) eqn:F; auto. exfalso. apply H2. apply MT; auto. right; auto. }
  assert (K13 : NoDup (s_cache s')) by (rewrite ES; simpl; apply NoDup_filter, (ia_cn _ _ _ I)).
  assert (K14 : s_dix s' = dx) by (rewrite ES; reflexivity). assert (K15 : s_six s' = sx) by (rewrite ES; reflexivity).
  assert (S0 : forall y, s_shape s' y = if Nat.eqb x y then Sh b false 0 else s_shape s y) by (intros; rewrite ES; reflexivity).
  know s' s. 
  exists s'. split; auto. split; [|split; [|split; [|split]]; auto].
  clear ES BD BADI R1 R2 A1 A2 A3 A4 DB DA DX DC. clear bad. clear d.
  assert (S1 : forall y, sh_body (s_shape s' y) = sh_body (s_shape s y)) by (intros; rewrite S0; destruct (Nat.eqb_spec x y); subst; auto).
  assert (S2 : forall y, sh_in (s_shape s' y) = if Nat.eqb x y then false else sh_in (s_shape s y)) by (intros; rewrite S0; destruct (Nat.eqb_spec x y); subst; auto).
  assert (S3 : forall y, sh_in (s_shape s' y) = true -> sh_id (s_shape s' y) = sh_id (s_shape s y) /\ y <> x).
  { intros y. rewrite S2, S0. destruct (Nat.eqb_spec x y); simpl; auto; discriminate. }
  assert (TE : forall z, threaded s' z <-> threaded s z /\ ~ touches s x z).
  { intros z. unfold threaded. xf s'. apply K8. }
  assert (LE : forall z, live s' z <-> live s z /\ ~ touches s x z).
  { intros z. unfold live. rewrite TE, K12. tauto. }
  assert (XB : In x (b_shapes (s_body s b))) by (rewrite BB; apply (is_i _ _ _ I); auto).
  apply (winv_of [] [] s); unfold roots, nexts; auto.
  - split; unfold ty; intros; rewrite ?TE, ?LE, ?OE, ?COE in *.
    all: try solve [xf s'; destruct I; eauto].
    + rewrite K3. destruct (Nat.eqb_spec b b0) as [D|D]; [subst b0|apply (is_n _ _ _ I)]. apply swap_remove_nd; [apply (is_n _ _ _ I)|auto].
    + rewrite S1. apply (is_b _ _ _ I). rewrite K3 in H. destruct (Nat.eqb_spec b b0) as [D|D]; [subst b0|auto].
      apply swap_remove_spec in H; [tauto|apply (is_n _ _ _ I)|auto].
    + destruct (S3 _ H) as [_ D]. rewrite S2 in H. destruct (x =? x0); [discriminate|]. rewrite S1, K3. pose proof (is_i _ _ _ I _ H) as J.
      destruct (Nat.eqb_spec b (sh_body (s_shape s x0))) as [F|F]; auto.
      apply swap_remove_spec; auto; [apply (is_n _ _ _ I)|]. rewrite <- F; auto.
    + rewrite S2 in H. destruct (x =? x0); [discriminate|]. rewrite S1, K1, K5. apply (is_h _ _ _ I); auto.
    + rewrite K3 in H0. destruct (Nat.eqb_spec b b0) as [F|F]; [subst b0; congruence|]. rewrite S2.
      destruct (Nat.eqb_spec x x0) as [D|D]; [|eapply (is_p _ _ _ I); eauto]. subst x0.
      apply (is_b _ _ _ I) in H0. congruence.
    + rewrite S1, K1, K14. destruct (is_type s b Static) eqn:T.
      * apply is_type_t in T. destruct EIX as [-> _]. rewrite (is_dix _ _ _ I), S0. unfold ty in *.
        destruct (Nat.eqb_spec x x0) as [D|D]; [subst x0|tauto]. rewrite <- BB. simpl. intuition congruence.
      * destruct EIX as [_ [F _]]. rewrite F, (is_dix _ _ _ I), S0. unfold ty in *.
        destruct (Nat.eqb_spec x x0) as [D|D]; [subst x0|].
        -- simpl. split; [|intros [? _]; discriminate]. intros [[H1 [H2 H3]] H4]. exfalso. apply H4. congruence.
        -- split; [tauto|]. intros H. split; auto. intros J. inversion J. congruence.
    + rewrite S1, K1, K15. destruct (is_type s b Static) eqn:T.
      * destruct EIX as [_ [F _]]. rewrite F, (is_six _ _ _ I), S0. unfold ty in *.
        destruct (Nat.eqb_spec x x0) as [D|D]; [subst x0|].
        -- simpl. split; [|intros [? _]; discriminate]. intros [[H1 [H2 H3]] H4]. exfalso. apply H4. congruence.
        -- split; [tauto|]. intros H. split; auto. intros J. inversion J. congruence.
      * apply is_type_f in T. destruct EIX as [-> _]. rewrite (is_six _ _ _ I), S0. unfold ty in *.
        destruct (Nat.eqb_spec x x0) as [D|D]; [subst x0|tauto]. rewrite <- BB. simpl. intuition congruence.
    + rewrite K14. destruct (is_type s b Static); destruct EIX as [E1 [_ E2]]; auto. rewrite E1. apply (is_dn _ _ _ I).
    + rewrite K15. destruct (is_type s b Static); destruct EIX as [E1 [_ E2]]; auto. rewrite E1. apply (is_sn _ _ _ I).
    + destruct (S3 _ H) as [-> D]. rewrite S2 in H. destruct (x =? x0); [discriminate|]. xf s'. apply (is_lt _ _ _ I); auto.
    + destruct (S3 _ H) as [F1 D1], (S3 _ H0) as [F2 D2]. rewrite F1, F2 in H1. rewrite S2 in H, H0.
      destruct (x =? x0); [discriminate|]. destruct (x =? y); [discriminate|]. apply (is_inj _ _ _ I); auto.
    + xf s'. apply K8 in H. apply (ia_e _ _ _ I). tauto.
    + xf s'. rewrite K8, (ia_s _ _ _ I). tauto.
    + xf s'. apply (ia_ne _ _ _ I). tauto.
    + destruct H as [H F]. xf s'. destruct (ia_sa _ _ _ I _ H) as [F1 F2]. split; auto.
      destruct (Nat.eqb_spec x (ar_sa (s_arb s x0))) as [D|D]; auto. exfalso. apply F. left; auto.
    + destruct H as [H F]. xf s'. destruct (ia_sb _ _ _ I _ H) as [F1 F2]. split; auto.
      destruct (Nat.eqb_spec x (ar_sb (s_arb s x0))) as [D|D]; auto. exfalso. apply F. right; auto.
    + apply K10 in H. destruct H as [H F]. destruct (ia_at _ _ _ I _ H); auto.
    + rewrite K10, <- (ia_own _ _ _ I) by tauto. tauto.
    + rewrite K12. apply K10 in H. split; [apply (ia_ac _ _ _ I)|]; tauto.
    + rewrite K10. apply K12 in H. split; [apply (ia_ct _ _ _ I)|]; tauto.
    + destruct H.
    + xf s'. apply (ia_u _ _ _ I); tauto.
    + xf s'. apply (ia_lt _ _ _ I). tauto.
  - intros u v H P. unfold ty. xf s'. apply CL; auto.
    destruct H as [[z [H1 H2]]|[c H]]; [left; exists z|right; exists c]; xf s'; auto. apply K8 in H1. tauto.
  - intros y. unfold ty. xf s'. apply KN.
Qed.
End Shapes.
