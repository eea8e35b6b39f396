(** FloodFillComponent marks exactly the bodies connected to the root and strings them together. *)
From Coq Require Import ZArith List Bool Arith Lia Permutation.
From Verif Require Import Num Space SpaceSpec SpaceInv SpaceMove SpaceWake SpaceActivate SpaceOps.
Import ListNotations.
Local Open Scope nat_scope.

Section Flood.
Context {N : Num}.

(* only the root and next pointers of the bodies change *)
Record soft (s s' : space) : Prop := {
  so_core : core_eq s s'; so_lists : lists_eq s s'; so_comps : s_comps s' = s_comps s; so_roused : s_roused s' = s_roused s;
  so_lock : s_lock s' = s_lock s; so_idle : forall y, b_idle (s_body s' y) = b_idle (s_body s y) }.
Lemma soft_refl s : soft s s. Proof. split; auto using core_refl, lists_refl. Qed.
Lemma soft_trans s s' s'' : soft s s' -> soft s' s'' -> soft s s''.
Proof. intros [] []; split; eauto using core_trans, lists_trans; intros; congruence. Qed.
Lemma soft_sleep s b r n : soft s (set_body s b (w_sleep (s_body s b) r n)).
Proof.
  split; auto; [apply set_body_core; reflexivity|apply set_body_lists|]. intros y. simpl. unfold upd. destruct (Nat.eqb_spec b y); subst; reflexivity.
Qed.
Lemma soft_all s s' : soft s s' -> s_all s' = s_all s.
Proof. intros S. symmetry. apply (le_all _ _ (so_lists _ _ S)). Qed.
Lemma soft_ty s s' b : soft s s' -> ty s' b = ty s b.
Proof. intros S. apply (ce_type _ _ _ (so_core _ _ S)). Qed.
Lemma soft_neighbours s s' b : soft s s' -> neighbours s' b = neighbours s b.
Proof.
  intros S. destruct (so_core _ _ S) as [C1 C2 C3 C4 C5 C6 C7 C8]. unfold neighbours. rewrite <- C3, <- C4. f_equal; apply map_ext; intros x.
  - unfold other_arb. rewrite C7. reflexivity.
  - unfold other_con. rewrite C8. reflexivity.
Qed.
Lemma neighbours_linked P Q s u v : pinv P Q s -> (In v (neighbours s u) <-> linked s u v).
Proof.
  intros I. unfold neighbours. rewrite in_app_iff, !in_map_iff. split.
  - intros [[x [E H]]|[c [E H]]].
    + left. exists x. split; auto. unfold other_arb in E. destruct (Nat.eqb_spec (ar_a (s_arb s x)) u) as [D|D]; subst; auto.
      destruct (ia_e _ _ _ I _ _ H); [congruence|auto].
    + right. exists c. apply (ic_e _ _ _ I) in H. destruct H as [H1 H2]. split; auto. unfold other_con in E.
      destruct (Nat.eqb_spec (co_a (s_con s c)) u) as [D|D]; subst; auto. destruct H2; [congruence|auto].
  - intros [[x [H E]]|[c [H E]]].
    + left. exists x. split; auto. unfold other_arb.
      assert (NE : ar_a (s_arb s x) <> ar_b (s_arb s x)) by (apply (ia_ne _ _ _ I); left; eapply threaded_end; eauto).
      destruct (Nat.eqb_spec (ar_a (s_arb s x)) u) as [D|D]; destruct E as [[E1 E2]|[E1 E2]]; congruence.
    + right. exists c. pose proof (ic_ne _ _ _ I _ H) as NE. split.
      * unfold other_con. destruct (Nat.eqb_spec (co_a (s_con s c)) u) as [D|D]; destruct E as [[E1 E2]|[E1 E2]]; congruence.
      * apply (ic_e _ _ _ I). split; auto. destruct E as [[E1 E2]|[E1 E2]]; auto.
Qed.

Definition marked (root : nat) (s : space) (b : nat) : Prop := roots s b = Some root.
Definition strung (root : nat) (s : space) : Prop :=
  exists l, chain (nexts s) root (root :: l) /\ NoDup (root :: l) /\ forall b, In b (root :: l) <-> marked root s b.
Definition white (s : space) : nat -> bool := fun y => is_type s y Dynamic && negb (is_sleeping s y).
Definition count (s : space) : nat := length (filter (white s) (s_all s)).

Lemma filter_length_le {A} (f g : A -> bool) l : (forall x, In x l -> g x = true -> f x = true) -> length (filter g l) <= length (filter f l).
Proof.
  induction l as [|x l IH]; simpl; intros H; auto. assert (IH' := IH ltac:(intros; apply H; auto)).
  destruct (g x) eqn:E; [rewrite (H x); simpl; auto; lia|]. destruct (f x); simpl; lia.
Qed.
Lemma filter_length_lt {A} (f g : A -> bool) l x : (forall x, In x l -> g x = true -> f x = true) -> In x l -> f x = true -> g x = false ->
  length (filter g l) < length (filter f l).
Proof.
  induction l as [|y l IH]; simpl; intros H I F G; [destruct I|].
  assert (IH' := filter_length_le f g l ltac:(intros; apply H; auto)).
  destruct I as [->|I].
  - rewrite F, G. simpl. lia.
  - assert (LT := IH ltac:(intros; apply H; auto) I F G). destruct (g y) eqn:E; [rewrite (H y); simpl; auto; lia|]. destruct (f y); simpl; lia.
Qed.

Section Root.
Variable root : nat.
Variable R : nat -> Prop.
Record rich (s : space) : Prop := {
  ri_dyn : forall u, R u -> ty s u = Dynamic;
  ri_all : forall u, R u -> In u (s_all s);
  ri_cl : forall u v, R u -> In v (neighbours s u) -> ty s v = Dynamic -> R v;
  ri_un : forall u, R u -> roots s u = None \/ marked root s u }.
Record flooded (s s' : space) : Prop := {
  f_soft : soft s s';
  f_mono : forall y, roots s y <> None -> roots s' y = roots s y;
  f_new : forall y, roots s' y <> roots s y -> R y /\ roots s y = None /\ marked root s' y;
  f_next : forall y, ~ marked root s' y -> nexts s' y = nexts s y;
  f_closed : forall u, marked root s' u -> marked root s u \/ (forall v, In v (neighbours s u) -> ty s v = Dynamic -> marked root s' v) }.
Lemma flooded_refl s : flooded s s.
Proof. split; auto using soft_refl; intros; congruence. Qed.
Lemma flooded_mark s s' u : flooded s s' -> marked root s u -> marked root s' u.
Proof. intros F M. unfold marked in *. rewrite (f_mono _ _ F); auto. congruence. Qed.
Lemma flooded_trans s s' s'' : flooded s s' -> flooded s' s'' -> flooded s s''.
Proof.
  intros A B. pose proof A as [A1 A2 A3 A4 A5]. pose proof B as [B1 B2 B3 B4 B5]. split.
  - eapply soft_trans; eauto.
  - intros y H. rewrite B2, A2; auto. rewrite A2; auto.
  - intros y H. destruct (roots s' y) eqn:E.
    + assert (E1 : roots s'' y = roots s' y) by (apply B2; congruence).
      destruct (A3 y) as [H1 [H2 H3]]; [congruence|]. split; auto. split; auto. unfold marked. rewrite E1. exact H3.
    + assert (E1 : roots s y = None). { destruct (roots s y) eqn:E2; auto. rewrite A2 in E by congruence. congruence. }
      destruct (B3 y) as [H1 [H2 H3]]; [congruence|]. auto.
  - intros y H. rewrite B4; auto. apply A4. intros M. apply H. eapply flooded_mark; eauto.
  - intros u M. destruct (B5 u M) as [M1|M1].
    + destruct (A5 u M1) as [M2|M2]; auto. right. intros v V D. eapply flooded_mark; eauto.
    + right. intros v V D. apply M1; [rewrite (soft_neighbours _ _ _ A1)|rewrite (soft_ty _ _ _ A1)]; auto.
Qed.
Lemma flooded_rich s s' : flooded s s' -> rich s -> rich s'.
Proof.
  intros F [R1 R2 R3 R4]. pose proof F as [F1 F2 F3 F4 F5]. split.
  - intros u U. rewrite (soft_ty _ _ _ F1); auto.
  - intros u U. rewrite (soft_all _ _ F1); auto.
  - intros u v U V D. rewrite (soft_neighbours _ _ _ F1) in V. rewrite (soft_ty _ _ _ F1) in D. eapply R3; eauto.
  - intros u U. destruct (R4 u U) as [H|H]; [|right; eapply flooded_mark; eauto].
    destruct (roots s' u) eqn:E; auto. right. apply F3. congruence.
Qed.
Lemma flooded_white s s' y : flooded s s' -> white s' y = true -> white s y = true.
Proof.
  intros F. unfold white. rewrite !andb_true_iff, !negb_true_iff, !sleeping_roots, !is_type_t, (soft_ty _ _ _ (f_soft _ _ F)).
  intros [H1 H2]. split; auto. destruct (roots s y) eqn:E; auto. rewrite (f_mono _ _ F) in H2; congruence.
Qed.
Lemma flooded_count s s' : flooded s s' -> count s' <= count s.
Proof.
  intros F. unfold count. rewrite (soft_all _ _ (f_soft _ _ F)). apply filter_length_le. intros x _. apply flooded_white; auto.
Qed.

(* adding one body that is not marked yet *)
Lemma add_one s b : strung root s -> rich s -> R b -> roots s b = None ->
  let s1 := component_add root b s in
  soft s s1 /\ strung root s1 /\ (forall y, roots s1 y = if Nat.eqb b y then Some root else roots s y) /\
  (forall y, ~ marked root s1 y -> nexts s1 y = nexts s y) /\ count s1 < count s.
Proof.
  intros [l [C [ND M]]] RI RB RN. unfold component_add.
  assert (MR : marked root s root) by (apply M; simpl; auto).
  destruct (Nat.eqb_spec b root) as [D|D]; [subst; unfold marked in MR; congruence|]. cbv zeta.
  set (s1 := set_body s b _). set (s2 := set_body s1 root _).
  assert (S12 : soft s s2) by (eapply soft_trans; [apply (soft_sleep s b)|apply (soft_sleep s1 root)]).
  assert (B1 : forall y, y <> b -> s_body s1 y = s_body s y) by (intros; unfold s1; simpl; apply upd_other; auto).
  assert (B1b : s_body s1 b = w_sleep (s_body s b) (Some root) (b_next (s_body s root))) by (unfold s1; simpl; apply upd_same).
  assert (B2 : forall y, y <> root -> s_body s2 y = s_body s1 y) by (intros; unfold s2; simpl; apply upd_other; auto).
  assert (B2r : s_body s2 root = w_sleep (s_body s1 root) (b_root (s_body s1 root)) (Some b)) by (unfold s2; simpl; apply upd_same).
  assert (RT : forall y, roots s2 y = if Nat.eqb b y then Some root else roots s y).
  { intros y. unfold roots. destruct (Nat.eq_dec y root) as [->|NR].
    - rewrite B2r, B1 by auto. simpl. destruct (Nat.eqb_spec b root); [congruence|auto].
    - rewrite B2 by auto. destruct (Nat.eqb_spec b y) as [<-|NB]; [rewrite B1b; reflexivity|]. rewrite B1; auto. }
  assert (NX : forall y, nexts s2 y = if Nat.eqb root y then Some b else if Nat.eqb b y then nexts s root else nexts s y).
  { intros y. unfold nexts. destruct (Nat.eqb_spec root y) as [<-|NR]; [rewrite B2r; reflexivity|]. rewrite B2 by auto.
    destruct (Nat.eqb_spec b y) as [<-|NB]; [rewrite B1b; reflexivity|]. rewrite B1; auto. }
  split; auto. split; [|split; [exact RT|split]].
  - exists (b :: l).
    assert (NB : ~ In b (root :: l)) by (rewrite M; unfold marked; congruence).
    inversion ND as [|? ? NR ND']; subst. split; [|split].
    + eapply ch_more with (b' := b); [rewrite NX, Nat.eqb_refl; reflexivity|].
      inversion C; subst.
      * constructor. rewrite NX, Nat.eqb_refl. destruct (Nat.eqb_spec root b); [congruence|auto].
      * eapply ch_more; [rewrite NX, Nat.eqb_refl; destruct (Nat.eqb_spec root b); [congruence|eassumption]|].
        eapply chain_ext; [eassumption|]. intros y Y. rewrite NX.
        destruct (Nat.eqb_spec root y); [subst; contradiction|]. destruct (Nat.eqb_spec b y); [subst; exfalso; apply NB; simpl; auto|auto].
    + constructor; [intros [E|E]; [congruence|contradiction]|]. constructor; auto. intros E; apply NB; simpl; auto.
    + intros y. unfold marked. rewrite RT. destruct (Nat.eqb_spec b y) as [<-|NE]; [simpl; tauto|].
      fold (marked root s y). rewrite <- M. simpl. intuition congruence.
  - intros y NM. unfold marked in NM. rewrite RT in NM. rewrite NX. destruct (Nat.eqb_spec b y); [congruence|].
    destruct (Nat.eqb_spec root y) as [<-|]; [contradiction|auto].
  - unfold count. rewrite (soft_all _ _ S12). apply filter_length_lt with (x := b).
    + intros y _. unfold white. rewrite !andb_true_iff, !negb_true_iff, !sleeping_roots, !is_type_t, (soft_ty _ _ _ S12), RT.
      intros [H1 H2]. split; auto. destruct (b =? y); [discriminate|auto].
    + apply (ri_all _ RI); auto.
    + unfold white. rewrite andb_true_iff, negb_true_iff, sleeping_roots, is_type_t. split; auto. apply (ri_dyn _ RI); auto.
    + unfold white. rewrite andb_false_iff, negb_false_iff. right. unfold is_sleeping. specialize (RT b). unfold roots in RT. rewrite RT, Nat.eqb_refl. reflexivity.
Qed.

Lemma flood_ok fuel : forall b s, strung root s -> rich s -> (ty s b = Dynamic -> R b) -> count s < fuel ->
  exists s', flood fuel root b s = Some s' /\ flooded s s' /\ strung root s' /\ (ty s b = Dynamic -> marked root s' b).
Proof.
  induction fuel as [|fuel IH]; intros b s ST RI RB CN; [lia|]. simpl.
  destruct (is_type s b Dynamic) eqn:T; simpl negb; cbv iota.
  2:{ exists s. split; auto. split; [apply flooded_refl|]. split; auto. intros D. apply is_type_t in D. congruence. }
  apply is_type_t in T. specialize (RB T).
  destruct (b_root (s_body s b)) as [r|] eqn:E.
  - assert (M : marked root s b). { destruct (ri_un _ RI b RB) as [H|H]; auto. unfold roots in H; congruence. }
    assert (r = root) by (unfold marked, roots in M; congruence). subst r. rewrite Nat.eqb_refl.
    exists s. split; auto. split; [apply flooded_refl|]. auto.
  - destruct (add_one s b ST RI RB E) as [S1 [ST1 [RT [NX CT]]]]. set (s1 := component_add root b s) in *.
    assert (RI1 : rich s1).
    { destruct RI as [R1 R2 R3 R4]. split.
      - intros u U. rewrite (soft_ty _ _ _ S1); auto.
      - intros u U. rewrite (soft_all _ _ S1); auto.
      - intros u v U V D. rewrite (soft_neighbours _ _ _ S1) in V. rewrite (soft_ty _ _ _ S1) in D. eapply R3; eauto.
      - intros u U. unfold marked. rewrite RT. destruct (b =? u); auto. apply R4; auto. }
    (* the neighbours one after the other *)
    assert (LOOP : forall l s2, (forall v, In v l -> ty s v = Dynamic -> R v) -> flooded s1 s2 -> strung root s2 ->
      exists s', ofold (flood fuel root) l s2 = Some s' /\ flooded s2 s' /\ strung root s' /\ (forall v, In v l -> ty s v = Dynamic -> marked root s' v)).
    { induction l as [|v l IHl]; intros s2 HL F2 ST2.
      - exists s2. split; auto. split; [apply flooded_refl|]. split; auto. intros v [].
      - rewrite ofold_cons. assert (TV : ty s2 v = ty s v) by (rewrite (soft_ty _ _ _ (f_soft _ _ F2)), (soft_ty _ _ _ S1); auto).
        destruct (IH v s2) as [s3 [E3 [F3 [ST3 M3]]]]; auto.
        { eapply flooded_rich; eauto. }
        { rewrite TV. intros D. apply HL; simpl; auto. }
        { pose proof (flooded_count _ _ F2). lia. }
        rewrite E3. destruct (IHl s3) as [s4 [E4 [F4 [ST4 M4]]]]; auto.
        { intros u U. apply HL. simpl; auto. }
        { eapply flooded_trans; eauto. }
        exists s4. split; auto. split; [eapply flooded_trans; eauto|]. split; auto.
        intros u [<-|U] D; auto. eapply flooded_mark; eauto. apply M3. rewrite TV; auto. }
    destruct (LOOP (neighbours s b) s1) as [s' [E' [F' [ST' M']]]]; auto using flooded_refl.
    { intros v V D. eapply (ri_cl _ RI); eauto. }
    exists s'. split; auto. split.
    + pose proof F' as [F1 F2 F3 F4 F5]. split.
      * eapply soft_trans; eauto.
      * intros y H. rewrite F2; rewrite RT; destruct (Nat.eqb_spec b y); auto; subst; unfold roots in H; congruence.
      * intros y H. destruct (Nat.eq_dec b y) as [<-|NE].
        { split; auto. split; auto. eapply flooded_mark; eauto. unfold marked. rewrite RT, Nat.eqb_refl; auto. }
        assert (RY : roots s1 y = roots s y) by (rewrite RT; destruct (Nat.eqb_spec b y); congruence).
        rewrite <- RY in *. apply F3; auto.
      * intros y H. rewrite F4; auto. apply NX. intros M. apply H. eapply flooded_mark; eauto.
      * intros u M. destruct (F5 u M) as [H|H].
        -- unfold marked in H. rewrite RT in H. destruct (Nat.eqb_spec b u) as [<-|NE]; auto.
        -- right. intros v V D. apply H; [rewrite (soft_neighbours _ _ _ S1)|rewrite (soft_ty _ _ _ S1)]; auto.
    + split; auto. intros _. eapply flooded_mark; eauto. unfold marked. rewrite RT, Nat.eqb_refl; auto.
Qed.
End Root.

(** From the root itself. *)
Definition opt_dec (a b : option nat) : {a = b} + {a <> b}.
Proof. decide equality. apply Nat.eq_dec. Defined.
Lemma connected_dyn s u v : connected s u v -> ty s v = Dynamic.
Proof. destruct 1; auto. Qed.
Lemma flood_root P Q s b :
  pinv P Q s -> ty s b = Dynamic -> b_in (s_body s b) = true -> nexts s b = None ->
  (forall v, connected s b v -> roots s v = None) -> (forall y, roots s y <> Some b) ->
  exists s' l, flood (S (length (s_all s))) b b s = Some s' /\ soft s s' /\ chain (nexts s') b l /\ NoDup l /\ In b l /\
    (forall y, In y l <-> connected s b y) /\
    (forall y, roots s' y = Some b <-> connected s b y) /\ (forall y, ~ connected s b y -> roots s' y = roots s y /\ nexts s' y = nexts s y) /\
    walk (S (length (s_all s'))) s' b = Some l.
Proof.
  intros I T BI NB UN NOB. set (R := connected s b).
  assert (RB : R b) by (constructor; auto).
  assert (RALL : forall u, R u -> In u (s_all s)).
  { intros u U. apply (ib_all _ _ _ I). destruct U as [|v w C LK D]; auto.
    destruct LK as [[x [H E]]|[c [H E]]].
    - assert (LV : live s x) by (left; eapply threaded_end; eauto).
      destruct (ia_sa _ _ _ I x LV) as [A1 A2], (ia_sb _ _ _ I x LV) as [B1 B2].
      destruct E as [[_ <-]|[_ <-]]; [rewrite <- B2 in *; destruct (is_h _ _ _ I _ B1)|rewrite <- A2 in *; destruct (is_h _ _ _ I _ A1)]; congruence.
    - destruct E as [[_ <-]|[_ <-]]; [destruct (ic_hb _ _ _ I _ H)|destruct (ic_ha _ _ _ I _ H)]; congruence. }
  simpl flood. rewrite (proj2 (is_type_t _ _ _) T). simpl negb. cbv iota.
  assert (RN : roots s b = None) by (apply UN; auto). unfold roots in RN. rewrite RN.
  unfold component_add. rewrite Nat.eqb_refl. set (s1 := set_body s b _).
  assert (S1 : soft s s1) by apply soft_sleep.
  assert (RT : forall y, roots s1 y = if Nat.eqb b y then Some b else roots s y).
  { intros y. unfold roots, s1; simpl. unfold upd. destruct (b =? y); reflexivity. }
  assert (NX : forall y, nexts s1 y = nexts s y).
  { intros y. unfold nexts, s1; simpl. unfold upd. destruct (Nat.eqb_spec b y); subst; reflexivity. }
  assert (RI1 : rich b R s1).
  { split.
    - intros u U. rewrite (soft_ty _ _ _ S1). eapply connected_dyn; eauto.
    - intros u U. rewrite (soft_all _ _ S1); auto.
    - intros u v U V D. rewrite (soft_neighbours _ _ _ S1) in V. rewrite (soft_ty _ _ _ S1) in D. econstructor; eauto.
      eapply neighbours_linked; eauto.
    - intros u U. unfold marked. rewrite RT. destruct (b =? u); auto. }
  assert (ST1 : strung b s1).
  { exists []. split; [constructor; rewrite NX; auto|]. split; [repeat constructor; auto|]. intros y. unfold marked. rewrite RT. simpl.
    destruct (Nat.eqb_spec b y); [intuition|]. split; [intros [?|[]]; congruence|]. intros H. exfalso. eapply NOB; eauto. }
  assert (CT : count s1 < length (s_all s)).
  { unfold count. rewrite (soft_all _ _ S1). 
    assert (E : length (filter (fun _ : nat => true) (s_all s)) = length (s_all s)).
    { generalize (s_all s). clear. intros l. induction l as [|y l IH]; simpl; [reflexivity|rewrite IH; reflexivity]. }
    rewrite <- E. apply filter_length_lt with (x := b); auto.
    unfold white. rewrite andb_false_iff, negb_false_iff. right. unfold is_sleeping. specialize (RT b). unfold roots in RT. rewrite RT, Nat.eqb_refl. reflexivity. }
  assert (LOOP : forall l s2, (forall v, In v l -> ty s v = Dynamic -> R v) -> flooded b R s1 s2 -> strung b s2 ->
    exists s', ofold (flood (length (s_all s)) b) l s2 = Some s' /\ flooded b R s2 s' /\ strung b s' /\ (forall v, In v l -> ty s v = Dynamic -> marked b s' v)).
  { induction l as [|v l IHl]; intros s2 HL F2 ST2.
    - exists s2. split; auto. split; [apply flooded_refl|]. split; auto. intros v [].
    - rewrite ofold_cons. assert (TV : ty s2 v = ty s v) by (rewrite (soft_ty _ _ _ (f_soft _ _ _ _ F2)), (soft_ty _ _ _ S1); auto).
      destruct (flood_ok b R (length (s_all s)) v s2) as [s3 [E3 [F3 [ST3 M3]]]]; auto.
      { eapply flooded_rich; eauto. }
      { rewrite TV. intros D. apply HL; simpl; auto. }
      { pose proof (flooded_count _ _ _ _ F2). lia. }
      rewrite E3. destruct (IHl s3) as [s4 [E4 [F4 [ST4 M4]]]]; auto.
      { intros u U. apply HL. simpl; auto. }
      { eapply flooded_trans; eauto. }
      exists s4. split; auto. split; [eapply flooded_trans; eauto|]. split; auto.
      intros u [<-|U] D; auto. eapply flooded_mark; eauto. apply M3. rewrite TV; auto. }
  destruct (LOOP (neighbours s b) s1) as [s' [E' [F' [ST' M']]]]; auto using flooded_refl.
  { intros v V D. econstructor; eauto. eapply neighbours_linked; eauto. }
  pose proof F' as [F1 F2 F3 F4 F5].
  assert (SO : soft s s') by (eapply soft_trans; eauto).
  assert (M1 : forall y, roots s1 y = Some b -> y = b).
  { intros y. rewrite RT. destruct (Nat.eqb_spec b y); auto. intros H. exfalso. eapply NOB; eauto. }
  assert (MK : forall y, marked b s' y <-> R y).
  { intros y. split.
    - intros M. destruct (opt_dec (roots s' y) (roots s1 y)) as [E|E]; [|apply F3; auto].
      assert (y = b) by (apply M1; rewrite <- E; exact M). subst. auto.
    - intros C. induction C as [|v w C IHC LK D].
      + eapply flooded_mark; eauto. unfold marked. rewrite RT, Nat.eqb_refl; auto.
      + assert (VN : In w (neighbours s v)) by (eapply neighbours_linked; eauto).
        destruct (F5 v IHC) as [H|H].
        * apply M1 in H. subst v. apply M'; auto.
        * apply H; [rewrite (soft_neighbours _ _ _ S1)|rewrite (soft_ty _ _ _ S1)]; auto. }
  destruct ST' as [l [CH [ND ML]]]. exists s', (b :: l). split; [exact E'|]. split; auto. split; auto. split; auto. split; [simpl; auto|].
  split; [intros y; rewrite ML; apply MK|]. split; [exact MK|]. split.
  - intros y NC. split.
    + destruct (opt_dec (roots s' y) (roots s y)) as [E|E]; auto. exfalso. apply NC.
      destruct (Nat.eq_dec b y) as [<-|NE]; [constructor; auto|].
      apply F3. rewrite RT. destruct (Nat.eqb_spec b y); congruence.
    + rewrite F4, NX; auto. intros M. apply NC. apply MK; auto.
  - assert (LEN : length (b :: l) <= length (s_all s')).
    { apply NoDup_incl_length; auto. intros y Y. apply ML, MK in Y. rewrite (soft_all _ _ SO). auto. }
    assert (LL : forall f, length (b :: l) <= f -> walk f s' b = Some (b :: l)).
    { clear -CH. revert CH. generalize (b :: l). generalize b. clear. intros b l C. induction C as [b H|b b' l H C IH]; intros f LE; simpl in LE.
      - destruct f; [lia|]. simpl. unfold nexts in H. rewrite H. reflexivity.
      - destruct f; [lia|]. simpl. unfold nexts in H. rewrite H, IH by lia. reflexivity. }
    apply LL. lia.
Qed.
End Flood.
