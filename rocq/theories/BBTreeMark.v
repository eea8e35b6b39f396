(** Marking: what one MarkLeaf does to the pairs and to the calls, seen through one unordered pair of leaves. *)
From Coq Require Import ZArith Bool List Arith Permutation Lia.
From Verif Require Import Num Vec BB BBProofs BBTree BBTreeSpec BBTreeProofs.
Import ListNotations.

Section P.
Context {N : Num} {O : NumOrd N}.

Lemma key_eqb_spec a b : reflect (a = b) (key_eqb a b).
Proof.
  destruct a as [d i], b as [e j]. unfold key_eqb; cbn.
  destruct (Bool.eqb_spec d e), (Nat.eqb_spec i j); cbn; constructor; congruence.
Qed.
Lemma key_eqb_refl a : key_eqb a a = true.
Proof. destruct (key_eqb_spec a a); congruence. Qed.
Lemma same_pair_spec a b p : same_pair a b p = true <-> p = (a, b) \/ p = (b, a).
Proof.
  destruct p as [u v]. unfold same_pair; cbn.
  destruct (key_eqb_spec a u), (key_eqb_spec b v), (key_eqb_spec a v), (key_eqb_spec b u); cbn; subst;
    split; try tauto; try discriminate; intros [E|E]; congruence.
Qed.
Lemma same_pair_sym a b p : same_pair a b p = same_pair b a p.
Proof. apply eq_true_iff_eq. rewrite !same_pair_spec. tauto. Qed.
Lemma same_pair_swap a b u v : same_pair a b (u, v) = same_pair a b (v, u).
Proof. apply eq_true_iff_eq. rewrite !same_pair_spec. split; intros [E|E]; injection E as <- <-; auto. Qed.
Lemma same_self a b : same_pair a b (a, b) = true.
Proof. apply same_pair_spec. auto. Qed.
Lemma same_none a b u v : (a <> u \/ b <> v) -> (a <> v \/ b <> u) -> same_pair a b (u, v) = false.
Proof.
  intros H1 H2. destruct (same_pair a b (u, v)) eqn:E; auto. apply same_pair_spec in E as [E|E]; injection E as <- <-; tauto.
Qed.

Definition fl (a b : key) (l : list pair) : list pair := filter (same_pair a b) l.
Lemma fl_sym a b l : fl a b l = fl b a l.
Proof. apply filter_ext. apply same_pair_sym. Qed.
Lemma fl_cons_no a b p l : same_pair a b p = false -> fl a b (p :: l) = fl a b l.
Proof. unfold fl; cbn. intros ->. reflexivity. Qed.
Lemma fl_cons_yes a b p l : same_pair a b p = true -> fl a b (p :: l) = p :: fl a b l.
Proof. unfold fl; cbn. intros ->. reflexivity. Qed.

(** ** MarkLeafQuery over a list of leaves *)
Definition mq1 (x : index) (d : bool) (leaf : key) (left : bool) (j : nat) (m : macc) : macc :=
  if left then ((leaf, (d, j)) :: fst m, snd m)
  else (if Nat.ltb (x_lstamp x (d, j)) (x_lstamp x leaf) then ((d, j), leaf) :: fst m else fst m, (leaf, (d, j)) :: snd m).
Definition mqL (x : index) (d : bool) (L : list (nat * bb)) (leaf : key) (lb : bb) (left : bool) (m : macc) : macc :=
  fold_left (fun m p => if bb_intersects lb (snd p) then mq1 x d leaf left (fst p) m else m) L m.
Lemma mqL_app x d L1 L2 leaf lb left m :
  mqL x d (L1 ++ L2) leaf lb left m = mqL x d L2 leaf lb left (mqL x d L1 leaf lb left m).
Proof. apply fold_left_app. Qed.
Lemma mqL_skip x d L leaf lb left m : (forall p, In p L -> bb_intersects lb (snd p) = false) -> mqL x d L leaf lb left m = m.
Proof.
  revert m. induction L as [|p L IH]; intros m H; [reflexivity|]. unfold mqL in *; cbn. rewrite H by (left; auto).
  apply IH. intros q Hq. apply H. right. auto.
Qed.
Lemma mark_query_flat x d t leaf lb left m : bounded t ->
  mark_query x d t leaf lb left m = mqL x d (tleaves t) leaf lb left m.
Proof.
  revert m. induction t as [i b|b l IHl r IHr]; intros m H.
  - cbn. destruct (bb_intersects lb b); [|reflexivity]. unfold mq1, pair_insert. destruct left; reflexivity.
  - cbn [mark_query tbb tleaves]. destruct H as (H0 & Hl & Hr & Hc). destruct (bb_intersects lb b) eqn:E.
    + rewrite IHr, IHl, mqL_app by auto. reflexivity.
    + rewrite mqL_skip; auto. intros p Hp. destruct (bb_intersects lb (snd p)) eqn:Ep; auto.
      rewrite intersects_sym in Ep. rewrite intersects_sym in E.
      rewrite (contains_intersects b (snd p) lb) in E; [discriminate|auto|auto].
Qed.

Lemma mqL_none x d L leaf lb left m a b :
  (forall j, In j (map fst L) -> same_pair a b (leaf, (d, j)) = false) ->
  fl a b (fst (mqL x d L leaf lb left m)) = fl a b (fst m) /\ fl a b (snd (mqL x d L leaf lb left m)) = fl a b (snd m).
Proof.
  revert m. induction L as [|p L IH]; intros m H; [auto|]. unfold mqL in *; cbn [fold_left].
  destruct (IH (if bb_intersects lb (snd p) then mq1 x d leaf left (fst p) m else m)) as [E1 E2].
  { intros j Hj. apply H. right. auto. }
  rewrite E1, E2. destruct (bb_intersects lb (snd p)); auto.
  assert (Hp : same_pair a b (leaf, (d, fst p)) = false) by (apply H; left; auto).
  unfold mq1. destruct left; cbn [fst snd].
  - rewrite fl_cons_no; auto.
  - rewrite (fl_cons_no _ _ _ (snd m)) by auto. split; auto.
    destruct (Nat.ltb _ _); auto. apply fl_cons_no. rewrite same_pair_swap. auto.
Qed.

(* what marking [leaf] against the leaf (d,j) adds to the pairs and to the calls *)
Definition add_p (x : index) (leaf k : key) (left : bool) : list pair :=
  if left then [(leaf, k)] else if Nat.ltb (x_lstamp x k) (x_lstamp x leaf) then [(k, leaf)] else [].
Definition add_c (leaf k : key) (left : bool) : list pair := if left then [] else [(leaf, k)].

Lemma mqL_one x d L leaf lb left m j jb : NoDup (map fst L) -> In (j, jb) L ->
  let m' := mqL x d L leaf lb left m in
  fl leaf (d, j) (fst m') = (if bb_intersects lb jb then add_p x leaf (d, j) left else []) ++ fl leaf (d, j) (fst m) /\
  fl leaf (d, j) (snd m') = (if bb_intersects lb jb then add_c leaf (d, j) left else []) ++ fl leaf (d, j) (snd m).
Proof.
  intros ND Hin. destruct (in_split _ _ Hin) as (L1 & L2 & ->). cbn zeta. rewrite mqL_app.
  rewrite map_app in ND; cbn in ND. apply NoDup_remove_2 in ND.
  assert (K : forall i, i <> j -> same_pair leaf (d, j) (leaf, (d, i)) = false).
  { intros i Hi. apply same_none; [right; congruence|]. destruct (key_eqb_spec leaf (d, i)); [right; congruence | left; auto]. }
  set (m1 := mqL x d L1 leaf lb left m).
  assert (E1 : fl leaf (d, j) (fst m1) = fl leaf (d, j) (fst m) /\ fl leaf (d, j) (snd m1) = fl leaf (d, j) (snd m)).
  { apply mqL_none. intros i Hi. apply K. intros ->. apply ND. apply in_or_app. auto. }
  unfold mqL; cbn [fold_left]. fold (mqL x d L2 leaf lb left (if bb_intersects lb (snd (j, jb)) then mq1 x d leaf left (fst (j, jb)) m1 else m1)).
  set (m2 := if bb_intersects lb (snd (j, jb)) then _ else _).
  assert (E2 : fl leaf (d, j) (fst (mqL x d L2 leaf lb left m2)) = fl leaf (d, j) (fst m2) /\
               fl leaf (d, j) (snd (mqL x d L2 leaf lb left m2)) = fl leaf (d, j) (snd m2)).
  { apply mqL_none. intros i Hi. apply K. intros ->. apply ND. apply in_or_app. auto. }
  destruct E1 as [E1 E1'], E2 as [E2 E2']. rewrite E2, E2'. subst m2. cbn [fst snd].
  destruct (bb_intersects lb jb); cbn [app]; [|auto].
  unfold mq1, add_p, add_c. destruct left; cbn [fst snd].
  - rewrite fl_cons_yes by apply same_self. rewrite E1, E1'. auto.
  - rewrite (fl_cons_yes _ _ _ (snd m1)) by apply same_self. rewrite E1'. split; auto.
    destruct (Nat.ltb _ _); auto. rewrite fl_cons_yes; [rewrite E1; auto|]. rewrite same_pair_swap. apply same_self.
Qed.

(** ** The siblings on the way up *)
Fixpoint after (i : nat) (L : list (nat * bb)) : list (nat * bb) :=
  match L with [] => [] | p :: r => if Nat.eqb i (fst p) then r else after i r end.
Fixpoint before (i : nat) (L : list (nat * bb)) : list (nat * bb) :=
  match L with [] => [] | p :: r => if Nat.eqb i (fst p) then [] else p :: before i r end.
Lemma after_app_l i l r : In i (map fst l) -> after i (l ++ r) = after i l ++ r /\ before i (l ++ r) = before i l.
Proof.
  induction l as [|p l IH]; cbn; [tauto|]. destruct (Nat.eqb_spec i (fst p)); [auto|].
  intros [E|H]; [congruence|]. destruct (IH H) as [-> ->]. auto.
Qed.
Lemma after_app_r i l r : ~ In i (map fst l) -> after i (l ++ r) = after i r /\ before i (l ++ r) = l ++ before i r.
Proof.
  induction l as [|p l IH]; cbn; [auto|]. intros H. destruct (Nat.eqb_spec i (fst p)); [exfalso; apply H; auto|].
  destruct IH as [-> ->]; [tauto|]. auto.
Qed.
Lemma after_split i b B A : ~ In i (map fst B) -> after i (B ++ (i, b) :: A) = A /\ before i (B ++ (i, b) :: A) = B.
Proof.
  intros H. destruct (after_app_r i B ((i, b) :: A) H) as [-> ->]. cbn. rewrite Nat.eqb_refl. split; auto. apply app_nil_r.
Qed.
Lemma after_incl i L p : In p (after i L) -> In p L.
Proof. induction L as [|q L IH]; cbn; [tauto|]. destruct (Nat.eqb i (fst q)); auto. Qed.
Lemma before_incl i L p : In p (before i L) -> In p L.
Proof. induction L as [|q L IH]; cbn; [tauto|]. destruct (Nat.eqb i (fst q)); cbn; tauto. Qed.

Definition upsM (x : index) (t : tree) (i : nat) (lb : bb) (m : macc) : macc :=
  fold_left (fun m s => mark_query x true (fst s) (true, i) lb (snd s) m) (ups t i) m.

Lemma ups_step x b l r i lb m : bounded (Node b l r) ->
  upsM x (Node b l r) i lb m =
    if has i l then mqL x true (tleaves r) (true, i) lb true (upsM x l i lb m)
    else mqL x true (tleaves l) (true, i) lb false (upsM x r i lb m).
Proof.
  intros (H0 & Hl & Hr & Hc). unfold upsM; cbn [ups].
  destruct (has i l); rewrite fold_left_app; cbn [fold_left fst snd]; apply mark_query_flat; auto.
Qed.

Lemma ups_none x t i lb m a b : bounded t -> NoDup (map fst (tleaves t)) -> In i (map fst (tleaves t)) ->
  (forall j, In j (map fst (tleaves t)) -> j <> i -> same_pair a b ((true, i), (true, j)) = false) ->
  fl a b (fst (upsM x t i lb m)) = fl a b (fst m) /\ fl a b (snd (upsM x t i lb m)) = fl a b (snd m).
Proof.
  revert m. induction t as [j c|c l IHl r IHr]; intros m Hb ND Hi H; [cbn; auto|].
  rewrite ups_step by auto. destruct Hb as (H0 & Hl & Hr & Hc). cbn [tleaves] in *. rewrite map_app in *.
  destruct (has i l) eqn:E.
  - apply has_spec in E.
    destruct (mqL_none x true (tleaves r) (true, i) lb true (upsM x l i lb m) a b) as [E1 E2].
    { intros j Hj. apply H; [apply in_or_app; auto|]. intros ->. revert Hj. apply (nd_app_x _ _ _ ND). auto. }
    rewrite E1, E2. apply IHl; auto; [eapply nd_app_l; eauto|]. intros j Hj. apply H. apply in_or_app. auto.
  - assert (E' : ~ In i (map fst (tleaves l))) by (intros Hx; apply has_spec in Hx; congruence).
    assert (Hir : In i (map fst (tleaves r))) by (apply in_app_or in Hi as [Hi|Hi]; tauto).
    destruct (mqL_none x true (tleaves l) (true, i) lb false (upsM x r i lb m) a b) as [E1 E2].
    { intros j Hj. apply H; [apply in_or_app; auto|]. intros ->. tauto. }
    rewrite E1, E2. apply IHr; auto; [eapply nd_app_r; eauto|]. intros j Hj. apply H. apply in_or_app. auto.
Qed.

Lemma same_ij i j k : k <> j -> same_pair (true, i) (true, j) ((true, i), (true, k)) = false.
Proof.
  intros Hk. apply same_none; [right; congruence|]. destruct (Nat.eq_dec i k) as [->|]; [right|left]; congruence.
Qed.

Lemma ups_one x t i lb m j jb left : bounded t -> NoDup (map fst (tleaves t)) -> In i (map fst (tleaves t)) ->
  In (j, jb) (if left : bool then after i (tleaves t) else before i (tleaves t)) ->
  let m' := upsM x t i lb m in
  fl (true, i) (true, j) (fst m') =
    (if bb_intersects lb jb then add_p x (true, i) (true, j) left else []) ++ fl (true, i) (true, j) (fst m) /\
  fl (true, i) (true, j) (snd m') =
    (if bb_intersects lb jb then add_c (true, i) (true, j) left else []) ++ fl (true, i) (true, j) (snd m).
Proof.
  revert m. induction t as [k c|c l IHl r IHr]; intros m Hb ND Hi H; cbn zeta.
  { exfalso. cbn in *. destruct Hi as [<-|[]]. rewrite Nat.eqb_refl in H. destruct left; cbn in H; tauto. }
  rewrite ups_step by auto. destruct Hb as (H0 & Hl & Hr & Hc). cbn [tleaves] in *. rewrite map_app in *.
  pose proof (nd_app_l _ _ ND) as NDl. pose proof (nd_app_r _ _ ND) as NDr.
  destruct (has i l) eqn:E.
  - apply has_spec in E. destruct (after_app_l i (tleaves l) (tleaves r) E) as [Ea Eb]. rewrite Ea, Eb in H.
    assert (C : In (j, jb) (if left then after i (tleaves l) else before i (tleaves l)) \/ (left = true /\ In (j, jb) (tleaves r))).
    { destruct left; [|auto]. apply in_app_or in H as [H|H]; auto. }
    destruct C as [C|[-> C]].
    + assert (Hj : In j (map fst (tleaves l))).
      { apply (in_map fst (tleaves l) (j, jb)). destruct left; [eapply after_incl | eapply before_incl]; eauto. }
      destruct (mqL_none x true (tleaves r) (true, i) lb true (upsM x l i lb m) (true, i) (true, j)) as [E1 E2].
      { intros k Hk. apply same_ij. intros ->. revert Hk. apply (nd_app_x _ _ _ ND). auto. }
      rewrite E1, E2. apply (IHl m Hl NDl E C).
    + destruct (mqL_one x true (tleaves r) (true, i) lb true (upsM x l i lb m) j jb NDr C) as [E1 E2].
      rewrite E1, E2. destruct (ups_none x l i lb m (true, i) (true, j) Hl NDl E) as [E3 E4].
      { intros k Hk Hne. apply same_ij. intros ->. apply (nd_app_x _ _ _ ND Hk). apply (in_map fst _ _ C). }
      rewrite E3, E4. auto.
  - assert (E' : ~ In i (map fst (tleaves l))) by (intros Hx; apply has_spec in Hx; congruence).
    assert (Hir : In i (map fst (tleaves r))) by (apply in_app_or in Hi as [Hi|Hi]; tauto).
    destruct (after_app_r i (tleaves l) (tleaves r) E') as [Ea Eb]. rewrite Ea, Eb in H.
    assert (C : In (j, jb) (if left then after i (tleaves r) else before i (tleaves r)) \/ (left = false /\ In (j, jb) (tleaves l))).
    { destruct left; [auto|]. apply in_app_or in H as [H|H]; auto. }
    destruct C as [C|[-> C]].
    + assert (Hj : In j (map fst (tleaves r))).
      { apply (in_map fst (tleaves r) (j, jb)). destruct left; [eapply after_incl | eapply before_incl]; eauto. }
      destruct (mqL_none x true (tleaves l) (true, i) lb false (upsM x r i lb m) (true, i) (true, j)) as [E1 E2].
      { intros k Hk. apply same_ij. intros ->. revert Hj. apply (nd_app_x _ _ _ ND). auto. }
      rewrite E1, E2. apply (IHr m Hr NDr Hir C).
    + destruct (mqL_one x true (tleaves l) (true, i) lb false (upsM x r i lb m) j jb NDl C) as [E1 E2].
      rewrite E1, E2. destruct (ups_none x r i lb m (true, i) (true, j) Hr NDr Hir) as [E3 E4].
      { intros k Hk Hne. apply same_ij. intros ->. apply (nd_app_x _ _ j ND); auto. apply (in_map fst _ _ C). }
      rewrite E3, E4. auto.
Qed.

(** ** MarkLeaf *)
(* the trees are well formed *)
Definition wf_trees (x : index) : Prop :=
  forall d, NoDup (map fst (leaf_list x d)) /\ forall t, x_root x d = Some t -> bounded t.

Lemma mark_root_flat x d leaf lb left m : wf_trees x ->
  mark_query_root x d leaf lb left m = mqL x d (leaf_list x d) leaf lb left m.
Proof.
  intros W. destruct (W d) as [_ B]. unfold mark_query_root, leaf_list. destruct (x_root x d) as [t|]; [|reflexivity].
  apply mark_query_flat. apply B. reflexivity.
Qed.
Lemma mark_leaf_moved x i lb m : wf_trees x -> In i (map fst (leaf_list x true)) -> x_lstamp x (true, i) = x_stamp x ->
  exists t, x_dyn x = Some t /\
  mark_leaf x i lb m = upsM x t i lb (mqL x false (leaf_list x false) (true, i) lb false m).
Proof.
  intros W Hi Hs. unfold mark_leaf. rewrite Hs, Nat.eqb_refl, mark_root_flat by auto.
  unfold leaf_list in Hi; cbn in Hi. destruct (x_dyn x) as [t|]; [|destruct Hi]. eauto.
Qed.
Lemma unmoved_fold leaf (L : list pair) c :
  fold_left (fun c p => if key_eqb leaf (snd p) then (fst p, leaf) :: c else c) L c =
  rev (filter (fun p => key_eqb leaf (snd p)) L) ++ c.
Proof.
  revert c. induction L as [|p L IH]; intros c; [reflexivity|]. cbn. destruct (key_eqb_spec leaf (snd p)) as [E|E].
  - rewrite IH. cbn. rewrite <- app_assoc. cbn. rewrite E. destruct p; reflexivity.
  - apply IH.
Qed.
Lemma mark_leaf_unmoved x i lb m : x_lstamp x (true, i) <> x_stamp x ->
  mark_leaf x i lb m = (fst m, rev (filter (fun p => key_eqb (true, i) (snd p)) (fst m)) ++ snd m).
Proof.
  intros Hs. unfold mark_leaf. apply Nat.eqb_neq in Hs. rewrite Hs, unmoved_fold. do 3 f_equal.
  induction (fst m) as [|p L IH]; [reflexivity|]. cbn. unfold touches at 1.
  destruct (key_eqb (true, i) (snd p)) eqn:E; [rewrite orb_true_r; cbn; rewrite E, IH; reflexivity|].
  rewrite orb_false_r. destruct (key_eqb (true, i) (fst p)); cbn; [rewrite E|]; apply IH.
Qed.

Definition cnt (a b : key) (l : list pair) : nat := occurrences a b l.
Lemma cnt_fl a b l : occurrences a b l = length (fl a b l).
Proof. reflexivity. Qed.
Lemma occ_app a b l1 l2 : occurrences a b (l1 ++ l2) = occurrences a b l1 + occurrences a b l2.
Proof. unfold occurrences. rewrite filter_app, app_length. reflexivity. Qed.
Lemma occ_rev a b l : occurrences a b (rev l) = occurrences a b l.
Proof.
  induction l as [|p l IH]; [reflexivity|]. cbn [rev]. rewrite occ_app, IH. unfold occurrences; cbn.
  destruct (same_pair a b p); cbn; lia.
Qed.
Lemma occ_sym a b l : occurrences a b l = occurrences b a l.
Proof. rewrite !cnt_fl, fl_sym. reflexivity. Qed.
Lemma filter_filter {A} (f g : A -> bool) l : filter f (filter g l) = filter g (filter f l).
Proof. induction l as [|p l IH]; [reflexivity|]. cbn. destruct (g p) eqn:G, (f p) eqn:F; cbn; rewrite ?G, ?F, IH; reflexivity. Qed.

(* a leaf outside the pair changes nothing about the pair *)
Lemma mark_other x i lb m a b : wf_trees x -> In i (map fst (leaf_list x true)) -> a <> (true, i) -> b <> (true, i) ->
  fl a b (fst (mark_leaf x i lb m)) = fl a b (fst m) /\ fl a b (snd (mark_leaf x i lb m)) = fl a b (snd m).
Proof.
  intros W Hi Ha Hb. destruct (Nat.eq_dec (x_lstamp x (true, i)) (x_stamp x)) as [Hs|Hs].
  - destruct (mark_leaf_moved x i lb m W Hi Hs) as (t & Et & ->). destruct (W true) as [ND B].
    unfold leaf_list in ND, Hi; cbn in ND, Hi, B. rewrite Et in *.
    destruct (ups_none x t i lb (mqL x false (leaf_list x false) (true, i) lb false m) a b) as [E1 E2]; auto.
    { intros j Hj Hne. apply same_none; auto. }
    rewrite E1, E2. apply mqL_none. intros j Hj. apply same_none; auto.
  - rewrite mark_leaf_unmoved by auto. cbn [fst snd]. split; auto. unfold fl. rewrite filter_app.
    replace (filter (same_pair a b) (rev _)) with (@nil pair); auto. symmetry.
    destruct (filter (same_pair a b) (rev (filter (fun p => key_eqb (true, i) (snd p)) (fst m)))) as [|p l] eqn:E; auto. exfalso.
    assert (Hp : In p (filter (same_pair a b) (rev (filter (fun p => key_eqb (true, i) (snd p)) (fst m))))) by (rewrite E; left; auto).
    apply filter_In in Hp as [Hp Hs']. rewrite <- in_rev in Hp. apply filter_In in Hp as [_ Hk].
    apply same_pair_spec in Hs'. destruct (key_eqb_spec (true, i) (snd p)) as [Ek|]; [|discriminate].
    destruct Hs' as [->| ->]; cbn in Ek; congruence.
Qed.
(* a moved leaf against another dynamic leaf *)
Lemma mark_moved_dyn x i lb m j jb left : wf_trees x -> In i (map fst (leaf_list x true)) ->
  x_lstamp x (true, i) = x_stamp x ->
  In (j, jb) (if left : bool then after i (leaf_list x true) else before i (leaf_list x true)) ->
  let m' := mark_leaf x i lb m in
  fl (true, i) (true, j) (fst m') =
    (if bb_intersects lb jb then add_p x (true, i) (true, j) left else []) ++ fl (true, i) (true, j) (fst m) /\
  fl (true, i) (true, j) (snd m') =
    (if bb_intersects lb jb then add_c (true, i) (true, j) left else []) ++ fl (true, i) (true, j) (snd m).
Proof.
  intros W Hi Hs Hj. cbn zeta. destruct (mark_leaf_moved x i lb m W Hi Hs) as (t & Et & ->). destruct (W true) as [ND B].
  unfold leaf_list in ND, Hi, Hj; cbn in ND, Hi, B, Hj. rewrite Et in *.
  destruct (ups_one x t i lb (mqL x false (leaf_list x false) (true, i) lb false m) j jb left) as [E1 E2]; auto.
  rewrite E1, E2. destruct (mqL_none x false (leaf_list x false) (true, i) lb false m (true, i) (true, j)) as [E3 E4].
  { intros k Hk. apply same_none; [right; congruence | left; congruence]. }
  rewrite E3, E4. auto.
Qed.
(* a moved leaf against a static leaf *)
Lemma mark_moved_sta x i lb m j jb : wf_trees x -> In i (map fst (leaf_list x true)) ->
  x_lstamp x (true, i) = x_stamp x -> In (j, jb) (leaf_list x false) ->
  let m' := mark_leaf x i lb m in
  fl (true, i) (false, j) (fst m') =
    (if bb_intersects lb jb then add_p x (true, i) (false, j) false else []) ++ fl (true, i) (false, j) (fst m) /\
  fl (true, i) (false, j) (snd m') =
    (if bb_intersects lb jb then add_c (true, i) (false, j) false else []) ++ fl (true, i) (false, j) (snd m).
Proof.
  intros W Hi Hs Hj. cbn zeta. destruct (mark_leaf_moved x i lb m W Hi Hs) as (t & Et & ->). destruct (W true) as [ND B].
  unfold leaf_list in ND, Hi; cbn in ND, Hi, B. rewrite Et in *.
  destruct (ups_none x t i lb (mqL x false (leaf_list x false) (true, i) lb false m) (true, i) (false, j)) as [E1 E2]; auto.
  { intros k Hk Hne. apply same_none; right; congruence. }
  rewrite E1, E2. destruct (W false) as [NDs _].
  apply (mqL_one x false (leaf_list x false) (true, i) lb false m j jb NDs Hj).
Qed.
(* a moved leaf against something that is not a leaf *)
Lemma mark_moved_none x i lb m k : wf_trees x -> In i (map fst (leaf_list x true)) ->
  x_lstamp x (true, i) = x_stamp x -> (~ In (snd k) (map fst (leaf_list x (fst k))) \/ k = (true, i)) ->
  let m' := mark_leaf x i lb m in
  fl (true, i) k (fst m') = fl (true, i) k (fst m) /\ fl (true, i) k (snd m') = fl (true, i) k (snd m).
Proof.
  intros W Hi Hs Hk. cbn zeta. destruct (mark_leaf_moved x i lb m W Hi Hs) as (t & Et & ->). destruct (W true) as [ND B].
  unfold leaf_list in ND, Hi; cbn in ND, Hi, B. rewrite Et in *.
  destruct (ups_none x t i lb (mqL x false (leaf_list x false) (true, i) lb false m) (true, i) k) as [E1 E2]; auto.
  { intros j Hj Hne. destruct Hk as [Hk| ->].
    - apply same_none; [right; intros ->; apply Hk; unfold leaf_list; cbn; rewrite Et; auto|].
      destruct (Nat.eq_dec i j) as [->|]; [congruence | left; congruence].
    - apply same_none; [right; congruence | left; congruence]. }
  rewrite E1, E2. apply mqL_none. intros j Hj. apply same_none; [|left; congruence].
  right. intros ->. cbn in Hk. destruct Hk as [Hk|Hk]; [tauto | discriminate].
Qed.
(* a leaf that did not move *)
Lemma mark_unmoved x i lb m a b : x_lstamp x (true, i) <> x_stamp x ->
  let m' := mark_leaf x i lb m in
  fst m' = fst m /\
  occurrences a b (snd m') = length (filter (fun p => key_eqb (true, i) (snd p)) (fl a b (fst m))) + occurrences a b (snd m).
Proof.
  intros Hs. cbn zeta. rewrite mark_leaf_unmoved by auto. cbn [fst snd]. split; auto.
  rewrite occ_app, occ_rev. unfold occurrences, fl. rewrite filter_filter. reflexivity.
Qed.
End P.
