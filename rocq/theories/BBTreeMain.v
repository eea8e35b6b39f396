(** From the invariant to the statements, and a concrete index. *)
From Coq Require Import ZArith Bool List Arith Permutation Lia Reals Lra Floats.
From Verif Require Import Num NumReal NumFloat Vec BB BBProofs BBTree BBTreeSpec BBTreeProofs BBTreeMark BBTreeInv BBTreeReindex BBTreeRay.
Import ListNotations.

Section P.
Context {N : Num} {O : NumOrd N}.

Lemma tree_invariant x d : reached x ->
    NoDup (x_leaves x d) /\ Permutation (map fst (leaf_list x d)) (x_leaves x d) /\
    length (leaf_list x d) = length (x_leaves x d) /\
    forall t, x_root x d = Some t -> bounded t.
Proof.
  intros R. apply reached_inv in R. destruct R as [M _]. destruct (m_wf x M d) as [ND B]. pose proof (m_leaves x M d) as P.
  split; [eapply Permutation_NoDup; eauto|]. split; auto. split; auto. rewrite <- (Permutation_length P), map_length. reflexivity.
Qed.

Lemma add_leaves x d i e : x_leaves (increment_stamp (leaf_add_pairs x d i)) e = x_leaves x e.
Proof. destruct (add_pairs_fields x d i) as (_ & F & _). rewrite <- F. destruct e; reflexivity. Qed.
Lemma add_box x d i k : key_box (increment_stamp (leaf_add_pairs x d i)) k = key_box x k.
Proof. destruct (add_pairs_fields x d i) as (F & _). apply box_same. intros e. rewrite <- F. destruct e; reflexivity. Qed.
Lemma add_xbox x d i : x_box (increment_stamp (leaf_add_pairs x d i)) = x_box x.
Proof. destruct (add_pairs_fields x d i) as (_ & _ & _ & _ & F & _). rewrite <- F. reflexivity. Qed.

Lemma insert_box x d i : inv x -> ~ In i (x_leaves x d) -> key_box (do_insert x d i) (d, i) = Some (get_bb x d i).
Proof.
  intros [M St] H. unfold do_insert. rewrite add_box. set (y := set_lstamp _ _ _).
  assert (C : changed x y (d, i) (Some (get_bb x d i))).
  { apply changed_insert; [apply M | apply not_indexed; auto | apply get_bb_ok; apply M | |]; subst y; destruct d; reflexivity. }
  rewrite (c_box _ _ _ _ C), key_eqb_refl. reflexivity.
Qed.
Lemma insert_xbox x d i : x_box (do_insert x d i) = x_box x.
Proof. unfold do_insert. rewrite add_xbox. destruct d; reflexivity. Qed.

Lemma membership x o : reached x -> xvalid x o ->
  forall d i, In i (x_leaves (xstep x o) d) <->
    match o with
    | XInsert e j => (e = d /\ i = j) \/ In i (x_leaves x d)
    | XRemove e j => In i (x_leaves x d) /\ ~ (e = d /\ i = j)
    | _ => In i (x_leaves x d)
    end.
Proof.
  intros R V d i. apply reached_inv in R. destruct o as [box vel|e j|e j|e j|order]; cbn [xstep].
  - destruct d; reflexivity.
  - unfold do_insert. rewrite add_leaves. destruct e, d; cbn; intuition congruence.
  - unfold do_remove. assert (E : forall l, In i (filter (fun k => negb (Nat.eqb j k)) l) <-> In i l /\ i <> j).
    { intros l. rewrite filter_In, negb_true_iff, Nat.eqb_neq. intuition congruence. }
    destruct e, d; cbn; rewrite ?E; intuition congruence.
  - unfold do_reindex. destruct (existsb _ _) eqn:Ex; [|reflexivity]. apply existsb_exists in Ex as (k & Hk & Ek).
    apply Nat.eqb_eq in Ek. subst k. destruct R as [M _]. pose proof (leaf_update_spec x e j M (is_indexed _ _ _ M Hk)) as U.
    destruct (leaf_update x e j) as [y mv]. destruct U as (_ & _ & _ & _ & L & _). destruct mv.
    + rewrite add_leaves, L. reflexivity.
    + rewrite <- L. destruct d; reflexivity.
  - pose proof (do_query_spec x order R V) as Q. destruct (do_query x order) as [y calls]. destruct Q as (_ & _ & _ & _ & L).
    cbn. rewrite L. reflexivity.
Qed.

Lemma reindex_box x d i : inv x -> In i (x_leaves x d) ->
  exists b, key_box (do_reindex x d i) (d, i) = Some b /\ bb_contains b (x_box x i) = true /\ x_box (do_reindex x d i) = x_box x /\
  (forall b0, key_box x (d, i) = Some b0 -> bb_contains b0 (x_box x i) = false -> b = get_bb x d i).
Proof.
  intros [M St] H. unfold do_reindex. replace (existsb _ _) with true.
  2:{ symmetry. apply existsb_exists. exists i. split; auto. apply Nat.eqb_refl. }
  pose proof (leaf_update_spec x d i M (is_indexed _ _ _ M H)) as U. destruct (leaf_update x d i) as [y mv].
  destruct U as (_ & Bx & _ & _ & _ & _ & _ & (b & E1 & E2 & E3) & _ & Mv). exists b.
  assert (K : key_box (increment_stamp (if mv then leaf_add_pairs y d i else y)) (d, i) = Some b).
  { destruct mv; [rewrite add_box; auto|]. rewrite <- E1. apply box_same. intros []; reflexivity. }
  split; auto. split; auto. split.
  - destruct mv; [rewrite add_xbox; auto | exact Bx].
  - intros b0 Hb Hc. destruct E3 as [E3|E3]; auto. rewrite E3 in Hb. congruence.
Qed.

Lemma updates_refresh x order i : mid x -> (forall j, In j order -> indexed x (true, j)) -> In i order -> NoDup order ->
  let y := fold_left (fun x i => fst (leaf_update x true i)) order x in
  forall b0, key_box x (true, i) = Some b0 -> bb_contains b0 (x_box x i) = false -> key_box y (true, i) = Some (get_bb x true i).
Proof.
  revert x. induction order as [|j order IH]; intros x M H Hi ND; [destruct Hi|]. cbn zeta. cbn [fold_left].
  intros b0 Hb Hc. pose proof (leaf_update_spec x true j M (H j (or_introl eq_refl))) as U.
  destruct (leaf_update x true j) as [z mv]. destruct U as (Mz & Bz & Vz & _ & _ & Kz & Iz & (b & E1 & E2 & E3) & _). cbn [fst].
  inversion ND; subst.
  assert (Hz : forall k, In k order -> indexed z (true, k)) by (intros k Hk; apply Iz; apply H; right; auto).
  destruct (Nat.eq_dec j i) as [->|Hne].
  - assert (Eb : b = get_bb x true i) by (destruct E3 as [E3|E3]; [auto | rewrite E3 in Hb; congruence]). subst b.
    rewrite <- E1. clear - H2 Mz Hz. revert z Mz Hz.
    induction order as [|k order IH]; intros z Mz Hz; [reflexivity|]. cbn [fold_left].
    pose proof (leaf_update_spec z true k Mz (Hz k (or_introl eq_refl))) as U. destruct (leaf_update z true k) as [w mv].
    destruct U as (Mw & _ & _ & _ & _ & Kw & Iw & _). cbn [fst]. rewrite IH; auto.
    + apply Kw. intros E. injection E as ->. apply H2. left. auto.
    + intros Hx. apply H2. right. auto.
    + intros l Hl. apply Iw. apply Hz. right. auto.
  - destruct Hi as [Hi|Hi]; [congruence|]. assert (G : get_bb x true i = get_bb z true i) by (cbn; rewrite Bz, Vz; reflexivity). rewrite G.
    apply (IH z Mz Hz Hi H3 b0); [rewrite Kz by congruence; auto | rewrite Bz; auto].
Qed.

Lemma query_box x order k : key_box (fst (do_query x order)) k =
  match x_dyn x with None => key_box x k | Some _ => key_box (fold_left (fun x i => fst (leaf_update x true i)) order x) k end.
Proof.
  unfold do_query. destruct (x_dyn x); [|reflexivity]. set (y := fold_left _ order x).
  destruct (x_dyn y) eqn:E; [|reflexivity]. cbn [fst]. apply box_same. intros []; reflexivity.
Qed.

Lemma indexed_covers x o d i : reached x -> xvalid x o -> reindexes x o d i ->
  exists b, key_box (xstep x o) (d, i) = Some b /\ bb_contains b (x_box (xstep x o) i) = true.
Proof.
  intros R V H. apply reached_inv in R. destruct o as [box vel|e j|e j|e j|order]; cbn in H; try tauto; cbn [xstep].
  - destruct H as [-> ->]. exists (get_bb x d i). split; [apply insert_box; auto|]. rewrite insert_xbox.
    destruct (m_good x (i_mid x R) i). apply get_bb_contains; auto.
  - destruct H as (-> & -> & Hi). destruct (reindex_box x d i R Hi) as (b & E1 & E2 & E3 & _). exists b. rewrite E3. auto.
  - destruct H as [-> Hi]. pose proof (do_query_spec x order R V) as Q. destruct (do_query x order) as [y calls].
    destruct Q as (_ & _ & F & _ & L). apply F. rewrite L. auto.
Qed.
Lemma not_left_alone x o d i b : reached x -> xvalid x o -> reindexes x o d i ->
  key_box x (d, i) = Some b -> bb_contains b (x_box x i) = false ->
  key_box (xstep x o) (d, i) = Some (get_bb x d i).
Proof.
  intros R V H Hb Hc. apply reached_inv in R. destruct o as [box vel|e j|e j|e j|order]; cbn in H; try tauto; cbn [xstep].
  - destruct H as [-> ->]. apply insert_box; auto.
  - destruct H as (-> & -> & Hi). destruct (reindex_box x d i R Hi) as (b1 & E1 & E2 & E3 & E4). rewrite E1. f_equal. eauto.
  - destruct H as [-> Hi]. rewrite query_box. destruct (x_dyn x) eqn:E.
    + destruct R as [M St]. cbn in V. eapply updates_refresh; eauto.
      * intros j Hj. apply is_indexed; auto. eapply Permutation_in; eauto.
      * eapply Permutation_in; [symmetry; exact V|auto].
      * eapply Permutation_NoDup; [symmetry; exact V|]. eapply Permutation_NoDup; [apply (m_leaves x M true)|]. apply (m_wf x M true).
    + unfold key_box in Hb; cbn in Hb. rewrite E in Hb. discriminate.
Qed.

Lemma query_exact x d q : reached x ->
  NoDup (index_query x d q) /\
  forall i, In i (index_query x d q) <-> exists b, key_box x (d, i) = Some b /\ bb_intersects b q = true.
Proof.
  intros R. apply reached_inv in R. destruct R as [M _]. pose proof (m_wf x M) as W. destruct (W d) as [ND B].
  assert (E : index_query x d q = map fst (filter (fun p => bb_intersects (snd p) q) (leaf_list x d))).
  { unfold index_query, leaf_list. destruct (x_root x d) as [t|]; [|reflexivity]. apply tquery_spec. apply B. auto. }
  rewrite E. split.
  - revert ND. generalize (leaf_list x d). intros L ND. induction L as [|p L IH]; [constructor|]. cbn in *. inversion ND; subst.
    destruct (bb_intersects (snd p) q); auto. cbn. constructor; auto. rewrite in_map_iff. intros (p' & E1 & E2).
    apply filter_In in E2 as [E2 _]. apply H1. rewrite <- E1. apply in_map. auto.
  - intros i. rewrite in_map_iff. split.
    + intros ([j b] & <- & Hp). apply filter_In in Hp as [Hp Hq]. exists b. split; auto. apply key_box_In; auto.
    + intros (b & Hb & Hq). exists (i, b). split; auto. apply filter_In. split; auto. apply key_box_In in Hb; auto.
Qed.
Lemma query_complete x d q b i : reached x ->
    key_box x (d, i) = Some b -> bb_contains b (x_box x i) = true -> bb_intersects (x_box x i) q = true ->
    In i (index_query x d q).
Proof.
  intros R Hb Hc Hq. apply query_exact; auto. exists b. split; auto. eapply contains_intersects; eauto.
Qed.

Lemma pairs_once x order : reached x -> Permutation order (x_leaves x true) ->
  forall a b, occurrences a b (snd (do_query x order)) = if hit (fst (do_query x order)) a b then 1 else 0.
Proof.
  intros R P. apply reached_inv in R. pose proof (do_query_spec x order R P) as Q. destruct (do_query x order). apply Q.
Qed.
Lemma intersects_both p q p' q' : bb_contains p p' = true -> bb_contains q q' = true -> bb_intersects p' q' = true ->
  bb_intersects p q = true.
Proof.
  intros H1 H2 H. eapply contains_intersects; [exact H1|]. rewrite intersects_sym. eapply contains_intersects; [exact H2|].
  rewrite intersects_sym. auto.
Qed.
Lemma no_overlap_missed x order : reached x -> Permutation order (x_leaves x true) ->
  forall i j, In i (x_leaves x true) -> In j (x_leaves x true) -> i <> j ->
    bb_intersects (x_box x i) (x_box x j) = true ->
    occurrences (true, i) (true, j) (snd (do_query x order)) = 1.
Proof.
  intros R P i j Hi Hj Hne H. rewrite pairs_once by auto. apply reached_inv in R. pose proof (do_query_spec x order R P) as Q.
  destruct (do_query x order) as [y calls]. destruct Q as (_ & _ & F & Bx & L). cbn [fst].
  destruct (F i) as (p & P1 & P2); [rewrite L; auto|]. destruct (F j) as (q & Q1 & Q2); [rewrite L; auto|].
  rewrite (hit_boxes y (true, i) (true, j) p q) by (auto; congruence). rewrite Bx in *.
  rewrite (intersects_both p q _ _ P2 Q2 H). reflexivity.
Qed.
Lemma updates_static x order k : mid x -> (forall j, In j order -> indexed x (true, j)) -> fst k = false ->
  key_box (fold_left (fun x i => fst (leaf_update x true i)) order x) k = key_box x k.
Proof.
  revert x. induction order as [|j order IH]; intros x M H Hk; [reflexivity|]. cbn [fold_left].
  pose proof (leaf_update_spec x true j M (H j (or_introl eq_refl))) as U. destruct (leaf_update x true j) as [z mv].
  destruct U as (Mz & _ & _ & _ & _ & Kz & Iz & _). cbn [fst]. rewrite IH; auto.
  - apply Kz. intros ->. discriminate.
  - intros l Hl. apply Iz. apply H. right. auto.
Qed.
Lemma no_static_overlap_missed x order : reached x -> Permutation order (x_leaves x true) ->
  forall i j b, In i (x_leaves x true) -> key_box x (false, j) = Some b -> bb_contains b (x_box x j) = true ->
    bb_intersects (x_box x i) (x_box x j) = true ->
    occurrences (true, i) (false, j) (snd (do_query x order)) = 1.
Proof.
  intros R P i j b Hi Hb Hc H. rewrite pairs_once by auto. apply reached_inv in R. pose proof (do_query_spec x order R P) as Q.
  assert (Kb : key_box (fst (do_query x order)) (false, j) = Some b).
  { rewrite query_box. destruct R as [M _]. destruct (x_dyn x); auto. rewrite updates_static; auto.
    intros k Hk. apply is_indexed; auto. eapply Permutation_in; eauto. }
  destruct (do_query x order) as [y calls]. destruct Q as (_ & _ & F & Bx & L). cbn [fst] in *.
  destruct (F i) as (p & P1 & P2); [rewrite L; auto|].
  rewrite (hit_boxes y (true, i) (false, j) p b) by (auto; congruence). rewrite Bx in *.
  rewrite (intersects_both p b _ _ P2 Hc H). reflexivity.
Qed.
End P.

(** ** Concrete indices *)
Definition ex_box1 (i : nat) : @bb FNum :=
  match i with
  | 0 => fbb 0 0 1 1 | 1 => fbb 0.5 0.5 1.5 1.5 | 2 => fbb 10 10 11 11 | _ => fbb 0.875 0.875 2 2 end%float.
Definition ex_box2 (i : nat) : @bb FNum :=
  match i with 2 => fbb 1 1 1.75 1.75 | _ => ex_box1 i end%float.
Definition ex_vel (_ : nat) : @vec FNum := fvec 1 (-2)%float.
Definition ex_hist : list (@xop FNum) :=
  [XInsert true 0; XInsert true 1; XInsert true 2; XInsert false 3; XQuery [1; 0; 2]; XShapes ex_box2 ex_vel; XRemove true 0]%nat.
Definition ex_index : @index FNum := xrun (index0 ex_box1 ex_vel) ex_hist.
Lemma ex_good1 i : good_box (ex_box1 i) /\ good_vel (ex_vel i).
Proof.
  split.
  - destruct i as [|[|[|i]]]; (split; [split; vm_compute; reflexivity|]); repeat split; vm_compute; reflexivity.
  - split; vm_compute; reflexivity.
Qed.
Lemma ex_good2 i : good_box (ex_box2 i) /\ good_vel (ex_vel i).
Proof.
  split; [|apply ex_good1]. destruct i as [|[|[|i]]]; repeat split; vm_compute; reflexivity.
Qed.
Lemma ex_reached : reached ex_index.
Proof.
  exists ex_box1, ex_vel, ex_hist. split; [exact ex_good1|]. split; [|reflexivity].
  assert (K : forall x d (l : list nat), x_leaves (N:=FNum) x d = l -> forall i, ~ In i l -> ~ In i (x_leaves x d)) by (intros x d l -> i H; exact H).
  assert (K' : forall x d (l : list nat), x_leaves (N:=FNum) x d = l -> forall i, In i l -> In i (x_leaves x d)) by (intros x d l -> i H; exact H).
  unfold ex_hist; cbn [xvalid_all].
  split. { cbn [xvalid]. eapply K; [vm_compute; reflexivity|]. cbn. intuition lia. }
  split. { cbn [xvalid]. eapply K; [vm_compute; reflexivity|]. cbn. intuition lia. }
  split. { cbn [xvalid]. eapply K; [vm_compute; reflexivity|]. cbn. intuition lia. }
  split. { cbn [xvalid]. eapply K; [vm_compute; reflexivity|]. cbn. intuition lia. }
  split. { cbn [xvalid]. match goal with |- Permutation _ ?l => replace l with [2; 1; 0]%nat by (vm_compute; reflexivity) end.
           change [1; 0; 2]%nat with ([1; 0] ++ [2])%nat. rewrite Permutation_app_comm. reflexivity. }
  split. { exact ex_good2. }
  split; [|exact I]. cbn [xvalid]. eapply K'; [vm_compute; reflexivity|]. cbn. auto.
Qed.
Lemma ex_index_ok : reached ex_index /\ Permutation [2; 1]%nat (x_leaves ex_index true) /\
  snd (do_query ex_index [2; 1]%nat) = [((true, 2), (false, 3)); ((true, 2), (true, 1)); ((false, 3), (true, 1))]%nat.
Proof.
  split; [exact ex_reached|]. split.
  - replace (x_leaves ex_index true) with [2; 1]%nat by (vm_compute; reflexivity). reflexivity.
  - vm_compute. reflexivity.
Qed.

Lemma ex_index_tree : reached ex_index /\ length (leaf_list ex_index true) = 2 /\ xvalid ex_index (XInsert true 0).
Proof.
  split; [exact ex_reached|]. split; [vm_compute; reflexivity|]. cbn [xvalid].
  replace (x_leaves ex_index true) with [2; 1]%nat by (vm_compute; reflexivity). cbn. intuition discriminate.
Qed.
Lemma ex_index_moved : good_box (ex_box1 2) /\ good_vel (ex_vel 2) /\
  exists b, key_box ex_index (true, 2) = Some b /\ bb_contains b (x_box ex_index 2) = false.
Proof.
  split; [apply ex_good1|]. split; [apply ex_good1|]. 
  assert (H : match key_box ex_index (true, 2) with Some b => negb (bb_contains b (x_box ex_index 2)) | None => false end = true)
    by (vm_compute; reflexivity).
  destruct (key_box ex_index (true, 2)) as [b|]; [|discriminate]. exists b. split; [reflexivity|]. apply negb_true_iff. exact H.
Qed.
Lemma ex_index_query : reached ex_index /\ index_query ex_index true (fbb 1 1 2 2)%float = [1] /\
  index_query ex_index true (fbb 5 5 6 6)%float = [].
Proof. split; [exact ex_reached|]. split; vm_compute; reflexivity. Qed.

Local Open Scope R_scope.
Definition ray_box (i : nat) : @bb RNum := match i with 4%nat => rbb 2 0 3 1 | _ => rbb 0 0 1 1 end.
Definition ray_vel (_ : nat) : @vec RNum := rvec 0 0.
Lemma ray_good i : good_box (ray_box i) /\ good_vel (ray_vel i).
Proof.
  split; [|split; exact I]. split; [|repeat split]. rewrite wf_R. unfold ray_box. do 5 (destruct i as [|i]; [cbn; lra|]). cbn; lra.
Qed.
Lemma ray_witness : exists x : @index RNum, reached x /\
  key_box x (false, 3%nat) = Some (rbb 0 0 1 1) /\ key_box x (false, 4%nat) = Some (rbb 2 0 3 1) /\
  bb_segment_query (rbb 2 0 3 1) (rvec (-1) 0) (rvec 4 0) <= 4 / 5.
Proof.
  set (x1 := do_insert (index0 ray_box ray_vel) false 3).
  set (x2 := do_insert x1 false 4).
  assert (V1 : ~ In 3%nat (x_leaves (index0 ray_box ray_vel) false)) by (cbn; tauto).
  assert (I1 : inv x1) by (apply do_insert_inv; [apply inv0; exact ray_good | exact V1]).
  assert (V2 : ~ In 4%nat (x_leaves x1 false)).
  { unfold x1, do_insert. rewrite add_leaves. cbn. intros [E|[]]. discriminate. }
  assert (Hr : forall o, xvalid x1 o -> reached (xstep x1 o)).
  { intros o Ho. exists ray_box, ray_vel, [XInsert false 3; o]. split; [exact ray_good|]. split; [|reflexivity]. cbn [xvalid_all]. auto. }
  exists x2. split; [apply (Hr (XInsert false 4)); exact V2|]. split; [|split].
  - assert (C : key_box x1 (false, 3%nat) = Some (rbb 0 0 1 1)) by (apply (insert_box (index0 ray_box ray_vel) false 3); [apply inv0; exact ray_good | exact V1]).
    rewrite <- C. unfold x2, do_insert. rewrite add_box. set (y := set_lstamp _ _ _).
    assert (Cy : changed x1 y (false, 4%nat) (Some (get_bb x1 false 4))).
    { apply changed_insert; [apply I1 | apply not_indexed; [apply I1|auto] | apply get_bb_ok; apply I1 | |]; subst y; reflexivity. }
    rewrite (c_box _ _ _ _ Cy). reflexivity.
  - change x2 with (do_insert x1 false 4). rewrite (insert_box x1 false 4 I1 V2). cbn [get_bb]. unfold x1. rewrite insert_xbox. reflexivity.
  - pose proof (segment_query_spec (rbb 2 0 3 1) (rvec (-1) 0) (rvec 4 0)) as S. cbn in S. destruct S as [(_ & _ & _ & S)|(_ & S)]; try lra.
    + apply S; [lra|]. unfold RIn, Rpoint; cbn. lra.
    + exfalso. apply (S (4 / 5)); [lra|]. unfold RIn, Rpoint; cbn. lra.
Qed.
