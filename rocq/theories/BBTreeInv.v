(** The invariant of the two trees and their pair cache, over every history. *)
From Coq Require Import ZArith Bool List Arith Permutation Lia.
From Verif Require Import Num Vec BB BBProofs BBTree BBTreeSpec BBTreeProofs BBTreeMark.
Import ListNotations.

Section P.
Context {N : Num} {O : NumOrd N}.

Definition indexed (x : index) (k : key) : Prop := In (snd k) (map fst (leaf_list x (fst k))).

Lemma key_box_In x k b : wf_trees x -> (key_box x k = Some b <-> In (snd k, b) (leaf_list x (fst k))).
Proof.
  intros W. destruct (W (fst k)) as [ND _]. unfold key_box, leaf_list in *. destruct (x_root x (fst k)) as [t|].
  - apply leaf_bb_spec. auto.
  - cbn. split; [discriminate | tauto].
Qed.
Lemma key_box_None x k : key_box x k = None <-> ~ indexed x k.
Proof.
  unfold key_box, indexed, leaf_list. destruct (x_root x (fst k)) as [t|].
  - apply leaf_bb_None.
  - cbn. tauto.
Qed.
Lemma indexed_box x k : indexed x k -> exists b, key_box x k = Some b.
Proof. intros H. destruct (key_box x k) as [b|] eqn:E; eauto. apply key_box_None in E. tauto. Qed.

Definition stale (x : index) (k : key) : bool := Nat.ltb (x_lstamp x k) (x_stamp x).
Record mid (x : index) : Prop := {
  m_wf : wf_trees x;
  m_leaves : forall d, Permutation (map fst (leaf_list x d)) (x_leaves x d);
  m_stamp : forall k, indexed x k -> x_lstamp x k <= x_stamp x;
  m_boxes : forall k b, key_box x k = Some b -> bb_wf b;
  m_good : forall i, good_box (x_box x i) /\ good_vel (x_vel x i);
  m_pairs : forall a b, occurrences a b (x_pairs x) = if hit x a b && stale x a && stale x b then 1 else 0;
  m_orient : forall p, In p (x_pairs x) -> fst (snd p) = true }.
Record inv (x : index) : Prop := {
  i_mid : mid x;
  i_stamp : forall k, indexed x k -> x_lstamp x k < x_stamp x }.

Lemma hit_indexed x a b : hit x a b = true -> indexed x a /\ indexed x b.
Proof.
  unfold hit. destruct (key_box x a) eqn:Ea; [|discriminate]. destruct (key_box x b) eqn:Eb; [|discriminate].
  intros _. split.
  - destruct (in_dec Nat.eq_dec (snd a) (map fst (leaf_list x (fst a)))) as [H|H]; auto. apply key_box_None in H. congruence.
  - destruct (in_dec Nat.eq_dec (snd b) (map fst (leaf_list x (fst b)))) as [H|H]; auto. apply key_box_None in H. congruence.
Qed.
Lemma hit_sym x a b : hit x a b = hit x b a.
Proof.
  unfold hit. destruct (key_box x a), (key_box x b); auto. rewrite orb_comm, intersects_sym.
  f_equal. f_equal. f_equal. destruct (key_eqb_spec a b), (key_eqb_spec b a); congruence.
Qed.
Lemma inv_pairs x a b : inv x -> occurrences a b (x_pairs x) = if hit x a b then 1 else 0.
Proof.
  intros [M S]. rewrite (m_pairs x M). destruct (hit x a b) eqn:H; [|reflexivity].
  destruct (hit_indexed x a b H) as [Ha Hb]. unfold stale. apply S in Ha, Hb. apply Nat.ltb_lt in Ha, Hb. rewrite Ha, Hb. reflexivity.
Qed.
Lemma hit_ext x y a b : key_box x a = key_box y a -> key_box x b = key_box y b -> hit x a b = hit y a b.
Proof. unfold hit. intros -> ->. reflexivity. Qed.

(** ** Changing one leaf *)
Lemma leaf_list_insert x d i lb : leaf_list (set_root x d (Some (subtree_insert (x_root x d) i lb))) d =
  tleaves (subtree_insert (x_root x d) i lb).
Proof. destruct d; reflexivity. Qed.
Lemma subtree_insert_leaves t i lb :
  Permutation (tleaves (subtree_insert t i lb)) ((i, lb) :: match t with Some t => tleaves t | None => [] end).
Proof. destruct t; cbn; [apply tinsert_leaves | reflexivity]. Qed.
Lemma subtree_insert_bounded t i lb : (forall u, t = Some u -> bounded u) -> bb_ok lb -> bounded (subtree_insert t i lb).
Proof. destruct t as [t|]; cbn; intros H Hb; [apply tinsert_bounded; auto | auto]. Qed.

(* y differs from x in the leaf k, which now has box [o] *)
Record changed (x y : index) (k : key) (o : option bb) : Prop := {
  c_wf : wf_trees y;
  c_box : forall k', key_box y k' = if key_eqb k k' then o else key_box x k' }.

Lemma changed_insert x y d i lb : wf_trees x -> ~ indexed x (d, i) -> bb_ok lb ->
  x_root y d = Some (subtree_insert (x_root x d) i lb) -> x_root y (negb d) = x_root x (negb d) ->
  changed x y (d, i) (Some lb).
Proof.
  intros W Hn Hok Ey En.
  assert (W' : wf_trees y).
  { intros e. destruct (Bool.eqb_spec e d) as [->|He].
    - destruct (W d) as [ND B]. unfold leaf_list. rewrite Ey. split.
      + rewrite subtree_insert_leaves. cbn. constructor; auto.
      + intros t Et. injection Et as <-. apply subtree_insert_bounded; auto.
    - assert (e = negb d) as -> by (destruct e, d; cbn; congruence). unfold leaf_list. rewrite En. apply W. }
  split; auto. intros k'. destruct (key_eqb_spec (d, i) k') as [<-|Hne].
  - apply key_box_In; auto. cbn. unfold leaf_list. rewrite Ey, subtree_insert_leaves. left. reflexivity.
  - destruct k' as [e j]. destruct (Bool.eqb_spec e d) as [->|He].
    + assert (Hij : i <> j) by congruence.
      destruct (key_box x (d, j)) as [b|] eqn:E.
      * apply key_box_In; auto. apply key_box_In in E; auto. cbn in *. unfold leaf_list in *. rewrite Ey, subtree_insert_leaves.
        right. auto.
      * apply key_box_None. apply key_box_None in E. unfold indexed, leaf_list in *. cbn in *. rewrite Ey, subtree_insert_leaves. cbn.
        intros [E1|E1]; congruence.
    + assert (e = negb d) as -> by (destruct e, d; cbn; congruence). unfold key_box; cbn. rewrite En. reflexivity.
Qed.
Lemma subtree_remove_spec x d i : wf_trees x -> indexed x (d, i) ->
  exists b, Permutation (leaf_list x d) ((i, b) :: match subtree_remove (x_root x d) i with Some t => tleaves t | None => [] end)
   /\ forall t, subtree_remove (x_root x d) i = Some t -> bounded t.
Proof.
  intros W Hi. destruct (W d) as [ND B]. unfold indexed, leaf_list in *. cbn in Hi. destruct (x_root x d) as [t|]; [|destruct Hi].
  cbn [subtree_remove]. pose proof (tremove_leaves t i ND Hi) as T. destruct (tremove t i) as [t'|] eqn:E.
  - destruct T as (b & P). exists b. split; auto. intros u Eu. injection Eu as <-. eapply tremove_bounded; eauto.
  - destruct T as (b & P). exists b. rewrite P. split; auto. discriminate.
Qed.
Lemma changed_remove x y d i : wf_trees x -> indexed x (d, i) ->
  x_root y d = subtree_remove (x_root x d) i -> x_root y (negb d) = x_root x (negb d) ->
  changed x y (d, i) None.
Proof.
  intros W Hn Ey En. destruct (subtree_remove_spec x d i W Hn) as (b & P & B).
  assert (W' : wf_trees y).
  { intros e. destruct (Bool.eqb_spec e d) as [->|He].
    - destruct (W d) as [ND _]. rewrite P in ND. inversion ND; subst. unfold leaf_list. rewrite Ey. split; auto.
    - assert (e = negb d) as -> by (destruct e, d; cbn; congruence). unfold leaf_list. rewrite En. apply W. }
  rewrite <- Ey in P. change (match x_root y d with Some t => tleaves t | None => [] end) with (leaf_list y d) in P.
  assert (Hi : ~ indexed y (d, i)).
  { destruct (W d) as [ND _]. rewrite P in ND. inversion ND; subst. auto. }
  split; auto. intros k'. destruct (key_eqb_spec (d, i) k') as [<-|Hne].
  - apply key_box_None. auto.
  - destruct k' as [e j]. destruct (Bool.eqb_spec e d) as [->|He].
    + destruct (key_box x (d, j)) as [c|] eqn:E.
      * apply key_box_In; auto. apply key_box_In in E; auto. cbn in *. rewrite P in E. destruct E as [E|E]; [congruence|auto].
      * apply key_box_None. apply key_box_None in E. unfold indexed in *. cbn in *. rewrite P in E. cbn in E. tauto.
    + assert (e = negb d) as -> by (destruct e, d; cbn; congruence). unfold key_box; cbn. rewrite En. reflexivity.
Qed.
Lemma changed_trans x y z k o o' : changed x y k o -> changed y z k o' -> changed x z k o'.
Proof.
  intros [W1 B1] [W2 B2]. split; auto. intros k'. rewrite B2. destruct (key_eqb k k') eqn:E; auto. rewrite B1, E. auto.
Qed.
Lemma changed_indexed x y k o k' : changed x y k o -> k <> k' -> (indexed y k' <-> indexed x k').
Proof.
  intros [W B] Hne. specialize (B k'). destruct (key_eqb_spec k k'); [congruence|].
  split; intros H; destruct (indexed_box _ _ H) as [c E].
  - destruct (in_dec Nat.eq_dec (snd k') (map fst (leaf_list x (fst k')))) as [|Hn]; auto. apply key_box_None in Hn. congruence.
  - destruct (in_dec Nat.eq_dec (snd k') (map fst (leaf_list y (fst k')))) as [|Hn]; auto. apply key_box_None in Hn. congruence.
Qed.
Lemma changed_hit x y k o a b : changed x y k o -> a <> k -> b <> k -> hit y a b = hit x a b.
Proof.
  intros [W B] Ha Hb. apply hit_ext; rewrite B; [destruct (key_eqb_spec k a) | destruct (key_eqb_spec k b)]; congruence.
Qed.

Lemma occ_clear k a b ps :
  occurrences a b (pairs_clear k ps) = if key_eqb k a || key_eqb k b then 0 else occurrences a b ps.
Proof.
  induction ps as [|p ps IH]; [cbn; destruct (_ || _); reflexivity|]. unfold pairs_clear in *; cbn [filter].
  unfold touches at 1. destruct (same_pair a b p) eqn:E.
  - assert (T : key_eqb k (fst p) || key_eqb k (snd p) = key_eqb k a || key_eqb k b).
    { apply same_pair_spec in E as [->| ->]; cbn; auto. apply orb_comm. }
    rewrite T. destruct (key_eqb k a || key_eqb k b); cbn [negb]; [apply IH|].
    unfold occurrences in *; cbn. rewrite E. cbn. f_equal. apply IH.
  - assert (C : occurrences a b (p :: ps) = occurrences a b ps) by (unfold occurrences; cbn; rewrite E; auto). rewrite C.
    destruct (negb _); [|apply IH]. unfold occurrences at 1; cbn. rewrite E. apply IH.
Qed.
Lemma In_clear k p ps : In p (pairs_clear k ps) -> In p ps.
Proof. unfold pairs_clear. rewrite filter_In. tauto. Qed.
Lemma occ_In p ps : In p ps -> 0 < occurrences (fst p) (snd p) ps.
Proof.
  intros H. unfold occurrences. assert (K : In p (filter (same_pair (fst p) (snd p)) ps)).
  { apply filter_In. split; auto. apply same_pair_spec. left. destruct p; auto. }
  destruct (filter (same_pair (fst p) (snd p)) ps); [destruct K | cbn; lia].
Qed.
Lemma occ_zero a b ps : occurrences a b ps = 0 -> fl a b ps = [].
Proof. rewrite cnt_fl. apply length_zero_iff_nil. Qed.

(** ** Field lemmas *)
Lemma root_set x d t e : x_root (set_root x d t) e = if Bool.eqb d e then t else x_root x e.
Proof. destruct d, e; reflexivity. Qed.
Lemma leaves_set x d l e : x_leaves (set_leaves x d l) e = if Bool.eqb d e then l else x_leaves x e.
Proof. destruct d, e; reflexivity. Qed.

(* same trees *)
Lemma wf_same x y : (forall d, x_root y d = x_root x d) -> wf_trees x -> wf_trees y.
Proof. intros E W d. unfold leaf_list. rewrite E. apply W. Qed.
Lemma box_same x y k : (forall d, x_root y d = x_root x d) -> key_box y k = key_box x k.
Proof. intros E. unfold key_box. rewrite E. reflexivity. Qed.
Lemma indexed_same x y k : (forall d, x_root y d = x_root x d) -> (indexed y k <-> indexed x k).
Proof. intros E. unfold indexed, leaf_list. rewrite E. reflexivity. Qed.

(** ** Orientation *)
Lemma mqL_orient x d L leaf lb left m : fst (if left : bool then (d, 0) else leaf) = true ->
  (forall p, In p (fst m) -> fst (snd p) = true) -> forall p, In p (fst (mqL x d L leaf lb left m)) -> fst (snd p) = true.
Proof.
  intros Hl. revert m. induction L as [|q L IH]; intros m Hm; [exact Hm|]. unfold mqL in *; cbn [fold_left].
  apply IH. destruct (bb_intersects lb (snd q)); [|exact Hm]. unfold mq1. destruct left; cbn [fst snd] in *.
  - intros p [<-|H]; auto.
  - intros p. destruct (Nat.ltb _ _); [|apply Hm]. intros [<-|H]; auto.
Qed.
Lemma ups_orient x t i lb m : bounded t -> (forall p, In p (fst m) -> fst (snd p) = true) ->
  forall p, In p (fst (upsM x t i lb m)) -> fst (snd p) = true.
Proof.
  revert m. induction t as [j c|c l IHl r IHr]; intros m B Hm; [exact Hm|].
  rewrite ups_step by auto. destruct B as (_ & Bl & Br & _). destruct (has i l); (apply mqL_orient; [reflexivity|]); [apply IHl | apply IHr]; auto.
Qed.
Lemma mark_orient x i lb m : wf_trees x -> In i (map fst (leaf_list x true)) ->
  (forall p, In p (fst m) -> fst (snd p) = true) -> forall p, In p (fst (mark_leaf x i lb m)) -> fst (snd p) = true.
Proof.
  intros W Hi Hm. destruct (Nat.eq_dec (x_lstamp x (true, i)) (x_stamp x)) as [Hs|Hs].
  - destruct (mark_leaf_moved x i lb m W Hi Hs) as (t & Et & ->). apply ups_orient; [apply (W true); auto|].
    apply mqL_orient; [reflexivity | exact Hm].
  - rewrite mark_leaf_unmoved by auto. exact Hm.
Qed.

(** ** LeafAddPairs *)
Lemma in_before_after i j jb L : In (j, jb) L -> i <> j -> In (j, jb) (after i L) \/ In (j, jb) (before i L).
Proof.
  induction L as [|q L IH]; cbn; [tauto|]. intros [->|H] Hne.
  - cbn. destruct (Nat.eqb_spec i j); [congruence|]. right. left. auto.
  - destruct (Nat.eqb i (fst q)); [auto|]. destruct (IH H Hne); auto. right. right. auto.
Qed.
Lemma hit_self x k : hit x k k = false.
Proof. unfold hit. destruct (key_box x k); auto. rewrite key_eqb_refl, andb_false_r. reflexivity. Qed.
Lemma hit_none x a b : key_box x b = None -> hit x a b = false.
Proof. unfold hit. intros ->. destruct (key_box x a); reflexivity. Qed.
Lemma hit_boxes x a b p q : key_box x a = Some p -> key_box x b = Some q -> fst a = true -> a <> b ->
  hit x a b = bb_intersects p q.
Proof.
  unfold hit. intros -> -> -> H. destruct (key_eqb_spec a b); [congruence|]. reflexivity.
Qed.
Lemma len_if (c : bool) {A} (p : A) : length (if c then [p] else []) = if c then 1 else 0.
Proof. destruct c; reflexivity. Qed.

Lemma add_pairs x d i : mid x -> indexed x (d, i) -> x_lstamp x (d, i) = x_stamp x ->
  (forall k, indexed x k -> k <> (d, i) -> x_lstamp x k < x_stamp x) ->
  let y := leaf_add_pairs x d i in
  (forall a b, occurrences a b (x_pairs y) = if hit x a b then 1 else 0) /\
  (forall p, In p (x_pairs y) -> fst (snd p) = true).
Proof.
  intros M Hi Hs Ho y. pose proof (m_wf x M) as W. destruct (indexed_box x (d, i) Hi) as [lb Eb].
  assert (J : forall a b, a <> (d, i) -> b <> (d, i) -> occurrences a b (x_pairs x) = if hit x a b then 1 else 0).
  { intros a b Ha Hb. rewrite (m_pairs x M). destruct (hit x a b) eqn:H; [|reflexivity].
    destruct (hit_indexed x a b H) as [Ia Ib]. apply Ho in Ia, Ib; auto. unfold stale. apply Nat.ltb_lt in Ia, Ib.
    rewrite Ia, Ib. reflexivity. }
  assert (J0 : forall b, fl (d, i) b (x_pairs x) = []).
  { intros b. apply occ_zero. rewrite (m_pairs x M). unfold stale at 1. rewrite Hs, Nat.ltb_irrefl, andb_false_r. reflexivity. }
  assert (Sy : forall c, (forall b, occurrences (d, i) b c = if hit x (d, i) b then 1 else 0) ->
     (forall a b, a <> (d, i) -> b <> (d, i) -> occurrences a b c = if hit x a b then 1 else 0) ->
     forall a b, occurrences a b c = if hit x a b then 1 else 0).
  { intros c H1 H2 a b. destruct (key_eqb_spec a (d, i)) as [->|Ha]; [apply H1|].
    destruct (key_eqb_spec b (d, i)) as [->|Hb]; [|apply H2; auto]. rewrite occ_sym, hit_sym. apply H1. }
  unfold y, leaf_add_pairs. unfold key_box in Eb; cbn in Eb. rewrite Eb. destruct d; cbn [x_pairs set_pairs].
  - split; [|apply mark_orient; auto; cbn; apply M]. apply Sy.
    + intros b. rewrite cnt_fl. destruct (key_box x b) as [jb|] eqn:E.
      2:{ destruct (mark_moved_none x i lb (x_pairs x, []) b W Hi Hs) as [-> _].
          { left. apply key_box_None in E. exact E. }
          cbn [fst]. rewrite J0, hit_none by auto. reflexivity. }
      destruct (key_eqb_spec b (true, i)) as [->|Hne].
      { destruct (mark_moved_none x i lb (x_pairs x, []) (true, i) W Hi Hs) as [-> _]; [right; auto|].
        cbn [fst]. rewrite J0, hit_self. reflexivity. }
      rewrite (hit_boxes x (true, i) b lb jb) by auto.
      assert (Hl : Nat.ltb (x_lstamp x b) (x_lstamp x (true, i)) = true).
      { apply Nat.ltb_lt. rewrite Hs. apply Ho; auto.
        destruct (in_dec Nat.eq_dec (snd b) (map fst (leaf_list x (fst b)))) as [|Hn]; auto. apply key_box_None in Hn. congruence. }
      apply key_box_In in E; auto. destruct b as [e j]; cbn in E. destruct e.
      * assert (Hij : i <> j) by congruence. destruct (in_before_after i j jb _ E Hij) as [E'|E'].
        -- destruct (mark_moved_dyn x i lb (x_pairs x, []) j jb true W Hi Hs E') as [-> _].
           cbn [fst]. rewrite J0, app_nil_r. apply (len_if _ ((true, i), (true, j))).
        -- destruct (mark_moved_dyn x i lb (x_pairs x, []) j jb false W Hi Hs E') as [-> _].
           cbn [fst]. rewrite J0, app_nil_r. unfold add_p. rewrite Hl. apply len_if.
      * destruct (mark_moved_sta x i lb (x_pairs x, []) j jb W Hi Hs E) as [-> _].
        cbn [fst]. rewrite J0, app_nil_r. unfold add_p. rewrite Hl. apply len_if.
    + intros a b Ha Hb. rewrite <- J by auto. rewrite !cnt_fl.
      destruct (mark_other x i lb (x_pairs x, []) a b W Hi Ha Hb) as [-> _]. reflexivity.
  - rewrite mark_root_flat by auto. split; [|apply mqL_orient; [reflexivity|cbn; apply M]]. apply Sy.
    + intros b. rewrite cnt_fl. destruct (W true) as [ND _]. destruct b as [e j]. destruct e.
      * destruct (key_box x (true, j)) as [jb|] eqn:E.
        -- rewrite hit_sym, (hit_boxes x (true, j) (false, i) jb lb) by (auto; congruence).
           apply key_box_In in E; auto. cbn in E.
           destruct (mqL_one x true (leaf_list x true) (false, i) lb true (x_pairs x, []) j jb ND E) as [-> _].
           cbn [fst]. rewrite J0, app_nil_r, intersects_sym. apply (len_if _ ((false, i), (true, j))).
        -- rewrite hit_none by auto. apply key_box_None in E.
           destruct (mqL_none x true (leaf_list x true) (false, i) lb true (x_pairs x, []) (false, i) (true, j)) as [-> _].
           { intros k Hk. apply same_none; [right; intros Ek; injection Ek as <-; apply E; exact Hk | left; congruence]. }
           cbn [fst]. rewrite J0. reflexivity.
      * destruct (mqL_none x true (leaf_list x true) (false, i) lb true (x_pairs x, []) (false, i) (false, j)) as [-> _].
        { intros k Hk. apply same_none; [right; congruence | left; congruence]. }
        cbn [fst]. rewrite J0. unfold hit. cbn [fst orb]. destruct (key_box x (false, i)), (key_box x (false, j)); reflexivity.
    + intros a b Ha Hb. rewrite <- J by auto. rewrite !cnt_fl.
      destruct (mqL_none x true (leaf_list x true) (false, i) lb true (x_pairs x, []) a b) as [-> _]; [|reflexivity].
      intros k Hk. apply same_none; auto.
Qed.
Lemma add_pairs_fields x d i : let y := leaf_add_pairs x d i in
  (forall e, x_root y e = x_root x e) /\ (forall e, x_leaves y e = x_leaves x e) /\ x_stamp y = x_stamp x /\
  x_lstamp y = x_lstamp x /\ x_box y = x_box x /\ x_vel y = x_vel x.
Proof.
  unfold leaf_add_pairs. destruct (leaf_bb _ _); [destruct d|]; cbn; repeat split; intros e; destruct e; reflexivity.
Qed.

(* completing a single changed leaf *)
Lemma complete x d i : mid x -> indexed x (d, i) -> x_lstamp x (d, i) = x_stamp x ->
  (forall k, indexed x k -> k <> (d, i) -> x_lstamp x k < x_stamp x) ->
  inv (increment_stamp (leaf_add_pairs x d i)).
Proof.
  intros M Hi Hs Ho. destruct (add_pairs x d i M Hi Hs Ho) as [P1 P2].
  destruct (add_pairs_fields x d i) as (F1 & F2 & F3 & F4 & F5 & F6). set (y := leaf_add_pairs x d i) in *.
  assert (R : forall e, x_root (increment_stamp y) e = x_root x e) by (intros e; rewrite <- F1; destruct e; reflexivity).
  assert (St : forall k, indexed (increment_stamp y) k -> x_lstamp (increment_stamp y) k < x_stamp (increment_stamp y)).
  { intros k Hk. rewrite (indexed_same _ _ _ R) in Hk. cbn. rewrite F3, F4. apply (m_stamp x M) in Hk. lia. }
  split; [|exact St]. split.
  - apply (wf_same _ _ R). apply M.
  - intros e. unfold leaf_list. rewrite R. replace (x_leaves (increment_stamp y) e) with (x_leaves x e); [apply M|].
    rewrite <- F2. destruct e; reflexivity.
  - intros k Hk. apply Nat.lt_le_incl. auto.
  - intros k b. rewrite (box_same _ _ _ R). apply M.
  - cbn. rewrite F5, F6. apply M.
  - intros a b. cbn [x_pairs increment_stamp]. rewrite P1.
    rewrite <- (hit_ext (increment_stamp y) x) by (apply box_same; auto). destruct (hit (increment_stamp y) a b) eqn:H; [|reflexivity].
    destruct (hit_indexed _ a b H) as [Ia Ib]. apply St in Ia, Ib. apply Nat.ltb_lt in Ia, Ib. unfold stale. rewrite Ia, Ib. reflexivity.
  - exact P2.
Qed.

(** ** Insert *)
Lemma contains_wf a b : bb_contains a b = true -> bb_wf b -> bb_wf a.
Proof.
  rewrite contains_spec. intros (H1 & H2 & H3 & H4) [W1 W2]. split; eapply nleb_trans; eauto; eapply nleb_trans; eauto.
Qed.
Lemma get_bb_wf x d i : (forall i, good_box (x_box x i) /\ good_vel (x_vel x i)) -> bb_wf (get_bb x d i).
Proof. intros G. destruct (G i) as [G1 G2]. eapply contains_wf; [apply get_bb_contains; auto | apply G1]. Qed.
Lemma get_bb_ok x d i : (forall i, good_box (x_box x i) /\ good_vel (x_vel x i)) -> bb_ok (get_bb x d i).
Proof. intros G. destruct (G i). eapply contains_ok. apply get_bb_contains; auto. Qed.

Lemma not_indexed x d i : mid x -> ~ In i (x_leaves x d) -> ~ indexed x (d, i).
Proof.
  intros M H Hi. apply H. unfold indexed in Hi; cbn in Hi. eapply Permutation_in; [apply M|exact Hi].
Qed.
Lemma is_indexed x d i : mid x -> In i (x_leaves x d) -> indexed x (d, i).
Proof. intros M H. unfold indexed; cbn. eapply Permutation_in; [symmetry; apply M|exact H]. Qed.

(* a leaf with fresh stamp and no pairs *)
Lemma mid_changed x y d i lb : mid x -> changed x y (d, i) (Some lb) ->
  (forall e, Permutation (map fst (leaf_list y e)) (x_leaves y e)) ->
  x_stamp y = x_stamp x -> x_lstamp y (d, i) = x_stamp x -> (forall k, k <> (d, i) -> x_lstamp y k = x_lstamp x k) ->
  x_box y = x_box x -> x_vel y = x_vel x -> bb_wf lb ->
  (forall a b, occurrences a b (x_pairs y) = if key_eqb (d, i) a || key_eqb (d, i) b then 0 else occurrences a b (x_pairs x)) ->
  (forall p, In p (x_pairs y) -> In p (x_pairs x)) -> mid y.
Proof.
  intros M C L S1 S2 S3 B V Wl P1 P2. split.
  - apply C.
  - exact L.
  - intros k Hk. rewrite S1. destruct (key_eqb_spec k (d, i)) as [->|Hne]; [lia|]. rewrite S3 by auto. apply M.
    apply (changed_indexed x y (d, i) (Some lb)); auto.
  - intros k b. rewrite (c_box _ _ _ _ C). destruct (key_eqb (d, i) k); [intros E; injection E as <-; auto | apply M].
  - rewrite B, V. apply M.
  - intros a b. rewrite P1. destruct (key_eqb_spec (d, i) a) as [<-|Ha]; cbn [orb].
    { unfold stale at 1. rewrite S1, S2, Nat.ltb_irrefl, andb_false_r. reflexivity. }
    destruct (key_eqb_spec (d, i) b) as [<-|Hb].
    { unfold stale at 2. rewrite S1, S2, Nat.ltb_irrefl, andb_false_r. reflexivity. }
    rewrite (m_pairs x M), (changed_hit x y (d, i) (Some lb)) by auto. unfold stale. rewrite S1, !S3 by auto. reflexivity.
  - intros p Hp. apply M. auto.
Qed.

Lemma do_insert_inv x d i : inv x -> ~ In i (x_leaves x d) -> inv (do_insert x d i).
Proof.
  intros [M St] Hn. unfold do_insert. set (lb := get_bb x d i).
  set (y := set_lstamp _ (d, i) _).
  pose proof (not_indexed x d i M Hn) as Hni.
  assert (Ey : x_root y d = Some (subtree_insert (x_root x d) i lb)) by (subst y; destruct d; reflexivity).
  assert (C : changed x y (d, i) (Some lb)).
  { apply changed_insert; auto; [apply M | apply get_bb_ok; apply M | subst y; destruct d; reflexivity]. }
  assert (My : mid y).
  { apply (mid_changed x y d i lb M C); try (subst y; destruct d; reflexivity).
    - intros e. destruct (Bool.eqb_spec d e) as [<-|He].
      + unfold leaf_list. rewrite Ey, subtree_insert_leaves. cbn [map fst].
        replace (x_leaves y d) with (i :: x_leaves x d) by (subst y; destruct d; reflexivity). constructor. apply M.
      + assert (E : e = negb d) by (destruct d, e; cbn; congruence). subst e.
        replace (leaf_list y (negb d)) with (leaf_list x (negb d)) by (subst y; destruct d; reflexivity).
        replace (x_leaves y (negb d)) with (x_leaves x (negb d)) by (subst y; destruct d; reflexivity). apply M.
    - subst y. destruct d; cbn; rewrite Nat.eqb_refl; reflexivity.
    - intros k Hk. subst y. cbn. destruct (key_eqb_spec (d, i) k); [congruence|]. destruct d; reflexivity.
    - apply get_bb_wf; apply M.
    - intros a b. replace (x_pairs y) with (x_pairs x) by (subst y; destruct d; reflexivity).
      destruct (key_eqb_spec (d, i) a) as [<-|Ha]; cbn [orb].
      { rewrite inv_pairs by (split; auto). rewrite hit_sym, hit_none; auto. apply key_box_None. auto. }
      destruct (key_eqb_spec (d, i) b) as [<-|Hb]; auto.
      rewrite inv_pairs by (split; auto). rewrite hit_none; auto. apply key_box_None. auto.
    - subst y. destruct d; auto. }
  assert (Hyi : indexed y (d, i)).
  { unfold indexed, leaf_list; cbn [fst snd]. rewrite Ey, subtree_insert_leaves. left. reflexivity. }
  apply complete; auto.
  - subst y. destruct d; cbn; rewrite Nat.eqb_refl; reflexivity.
  - intros k Hk Hne. apply (changed_indexed x y (d, i) (Some lb)) in Hk; auto. apply St in Hk.
    subst y. cbn. destruct (key_eqb_spec (d, i) k); [congruence|]. destruct d; exact Hk.
Qed.

(** ** Remove *)
Lemma filter_out_perm i (l l' : list nat) : NoDup l' -> Permutation (i :: l) l' ->
  Permutation l (filter (fun j => negb (Nat.eqb i j)) l').
Proof.
  intros ND P. assert (ND' : NoDup (i :: l)) by (eapply Permutation_NoDup; [symmetry; exact P|auto]). inversion ND'; subst.
  apply NoDup_Permutation; auto; [apply NoDup_filter; auto|]. intros j. rewrite filter_In, negb_true_iff, Nat.eqb_neq. split.
  - intros Hj. split; [eapply Permutation_in; [exact P | right; auto]|]. intros ->. auto.
  - intros [Hj Hne]. eapply Permutation_in in Hj; [|symmetry; exact P]. destruct Hj; congruence.
Qed.
Lemma do_remove_inv x d i : inv x -> In i (x_leaves x d) -> inv (do_remove x d i).
Proof.
  intros [M St] Hin. unfold do_remove. set (y := set_pairs _ _).
  pose proof (is_indexed x d i M Hin) as Hi. pose proof (m_wf x M) as W.
  assert (C : changed x y (d, i) None).
  { apply changed_remove; auto; subst y; destruct d; reflexivity. }
  assert (Hyi : ~ indexed y (d, i)). { apply key_box_None. rewrite (c_box _ _ _ _ C), key_eqb_refl. reflexivity. }
  assert (Ls : x_lstamp y = x_lstamp x) by (subst y; destruct d; reflexivity).
  assert (Ss : x_stamp y = x_stamp x) by (subst y; destruct d; reflexivity).
  assert (Ey : x_pairs y = pairs_clear (d, i) (x_pairs x)) by (subst y; destruct d; reflexivity).
  assert (Sy : forall k, indexed y k -> x_lstamp y k < x_stamp y).
  { intros k Hk. rewrite Ls, Ss. apply St. apply (changed_indexed x y (d, i) None); auto. congruence. }
  split; [|exact Sy]. split.
  - apply C.
  - intros e. destruct (Bool.eqb_spec d e) as [<-|He].
    + destruct (subtree_remove_spec x d i W Hi) as (b & P & _).
      replace (leaf_list y d) with (match subtree_remove (x_root x d) i with Some t => tleaves t | None => [] end)
        by (subst y; destruct d; reflexivity).
      replace (x_leaves y d) with (filter (fun j => negb (Nat.eqb i j)) (x_leaves x d)) by (subst y; destruct d; reflexivity).
      apply filter_out_perm.
      * eapply Permutation_NoDup; [apply M|]. apply W.
      * rewrite <- (m_leaves x M d). rewrite P. reflexivity.
    + assert (E : e = negb d) by (destruct d, e; cbn; congruence). subst e.
      replace (leaf_list y (negb d)) with (leaf_list x (negb d)) by (subst y; destruct d; reflexivity).
      replace (x_leaves y (negb d)) with (x_leaves x (negb d)) by (subst y; destruct d; reflexivity). apply M.
  - intros k Hk. apply Nat.lt_le_incl. auto.
  - intros k b. rewrite (c_box _ _ _ _ C). destruct (key_eqb (d, i) k); [discriminate | apply M].
  - replace (x_box y) with (x_box x) by (subst y; destruct d; reflexivity).
    replace (x_vel y) with (x_vel x) by (subst y; destruct d; reflexivity). apply M.
  - intros a b. rewrite Ey, occ_clear, inv_pairs by (split; auto).
    destruct (key_eqb_spec (d, i) a) as [<-|Ha]; cbn [orb].
    { rewrite hit_sym, hit_none by (apply key_box_None; auto). reflexivity. }
    destruct (key_eqb_spec (d, i) b) as [<-|Hb].
    { rewrite hit_none by (apply key_box_None; auto). reflexivity. }
    rewrite (changed_hit x y (d, i) None) by auto. unfold stale. rewrite Ls, Ss.
    destruct (hit x a b) eqn:H; [|reflexivity]. destruct (hit_indexed x a b H) as [Ia Ib]. apply St in Ia, Ib.
    apply Nat.ltb_lt in Ia, Ib. rewrite Ia, Ib. reflexivity.
  - intros p Hp. rewrite Ey in Hp. apply M. eapply In_clear; eauto.
Qed.

(** ** LeafUpdate *)
Lemma leaf_update_spec x d i : mid x -> indexed x (d, i) ->
  let '(y, moved) := leaf_update x d i in
  mid y /\ x_box y = x_box x /\ x_vel y = x_vel x /\ x_stamp y = x_stamp x /\ (forall e, x_leaves y e = x_leaves x e) /\
  (forall k, k <> (d, i) -> key_box y k = key_box x k) /\
  (forall k, indexed y k <-> indexed x k) /\
  (exists b, key_box y (d, i) = Some b /\ bb_contains b (x_box x i) = true /\
     (b = get_bb x d i \/ key_box x (d, i) = Some b)) /\
  (forall k, k <> (d, i) -> x_lstamp y k = x_lstamp x k) /\
  (if moved then x_lstamp y (d, i) = x_stamp x else y = x).
Proof.
  intros M Hi. pose proof (m_wf x M) as W. destruct (indexed_box x (d, i) Hi) as [b0 Eb]. unfold leaf_update.
  pose proof Eb as Eb'. unfold key_box in Eb'; cbn in Eb'. rewrite Eb'.
  destruct (bb_contains b0 (x_box x i)) eqn:Ec.
  { refine (conj M _). repeat split; auto; try tauto. eauto. }
  set (lb := get_bb x d i). set (y := set_lstamp _ (d, i) _).
  set (z := set_root x d (subtree_remove (x_root x d) i)).
  assert (C1 : changed x z (d, i) None). { apply changed_remove; auto; subst z; destruct d; reflexivity. }
  assert (Hz : ~ indexed z (d, i)). { apply key_box_None. rewrite (c_box _ _ _ _ C1), key_eqb_refl. reflexivity. }
  assert (C2 : changed z y (d, i) (Some lb)).
  { apply changed_insert; auto; [apply C1 | apply get_bb_ok; apply M | | ]; subst y z; destruct d; reflexivity. }
  pose proof (changed_trans _ _ _ _ _ _ C1 C2) as C.
  destruct (m_good x M i) as [Gb Gv].
  assert (Ls : x_lstamp y (d, i) = x_stamp x) by (subst y; destruct d; cbn; rewrite Nat.eqb_refl; reflexivity).
  assert (Lo : forall k, k <> (d, i) -> x_lstamp y k = x_lstamp x k).
  { intros k Hk. subst y. cbn. destruct (key_eqb_spec (d, i) k); [congruence|]. destruct d; reflexivity. }
  assert (Kb : key_box y (d, i) = Some lb) by (rewrite (c_box _ _ _ _ C), key_eqb_refl; reflexivity).
  assert (My : mid y).
  { apply (mid_changed x y d i lb M C); auto; try (subst y; destruct d; reflexivity).
    + intros e. replace (x_leaves y e) with (x_leaves x e) by (subst y; destruct d, e; reflexivity).
      rewrite <- (m_leaves x M e). destruct (Bool.eqb_spec d e) as [<-|He].
      * destruct (subtree_remove_spec x d i W Hi) as (b & P & _). rewrite P.
        replace (leaf_list y d) with (tleaves (subtree_insert (subtree_remove (x_root x d) i) i lb)) by (subst y; destruct d; reflexivity).
        rewrite subtree_insert_leaves. reflexivity.
      * assert (E : e = negb d) by (destruct d, e; cbn; congruence). subst e.
        replace (leaf_list y (negb d)) with (leaf_list x (negb d)) by (subst y; destruct d; reflexivity). reflexivity.
    + apply get_bb_wf; apply M.
    + intros a b. replace (x_pairs y) with (pairs_clear (d, i) (x_pairs x)) by (subst y; destruct d; reflexivity). apply occ_clear.
    + intros p. replace (x_pairs y) with (pairs_clear (d, i) (x_pairs x)) by (subst y; destruct d; reflexivity). apply In_clear. }
  refine (conj My _). do 3 (split; [subst y; destruct d; reflexivity|]).
  split; [intros e; subst y; destruct d, e; reflexivity|].
  split; [|split; [intros k; split|split; [|split; assumption]]].
  - intros k Hk. rewrite (c_box _ _ _ _ C). destruct (key_eqb_spec (d, i) k); congruence.
  - intros Hk. destruct (key_eqb_spec k (d, i)) as [->|Hne]; auto. apply (changed_indexed x y (d, i) (Some lb)); auto.
  - intros Hk. destruct (key_eqb_spec k (d, i)) as [->|Hne].
    + destruct (in_dec Nat.eq_dec i (map fst (leaf_list y d))) as [|Hn]; auto. exfalso.
      assert (key_box y (d, i) = None) by (apply key_box_None; exact Hn). congruence.
    + apply (changed_indexed x y (d, i) (Some lb)); auto.
  - exists lb. repeat split; auto. apply get_bb_contains; auto.
Qed.

Lemma do_reindex_inv x d i : inv x -> inv (do_reindex x d i).
Proof.
  intros [M St]. unfold do_reindex. destruct (existsb (Nat.eqb i) (x_leaves x d)) eqn:E; [|split; auto].
  apply existsb_exists in E as (j & Hj & Ej). apply Nat.eqb_eq in Ej. subst j.
  pose proof (is_indexed x d i M Hj) as Hi. pose proof (leaf_update_spec x d i M Hi) as U.
  destruct (leaf_update x d i) as [y moved]. destruct U as (My & Bx & Vx & Sx & Lx & Kx & Ix & Ex & Lo & Mv).
  destruct moved.
  - apply complete; auto.
    + apply Ix. auto.
    + congruence.
    + intros k Hk Hne. rewrite Lo, Sx by auto. apply St. apply Ix. auto.
  - subst y. assert (R : forall e, x_root (increment_stamp x) e = x_root x e) by (intros e; destruct e; reflexivity).
    assert (St' : forall k, indexed (increment_stamp x) k -> x_lstamp (increment_stamp x) k < x_stamp (increment_stamp x)).
    { intros k Hk. rewrite (indexed_same _ _ _ R) in Hk. cbn. apply St in Hk. lia. }
    split; [|exact St']. split.
    + apply (wf_same _ _ R). apply M.
    + intros e. unfold leaf_list. rewrite R. replace (x_leaves (increment_stamp x) e) with (x_leaves x e) by (destruct e; reflexivity). apply M.
    + intros k Hk. apply Nat.lt_le_incl. auto.
    + intros k b. rewrite (box_same _ _ _ R). apply M.
    + apply M.
    + intros a b. cbn [x_pairs increment_stamp]. rewrite inv_pairs by (split; auto).
      rewrite <- (hit_ext (increment_stamp x) x) by (apply box_same; auto). destruct (hit (increment_stamp x) a b) eqn:H; [|reflexivity].
      destruct (hit_indexed _ a b H) as [Ia Ib]. apply St' in Ia, Ib. apply Nat.ltb_lt in Ia, Ib. unfold stale. rewrite Ia, Ib. reflexivity.
    + apply M.
Qed.
End P.
Arguments indexed : simpl never.
