(** ReindexQuery: boxes are refreshed, every intersecting pair is reported once, the invariant is kept. *)
From Coq Require Import ZArith Bool List Arith Permutation Lia.
From Verif Require Import Num Vec BB BBProofs BBTree BBTreeSpec BBTreeProofs BBTreeMark BBTreeInv.
Import ListNotations.

Section P.
Context {N : Num} {O : NumOrd N}.

Definition fresh_box (x : index) (i : nat) : Prop := exists b, key_box x (true, i) = Some b /\ bb_contains b (x_box x i) = true.

Lemma updates x order : mid x -> (forall i, In i order -> indexed x (true, i)) ->
  let y := fold_left (fun x i => fst (leaf_update x true i)) order x in
  mid y /\ x_box y = x_box x /\ x_vel y = x_vel x /\ x_stamp y = x_stamp x /\ (forall e, x_leaves y e = x_leaves x e) /\
  (forall k, indexed y k <-> indexed x k) /\ (forall k, fst k = false -> x_lstamp y k = x_lstamp x k) /\
  (forall i, In i order \/ fresh_box x i -> fresh_box y i).
Proof.
  revert x. induction order as [|i order IH]; intros x M H; cbn zeta.
  { cbn. split; [exact M|]. do 3 (split; [reflexivity|]). split; [reflexivity|]. split; [reflexivity|]. split; [reflexivity|]. intros j [[]|F]; auto. }
  cbn [fold_left]. pose proof (leaf_update_spec x true i M (H i (or_introl eq_refl))) as U.
  destruct (leaf_update x true i) as [z moved]. destruct U as (Mz & Bz & Vz & Sz & Lz & Kz & Iz & (b & E1 & E2 & _) & Oz & _).
  destruct (IH z Mz) as (My & By & Vy & Sy & Ly & Iy & Oy & Fy).
  { intros j Hj. apply Iz. apply H. right. auto. }
  cbn [fst]. split; [exact My|]. split; [congruence|]. split; [congruence|]. split; [congruence|].
  split; [intros e; rewrite Ly; auto|]. split; [intros k; rewrite Iy; auto|].
  split; [intros k Hk; rewrite Oy, Oz by (auto; intros ->; discriminate); reflexivity|].
  assert (Fi : fresh_box z i) by (exists b; rewrite Bz; auto).
  intros j [[<-|Hj]|F]; apply Fy; auto. destruct (Nat.eq_dec j i) as [->|Hne]; [auto|].
  right. destruct F as (c & F1 & F2). exists c. rewrite Kz, Bz by congruence. auto.
Qed.

Definition markL (x : index) (L : list (nat * bb)) (m : macc) : macc :=
  fold_left (fun m p => mark_leaf x (fst p) (snd p) m) L m.
Lemma markL_app x L1 L2 m : markL x (L1 ++ L2) m = markL x L2 (markL x L1 m).
Proof. apply fold_left_app. Qed.

Lemma markL_other x L m a b : wf_trees x -> (forall p, In p L -> In p (leaf_list x true)) ->
  ~ In a (map (fun p => (true, fst p)) L) -> ~ In b (map (fun p => (true, fst p)) L) ->
  fl a b (fst (markL x L m)) = fl a b (fst m) /\ fl a b (snd (markL x L m)) = fl a b (snd m).
Proof.
  intros W. revert m. induction L as [|p L IH]; intros m HL Ha Hb; [auto|]. unfold markL in *; cbn [fold_left].
  destruct (IH (mark_leaf x (fst p) (snd p) m)) as [E1 E2].
  { intros q Hq. apply HL. right. auto. }
  { intros Hx. apply Ha. right. auto. }
  { intros Hx. apply Hb. right. auto. }
  rewrite E1, E2. apply mark_other; auto.
  - apply in_map. apply HL. left. auto.
  - intros ->. apply Ha. left. auto.
  - intros ->. apply Hb. left. auto.
Qed.
Lemma markL_orient x L m : wf_trees x -> (forall p, In p L -> In p (leaf_list x true)) ->
  (forall p, In p (fst m) -> fst (snd p) = true) -> forall p, In p (fst (markL x L m)) -> fst (snd p) = true.
Proof.
  intros W. revert m. induction L as [|p L IH]; intros m HL Hm; [exact Hm|]. unfold markL in *; cbn [fold_left].
  apply IH; [intros q Hq; apply HL; right; auto|]. apply mark_orient; auto. apply in_map. apply HL. left. auto.
Qed.

Lemma split_snd i j (F : list pair) : i <> j -> (forall p, In p F -> same_pair (true, i) (true, j) p = true) ->
  length (filter (fun p => key_eqb (true, i) (snd p)) F) + length (filter (fun p => key_eqb (true, j) (snd p)) F) = length F.
Proof.
  intros Hne. induction F as [|p F IH]; intros H; [reflexivity|].
  assert (Hp := H p (or_introl eq_refl)). specialize (IH (fun q Hq => H q (or_intror Hq))).
  apply same_pair_spec in Hp as [->| ->]; cbn [filter snd]; rewrite key_eqb_refl.
  - destruct (key_eqb_spec (true, i) (true, j)); [congruence|]. cbn [length]. lia.
  - destruct (key_eqb_spec (true, j) (true, i)); [congruence|]. cbn [length]. lia.
Qed.
Lemma fl_In a b p l : In p (fl a b l) -> same_pair a b p = true.
Proof. unfold fl. rewrite filter_In. tauto. Qed.
Lemma nd_mid_sym {A B} (L1 L2 : list (A * B)) p : NoDup (map fst (L1 ++ p :: L2)) ->
  ~ In (fst p) (map fst L1) /\ ~ In (fst p) (map fst L2).
Proof. rewrite map_app; cbn. intros H. apply NoDup_remove_2 in H. rewrite in_app_iff in H. tauto. Qed.
Lemma tkey_in i (L : list (nat * bb)) : In (true, i) (map (fun p => (true, fst p)) L) <-> In i (map fst L).
Proof. rewrite !in_map_iff. split; intros (p & E & H); exists p; split; auto; congruence. Qed.

(* two dynamic leaves, the first one left of the second *)
Lemma pair_dyn x B i ib M j jb A : mid x -> leaf_list x true = B ++ (i, ib) :: M ++ (j, jb) :: A ->
  let m := markL x (leaf_list x true) (x_pairs x, []) in
  occurrences (true, i) (true, j) (fst m) = (if hit x (true, i) (true, j) then 1 else 0) /\
  occurrences (true, i) (true, j) (snd m) = (if hit x (true, i) (true, j) then 1 else 0).
Proof.
  intros Mx EL. cbn zeta. pose proof (m_wf x Mx) as W. destruct (W true) as [ND _]. rewrite EL in ND.
  assert (Ii : In (i, ib) (leaf_list x true)) by (rewrite EL; apply in_or_app; right; left; auto).
  assert (Ij : In (j, jb) (leaf_list x true)) by (rewrite EL; apply in_or_app; right; right; apply in_or_app; right; left; auto).
  destruct (nd_mid_sym B (M ++ (j, jb) :: A) (i, ib) ND) as [NiB NiR]. cbn in NiB, NiR.
  assert (ND2 := ND). rewrite app_comm_cons, app_assoc in ND2.
  destruct (nd_mid_sym (B ++ (i, ib) :: M) A (j, jb) ND2) as [NjL NjA]. cbn in NjA.
  cbn [fst] in NjL. rewrite map_app in NjL, NiR. cbn [map fst] in NjL. rewrite in_app_iff in NjL, NiR. cbn in NjL, NiR.
  assert (Hij : i <> j) by (intros ->; apply NjL; right; left; auto).
  set (F := fl (true, i) (true, j)). set (P0 := x_pairs x).
  assert (Ki : key_box x (true, i) = Some ib) by (apply key_box_In; auto).
  assert (Kj : key_box x (true, j) = Some jb) by (apply key_box_In; auto).
  assert (Hh : hit x (true, i) (true, j) = bb_intersects ib jb) by (apply hit_boxes; auto; congruence).
  assert (L0 : length (F P0) = if bb_intersects ib jb && stale x (true, i) && stale x (true, j) then 1 else 0).
  { unfold F, P0. rewrite <- cnt_fl, (m_pairs x Mx), Hh. reflexivity. }
  rewrite Hh, EL, !markL_app. change ((i, ib) :: M ++ (j, jb) :: A) with ([(i, ib)] ++ M ++ [(j, jb)] ++ A). rewrite !markL_app.
  set (m0 := markL x B (P0, [])).
  assert (inc : forall p, (In p B \/ In p M \/ In p A) -> In p (leaf_list x true)).
  { intros p Hp. rewrite EL, in_app_iff. cbn. rewrite in_app_iff. cbn. tauto. }
  destruct (markL_other x B (P0, []) (true, i) (true, j) W) as [E0 E0']; [auto| | |].
  { rewrite tkey_in. auto. } { rewrite tkey_in. tauto. }
  fold m0 F in E0, E0'. cbn [fst snd] in E0, E0'.
  set (m1 := markL x [(i, ib)] m0). set (m2 := markL x M m1). set (m3 := markL x [(j, jb)] m2).
  destruct (markL_other x M m1 (true, i) (true, j) W) as [E2 E2']; [auto| | |].
  { rewrite tkey_in. tauto. } { rewrite tkey_in. tauto. }
  fold m2 F in E2, E2'.
  destruct (markL_other x A m3 (true, i) (true, j) W) as [E4 E4']; [auto| | |].
  { rewrite tkey_in. intros Hx. apply NiR. right. right. auto. } { rewrite tkey_in. auto. }
  fold F in E4, E4'. rewrite !cnt_fl. fold F. rewrite E4, E4'. clear E4 E4'.
  assert (Em1 : m1 = mark_leaf x i ib m0) by reflexivity. assert (Em3 : m3 = mark_leaf x j jb m2) by reflexivity.
  assert (Sli : x_lstamp x (true, i) <= x_stamp x) by (apply Mx; apply (in_map fst _ _ Ii)).
  assert (Slj : x_lstamp x (true, j) <= x_stamp x) by (apply Mx; apply (in_map fst _ _ Ij)).
  assert (Ini : In i (map fst (leaf_list x true))) by (apply (in_map fst _ _ Ii)).
  assert (Inj : In j (map fst (leaf_list x true))) by (apply (in_map fst _ _ Ij)).
  assert (Aft : In (j, jb) (after i (leaf_list x true))).
  { rewrite EL. rewrite (proj1 (after_split i ib B _ NiB)). apply in_or_app. right. left. auto. }
  assert (Bef : In (i, ib) (before j (leaf_list x true))).
  { rewrite EL, app_comm_cons, app_assoc.
    assert (Nj : ~ In j (map fst (B ++ (i, ib) :: M))) by (rewrite map_app, in_app_iff; cbn; tauto).
    rewrite (proj2 (after_split j jb (B ++ (i, ib) :: M) A Nj)). apply in_or_app. right. left. auto. }
  assert (Fj : forall l, F l = fl (true, j) (true, i) l) by (intros; apply fl_sym).
  destruct (Nat.eq_dec (x_lstamp x (true, i)) (x_stamp x)) as [Hi|Hi];
  destruct (Nat.eq_dec (x_lstamp x (true, j)) (x_stamp x)) as [Hj|Hj].
  - (* both moved *)
    unfold stale in L0. rewrite Hi, Nat.ltb_irrefl, andb_false_r in L0. cbn in L0. apply length_zero_iff_nil in L0.
    destruct (mark_moved_dyn x i ib m0 j jb true W Ini Hi Aft) as [A1 A2]. fold F in A1, A2. rewrite <- Em1 in A1, A2.
    destruct (mark_moved_dyn x j jb m2 i ib false W Inj Hj Bef) as [A3 A4]. rewrite <- Em3, <- !Fj in A3, A4.
    rewrite A3, A4, E2, E2', A1, A2, E0, E0', L0. rewrite (intersects_sym jb ib). unfold add_p, add_c. rewrite Hi, Hj, Nat.ltb_irrefl.
    destruct (bb_intersects ib jb); cbn; auto.
  - (* i moved *)
    unfold stale in L0. rewrite Hi, Nat.ltb_irrefl, andb_false_r in L0. cbn in L0. apply length_zero_iff_nil in L0.
    destruct (mark_moved_dyn x i ib m0 j jb true W Ini Hi Aft) as [A1 A2]. fold F in A1, A2. rewrite <- Em1 in A1, A2.
    destruct (mark_unmoved x j jb m2 (true, i) (true, j) Hj) as [A3 A4]. rewrite <- Em3 in A3, A4. rewrite !cnt_fl in A4. fold F in A4.
    rewrite A3, A4, E2, E2', A1, A2, E0, E0', L0. unfold add_p, add_c.
    destruct (bb_intersects ib jb); cbn [app length filter snd]; auto.
    rewrite key_eqb_refl. cbn. auto.
  - (* j moved *)
    unfold stale in L0. rewrite Hj, Nat.ltb_irrefl, andb_false_r in L0. apply length_zero_iff_nil in L0.
    destruct (mark_unmoved x i ib m0 (true, i) (true, j) Hi) as [A1 A2]. rewrite <- Em1 in A1, A2. rewrite !cnt_fl in A2. fold F in A2.
    destruct (mark_moved_dyn x j jb m2 i ib false W Inj Hj Bef) as [A3 A4]. rewrite <- Em3, <- !Fj in A3, A4.
    rewrite E0, E0', L0 in A2. cbn [filter length Nat.add] in A2. apply length_zero_iff_nil in A2.
    rewrite A3, A4, E2, E2', A1, A2, E0, L0. rewrite (intersects_sym jb ib). unfold add_p, add_c. rewrite Hj.
    assert (Hl : Nat.ltb (x_lstamp x (true, i)) (x_stamp x) = true) by (apply Nat.ltb_lt; lia). rewrite Hl.
    destruct (bb_intersects ib jb); cbn; auto.
  - (* neither moved *)
    assert (Hli : stale x (true, i) = true) by (apply Nat.ltb_lt; lia).
    assert (Hlj : stale x (true, j) = true) by (apply Nat.ltb_lt; lia).
    rewrite Hli, Hlj, !andb_true_r in L0.
    destruct (mark_unmoved x i ib m0 (true, i) (true, j) Hi) as [A1 A2]. rewrite <- Em1 in A1, A2. rewrite !cnt_fl in A2. fold F in A2.
    destruct (mark_unmoved x j jb m2 (true, i) (true, j) Hj) as [A3 A4]. rewrite <- Em3 in A3, A4. rewrite !cnt_fl in A4. fold F in A4.
    rewrite A3, A4, E2, E2', A1, A2, E0, E0'. change (length (F [])) with 0.
    split; [exact L0|]. rewrite <- L0, <- (split_snd i j (F P0) Hij); [lia|]. intros p Hp. eapply fl_In. exact Hp.
Qed.

(* a dynamic leaf and something that is not a dynamic leaf *)
Lemma pair_one x B i ib A k : mid x -> leaf_list x true = B ++ (i, ib) :: A -> (fst k = false \/ ~ indexed x k \/ k = (true, i)) ->
  (forall k, fst k = false -> indexed x k -> x_lstamp x k < x_stamp x) ->
  let m := markL x (leaf_list x true) (x_pairs x, []) in
  occurrences (true, i) k (fst m) = (if hit x (true, i) k then 1 else 0) /\
  occurrences (true, i) k (snd m) = (if hit x (true, i) k then 1 else 0).
Proof.
  intros Mx EL Hk Hst. cbn zeta. pose proof (m_wf x Mx) as W. destruct (W true) as [ND _]. rewrite EL in ND.
  assert (Ii : In (i, ib) (leaf_list x true)) by (rewrite EL; apply in_or_app; right; left; auto).
  destruct (nd_mid_sym B A (i, ib) ND) as [NiB NiA]. cbn in NiB, NiA.
  assert (NkB : forall L, (forall p, In p L -> In p (B ++ A)) -> ~ In k (map (fun p => (true, fst p)) L)).
  { intros L HL Hx. apply in_map_iff in Hx as (p & <- & Hp). destruct Hk as [Hk|[Hk|Hk]].
    - discriminate.
    - apply Hk. unfold indexed; cbn. apply in_map. rewrite EL. apply HL in Hp. apply in_app_or in Hp.
      apply in_or_app. cbn. tauto.
    - injection Hk as Hk. apply HL in Hp. apply (in_map fst) in Hp. rewrite map_app, in_app_iff, Hk in Hp. tauto. }
  set (F := fl (true, i) k). set (P0 := x_pairs x).
  assert (Ki : key_box x (true, i) = Some ib) by (apply key_box_In; auto).
  assert (L0 : length (F P0) = if hit x (true, i) k && stale x (true, i) && stale x k then 1 else 0).
  { unfold F, P0. rewrite <- cnt_fl. apply (m_pairs x Mx). }
  rewrite EL, !markL_app. change ((i, ib) :: A) with ([(i, ib)] ++ A). rewrite !markL_app.
  set (m0 := markL x B (P0, [])).
  assert (inc : forall p, (In p B \/ In p A) -> In p (leaf_list x true)).
  { intros p Hp. rewrite EL, in_app_iff. cbn. tauto. }
  destruct (markL_other x B (P0, []) (true, i) k W) as [E0 E0']; [auto| | |].
  { rewrite tkey_in. auto. } { apply NkB. intros. apply in_or_app. auto. }
  fold m0 F in E0, E0'. cbn [fst snd] in E0, E0'.
  set (m1 := markL x [(i, ib)] m0).
  destruct (markL_other x A m1 (true, i) k W) as [E4 E4']; [auto| | |].
  { rewrite tkey_in. auto. } { apply NkB. intros. apply in_or_app. auto. }
  fold F in E4, E4'. rewrite !cnt_fl. fold F. rewrite E4, E4'. clear E4 E4'.
  assert (Em1 : m1 = mark_leaf x i ib m0) by reflexivity.
  assert (Sli : x_lstamp x (true, i) <= x_stamp x) by (apply Mx; apply (in_map fst _ _ Ii)).
  assert (Ini : In i (map fst (leaf_list x true))) by (apply (in_map fst _ _ Ii)).
  destruct (Nat.eq_dec (x_lstamp x (true, i)) (x_stamp x)) as [Hi|Hi].
  - assert (L1 : F P0 = []). { apply length_zero_iff_nil. rewrite L0. unfold stale at 1. rewrite Hi, Nat.ltb_irrefl, andb_false_r. reflexivity. }
    destruct (key_box x k) as [kb|] eqn:Ek.
    + destruct (key_eqb_spec k (true, i)) as [->|Hne].
      { destruct (mark_moved_none x i ib m0 (true, i) W Ini Hi) as [A1 A2]; [right; auto|]. rewrite <- Em1 in A1, A2. fold F in A1, A2.
        rewrite A1, A2, E0, E0', L1, hit_self. auto. }
      destruct Hk as [Hk|[Hk|Hk]]; [|apply key_box_None in Hk; congruence|congruence].
      destruct k as [e j]. cbn in Hk. subst e. rewrite (hit_boxes x (true, i) (false, j) ib kb) by auto.
      pose proof Ek as Ek'. apply key_box_In in Ek'; auto. cbn in Ek'.
      destruct (mark_moved_sta x i ib m0 j kb W Ini Hi Ek') as [A1 A2]. rewrite <- Em1 in A1, A2. fold F in A1, A2.
      rewrite A1, A2, E0, E0', L1.
      unfold add_p, add_c. rewrite Hi.
      assert (Hl : Nat.ltb (x_lstamp x (false, j)) (x_stamp x) = true) by (apply Nat.ltb_lt; apply Hst; auto; apply (in_map fst _ _ Ek')).
      rewrite Hl. destruct (bb_intersects ib kb); cbn; auto.
    + destruct (mark_moved_none x i ib m0 k W Ini Hi) as [A1 A2]; [left; apply key_box_None in Ek; exact Ek|].
      rewrite <- Em1 in A1, A2. fold F in A1, A2. rewrite A1, A2, E0, E0', L1, hit_none by auto. auto.
  - assert (Hli : stale x (true, i) = true) by (apply Nat.ltb_lt; lia).
    destruct (mark_unmoved x i ib m0 (true, i) k Hi) as [A1 A2]. rewrite <- Em1 in A1, A2. rewrite !cnt_fl in A2. fold F in A2.
    rewrite A1, A2, E0, E0'. change (length (F [])) with 0. rewrite Nat.add_0_r.
    assert (L1 : length (F P0) = if hit x (true, i) k then 1 else 0).
    { rewrite L0. destruct (hit x (true, i) k) eqn:Eh; [|reflexivity]. rewrite Hli. unfold stale.
      destruct (hit_indexed _ _ _ Eh) as [_ Hik].
      destruct Hk as [Hk|[Hk| ->]]; [|tauto|rewrite hit_self in Eh; discriminate].
      apply Hst in Hik; auto. apply Nat.ltb_lt in Hik. rewrite Hik. reflexivity. }
    split; [exact L1|]. rewrite <- L1. f_equal.
    assert (Fa : forall p, In p (F P0) -> key_eqb (true, i) (snd p) = true).
    { intros p Hp. assert (Hs := fl_In _ _ _ _ Hp). apply same_pair_spec in Hs.
      destruct Hs as [Hs|Hs]; [|subst p; apply key_eqb_refl].
      destruct Hk as [Hk|Hk].
      - assert (Ho : fst (snd p) = true). { apply (m_orient x Mx). unfold F, fl in Hp. apply filter_In in Hp. apply Hp. }
        rewrite Hs in Ho; cbn in Ho. congruence.
      - destruct (hit x (true, i) k) eqn:Eh.
        + destruct (hit_indexed _ _ _ Eh) as [_ Hik]. destruct Hk as [Hk| ->]; [tauto|]. subst p. apply key_eqb_refl.
        + apply length_zero_iff_nil in L1. rewrite L1 in Hp. destruct Hp. }
    revert Fa. generalize (F P0). intros l Fa. induction l as [|p l IH]; [reflexivity|]. cbn [filter]. rewrite Fa by (left; auto).
    f_equal. apply IH. intros q Hq. apply Fa. right. auto.
Qed.

Lemma order_split (L : list (nat * bb)) i ib j jb : NoDup (map fst L) -> In (i, ib) L -> In (j, jb) L -> i <> j ->
  exists B M A, L = B ++ (i, ib) :: M ++ (j, jb) :: A \/ L = B ++ (j, jb) :: M ++ (i, ib) :: A.
Proof.
  intros ND Hi Hj Hne. destruct (in_split _ _ Hi) as (B & A & ->). apply in_app_or in Hj as [Hj|[Hj|Hj]].
  - destruct (in_split _ _ Hj) as (B1 & B2 & ->). exists B1, B2, A. right. rewrite <- app_assoc. reflexivity.
  - congruence.
  - destruct (in_split _ _ Hj) as (A1 & A2 & ->). exists B, A1, A2. left. reflexivity.
Qed.

(* MarkSubtree from the root *)
Lemma mark_all x : mid x -> (forall k, fst k = false -> indexed x k -> x_lstamp x k < x_stamp x) ->
  let m := markL x (leaf_list x true) (x_pairs x, []) in
  forall a b, occurrences a b (fst m) = (if hit x a b then 1 else 0) /\ occurrences a b (snd m) = (if hit x a b then 1 else 0).
Proof.
  intros Mx Hst m. pose proof (m_wf x Mx) as W. destruct (W true) as [ND _].
  assert (K : forall i k, indexed x (true, i) ->
    occurrences (true, i) k (fst m) = (if hit x (true, i) k then 1 else 0) /\ occurrences (true, i) k (snd m) = (if hit x (true, i) k then 1 else 0)).
  { intros i k Hi. destruct (indexed_box x _ Hi) as [ib Ei]. apply key_box_In in Ei; auto. cbn in Ei.
    assert (One : (fst k = false \/ ~ indexed x k \/ k = (true, i)) ->
      occurrences (true, i) k (fst m) = (if hit x (true, i) k then 1 else 0) /\ occurrences (true, i) k (snd m) = (if hit x (true, i) k then 1 else 0)).
    { intros Hk. destruct (in_split _ _ Ei) as (B & A & EL). apply (pair_one x B i ib A k Mx EL Hk Hst). }
    destruct k as [[|] j]; [|apply One; left; reflexivity].
    destruct (in_dec Nat.eq_dec j (map fst (leaf_list x true))) as [Hj|Hj]; [|apply One; right; left; exact Hj].
    destruct (Nat.eq_dec i j) as [->|Hne]; [apply One; right; right; reflexivity|].
    destruct (indexed_box x (true, j) Hj) as [jb Ej]. apply key_box_In in Ej; auto. cbn in Ej.
    destruct (order_split _ i ib j jb ND Ei Ej Hne) as (B & M & A & [EL|EL]).
    - apply (pair_dyn x B i ib M j jb A Mx EL).
    - rewrite hit_sym, !(occ_sym (true, i)). apply (pair_dyn x B j jb M i ib A Mx EL). }
  assert (D : forall k, {i | k = (true, i) /\ indexed x k} + {~ In k (map (fun p => (true, fst p)) (leaf_list x true))}).
  { intros [[|] j]; [|right; rewrite in_map_iff; intros (p & E & _); discriminate].
    destruct (in_dec Nat.eq_dec j (map fst (leaf_list x true))) as [Hj|Hj]; [left; exists j; auto|right; rewrite tkey_in; auto]. }
  intros a b. destruct (D a) as [(i & -> & Hi)|Da]; [apply K; auto|].
  destruct (D b) as [(i & -> & Hi)|Db]; [rewrite hit_sym, !(occ_sym a); apply K; auto|].
  assert (Hh : hit x a b = false).
  { destruct (hit x a b) eqn:E; auto. exfalso. destruct (hit_indexed _ _ _ E) as [Ia Ib]. unfold hit in E.
    destruct (key_box x a), (key_box x b); try discriminate. destruct a as [[|] i].
    - apply Da. rewrite tkey_in. exact Ia.
    - destruct b as [[|] j]; [apply Db; rewrite tkey_in; exact Ib|discriminate]. }
  destruct (markL_other x (leaf_list x true) (x_pairs x, []) a b W (fun p H => H) Da Db) as [E1 E2].
  rewrite !cnt_fl. subst m. rewrite E1, E2, Hh, <- cnt_fl, (m_pairs x Mx), Hh. auto.
Qed.

Lemma do_query_spec x order : inv x -> Permutation order (x_leaves x true) ->
  let '(y, calls) := do_query x order in
  inv y /\ (forall a b, occurrences a b calls = if hit y a b then 1 else 0) /\
  (forall i, In i (x_leaves y true) -> fresh_box y i) /\ x_box y = x_box x /\ (forall d, x_leaves y d = x_leaves x d).
Proof.
  intros [M St] P. unfold do_query. destruct (x_dyn x) as [t0|] eqn:Er.
  2:{ split; [split; auto|]. split; [|split; [|auto]].
      - intros a b. destruct (hit x a b) eqn:E; [|reflexivity]. exfalso. destruct (hit_indexed _ _ _ E) as [Ia Ib].
        assert (Nn : forall i, ~ indexed x (true, i)). { intros i Hi. unfold indexed, leaf_list in Hi; cbn in Hi. rewrite Er in Hi. destruct Hi. }
        unfold hit in E. destruct (key_box x a), (key_box x b); try discriminate. destruct a as [[|] i]; [apply (Nn i); auto|].
        destruct b as [[|] j]; [apply (Nn j); auto|discriminate].
      - intros i Hi. apply (is_indexed x true i M) in Hi. unfold indexed, leaf_list in Hi; cbn in Hi. rewrite Er in Hi. destruct Hi. }
  destruct (updates x order M) as (My & By & Vy & Sy & Ly & Iy & Oy & Fy).
  { intros i Hi. apply is_indexed; auto. eapply Permutation_in; eauto. }
  set (y := fold_left _ order x) in *.
  assert (Hst : forall k, fst k = false -> indexed y k -> x_lstamp y k < x_stamp y).
  { intros k Hk Hi. rewrite Oy, Sy by auto. apply St. apply Iy. auto. }
  pose proof (mark_all y My Hst) as MA. cbn zeta in MA. pose proof (m_wf y My) as W.
  assert (Or := markL_orient y (leaf_list y true) (x_pairs y, []) W (fun p H => H) (m_orient y My)).
  destruct (x_dyn y) as [t|] eqn:Ety.
  2:{ exfalso. assert (In (match tleaves t0 with p :: _ => fst p | [] => 0 end) (map fst (leaf_list x true))) as Hx.
      { unfold leaf_list; cbn. rewrite Er. pose proof (tleaves_nonempty t0). destruct (tleaves t0); [congruence|left; auto]. }
      assert (Hy : indexed y (true, match tleaves t0 with p :: _ => fst p | [] => 0 end)) by (apply Iy; exact Hx).
      unfold indexed, leaf_list in Hy; cbn in Hy. rewrite Ety in Hy. destruct Hy. }
  assert (EL : leaf_list y true = tleaves t) by (unfold leaf_list; cbn; rewrite Ety; reflexivity). rewrite EL in MA, Or.
  fold (markL y (tleaves t) (x_pairs y, [])). set (m := markL y (tleaves t) (x_pairs y, [])) in *.
  set (z := increment_stamp (set_pairs y (fst m))).
  assert (R : forall e, x_root z e = x_root y e) by (intros e; destruct e; reflexivity).
  assert (Hz : forall a b, hit z a b = hit y a b) by (intros; apply hit_ext; apply box_same; auto).
  assert (Sz : forall k, indexed z k -> x_lstamp z k < x_stamp z).
  { intros k Hk. apply (indexed_same _ _ _ R) in Hk. cbn. apply (m_stamp y My) in Hk. lia. }
  split; [|split; [|split; [|split]]].
  - split; [|exact Sz]. split.
    + apply (wf_same _ _ R W).
    + intros e. unfold leaf_list. rewrite R. replace (x_leaves z e) with (x_leaves y e) by (destruct e; reflexivity). apply My.
    + intros k Hk. apply Nat.lt_le_incl. auto.
    + intros k b. rewrite (box_same _ _ _ R). apply My.
    + apply My.
    + intros a b. change (x_pairs z) with (fst m). rewrite (proj1 (MA a b)), <- Hz. destruct (hit z a b) eqn:E; [|reflexivity].
      destruct (hit_indexed _ _ _ E) as [Ia Ib]. apply Sz in Ia, Ib. apply Nat.ltb_lt in Ia, Ib. unfold stale. rewrite Ia, Ib. reflexivity.
    + exact Or.
  - intros a b. rewrite occ_rev, (proj2 (MA a b)), Hz. reflexivity.
  - intros i Hi. assert (F : fresh_box y i).
    { apply Fy. left. eapply Permutation_in; [symmetry; exact P|]. replace (x_leaves z true) with (x_leaves y true) in Hi by reflexivity.
      rewrite Ly in Hi. exact Hi. }
    destruct F as (b & F1 & F2). exists b. rewrite (box_same _ _ _ R). auto.
  - exact By.
  - intros d. rewrite <- Ly. destruct d; reflexivity.
Qed.

(** ** Histories *)
Lemma inv0 box vel : (forall i, good_box (box i) /\ good_vel (vel i)) -> inv (index0 box vel).
Proof.
  intros G. split.
  - split; cbn; try tauto.
    + intros d. destruct d; split; try (constructor); discriminate.
    + intros d. destruct d; constructor.
    + intros k. unfold indexed, leaf_list. destruct (fst k); cbn; tauto.
    + intros k b. unfold key_box. destruct (fst k); discriminate.
    + intros a b. rewrite hit_none; [reflexivity|]. unfold key_box. destruct (fst b); reflexivity.
  - intros k. unfold indexed, leaf_list. destruct (fst k); cbn; tauto.
Qed.
Lemma step_inv x o : inv x -> xvalid x o -> inv (xstep x o).
Proof.
  intros I V. destruct o as [box vel|d i|d i|d i|order]; cbn in *.
  - destruct I as [M St]. split; [|exact St]. destruct M as [M1 M2 M3 M4 M5 M6 M7]. split; auto.
  - apply do_insert_inv; auto.
  - apply do_remove_inv; auto.
  - apply do_reindex_inv; auto.
  - pose proof (do_query_spec x order I V) as Q. destruct (do_query x order). apply Q.
Qed.
Lemma run_inv h x : inv x -> xvalid_all x h -> inv (xrun x h).
Proof.
  revert x. induction h as [|o h IH]; intros x I V; [exact I|]. destruct V as [V1 V2].
  unfold xrun in *; cbn [fold_left]. apply IH; auto. apply step_inv; auto.
Qed.
Lemma reached_inv x : reached x -> inv x.
Proof. intros (box & vel & h & G & V & ->). apply run_inv; auto. apply inv0. auto. Qed.
End P.
