(** Trees: insertion and removal keep leaves and bounds; box queries. *)
From Coq Require Import ZArith Bool List Arith Permutation Lia.
From Verif Require Import Num Vec BB BBProofs BBTree BBTreeSpec.
Import ListNotations.

Section P.
Context {N : Num} {O : NumOrd N}.

Lemma nd_app_l {A} (l r : list A) : NoDup (l ++ r) -> NoDup l.
Proof. induction l as [|a l IH]; cbn; intros H; constructor; inversion H; subst; auto. intros Hi. apply H2. apply in_or_app. auto. Qed.
Lemma nd_app_r {A} (l r : list A) : NoDup (l ++ r) -> NoDup r.
Proof. induction l as [|a l IH]; cbn; intros H; auto. inversion H; auto. Qed.
Lemma nd_app_x {A} (l r : list A) a : NoDup (l ++ r) -> In a l -> ~ In a r.
Proof.
  induction l as [|c l IH]; cbn; intros H; [tauto|]. inversion H; subst. intros [->|Hi]; [|auto].
  intros Hr. apply H2. apply in_or_app. auto.
Qed.

Lemma bounded_ok t : bounded t -> bb_ok (tbb t).
Proof. destruct t; cbn; tauto. Qed.
Lemma bounded_contains t p : bounded t -> In p (tleaves t) -> bb_contains (tbb t) (snd p) = true.
Proof.
  destruct t as [i b|b l r]; cbn.
  - intros H [<-|[]]. apply contains_refl. exact H.
  - intros (_ & _ & _ & H). apply H.
Qed.
Lemma new_node_bounded a b : bounded a -> bounded b -> bounded (new_node a b).
Proof.
  intros Ha Hb. cbn. pose proof (bounded_ok _ Ha). pose proof (bounded_ok _ Hb).
  split; [apply merge_ok; auto|]. split; auto. split; auto. intros p Hp. apply in_app_or in Hp as [Hp|Hp].
  - eapply contains_trans; [apply merge_contains_l; auto | apply bounded_contains; auto].
  - eapply contains_trans; [apply merge_contains_r; auto | apply bounded_contains; auto].
Qed.

Lemma tinsert_leaves t i lb : Permutation (tleaves (tinsert t i lb)) ((i, lb) :: tleaves t).
Proof.
  induction t as [j b|b l IHl r IHr]; cbn.
  - reflexivity.
  - destruct (goes_right l r lb); cbn.
    + rewrite IHr. symmetry. apply Permutation_middle.
    + rewrite IHl. reflexivity.
Qed.
Lemma tinsert_bounded t i lb : bounded t -> bb_ok lb -> bounded (tinsert t i lb).
Proof.
  intros Ht Hb. induction t as [j b|b l IHl r IHr].
  - apply new_node_bounded; auto.
  - assert (K : forall p, In p ((i, lb) :: tleaves l ++ tleaves r) -> bb_contains (bb_merge b lb) (snd p) = true).
    { intros p [<-|Hp]; [apply merge_contains_r; auto; apply (bounded_ok _ Ht)|].
      eapply contains_trans; [apply merge_contains_l; auto; apply (bounded_ok _ Ht)|]. apply Ht. exact Hp. }
    cbn [tinsert]. destruct Ht as (Hok & Hl & Hr & Hc). destruct (goes_right l r lb); cbn [bounded].
    + split; [apply merge_ok; auto|]. split; auto. split; auto. intros p Hp. apply K.
      eapply Permutation_in; [|exact Hp]. rewrite tinsert_leaves. symmetry. apply Permutation_middle.
    + split; [apply merge_ok; auto|]. split; auto. split; auto. intros p Hp. apply K.
      eapply Permutation_in; [|exact Hp]. rewrite tinsert_leaves. reflexivity.
Qed.

Lemma has_spec i t : has i t = true <-> In i (map fst (tleaves t)).
Proof.
  unfold has. rewrite existsb_exists, in_map_iff. split.
  - intros (p & Hp & E). apply Nat.eqb_eq in E. exists p. auto.
  - intros (p & E & Hp). exists p. split; auto. apply Nat.eqb_eq. auto.
Qed.
Lemma tleaves_nonempty t : tleaves t <> [].
Proof. induction t as [|b l IHl r IHr]; cbn; [discriminate|]. destruct (tleaves l); [auto | discriminate]. Qed.

Lemma tremove_leaves t i : NoDup (map fst (tleaves t)) -> In i (map fst (tleaves t)) ->
  match tremove t i with
  | None => exists b, tleaves t = [(i, b)]
  | Some t' => exists b, Permutation (tleaves t) ((i, b) :: tleaves t')
  end.
Proof.
  induction t as [j b|b l IHl r IHr]; intros ND Hi.
  - cbn in *. destruct Hi as [<-|[]]. rewrite Nat.eqb_refl. eauto.
  - cbn [tremove]. cbn [tleaves] in *. rewrite map_app in ND, Hi.
    destruct (is_leaf_of i l) eqn:El.
    { destruct l as [j bl|]; [|discriminate]. cbn in El. apply Nat.eqb_eq in El. subst j. exists bl. reflexivity. }
    destruct (is_leaf_of i r) eqn:Er.
    { destruct r as [j br|]; [|discriminate]. cbn in Er. apply Nat.eqb_eq in Er. subst j. exists br. cbn.
      symmetry. apply Permutation_cons_append. }
    destruct (has i l) eqn:Hh.
    + apply has_spec in Hh. specialize (IHl (nd_app_l _ _ ND) Hh).
      destruct (tremove l i) as [l'|].
      * destruct IHl as (bi & P). exists bi. cbn. rewrite P. reflexivity.
      * destruct IHl as (bi & P). rewrite P. exists bi. reflexivity.
    + assert (Hr : In i (map fst (tleaves r))).
      { apply in_app_or in Hi as [Hi|Hi]; auto. apply has_spec in Hi. congruence. }
      specialize (IHr (nd_app_r _ _ ND) Hr). destruct (tremove r i) as [r'|].
      * destruct IHr as (bi & P). exists bi. cbn. rewrite P. symmetry. apply Permutation_middle.
      * destruct IHr as (bi & P). exists bi. rewrite P. symmetry. apply Permutation_cons_append.
Qed.
Lemma tremove_bounded t i t' : bounded t -> tremove t i = Some t' -> bounded t'.
Proof.
  revert t'. induction t as [j b|b l IHl r IHr]; intros t' H E.
  - cbn in E. destruct (Nat.eqb i j); [discriminate|]. injection E as <-. auto.
  - cbn [tremove] in E. destruct H as (H0 & Hl & Hr & Hc).
    destruct (is_leaf_of i l); [injection E as <-; auto|].
    destruct (is_leaf_of i r); [injection E as <-; auto|].
    destruct (has i l).
    + destruct (tremove l i) as [l'|]; injection E as <-; auto. apply new_node_bounded; auto.
    + destruct (tremove r i) as [r'|]; injection E as <-; auto. apply new_node_bounded; auto.
Qed.

(** ** leaf_bb *)
Lemma leaf_bb_spec t i b : NoDup (map fst (tleaves t)) -> (leaf_bb (Some t) i = Some b <-> In (i, b) (tleaves t)).
Proof.
  cbn. generalize (tleaves t). intros L ND. induction L as [|[j c] L IH]; cbn; [split; [discriminate|tauto]|].
  inversion ND as [|? ? Hn ND']; subst. destruct (Nat.eqb_spec i j) as [->|Hne].
  - split; [intros E; injection E as <-; auto|]. intros [E|Hin]; [injection E as <-; auto|].
    exfalso. apply Hn. apply (in_map fst) in Hin. exact Hin.
  - rewrite IH by auto. split; [auto|]. intros [E|Hin]; [congruence | auto].
Qed.
Lemma leaf_bb_None t i : leaf_bb (Some t) i = None <-> ~ In i (map fst (tleaves t)).
Proof.
  cbn. generalize (tleaves t). intros L. induction L as [|[j c] L IH]; cbn; [tauto|].
  destruct (Nat.eqb_spec i j) as [->|Hne]; [split; [discriminate|tauto]|]. rewrite IH.
  split; [intros H [E|H1]; [congruence|auto] | tauto].
Qed.

(** ** Box queries (C11) *)
Lemma tquery_spec t q : bounded t ->
  tquery t q = map fst (filter (fun p => bb_intersects (snd p) q) (tleaves t)).
Proof.
  induction t as [i b|b l IHl r IHr]; intros H; cbn.
  - destruct (bb_intersects b q); reflexivity.
  - destruct H as (H0 & Hl & Hr & Hc). destruct (bb_intersects b q) eqn:E.
    + rewrite IHl, IHr, filter_app, map_app by auto. reflexivity.
    + replace (filter _ (tleaves l ++ tleaves r)) with (@nil (nat * bb)); [reflexivity|].
      symmetry. revert Hc. generalize (tleaves l ++ tleaves r). intros L Hc.
      induction L as [|p L IH]; [reflexivity|]. cbn. destruct (bb_intersects (snd p) q) eqn:Ep.
      * rewrite (contains_intersects b (snd p) q) in E; [discriminate| apply Hc; left; auto | auto].
      * apply IH. intros p' Hp'. apply Hc. right. auto.
Qed.

(** ** The fat box (C10) *)
Lemma fat_ok b v : good_box b -> good_vel v -> bb_contains (fat_bb b v) b = true.
Proof.
  intros [[W1 W2] (F1 & F2 & F3 & F4)] [V1 V2]. apply contains_spec.
  assert (L : nfin (nlit 1 10)) by (apply nlit_fin; lia).
  assert (LP : nltb n0 (nlit 1 10) = true) by (apply nlit_gt0; lia).
  assert (K : forall lo hi, nfin lo -> nfin hi -> nleb lo hi = true ->
             nleb n0 (nmul (nsub hi lo) (nlit 1 10)) = true).
  { intros lo hi Hl Hh Hle. apply nmul_pos_nonneg; auto. apply nsub_nonneg; auto. }
  pose proof (K _ _ F1 F3 W1) as Kx. pose proof (K _ _ F2 F4 W2) as Ky.
  assert (NN : forall u, nleb n0 u = true -> nleb (nneg u) n0 = true).
  { intros u Hu. eapply nleb_trans; [apply nneg_le; exact Hu|]. apply nneg_0. }
  assert (Vx : nok (vx (vscale v (nlit 1 10)))) by (cbn; apply nmul_fin_ok; auto).
  assert (Vy : nok (vy (vscale v (nlit 1 10)))) by (cbn; apply nmul_fin_ok; auto).
  unfold fat_bb; cbn [bL bB bR bT]. repeat split.
  - apply nadd_nonpos; auto. eapply nleb_trans; [apply nmin_l; auto|apply NN; auto].
    apply nleb_ok in Kx. apply nneg_ok. tauto.
  - apply nadd_nonneg; auto. eapply nleb_trans; [exact Kx|]. apply nmax_l; auto. apply nleb_ok in Kx. tauto.
  - apply nadd_nonpos; auto. eapply nleb_trans; [apply nmin_l; auto|apply NN; auto].
    apply nleb_ok in Ky. apply nneg_ok. tauto.
  - apply nadd_nonneg; auto. eapply nleb_trans; [exact Ky|]. apply nmax_l; auto. apply nleb_ok in Ky. tauto.
Qed.
Lemma contains_ok a b : bb_contains a b = true -> bb_ok a.
Proof.
  rewrite contains_spec. intros (H1 & H2 & H3 & H4).
  apply nleb_ok in H1, H2, H3, H4. unfold bb_ok. tauto.
Qed.
Lemma good_box_ok b : good_box b -> bb_ok b.
Proof. intros [H _]. apply bb_wf_ok. exact H. Qed.
Lemma get_bb_contains x d i : good_box (x_box x i) -> good_vel (x_vel x i) -> bb_contains (get_bb x d i) (x_box x i) = true.
Proof.
  intros H1 H2. destruct d; cbn; [apply fat_ok; auto|]. apply contains_refl. apply good_box_ok. auto.
Qed.
End P.
