(** GJK and EPA always end; the dispatch always finds a routine; at most two contacts (for C43). *)
From Coq Require Import ZArith NArith List Bool Lia PeanoNat.
From Verif Require Import Num Vec BB Transform Shapes Narrow NarrowFloat.
Import ListNotations.

Section Term.
Context {Nm : Num}.
Variable tiny : num.
Notation epa_recurse := (epa_recurse tiny).
Notation gjk_recurse := (gjk_recurse tiny).
Notation gjk := (gjk tiny).
Notation collide := (collide tiny).

Lemma epa_more s1 s2 : forall f hull it, (31 <= f + it)%nat -> exists r, forall f', (f <= f')%nat -> f' <> O -> epa_recurse f' s1 s2 hull it = Some r.
Proof.
  induction f; intros hull it Le.
  - eexists. intros [|f'] L Z; [congruence|]. cbn [Narrow.epa_recurse].
    replace (Nat.ltb it 30) with false by (symmetry; apply Nat.ltb_ge; lia). rewrite andb_false_r. reflexivity.
  - set (mini := nearest_side hull). set (next := Nat.modulo (mini + 1) (length hull)).
    set (v0 := nth mini hull (MPoint vzero vzero vzero 0)). set (v1 := nth next hull (MPoint vzero vzero vzero 0)).
    set (p := ctx_support s1 s2 (vperp (vsub (mp_ab v1) (mp_ab v0)))).
    destruct (negb ((mp_id p =? mp_id v0)%N || (mp_id p =? mp_id v1)%N) && point_greater (mp_ab v0) (mp_ab v1) (mp_ab p) && Nat.ltb it 30)%bool eqn:C.
    2:{ eexists. intros [|f'] L Z; [congruence|]. cbn [Narrow.epa_recurse]. fold mini; fold next; fold v0; fold v1; fold p. rewrite C. reflexivity. }
    destruct (Nat.eq_dec f 0) as [->|Hf].
    { exfalso. apply andb_true_iff in C as [_ C]. apply Nat.ltb_lt in C. lia. }
    destruct (IHf (p :: rebuild p (skipn next hull ++ firstn next hull) p) (it + 1)%nat) as [r Hr]; [lia|].
    exists r. intros [|f'] L Z; [congruence|]. cbn [Narrow.epa_recurse]. fold mini; fold next; fold v0; fold v1; fold p. rewrite C. apply Hr; lia.
Qed.
Lemma epa_ends s1 s2 hull : exists r, forall f, (30 <= f)%nat -> epa_recurse f s1 s2 hull 1 = Some r.
Proof. destruct (epa_more s1 s2 30 hull 1) as [r H]; [lia|]. exists r. intros. apply H; lia. Qed.

Lemma gjk_more (C : consistent Nm) s1 s2 : forall k it v0 v1, (31 <= k + it)%nat ->
  exists r, forall f, (2 * k + 1 <= f)%nat -> gjk_recurse f s1 s2 v0 v1 it = Some r.
Proof.
  induction k; intros it v0 v1 Le.
  - eexists. intros [|f] L; [lia|]. cbn [Narrow.gjk_recurse]. replace (Nat.ltb 30 it) with true by (symmetry; apply Nat.ltb_lt; lia). reflexivity.
  - destruct (Nat.ltb 30 it) eqn:T.
    { eexists. intros [|f] L; [lia|]. cbn [Narrow.gjk_recurse]. rewrite T. reflexivity. }
    assert (K : forall v0 v1, point_greater (mp_ab v1) (mp_ab v0) vzero = false ->
      exists r, forall f, (2 * k + 2 <= f)%nat -> gjk_recurse f s1 s2 v0 v1 it = Some r).
    { clear v0 v1. intros v0 v1 P.
      destruct (IHk (it + 1)%nat v0 (ctx_support s1 s2 (if (nltb (nneg n1) (closest_t (mp_ab v0) (mp_ab v1)) && nltb (closest_t (mp_ab v0) (mp_ab v1)) n1)%bool then vperp (vsub (mp_ab v1) (mp_ab v0)) else vneg (lerp_t (mp_ab v0) (mp_ab v1) (closest_t (mp_ab v0) (mp_ab v1)))))) as [r1 H1]; [lia|].
      destruct (IHk (it + 1)%nat (ctx_support s1 s2 (if (nltb (nneg n1) (closest_t (mp_ab v0) (mp_ab v1)) && nltb (closest_t (mp_ab v0) (mp_ab v1)) n1)%bool then vperp (vsub (mp_ab v1) (mp_ab v0)) else vneg (lerp_t (mp_ab v0) (mp_ab v1) (closest_t (mp_ab v0) (mp_ab v1))))) v1) as [r2 H2]; [lia|].
      set (p := ctx_support s1 s2 _) in *.
      destruct (epa_ends s1 s2 [v0; p; v1]) as [r3 H3].
      destruct (point_greater (mp_ab p) (mp_ab v0) vzero && point_greater (mp_ab v1) (mp_ab p) vzero)%bool eqn:B1;
      [|destruct (check_axis (mp_ab v0) (mp_ab v1) (mp_ab p) (if (nltb (nneg n1) (closest_t (mp_ab v0) (mp_ab v1)) && nltb (closest_t (mp_ab v0) (mp_ab v1)) n1)%bool then vperp (vsub (mp_ab v1) (mp_ab v0)) else vneg (lerp_t (mp_ab v0) (mp_ab v1) (closest_t (mp_ab v0) (mp_ab v1))))) eqn:B2; [|destruct (nltb (closest_dist (mp_ab v0) (mp_ab p)) (closest_dist (mp_ab p) (mp_ab v1))) eqn:B3]].
      all: eexists; intros [|f] L; [lia|]; cbn [Narrow.gjk_recurse]; rewrite T, P; fold p; rewrite B1.
      - unfold epa. rewrite H3 by lia. reflexivity.
      - rewrite B2. reflexivity.
      - rewrite B2, B3. apply H1. lia.
      - rewrite B2, B3. apply H2. lia. }
    destruct (point_greater (mp_ab v1) (mp_ab v0) vzero) eqn:P.
    + destruct (K v1 v0 (C _ _ P)) as [r H]. exists r. intros [|f] L; [lia|]. cbn [Narrow.gjk_recurse]. rewrite T, P. apply H. lia.
    + destruct (K v0 v1 P) as [r H]. exists r. intros f L. apply H. lia.
Qed.
Lemma gjk_ends (C : consistent Nm) s1 s2 v0 v1 : exists r, forall f, (61 <= f)%nat -> gjk_recurse f s1 s2 v0 v1 1 = Some r.
Proof. destruct (gjk_more C s1 s2 30 1 v0 v1) as [r H]; [lia|]. exists r. intros. apply H. lia. Qed.

Definition solid (s : shape) : Prop := forall p, s = SPoly p -> po_dst p <> [].
Lemma solid_has s : solid s -> has_points s = true.
Proof. destruct s as [c|g|p]; auto. intros H. specialize (H p eq_refl). cbn. destruct (po_dst p); congruence. Qed.
Lemma gjk_defined (C : consistent Nm) a b id : solid (ns_s a) -> solid (ns_s b) -> exists r, gjk a b id = Some r.
Proof.
  intros Sa Sb. unfold Narrow.gjk. rewrite (solid_has _ Sa), (solid_has _ Sb). cbn [andb].
  destruct (gjk_start a b id) as [v0 v1]. destruct (gjk_ends C (ns_s a) (ns_s b) v0 v1) as [r H]. exists r. apply H. lia.
Qed.

Lemma push_len i p1 p2 h : length (nf_arr (push i p1 p2 h)) = S (length (nf_arr i)).
Proof. unfold push. cbn. rewrite app_length. cbn. lia. Qed.
Lemma contact_points_len e1 e2 pts i : (length (nf_arr (contact_points tiny e1 e2 pts i)) <= 2 + length (nf_arr i))%nat.
Proof.
  unfold contact_points. destruct nltb; [lia|]. do 2 destruct nleb; rewrite ?push_len; cbn [nf_arr with_n]; lia.
Qed.
Lemma with_id_arr i id : nf_arr (with_id i id) = nf_arr i. Proof. reflexivity. Qed.

Lemma collide_total (C : consistent Nm) a b id : solid (ns_s a) -> solid (ns_s b) ->
  exists sw i, collide a b id = Some (sw, i) /\ (length (nf_arr i) <= 2)%nat.
Proof.
  intros Sa Sb.
  assert (K : forall a b, solid (ns_s a) -> solid (ns_s b) -> (order a <= order b)%nat ->
    exists r i, nth_error table (order a + order b * 3) = Some r /\ call tiny r a b (NInfo vzero [] id) = Some i /\ (length (nf_arr i) <= 2)%nat).
  { clear a b Sa Sb. intros a b Sa Sb L.
    destruct (gjk_defined C a b id Sa Sb) as [[pts e] G].
    assert (Z : forall j, (length (nf_arr (with_id (NInfo vzero [] id) j)) <= 0)%nat) by (intros; cbn; lia).
    unfold order in *. destruct (ns_s a) as [c1|g1|p1] eqn:Ea, (ns_s b) as [c2|g2|p2] eqn:Eb; cbn in L; try lia;
      cbn [Nat.add Nat.mul nth_error table]; eexists; eexists; (split; [reflexivity|]); unfold call; rewrite Ea, Eb.
    - split; [reflexivity|]. unfold circle_to_circle. destruct nltb; cbn; lia.
    - split; [reflexivity|]. unfold circle_to_segment. destruct nltb; [|cbn; lia]. match goal with |- context [if ?x then push _ _ _ _ else _] => destruct x end; cbn; lia.
    - unfold circle_to_poly. cbn [nf_id]. rewrite G. split; [reflexivity|]. destruct nleb; cbn; lia.
    - unfold segment_to_segment. cbn [nf_id]. rewrite G. split; [reflexivity|]. destruct nltb; [cbn; lia|].
      match goal with |- context [if ?x then contact_points _ _ _ _ _ else _] => destruct x end; [|cbn; lia].
      match goal with |- context [contact_points _ ?e1 ?e2 ?p ?i] => pose proof (contact_points_len e1 e2 p i); pose proof (Z (cp_id pts)) end. lia.
    - unfold segment_to_poly. cbn [nf_id]. rewrite G. split; [reflexivity|].
      match goal with |- context [if ?x then contact_points _ _ _ _ _ else _] => destruct x end; [|cbn; lia].
      match goal with |- context [contact_points _ ?e1 ?e2 ?p ?i] => pose proof (contact_points_len e1 e2 p i); pose proof (Z (cp_id pts)) end. lia.
    - unfold poly_to_poly. cbn [nf_id]. rewrite G. split; [reflexivity|]. destruct nleb; [|cbn; lia].
      match goal with |- context [contact_points _ ?e1 ?e2 ?p ?i] => pose proof (contact_points_len e1 e2 p i); pose proof (Z (cp_id pts)) end. lia. }
  unfold Narrow.collide. destruct (Nat.ltb_spec (order b) (order a)) as [L|L].
  - destruct (K b a Sb Sa) as (r & i & -> & -> & H); [lia|]. eauto.
  - destruct (K a b Sa Sb) as (r & i & -> & -> & H); [lia|]. eauto.
Qed.
Lemma shapes_collide_total (C : consistent Nm) a b : solid (ns_s a) -> solid (ns_s b) ->
  exists n l, shapes_collide tiny a b = Some (n, l) /\ (length l <= 2)%nat.
Proof.
  intros Sa Sb. destruct (collide_total C a b 0 Sa Sb) as (sw & i & E & L). unfold shapes_collide. rewrite E.
  eexists. eexists. split; [reflexivity|]. now rewrite map_length.
Qed.
End Term.
