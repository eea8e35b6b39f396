(** Boxes of circles, moved boxes, areas; scalings (C01, C04). *)
From Coq Require Import ZArith Bool Reals Lra.
From Verif Require Import Num NumReal Vec BB BBProofs Transform TransformProofs.
Local Open Scope R_scope.
Notation Rbb := (@bb RNum).
Definition in_box (v : @vec RNum) (b : Rbb) : Prop := bL b <= vx v <= bR b /\ bB b <= vy v <= bT b.
Lemma offset_moves (b : Rbb) v p : in_box (vadd p v) (bb_offset b v) <-> in_box p b.
Proof. destruct b as [l bo r t], v as [x y], p as [px py]. unfold in_box, bb_offset, vadd. cbn [bL bB bR bT vx vy]. unR. split; intros; lra. Qed.
Lemma offset_size (b : Rbb) v : bb_area (bb_offset b v) = bb_area b.
Proof. destruct b as [l bo r t], v as [x y]. unfold bb_area, bb_offset. cbn [bL bB bR bT vx vy]. unR. rring. Qed.
Lemma sq_bound (x y r : R) : 0 <= r -> x * x + y * y <= r * r -> - r <= x <= r.
Proof. intros R H. assert (x * x <= r * r) by (pose proof (Rle_0_sqr y); unfold Rsqr in *; lra). split; nra. Qed.
Lemma fin_box (cx cy r l bo rr t px py : R) : (l <= cx - r <= rr /\ bo <= cy <= t) -> (l <= cx + r <= rr /\ bo <= cy <= t) ->
  (l <= cx <= rr /\ bo <= cy - r <= t) -> (l <= cx <= rr /\ bo <= cy + r <= t) ->
  (cx - r <= px <= cx + r /\ cy - r <= py <= cy + r) -> l <= px <= rr /\ bo <= py <= t.
Proof. intros. lra. Qed.
Lemma circle_box (c : @vec RNum) r : 0 <= r -> (forall p, vdot (vsub p c) (vsub p c) <= r * r -> in_box p (bb_circle c r)) /\
  forall b, (forall p, vdot (vsub p c) (vsub p c) <= r * r -> in_box p b) -> forall p, in_box p (bb_circle c r) -> in_box p b.
Proof.
  intros R. destruct c as [cx cy]. unfold in_box, bb_circle, bb_extents, vdot, vsub. cbn [bL bB bR bT vx vy]. unR. split.
  - intros [px py]. cbn [vx vy]. intros H. pose proof (sq_bound _ _ _ R H). rewrite Rplus_comm in H. pose proof (sq_bound _ _ _ R H). lra.
  - intros [l bo rr t] H. cbn [bL bB bR bT] in *. intros [px py]. cbn [vx vy].
    pose proof (H (V (N := RNum) (cx - r) cy)) as H1. pose proof (H (V (N := RNum) (cx + r) cy)) as H2. pose proof (H (V (N := RNum) cx (cy - r))) as H3. pose proof (H (V (N := RNum) cx (cy + r))) as H4. cbn [vx vy] in *.
    assert (((cx - r - cx) * (cx - r - cx) + (cy - cy) * (cy - cy)) <= r * r) by (right; ring).
    assert (((cx + r - cx) * (cx + r - cx) + (cy - cy) * (cy - cy)) <= r * r) by (right; ring).
    assert (((cx - cx) * (cx - cx) + (cy - r - cy) * (cy - r - cy)) <= r * r) by (right; ring).
    assert (((cx - cx) * (cx - cx) + (cy + r - cy) * (cy + r - cy)) <= r * r) by (right; ring).
    exact (fin_box cx cy r l bo rr t px py (H1 H0) (H2 H5) (H3 H6) (H4 H7)).
Qed.
Lemma merged_is_merge (N : Num) (a b : @bb N) : bb_merged_area a b = bb_area (bb_merge a b).
Proof. reflexivity. Qed.
Lemma area_grows (a b : Rbb) : bL b <= bR b -> bB b <= bT b -> bb_contains a b = true -> bb_area b <= bb_area a.
Proof.
  destruct a as [l bo r t], b as [l' bo' r' t']. unfold bb_contains, bb_area. cbn [bL bB bR bT]. unR. intros H1 H2 H.
  rewrite !andb_true_iff, !Rleb_true in H. apply Rmult_le_compat; lra.
Qed.
Lemma scale_spec (sx sy : R) p : tf_apply (tf_scale (N := RNum) sx sy) p = V (sx * vx p) (sy * vy p).
Proof. destruct p as [x y]. unT. f_equal; rring. Qed.
Lemma scale_in_place (t : @transform RNum) x y p : tb t = 0 -> tc t = 0 -> tf_apply (tf_scale_inplace t x y) p = tf_apply (tf_mult t (tf_scale x y)) p.
Proof. intros B C. destruct t as [a b c d tx ty], p as [px py]. cbn [tb tc] in *. subst. unfold tf_scale_inplace, tf_scale. unT. f_equal; rring. Qed.
Lemma scale_in_place_wrong : exists (t : @transform RNum) (p : @vec RNum), (forall q, vdot (tf_apply t q) (tf_apply t q) = vdot q q) /\ p <> rvec 0 0 /\
  tf_apply (tf_scale_inplace t 2 2) p = tf_apply t p.
Proof.
  exists (Tf (N := RNum) 0 1 (-1) 0 0 0), (rvec 1 0). split; [|split].
  - intros [x y]. unT. rring.
  - intros H. injection H. intros. lra.
  - unfold rvec, tf_scale_inplace. unT. f_equal; rring.
Qed.
Lemma box_ex : bb_contains (mkBB (N := RNum) 0 0 4 3) (mkBB (N := RNum) 1 1 2 3) = true /\ bb_area (mkBB (N := RNum) 1 1 2 3) = 2.
Proof. unfold bb_contains, bb_area. cbn [bL bB bR bT]. unR. split; [rewrite !andb_true_iff, !Rleb_true; lra|rring]. Qed.
Lemma scale_ex : tb (tf_translate (rvec 1 2)) = 0 /\ tc (tf_translate (rvec 1 2)) = 0 /\ tf_apply (tf_scale_inplace (tf_translate (rvec 1 2)) 3 5) (rvec 1 1) = rvec 4 7.
Proof. unfold rvec, tf_scale_inplace. unT. repeat split. f_equal; rring. Qed.
