(** More of C01 (boxes) and C04 (scalings), over the reals. *)
From Coq Require Import ZArith Bool Reals Lra.
From Verif Require Import Num NumReal Vec BB Transform TransformProofs BoxProofs.
Local Open Scope R_scope.

(** Offset moves the box with its points. *)
Theorem C01_offset_moves : forall (b : Rbb) (v p : @vec RNum), (in_box (vadd p v) (bb_offset b v) <-> in_box p b) /\ bb_area (bb_offset b v) = bb_area b.
Proof. exact (fun b v p => conj (offset_moves b v p) (offset_size b v)). Qed.
Print Assumptions C01_offset_moves.
(** NewBBForCircle is the least box around the disc. *)
Theorem C01_circle_box_least : forall (c : @vec RNum) (r : R), 0 <= r ->
  (forall p, vdot (vsub p c) (vsub p c) <= r * r -> in_box p (bb_circle c r)) /\
  forall b, (forall p, vdot (vsub p c) (vsub p c) <= r * r -> in_box p b) -> forall p, in_box p (bb_circle c r) -> in_box p b.
Proof. exact circle_box. Qed.
Print Assumptions C01_circle_box_least.
(** MergedArea is the area of the merged box, in any arithmetic. *)
Theorem C01_merged_area : forall (N : Num) (a b : bb), bb_merged_area a b = bb_area (bb_merge a b).
Proof. exact merged_is_merge. Qed.
Print Assumptions C01_merged_area.
(** A box has no more area than one that contains it. *)
Theorem C01_area_grows : forall a b : Rbb, bL b <= bR b -> bB b <= bT b -> bb_contains a b = true -> bb_area b <= bb_area a.
Proof. exact area_grows. Qed.
Print Assumptions C01_area_grows.
(** NewTransformScale scales the axes. *)
Theorem C04_scale : forall (sx sy : R) (p : @vec RNum), tf_apply (tf_scale (N := RNum) sx sy) p = V (sx * vx p) (sy * vy p).
Proof. exact scale_spec. Qed.
Print Assumptions C04_scale.
(** Transform.Scale scales first and then transforms, as long as the transform does not turn. *)
Theorem C04_scale_in_place_partial : forall (t : @transform RNum) (x y : R) (p : @vec RNum), tb t = 0 -> tc t = 0 ->
  tf_apply (tf_scale_inplace t x y) p = tf_apply (tf_mult t (tf_scale x y)) p.
Proof. exact scale_in_place. Qed.
Print Assumptions C04_scale_in_place_partial.
(** Finding: on a quarter turn Scale(2, 2) does nothing. *)
Theorem C04_scale_in_place_refuted : exists (t : @transform RNum) (p : @vec RNum), (forall q, vdot (tf_apply t q) (tf_apply t q) = vdot q q) /\ p <> rvec 0 0 /\
  tf_apply (tf_scale_inplace t 2 2) p = tf_apply t p.
Proof. exact scale_in_place_wrong. Qed.
Print Assumptions C04_scale_in_place_refuted.
Example C01_box_ex : bb_contains (mkBB (N := RNum) 0 0 4 3) (mkBB (N := RNum) 1 1 2 3) = true /\ bb_area (mkBB (N := RNum) 1 1 2 3) = 2.
Proof. exact box_ex. Qed.
Example C04_scale_ex : tb (tf_translate (rvec 1 2)) = 0 /\ tc (tf_translate (rvec 1 2)) = 0 /\ tf_apply (tf_scale_inplace (tf_translate (rvec 1 2)) 3 5) (rvec 1 1) = rvec 4 7.
Proof. exact scale_ex. Qed.
