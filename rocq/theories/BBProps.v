(** Property theorems C01-C03 (bounding boxes). *)
From Coq Require Import ZArith Bool Reals Lra Floats.
From Verif Require Import Num NumReal NumFloat Vec BB BBProofs.

(** C01.  For every number system obeying the order laws - in particular float64 ([FNumOrd]) and
    the reals ([RNumOrd]).  [nok] = not NaN. *)
Theorem C01_merge_is_least_upper_bound :
  forall (N : Num) (O : NumOrd N) (a b : bb), bb_ok a -> bb_ok b ->
    bb_contains (bb_merge a b) a = true /\ bb_contains (bb_merge a b) b = true /\
    (forall c, bb_contains c a = true -> bb_contains c b = true -> bb_contains c (bb_merge a b) = true).
Proof. exact (fun N O a b Ha Hb => conj (merge_contains_l a b Ha Hb) (conj (merge_contains_r a b Ha Hb) (merge_least a b))). Qed.
Print Assumptions C01_merge_is_least_upper_bound.

Theorem C01_contains_preorder :
  forall (N : Num) (O : NumOrd N),
    (forall a, bb_ok a -> bb_contains a a = true) /\
    (forall a b c, bb_contains a b = true -> bb_contains b c = true -> bb_contains a c = true).
Proof. exact (fun N O => conj contains_refl contains_trans). Qed.
Print Assumptions C01_contains_preorder.

(** Contains on well-formed boxes is inclusion of point sets. *)
Theorem C01_contains_is_subset :
  forall (N : Num) (O : NumOrd N) (a b : bb), bb_wf b ->
    (bb_contains a b = true <-> forall v, InBB v b -> InBB v a).
Proof. exact @contains_points. Qed.
Print Assumptions C01_contains_is_subset.

Theorem C01_intersects_iff_common_point :
  forall (N : Num) (O : NumOrd N) (a b : bb), bb_wf a -> bb_wf b ->
    (bb_intersects a b = true <-> exists v, InBB v a /\ InBB v b).
Proof. exact @intersects_point. Qed.
Print Assumptions C01_intersects_iff_common_point.

Theorem C01_intersects_symmetric :
  forall (N : Num) (a b : bb), bb_intersects a b = bb_intersects b a.
Proof. exact @intersects_sym. Qed.
Print Assumptions C01_intersects_symmetric.

Theorem C01_contains_vect_spec :
  forall (N : Num) (a : bb) (v : vec), bb_contains_vect a v = true <-> InBB v a.
Proof. exact @contains_vect_spec. Qed.
Print Assumptions C01_contains_vect_spec.

Theorem C01_expand_is_least :
  forall (N : Num) (O : NumOrd N) (a : bb) (v : vec), bb_ok a -> vok v ->
    bb_contains (bb_expand a v) a = true /\ InBB v (bb_expand a v) /\
    (forall c, bb_contains c a = true -> InBB v c -> bb_contains c (bb_expand a v) = true).
Proof. exact (fun N O a v Ha Hv => conj (proj1 (expand_contains a v Ha Hv)) (conj (proj2 (expand_contains a v Ha Hv)) (expand_least a v))). Qed.
Print Assumptions C01_expand_is_least.

(** The float64 instance, spelled out once. *)
Theorem C01_float64_intersects_iff_common_point :
  forall a b : @bb FNum, @bb_wf FNum a -> @bb_wf FNum b ->
    (bb_intersects a b = true <-> exists v, InBB v a /\ InBB v b).
Proof. exact (@intersects_point FNum FNumOrd). Qed.
Print Assumptions C01_float64_intersects_iff_common_point.

Theorem C01_proximity_center_distance :
  forall a b : @bb RNum,
  bb_proximity a b = (2 * (Rabs (vx (bb_center a) - vx (bb_center b)) + Rabs (vy (bb_center a) - vy (bb_center b))))%R.
Proof. exact proximity_spec. Qed.
Print Assumptions C01_proximity_center_distance.

Example C01_witness : (* two float64 boxes touching in one corner *)
  bb_wf (fbb 0 0 1 1) /\ bb_wf (fbb 1 1 2 3) /\
  bb_intersects (fbb 0 0 1 1) (fbb 1 1 2 3) = true.
Proof. repeat split. Qed.

(** C02. *)
Theorem C02_segment_query_first_entry :
  forall (s : @bb RNum) (a b : vec), (bL s <= bR s)%R -> (bB s <= bT s)%R ->
  let t := bb_segment_query s a b in
  (t <> RMaxFloat /\ (0 <= t <= 1)%R /\ RIn (Rpoint a b t) s /\
     (forall u, (0 <= u <= 1)%R -> RIn (Rpoint a b u) s -> (t <= u)%R))
  \/ (t = RMaxFloat /\ forall u, (0 <= u <= 1)%R -> ~ RIn (Rpoint a b u) s).
Proof. exact segment_query_spec. Qed.
Print Assumptions C02_segment_query_first_entry.

Theorem C02_intersects_segment_iff :
  forall (s : @bb RNum) (a b : vec), (bL s <= bR s)%R -> (bB s <= bT s)%R ->
  (bb_intersects_segment s a b = true <-> exists u, (0 <= u <= 1)%R /\ RIn (Rpoint a b u) s).
Proof. exact intersects_segment_spec. Qed.
Print Assumptions C02_intersects_segment_iff.

Example C02_witness : (* a vertical segment through the unit box: the x-axis is degenerate *)
  RIn (Rpoint (rvec (1/2) (-1)) (rvec (1/2) 1) (1/2)) (rbb 0 0 1 1).
Proof. unfold RIn, Rpoint; simpl; lra. Qed.

(** C03. *)
Theorem C03_clamp_in_box :
  forall (N : Num) (O : NumOrd N) (s : bb) (v : vec), bb_wf s -> vok v -> InBB (bb_clamp s v) s.
Proof. exact @bb_clamp_in. Qed.
Print Assumptions C03_clamp_in_box.

Theorem C03_clamp_fixes_inside :
  forall (N : Num) (O : NumOrd N) (s : bb) (v : vec), InBB v s -> veqb (bb_clamp s v) v = true.
Proof. exact @bb_clamp_fix. Qed.
Print Assumptions C03_clamp_fixes_inside.

Theorem C03_clamp_nearest :
  forall (s : @bb RNum) (v w : vec), (bL s <= bR s)%R -> (bB s <= bT s)%R -> RIn w s ->
    (vdistsq v (bb_clamp s v) <= vdistsq v w)%R.
Proof. exact bb_clamp_nearest. Qed.
Print Assumptions C03_clamp_nearest.

(** WrapVect lands in the half-open box (L,R] x (B,T] and moves by whole widths/heights. *)
Theorem C03_wrap_modular :
  forall (s : @bb RNum) (v : vec), (bL s < bR s)%R -> (bB s < bT s)%R ->
  let w := bb_wrap Rmod s v in
  (bL s < vx w <= bR s)%R /\ (bB s < vy w <= bT s)%R /\
  (exists k : Z, vx w = vx v + IZR k * (bR s - bL s))%R /\
  (exists k : Z, vy w = vy v + IZR k * (bT s - bB s))%R.
Proof. exact bb_wrap_spec. Qed.
Print Assumptions C03_wrap_modular.

Example C03_witness : (bL (rbb 0 0 2 3) < bR (rbb 0 0 2 3))%R /\ (bB (rbb 0 0 2 3) < bT (rbb 0 0 2 3))%R.
Proof. simpl; lra. Qed.
