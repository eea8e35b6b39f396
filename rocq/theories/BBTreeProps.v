(** C09-C13: the bounding-box trees. *)
From Coq Require Import ZArith Bool List Arith Permutation Reals Lra Floats.
From Verif Require Import Num NumReal NumFloat Vec BB BBProofs BBTree BBTreeSpec BBTreeProofs BBTreeMark BBTreeInv BBTreeReindex BBTreeRay.
From Verif Require Import BBTreeMain.
Import ListNotations.

(** C09.  Leaves are exactly the indexed shapes, each once; every inner node bounds what is beneath it. *)
Theorem C09_tree_invariant :
  forall (N : Num) (O : NumOrd N) (x : index) (d : bool), reached x ->
    NoDup (x_leaves x d) /\ Permutation (map fst (leaf_list x d)) (x_leaves x d) /\
    length (leaf_list x d) = length (x_leaves x d) /\
    forall t, x_root x d = Some t -> bounded t.
Proof. exact @tree_invariant. Qed.
Print Assumptions C09_tree_invariant.

(** The set of indexed shapes is what the history says. *)
Theorem C09_membership :
  forall (N : Num) (O : NumOrd N) (x : index) (o : xop), reached x -> xvalid x o ->
  forall d i, In i (x_leaves (xstep x o) d) <->
    match o with
    | XInsert e j => (e = d /\ i = j) \/ In i (x_leaves x d)
    | XRemove e j => In i (x_leaves x d) /\ ~ (e = d /\ i = j)
    | _ => In i (x_leaves x d)
    end.
Proof. exact @membership. Qed.
Print Assumptions C09_membership.

Example C09_witness : reached ex_index /\ length (leaf_list ex_index true) = 2 /\ xvalid ex_index (XInsert true 0).
Proof. exact ex_index_tree. Qed.

(** C10.  For float64 too: the box given to a leaf contains the shape's box. *)
Theorem C10_fat_box_covers :
  forall (N : Num) (O : NumOrd N) (b : bb) (v : vec), good_box b -> good_vel v -> bb_contains (fat_bb b v) b = true.
Proof. exact @fat_ok. Qed.
Print Assumptions C10_fat_box_covers.

Theorem C10_float64_fat_box_covers :
  forall (b : @bb FNum) (v : @vec FNum), good_box b -> good_vel v -> bb_contains (fat_bb b v) b = true.
Proof. exact (@fat_ok FNum FNumOrd). Qed.
Print Assumptions C10_float64_fat_box_covers.

(** After an operation that (re)indexes a shape its leaf box contains the shape's current box. *)
Theorem C10_indexed_covers :
  forall (N : Num) (O : NumOrd N) (x : index) (o : xop) (d : bool) (i : nat), reached x -> xvalid x o -> reindexes x o d i ->
  exists b, key_box (xstep x o) (d, i) = Some b /\ bb_contains b (x_box (xstep x o) i) = true.
Proof. exact @indexed_covers. Qed.
Print Assumptions C10_indexed_covers.

(** A leaf is left alone only when its box already contains the shape's box. *)
Theorem C10_left_alone :
  forall (N : Num) (O : NumOrd N) (x : index) (o : xop) (d : bool) (i : nat) (b : bb), reached x -> xvalid x o -> reindexes x o d i ->
  key_box x (d, i) = Some b -> bb_contains b (x_box x i) = false ->
  key_box (xstep x o) (d, i) = Some (get_bb x d i).
Proof. exact @not_left_alone. Qed.
Print Assumptions C10_left_alone.

Example C10_witness : good_box (ex_box1 2) /\ good_vel (ex_vel 2) /\
  exists b, key_box ex_index (true, 2) = Some b /\ bb_contains b (x_box ex_index 2) = false.
Proof. exact ex_index_moved. Qed.

(** C11.  Query(bb) calls back exactly once for each shape whose leaf box intersects bb. *)
Theorem C11_query_exact :
  forall (N : Num) (O : NumOrd N) (x : index) (d : bool) (q : bb), reached x ->
    NoDup (index_query x d q) /\
    forall i, In i (index_query x d q) <-> exists b, key_box x (d, i) = Some b /\ bb_intersects b q = true.
Proof. exact @query_exact. Qed.
Print Assumptions C11_query_exact.

Theorem C11_query_complete :
  forall (N : Num) (O : NumOrd N) (x : index) (d : bool) (q b : bb) (i : nat), reached x ->
    key_box x (d, i) = Some b -> bb_contains b (x_box x i) = true -> bb_intersects (x_box x i) q = true ->
    In i (index_query x d q).
Proof. exact @query_complete. Qed.
Print Assumptions C11_query_complete.

Example C11_witness : reached ex_index /\ index_query ex_index true (fbb 1 1 2 2)%float = [1] /\
  index_query ex_index true (fbb 5 5 6 6)%float = [].
Proof. exact ex_index_query. Qed.

(** C12.  Each pair whose leaf boxes intersect is reported once, and nothing else. *)
Theorem C12_pairs_exactly_once :
  forall (N : Num) (O : NumOrd N) (x : index) (order : list nat), reached x -> Permutation order (x_leaves x true) ->
  forall a b, occurrences a b (snd (do_query x order)) = if hit (fst (do_query x order)) a b then 1 else 0.
Proof. exact @pairs_once. Qed.
Print Assumptions C12_pairs_exactly_once.

(** Two dynamic shapes, or a dynamic and a static one, whose own boxes intersect are reported
    (the static one's leaf box must cover it). *)
Theorem C12_no_overlap_missed :
  forall (N : Num) (O : NumOrd N) (x : index) (order : list nat), reached x -> Permutation order (x_leaves x true) ->
  forall i j, In i (x_leaves x true) -> In j (x_leaves x true) -> i <> j ->
    bb_intersects (x_box x i) (x_box x j) = true ->
    occurrences (true, i) (true, j) (snd (do_query x order)) = 1.
Proof. exact @no_overlap_missed. Qed.
Print Assumptions C12_no_overlap_missed.

Theorem C12_no_static_overlap_missed :
  forall (N : Num) (O : NumOrd N) (x : index) (order : list nat), reached x -> Permutation order (x_leaves x true) ->
  forall i j b, In i (x_leaves x true) -> key_box x (false, j) = Some b -> bb_contains b (x_box x j) = true ->
    bb_intersects (x_box x i) (x_box x j) = true ->
    occurrences (true, i) (false, j) (snd (do_query x order)) = 1.
Proof. exact @no_static_overlap_missed. Qed.
Print Assumptions C12_no_static_overlap_missed.

(** A history in float64 with two overlapping dynamic shapes, one far away that moves, and a static one. *)
Example C12_witness : reached ex_index /\ Permutation [2; 1]%nat (x_leaves ex_index true) /\
  snd (do_query ex_index [2; 1]%nat) = [((true, 2), (false, 3)); ((true, 2), (true, 1)); ((false, 3), (true, 1))]%nat.
Proof. exact ex_index_ok. Qed.

(** C13.  Over the real numbers. *)
Theorem C13_first_hit :
  forall (shapeq : nat -> option R) (a b : @vec RNum) (x : @index RNum), reached x ->
  (forall d i c u, key_box x (d, i) = Some c -> shapeq i = Some u -> (bb_segment_query c a b <= u)%R) ->
  let r : R * option nat := segment_query_first (N:=RNum) x shapeq a b in
  (fst r <= 1)%R /\ (forall d i u, In i (x_leaves x d) -> shapeq i = Some u -> (fst r <= u)%R) /\
  (r = (1%R, None) \/ exists d i, In i (x_leaves x d) /\ snd r = Some i /\ shapeq i = Some (fst r) /\ (fst r < 1)%R).
Proof. exact segment_first_spec. Qed.
Print Assumptions C13_first_hit.

Theorem C13_all_hits :
  forall (a b : @vec RNum) (x : @index RNum) (d : bool) (i : nat) (c : bb), reached x -> key_box x (d, i) = Some c ->
  (bb_segment_query c a b < 1)%R -> In i (segment_query_shapes x a b).
Proof. exact segment_all_spec. Qed.
Print Assumptions C13_all_hits.

Theorem C13_at_most_once :
  forall (N : Num) (O : NumOrd N) (x : index) (d : bool) (St : Type) (f : nat -> St -> num * St) (a b : vec) (e : num) (s : St),
  reached x -> let log := snd (index_segment (logged f) x d a b e (s, [])) in
  NoDup log /\ forall i, In i log -> In i (x_leaves x d).
Proof. exact @segment_at_most_once. Qed.
Print Assumptions C13_at_most_once.

Example C13_witness : exists x : @index RNum, reached x /\
  key_box x (false, 3) = Some (rbb 0 0 1 1) /\ key_box x (false, 4) = Some (rbb 2 0 3 1) /\
  (bb_segment_query (rbb 2 0 3 1) (rvec (-1) 0) (rvec 4 0) <= 4 / 5)%R.
Proof. exact ray_witness. Qed.
