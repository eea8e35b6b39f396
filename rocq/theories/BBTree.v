(** The bounding-box tree pair used for the dynamic and the static shapes of a space.
    Models /repo/bb_tree.go and the index linkage of /repo/spatial_index.go (67-101).

    Nodes are a tree value instead of nodes with parent pointers: walking [parent] from a leaf is [ups].  A shape is a
    number; the set [leaves] of a tree is a duplicate-free list, the order in which HashSet.Each visits it is an input
    of ReindexQuery.  All pairs are kept in one list, newest first; the list of a leaf (threaded through its pairs) is
    the sub-list touching it, see BBTreePtr.v for the pointers.  Stamps are naturals (no wrap-around).  collisionId is
    not represented.  The node pool is in BBTreePtr.v. *)
From Coq Require Import ZArith Bool List Arith.
From Verif Require Import Num Vec BB.
Import ListNotations.
Local Open Scope num_scope.

Section BBTree.
Context {N : Num}.

(* bb_tree.go:417-424 Node: a leaf (obj not nil) with its shape, or an inner node *)
Inductive tree := Leaf (i : nat) (b : bb) | Node (b : bb) (l r : tree).
Definition tbb (t : tree) : bb := match t with Leaf _ b => b | Node b _ _ => b end.
(* the leaves under a node from a to b *)
Fixpoint tleaves (t : tree) : list (nat * bb) :=
  match t with Leaf i b => [(i, b)] | Node _ l r => tleaves l ++ tleaves r end.
Definition has (i : nat) (t : tree) : bool := existsb (fun p => Nat.eqb i (fst p)) (tleaves t).
Definition is_leaf_of (i : nat) (t : tree) : bool := match t with Leaf j _ => Nat.eqb i j | _ => false end.

(* bb_tree.go:364-373 NewNode *)
Definition new_node (a b : tree) : tree := Node (bb_merge (tbb a) (tbb b)) a b.
(* bb_tree.go:198-206: does the leaf go to child b? *)
Definition goes_right (l r : tree) (lb : bb) : bool :=
  let costA := bb_area (tbb r) + bb_merged_area (tbb l) lb in
  let costB := bb_area (tbb l) + bb_merged_area (tbb r) lb in
  if costA =? costB then bb_proximity (tbb r) lb <? bb_proximity (tbb l) lb
  else costB <? costA.
(* bb_tree.go:191-215 SubtreeInsert for a subtree that is not nil *)
Fixpoint tinsert (t : tree) (i : nat) (lb : bb) : tree :=
  match t with
  | Leaf _ _ => new_node (Leaf i lb) t
  | Node b l r =>
    if goes_right l r lb then Node (bb_merge b lb) l (tinsert r i lb)
    else Node (bb_merge b lb) (tinsert l i lb) r
  end.
(* bb_tree.go:191-194 *)
Definition subtree_insert (t : option tree) (i : nat) (lb : bb) : tree :=
  match t with None => Leaf i lb | Some t => tinsert t i lb end.
(* bb_tree.go:217-246 SubtreeRemove and ReplaceChild: the parent of the leaf is replaced by its other child, and the
   boxes of all nodes above are recomputed *)
Fixpoint tremove (t : tree) (i : nat) : option tree :=
  match t with
  | Leaf j _ => if Nat.eqb i j then None else Some t
  | Node b l r =>
    if is_leaf_of i l then Some r
    else if is_leaf_of i r then Some l
    else if has i l then match tremove l i with Some l' => Some (new_node l' r) | None => Some r end
    else match tremove r i with Some r' => Some (new_node l r') | None => Some l end
  end.
Definition subtree_remove (t : option tree) (i : nat) : option tree :=
  match t with None => None | Some t => tremove t i end.
(* leaf.bb *)
Definition leaf_bb (t : option tree) (i : nat) : option bb :=
  match t with
  | None => None
  | Some t => match find (fun p => Nat.eqb i (fst p)) (tleaves t) with Some (_, b) => Some b | None => None end
  end.

(* a leaf node: of the dynamic tree (true) or of the static tree (false) *)
Definition key := (bool * nat)%type.
Definition key_eqb (x y : key) : bool := Bool.eqb (fst x) (fst y) && Nat.eqb (snd x) (snd y).
(* bb_tree.go:25-28 Pair: the leaves of thread a and thread b *)
Definition pair := (key * key)%type.
Definition touches (x : key) (p : pair) : bool := key_eqb x (fst p) || key_eqb x (snd p).

(* bb_tree.go:62-77 the two trees and what they share; [x_box] and [x_vel] are bbfunc (Shape.BB) and the body's velocity *)
Record index := Index {
  x_dyn : option tree; x_sta : option tree; x_dleaves : list nat; x_sleaves : list nat;
  x_stamp : nat; x_lstamp : key -> nat; x_pairs : list pair; x_box : nat -> bb; x_vel : nat -> vec }.
Definition x_root (x : index) (d : bool) : option tree := if d then x_dyn x else x_sta x.
Definition x_leaves (x : index) (d : bool) : list nat := if d then x_dleaves x else x_sleaves x.
(* bb_tree.go:79-85 NewBBTree, twice (space.go:121-126) *)
Definition index0 (box : nat -> bb) (vel : nat -> vec) : index := Index None None [] [] 0 (fun _ => 0%nat) [] box vel.

(* field updates *)
Definition set_root (x : index) (d : bool) (t : option tree) : index :=
  if d then Index t (x_sta x) (x_dleaves x) (x_sleaves x) (x_stamp x) (x_lstamp x) (x_pairs x) (x_box x) (x_vel x)
  else Index (x_dyn x) t (x_dleaves x) (x_sleaves x) (x_stamp x) (x_lstamp x) (x_pairs x) (x_box x) (x_vel x).
Definition set_leaves (x : index) (d : bool) (l : list nat) : index :=
  if d then Index (x_dyn x) (x_sta x) l (x_sleaves x) (x_stamp x) (x_lstamp x) (x_pairs x) (x_box x) (x_vel x)
  else Index (x_dyn x) (x_sta x) (x_dleaves x) l (x_stamp x) (x_lstamp x) (x_pairs x) (x_box x) (x_vel x).
Definition set_pairs (x : index) (l : list pair) : index :=
  Index (x_dyn x) (x_sta x) (x_dleaves x) (x_sleaves x) (x_stamp x) (x_lstamp x) l (x_box x) (x_vel x).
Definition set_lstamp (x : index) (k : key) (n : nat) : index :=
  Index (x_dyn x) (x_sta x) (x_dleaves x) (x_sleaves x) (x_stamp x) (fun k' => if key_eqb k k' then n else x_lstamp x k')
        (x_pairs x) (x_box x) (x_vel x).
(* bb_tree.go:114-121 IncrementStamp: both trees use the stamp of the dynamic tree, their master (409-415) *)
Definition increment_stamp (x : index) : index :=
  Index (x_dyn x) (x_sta x) (x_dleaves x) (x_sleaves x) (S (x_stamp x)) (x_lstamp x) (x_pairs x) (x_box x) (x_vel x).
(* the shapes move: Shape.Update (shape.go:159) stores new boxes *)
Definition set_shapes (x : index) (box : nat -> bb) (vel : nat -> vec) : index :=
  Index (x_dyn x) (x_sta x) (x_dleaves x) (x_sleaves x) (x_stamp x) (x_lstamp x) (x_pairs x) box vel.

(* bb_tree.go:345-362 GetBB; only the dynamic tree has a velocityFunc (space.go:126) *)
Definition fat_bb (b : bb) (v : vec) : bb :=
  let x := (bR b - bL b) * nlit 1 10 in
  let y := (bT b - bB b) * nlit 1 10 in
  let v := vscale v (nlit 1 10) in
  mkBB (bL b + nmin (- x) (vx v)) (bB b + nmin (- y) (vy v)) (bR b + nmax x (vx v)) (bT b + nmax y (vy v)).
Definition get_bb (x : index) (d : bool) (i : nat) : bb :=
  if d then fat_bb (x_box x i) (x_vel x i) else x_box x i.

(* bb_tree.go:139-165 PairInsert *)
Definition pair_insert (a b : key) (ps : list pair) : list pair := (a, b) :: ps.
(* bb_tree.go:313-330 PairsClear *)
Definition pairs_clear (k : key) (ps : list pair) : list pair := filter (fun p => negb (touches k p)) ps.

(* bb_tree.go:464-480 MarkLeafQuery on the subtree [t] of the tree [d]; the accumulator is the pairs and the calls of
   context.f made so far (newest first) *)
Definition macc := (list pair * list pair)%type.
Fixpoint mark_query (x : index) (d : bool) (t : tree) (leaf : key) (lb : bb) (left : bool) (m : macc) : macc :=
  if bb_intersects lb (tbb t) then
    match t with
    | Leaf j _ =>
      let sub := (d, j) in
      if left then (pair_insert leaf sub (fst m), snd m)
      else
        let ps := if Nat.ltb (x_lstamp x sub) (x_lstamp x leaf) then pair_insert sub leaf (fst m) else fst m in
        (ps, (leaf, sub) :: snd m)
    | Node _ l r => mark_query x d r leaf lb left (mark_query x d l leaf lb left m)
    end
  else m.
Definition mark_query_root (x : index) (d : bool) (leaf : key) (lb : bb) (left : bool) (m : macc) : macc :=
  match x_root x d with Some t => mark_query x d t leaf lb left m | None => m end.

(* bb_tree.go:443-449: from the leaf upwards, the sibling at each level and whether it is the parent's b *)
Fixpoint ups (t : tree) (i : nat) : list (tree * bool) :=
  match t with
  | Leaf _ _ => []
  | Node _ l r => if has i l then ups l i ++ [(r, true)] else ups r i ++ [(l, false)]
  end.
(* bb_tree.go:436-462 MarkLeaf of a leaf of the dynamic tree *)
Definition mark_leaf (x : index) (i : nat) (lb : bb) (m : macc) : macc :=
  let leaf := (true, i) in
  if Nat.eqb (x_lstamp x leaf) (x_stamp x) then
    let m := mark_query_root x false leaf lb false m in
    match x_dyn x with
    | None => m
    | Some t => fold_left (fun m s => mark_query x true (fst s) leaf lb (snd s) m) (ups t i) m
    end
  else
    (fst m, fold_left (fun c p => if key_eqb leaf (snd p) then (fst p, leaf) :: c else c)
              (filter (touches leaf) (fst m)) (snd m)).

(* bb_tree.go:123-137 LeafAddPairs: static leaves look for dynamic ones, dynamic leaves do MarkLeaf *)
Definition leaf_add_pairs (x : index) (d : bool) (i : nat) : index :=
  match leaf_bb (x_root x d) i with
  | None => x
  | Some lb =>
    if d then set_pairs x (fst (mark_leaf x i lb (x_pairs x, [])))
    else set_pairs x (fst (mark_query_root x true (false, i) lb true (x_pairs x, [])))
  end.

(* bb_tree.go:101-112 Insert of a shape that is not indexed in this tree *)
Definition do_insert (x : index) (d : bool) (i : nat) : index :=
  let lb := get_bb x d i in
  let x := set_leaves x d (i :: x_leaves x d) in
  let x := set_root x d (Some (subtree_insert (x_root x d) i lb)) in
  let x := set_lstamp x (d, i) (x_stamp x) in
  increment_stamp (leaf_add_pairs x d i).
(* bb_tree.go:248-254 Remove *)
Definition do_remove (x : index) (d : bool) (i : nat) : index :=
  let x := set_leaves x d (filter (fun j => negb (Nat.eqb i j)) (x_leaves x d)) in
  let x := set_root x d (subtree_remove (x_root x d) i) in
  set_pairs x (pairs_clear (d, i) (x_pairs x)).
(* bb_tree.go:296-312 LeafUpdate: the index and whether the leaf moved *)
Definition leaf_update (x : index) (d : bool) (i : nat) : index * bool :=
  match leaf_bb (x_root x d) i with
  | None => (x, false)
  | Some lb =>
    if bb_contains lb (x_box x i) then (x, false)
    else
      let lb := get_bb x d i in
      let x := set_root x d (Some (subtree_insert (subtree_remove (x_root x d) i) i lb)) in
      let x := set_pairs x (pairs_clear (d, i) (x_pairs x)) in
      (set_lstamp x (d, i) (x_stamp x), true)
  end.
(* bb_tree.go:260-268 ReindexObject *)
Definition do_reindex (x : index) (d : bool) (i : nat) : index :=
  if existsb (Nat.eqb i) (x_leaves x d) then
    let '(x, moved) := leaf_update x d i in
    increment_stamp (if moved then leaf_add_pairs x d i else x)
  else x.
(* bb_tree.go:270-294 ReindexQuery of the dynamic tree; [order] is the order in which leaves.Each visits the leaves.
   Returns the calls of f, oldest first.  CollideStatic (288-290) is only reached when the static tree is empty, and
   then does nothing (spatial_index.go:95). *)
Definition do_query (x : index) (order : list nat) : index * list pair :=
  match x_dyn x with
  | None => (x, [])
  | Some _ =>
    let x := fold_left (fun x i => fst (leaf_update x true i)) order x in
    match x_dyn x with
    | None => (x, [])
    | Some t =>
      let m := fold_left (fun m p => mark_leaf x (fst p) (snd p) m) (tleaves t) (x_pairs x, []) in
      (increment_stamp (set_pairs x (fst m)), rev (snd m))
    end
  end.

(** ** Queries *)
(* bb_tree.go:332-336, 493-502 Query: the shapes called back *)
Fixpoint tquery (t : tree) (q : bb) : list nat :=
  if bb_intersects (tbb t) q then
    match t with Leaf i _ => [i] | Node _ l r => tquery l q ++ tquery r q end
  else [].
Definition index_query (x : index) (d : bool) (q : bb) : list nat :=
  match x_root x d with Some t => tquery t q | None => [] end.

(* bb_tree.go:512-537 SubtreeSegmentQuery; the callback has a state of type [St] and returns a fraction *)
Fixpoint tsegment {St : Type} (f : nat -> St -> num * St) (a b : vec) (t : tree) (tExit : num) (s : St) : num * St :=
  match t with
  | Leaf i _ => f i s
  | Node _ l r =>
    let tA := bb_segment_query (tbb l) a b in
    let tB := bb_segment_query (tbb r) a b in
    let goA (p : num * St) := if tA <? fst p then let '(u, s) := tsegment f a b l (fst p) (snd p) in (nmin (fst p) u, s) else p in
    let goB (p : num * St) := if tB <? fst p then let '(u, s) := tsegment f a b r (fst p) (snd p) in (nmin (fst p) u, s) else p in
    if tA <? tB then goB (goA (tExit, s)) else goA (goB (tExit, s))
  end.
(* bb_tree.go:338-343 SegmentQuery *)
Definition index_segment {St : Type} (f : nat -> St -> num * St) (x : index) (d : bool) (a b : vec) (tExit : num) (s : St) : St :=
  match x_root x d with Some t => snd (tsegment f a b t tExit s) | None => s end.
(* space.go:1243-1256 queryFirst: [shapeq i] is info.Alpha if the filter and Sensor accept the shape and
   Shape.SegmentQuery reports a hit; the state is the best Alpha so far and its shape *)
Definition query_first (shapeq : nat -> option num) (i : nat) (out : num * option nat) : num * (num * option nat) :=
  let out' := match shapeq i with
              | Some u => if u <? fst out then (u, Some i) else out
              | None => out end in
  (fst out', out').
(* space.go:978-984 SegmentQueryFirst *)
Definition segment_query_first (x : index) (shapeq : nat -> option num) (a b : vec) : num * option nat :=
  let info := index_segment (query_first shapeq) x false a b n1 (n1, None) in
  index_segment (query_first shapeq) x true a b (fst info) info.
(* space.go:968-976, 1232-1241 SegmentQuery: the shapes handed to segmentQuery, in order *)
Definition segment_query_shapes (x : index) (a b : vec) : list nat :=
  let f (i : nat) (log : list nat) := (n1, log ++ [i]) in
  index_segment f x true a b n1 (index_segment f x false a b n1 []).

(** ** Histories *)
Inductive xop :=
| XShapes (box : nat -> bb) (vel : nat -> vec)
| XInsert (d : bool) (i : nat)
| XRemove (d : bool) (i : nat)
| XReindex (d : bool) (i : nat)
| XQuery (order : list nat).
Definition xstep (x : index) (o : xop) : index :=
  match o with
  | XShapes box vel => set_shapes x box vel
  | XInsert d i => do_insert x d i
  | XRemove d i => do_remove x d i
  | XReindex d i => do_reindex x d i
  | XQuery order => fst (do_query x order)
  end.
Definition xrun (x : index) (h : list xop) : index := fold_left xstep h x.
End BBTree.
Arguments tree {N}.
Arguments index {N}.
Arguments xop {N}.
