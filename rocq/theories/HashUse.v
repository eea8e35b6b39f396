(** A space that uses the spatial hash: UseSpatialHash, and the pairs and box queries of such a space (/repo/space.go, space_hash.go, spatial_index.go).
    The hashes are those of SpaceHash.v, the lists of the space those of Space.v; [box i] is Shape.BB of shape i.
    Simplification: as in SpaceQuery.v, callbacks do not change the space. *)
From Coq Require Import ZArith List Bool Arith.
From Verif Require Import Num Vec BB BBTree Filter SpaceHash SpaceQuery.
From Verif Require Space.
Import ListNotations.

Section HashUse.
Context {N : Num}.
Variables (toint : num -> Z) (dim : num) (cells : nat).

(* space.go:808-813: Insert for every shape enumerated; [pick] is what sync.Pool gives for it *)
Definition insert_all (pick : nat -> nat) (box : nat -> bb) (shapes : list nat) (h : hash) : option hash :=
  all_of (fun o h => insert toint dim cells (pick o) o (box o) h) shapes h.
(* space.go:804-817 UseSpatialHash: the new static and dynamic index; [sta] and [dyn] are the shapes in the order the old ones enumerate them,
   [k] is pooledBufferSize *)
Definition use_spatial_hash (k : nat) (pick : nat -> nat) (box : nat -> bb) (sta dyn : list nat) : option (hash * hash) :=
  match insert_all pick box sta (new_hash cells k), insert_all pick box dyn (new_hash cells k) with
  | Some st, Some dy => Some (st, dy)
  | _, _ => None
  end.
(* space_hash.go:76-80 Each: the shapes of the handles *)
Definition each_shape (order : list nat -> list nat) (h : hash) : list nat :=
  flat_map (fun x => match obj (at_handle h x) with Some o => [o] | None => [] end) (order (hset h)).
(* space.go:571 with space_hash.go:169-205, spatial_index.go:95-101 and space.go:1068-1078: the calls of Collide made by ReindexQuery(SpaceCollideShapesFunc, s), in order.
   QueryReject (space.go:1133-1147) reads the boxes of the index only *)
Definition hash_pairs (s : Space.space) (flt : nat -> filter) (box : nat -> bb) (order : list nat -> list nat) (st dy : hash) : option (list (nat * nat)) :=
  match reindex_query toint dim cells order box dy with
  | None => None
  | Some (dy, out) =>
      match collide_static toint dim cells (each_shape order dy) box st out with
      | None => None
      | Some (_, out) => Some (List.filter (fun p => negb (query_reject s flt (index0 box (fun _ => vzero)) (fst p) (snd p))) (rev out))
      end
  end.
(* space.go:944-958 BBQuery: the shapes called back, in order; obj is &context, not a shape *)
Definition hash_bb_query (flt : nat -> filter) (box : nat -> bb) (f : filter) (q : bb) (st dy : hash) : option (list nat) :=
  match query toint dim cells None q st, query toint dim cells None q dy with
  | Some (_, l), Some (_, m) => Some (List.filter (bb_accepts flt (index0 box (fun _ => vzero)) f q) (rev l ++ rev m))
  | _, _ => None
  end.
(* space.go:898-906: DynamicShapeCount, StaticShapeCount, ShapeCount *)
Definition hash_counts (st dy : hash) : nat * nat * nat := (count dy, count st, count st + count dy).
End HashUse.
