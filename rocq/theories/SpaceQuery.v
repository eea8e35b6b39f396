(** Which pairs of shapes a step hands to the narrow phase, and the space-wide box and shape queries.
    Models QueryReject, BBQuery, bbQuery and ShapeQuery (/repo/space.go).  The lists of the space are those of Space.v, the two
    trees those of BBTree.v ([x_box i] is Shape.BB of shape i), the narrow phase is that of Narrow.v.
    Simplification: callbacks do not change the space. *)
From Coq Require Import ZArith NArith List Bool Arith.
From Verif Require Import Num Vec BB BBTree Filter Narrow.
From Verif Require Space.
Import ListNotations.

Section SpaceQuery.
Context {N : Num}.

(* shape.go:19-39: the body of a shape *)
Definition body_of (s : Space.space) (i : nat) : nat := Space.sh_body (Space.s_shape s i).
(* space.go:1133-1147 QueryReject *)
Definition query_reject (s : Space.space) (flt : nat -> filter) (x : index) (i j : nat) : bool :=
  if Nat.eqb (body_of s i) (body_of s j) then true
  else if reject (flt i) (flt j) then true
  else if negb (bb_intersects (x_box x i) (x_box x j)) then true
  else if Space.query_reject_constraints s (body_of s i) (body_of s j) then true
  else false.
(* space.go:566-567 with 1068-1078: the calls of Collide made by ReindexQuery(SpaceCollideShapesFunc, s), in order *)
Definition narrow_pairs (s : Space.space) (flt : nat -> filter) (x : index) (order : list nat) : list (nat * nat) :=
  List.filter (fun p => negb (query_reject s flt x (fst p) (snd p)))
    (map (fun p => (snd (fst p), snd (snd p))) (snd (do_query x order))).

(* space.go:944-950 bbQuery: is the callback called? *)
Definition bb_accepts (flt : nat -> filter) (x : index) (f : filter) (q : bb) (i : nat) : bool :=
  negb (reject (flt i) f) && bb_intersects (x_box x i) q.
(* space.go:951-958 BBQuery: the shapes called back, in order *)
Definition bb_query (flt : nat -> filter) (x : index) (f : filter) (q : bb) : list nat :=
  List.filter (bb_accepts flt x f q) (index_query x false q) ++ List.filter (bb_accepts flt x f q) (index_query x true q).

(* space.go:1039-1056: one call of shapeQuery; the state is the calls of the callback (newest first) and anyCollision *)
Definition shape_query_call (tiny : num) (flt : nat -> filter) (sensor : nat -> bool) (sh : nat -> nshape) (a : nat)
    (st : list (nat * (vec * list cpoint)) * bool) (b : nat) : list (nat * (vec * list cpoint)) * bool :=
  if reject (flt a) (flt b) || Nat.eqb a b then st
  else match shapes_collide tiny (sh a) (sh b) with
       | Some (n, c :: l) => ((b, (n, c :: l)) :: fst st, negb (sensor a || sensor b))
       | _ => st
       end.
(* space.go:1028-1064 ShapeQuery: the calls of the callback, in order, and the result; [bb] is the box made by Update (1030-1035),
   already stored in [sh a] *)
Definition shape_query (tiny : num) (flt : nat -> filter) (sensor : nat -> bool) (sh : nat -> nshape) (x : index) (a : nat) (bb : bb)
    : list (nat * (vec * list cpoint)) * bool :=
  let f := shape_query_call tiny flt sensor sh a in
  let st := fold_left f (index_query x false bb) (fold_left f (index_query x true bb) ([], false)) in
  (rev (fst st), snd st).
End SpaceQuery.
