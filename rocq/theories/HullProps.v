(** Convex hulls: C47 (polyshape.go convexHull and its callers, tolerance 0). *)
From Coq Require Import ZArith Reals List Bool Floats Permutation.
From Verif Require Import Num NumReal NumFloat Vec Polyline PolylineSimple Hull HullSpec HullMain ShapesSpec ShapesPoly.
Import ListNotations.

(** For any arithmetic (float64 with NaN and infinities too) and any tolerance: one or more points never panic, and the hull is made of input vertices, none used more often than it occurs. *)
Theorem C47_total : forall (Nm : Num) (tol : num) verts, verts <> [] ->
  exists arr k rest, convex_hull tol verts = Some (arr, k) /\ (1 <= k <= length verts)%nat /\ Permutation verts (firstn k arr ++ rest).
Proof. exact @hull_total. Qed.
Print Assumptions C47_total.
(** Over the reals with tolerance 0: the vertices are different input vertices, in counter-clockwise order (all input lies left of or on each side), and span the same convex set as the input. *)
Theorem C47_hull : forall verts : list (@vec RNum), verts <> [] ->
  exists h, hull_verts verts = Some h /\ h <> [] /\ (exists rest, Permutation verts (h ++ rest)) /\ NoDup h /\
    (forall a b x, In (a, b) (sides h) -> In x verts -> leftish a b x) /\ (forall x, hull h x <-> hull verts x).
Proof. exact hull_correct. Qed.
Print Assumptions C47_hull.
(** When no three different input points are on a line, the result is a strictly convex polygon, as the polygon queries of C44 to C46 need. *)
Theorem C47_strictly_convex_partial : forall (verts : list (@vec RNum)) h, hull_verts verts = Some h -> no_three_in_line verts -> convex h.
Proof. exact general_position. Qed.
Print Assumptions C47_strictly_convex_partial.
(** Otherwise it need not be: points equally far from a chord may all stay. *)
Theorem C47_strictly_convex_refuted : exists (verts h : list (@vec FNum)), @hull_verts FNum verts = Some h /\
  shown h = [(0, 0); (1, -1); (2, -1); (3, -1); (4, 0)]%float /\
  (vcross (vsub (nth 2 h vzero) (nth 1 h vzero)) (vsub (nth 3 h vzero) (nth 1 h vzero)) =? n0)%num = true.
Proof. exact (ex_intro _ (points tie) tie_flat). Qed.
Print Assumptions C47_strictly_convex_refuted.
Example C47_square : option_map shown (@hull_verts FNum (points [(1, 1); (0, 0); (2, 0); (2, 2); (0, 2); (1, 0); (2, 2); (1, 2); (0.5, 0.75)]%float)) =
  Some [(0, 0); (2, 0); (2, 2); (0, 2)]%float.
Proof. exact mixed_hull. Qed.
(** No points: the code indexes verts[0]. *)
Example C47_empty : @hull_verts FNum [] = None.
Proof. exact eq_refl. Qed.
