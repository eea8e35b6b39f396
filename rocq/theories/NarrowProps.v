(** C41, C42, C43, C54: the narrow phase (over the reals unless stated for float64). *)
From Coq Require Import ZArith Reals List Bool Floats.
From Verif Require Import Num NumFloat Vec BB Transform Shapes ShapesSpec ShapesPoint ShapesMain.
From Verif Require Import Narrow NarrowFloat NarrowTerm NarrowGjk NarrowCircle NarrowMain.
Import ListNotations.
Local Open Scope R_scope.
Local Notation vec := (@vec RNum).

(** ** C41.  Circle against circle: a contact exactly when the centres are closer than the sum of the radii.
    [touching p q r1 r2 n c]: n is the unit vector from p to q, the contact points are p + n r1 and q - n r2 and the
    distance is |q - p| - (r1 + r2). *)
Theorem C41_circles : forall (tiny : R) (a b : nshape) (c1 c2 : @circle RNum), ns_s a = SCircle c1 -> ns_s b = SCircle c2 -> 0 <= ci_r c1 -> 0 <= ci_r c2 ->
  exists n l, @shapes_collide RNum tiny a b = Some (n, l) /\
  (vdist (ci_tc c1) (ci_tc c2) < ci_r c1 + ci_r c2 -> exists c, l = [c] /\ touching (ci_tc c1) (ci_tc c2) (ci_r c1) (ci_r c2) n c) /\
  (ci_r c1 + ci_r c2 <= vdist (ci_tc c1) (ci_tc c2) -> l = []).
Proof. exact circles. Qed.
Print Assumptions C41_circles.
Example C41_circles_witness : ns_s disc1 = SCircle (Circle (rv 0 0) (rv 0 0) 4) /\ ns_s disc2 = SCircle (Circle (rv 3 4) (rv 3 4) 2) /\ vdist (rv 0 0) (rv 3 4) = 5.
Proof. exact (conj eq_refl (conj eq_refl discs_near)). Qed.

(** Circle against rounded segment: the same about the point k of the segment nearest to the centre, unless k is an end
    of the segment and the normal points into the neighbouring segment's side (SetNeighbors), in which case there is none. *)
Theorem C41_circle_segment : forall (tiny : R) (a b : nshape) (c : @circle RNum) (g : @segment RNum), ns_s a = SCircle c -> ns_s b = SSegment g ->
  0 <= ci_r c -> 0 <= sg_r g -> sg_ta g <> sg_tb g -> vmag (sg_tn g) = 1 ->
  exists n l k, @shapes_collide RNum tiny a b = Some (n, l) /\ between (sg_ta g) (sg_tb g) k /\ is_dist (between (sg_ta g) (sg_tb g)) (ci_tc c) (vdist (ci_tc c) k) /\
  (vdist (ci_tc c) k < ci_r c + sg_r g -> vmag n = 1 /\ (k = ci_tc c -> n = sg_tn g) /\
     (accepted g n k -> exists p, l = [p] /\ touching (ci_tc c) k (ci_r c) (sg_r g) n p) /\ (~ accepted g n k -> l = [])) /\
  (ci_r c + sg_r g <= vdist (ci_tc c) k -> l = []).
Proof. exact circle_segment. Qed.
Print Assumptions C41_circle_segment.
Example C41_circle_segment_witness : exists g, ns_s low = SSegment g /\ sg_ta g <> sg_tb g /\ vmag (sg_tn g) = 1 /\ 0 <= sg_r g.
Proof. exact low_segment. Qed.

(** Swapping the arguments negates the normal and swaps the points: two circles with different centres, ... *)
Theorem C41_circles_swapped : forall (tiny : R) (a b : nshape) (c1 c2 : @circle RNum) n l, ns_s a = SCircle c1 -> ns_s b = SCircle c2 -> ci_tc c1 <> ci_tc c2 ->
  @shapes_collide RNum tiny a b = Some (n, l) ->
  exists n', @shapes_collide RNum tiny b a = Some (n', map (fun c => CPoint (ct_b c) (ct_a c) (ct_d c)) l) /\ (l <> [] -> n' = vneg n).
Proof. exact circles_swapped. Qed.
Print Assumptions C41_circles_swapped.
(** ... and two shapes of different kinds (in any arithmetic, float64 included). *)
Theorem C41_kinds_swapped : forall (Nm : Num) (tiny : num) (a b : nshape) n l, (order a < order b)%nat -> shapes_collide tiny a b = Some (n, l) ->
  exists l', shapes_collide tiny b a = Some (vneg n, l') /\ map ct_a l' = map ct_b l /\ map ct_b l' = map ct_a l.
Proof. exact (@swap_points). Qed.
Print Assumptions C41_kinds_swapped.
(** It fails for concentric circles: the normal is (1,0) in both orders. *)
Theorem C41_swap_refuted : exists (a b : @nshape FNum) n c n' c', a = made (as_circle 0 0 1) 1 /\ b = made (as_circle 0 0 2) 2 /\
  @shapes_collide FNum ftiny a b = Some (n, [c]) /\ @shapes_collide FNum ftiny b a = Some (n', [c']) /\ vx n = 1%float /\ vx n' = 1%float.
Proof. exact concentric_normal. Qed.
Print Assumptions C41_swap_refuted.

(** ** C42.  The reported distance.  Pairs of segments and polygons in the order of their kinds (any arithmetic), ... *)
Theorem C42_segments_polygons : forall (Nm : Num) (tiny : num) (a b : nshape) n l, (1 <= order a <= order b)%nat -> shapes_collide tiny a b = Some (n, l) ->
  forall c, In c l -> nleb (ct_d c) n0 = true.
Proof. exact (@sorted_gap). Qed.
Print Assumptions C42_segments_polygons.
Example C42_witness : match @shapes_collide FNum ftiny (made (as_poly crate 0) 1) (made (as_poly [fvec 1.5 0.5; fvec 3.5 0.5; fvec 3.5 1.5; fvec 1.5 1.5] 0) 2) with
  Some (n, l) => (length l =? 2)%nat | None => false end = true.
Proof. exact crates_touch. Qed.
(** ... and a circle against a polygon with sharp corners. *)
Theorem C42_circle_polygon_partial : forall (a b : nshape) (c : @circle RNum) (q : @poly RNum) n l, ns_s a = SCircle c -> ns_s b = SPoly q -> po_dst q <> [] -> 0 <= ci_r c -> po_r q = 0 ->
  @shapes_collide RNum 0 a b = Some (n, l) -> forall x, In x l -> ct_d x <= 0.
Proof. exact circle_poly. Qed.
Print Assumptions C42_circle_polygon_partial.
(** With the shapes the other way round an overlap by 1/2 is reported as +1/2 ... *)
Theorem C42_swapped_refuted : exists (a b : @nshape FNum) n c n' c', a = made (as_segment (fvec 0 0) (fvec 2 0) 0.5) 1 /\ b = made (as_circle 1 0.5 0.5) 2 /\
  @shapes_collide FNum ftiny b a = Some (n, [c]) /\ ct_d c = (-0.5)%float /\
  @shapes_collide FNum ftiny a b = Some (n', [c']) /\ ct_d c' = 0.5%float.
Proof. exact swapped_distance. Qed.
Print Assumptions C42_swapped_refuted.
(** ... and an overlap by 3/4 of a circle with a rounded box as +1/4. *)
Theorem C42_rounded_refuted : exists (a b : @nshape FNum) n c, a = made (as_circle 1 1.25 0.5) 1 /\ b = made (as_poly crate 0.5) 2 /\
  @shapes_collide FNum ftiny a b = Some (n, [c]) /\ ct_d c = 0.25%float.
Proof. exact rounded_distance. Qed.
Print Assumptions C42_rounded_refuted.

(** ** C43.  The recursions end, whatever the shapes and the start: EPA after 30 calls, GJK after 61. *)
Theorem C43_epa_ends : forall (Nm : Num) (tiny : num) s1 s2 hull, exists r, forall f, (30 <= f)%nat -> epa_recurse tiny f s1 s2 hull 1 = Some r.
Proof. exact (@epa_ends). Qed.
Print Assumptions C43_epa_ends.
Theorem C43_gjk_ends_real : forall (tiny : R) s1 s2 v0 v1, exists r, forall f, (61 <= f)%nat -> @gjk_recurse RNum tiny f s1 s2 v0 v1 1 = Some r.
Proof. exact (fun tiny => @gjk_ends RNum tiny consistent_real). Qed.
Print Assumptions C43_gjk_ends_real.
Theorem C43_gjk_ends_float : forall (tiny : float) s1 s2 v0 v1, exists r, forall f, (61 <= f)%nat -> @gjk_recurse FNum tiny f s1 s2 v0 v1 1 = Some r.
Proof. exact (fun tiny => @gjk_ends FNum tiny consistent_float). Qed.
Print Assumptions C43_gjk_ends_float.
(** Every pair of shapes has a routine, which leaves at most two contacts.  [solid]: a polygon has at least one vertex. *)
Theorem C43_collide_real : forall (tiny : R) (a b : @nshape RNum) id, solid (ns_s a) -> solid (ns_s b) ->
  exists sw i, @collide RNum tiny a b id = Some (sw, i) /\ (length (nf_arr i) <= 2)%nat.
Proof. exact (fun tiny => @collide_total RNum tiny consistent_real). Qed.
Print Assumptions C43_collide_real.
Theorem C43_collide_float : forall (tiny : float) (a b : @nshape FNum) id, solid (ns_s a) -> solid (ns_s b) ->
  exists sw i, @collide FNum tiny a b id = Some (sw, i) /\ (length (nf_arr i) <= 2)%nat.
Proof. exact (fun tiny => @collide_total FNum tiny consistent_float). Qed.
Print Assumptions C43_collide_float.
Theorem C43_shapes_collide_float : forall (tiny : float) (a b : @nshape FNum), solid (ns_s a) -> solid (ns_s b) ->
  exists n l, @shapes_collide FNum tiny a b = Some (n, l) /\ (length l <= 2)%nat.
Proof. exact (fun tiny => @shapes_collide_total FNum tiny consistent_float). Qed.
Print Assumptions C43_shapes_collide_float.
Example C43_witness : solid (ns_s (made (as_poly crate 0) 1)).
Proof. exact crate_solid. Qed.

(** ** C54.  What GJK tells.  [gjk_tells]: the points belong to the shapes; stopped at a separating axis with a positive
    distance, that is the distance of the shapes, reached at these points, along the normal; gone on to EPA, the shapes have
    a common point.  [modest]: coordinates at most 2^500. *)
Theorem C54_gjk_partial : forall (tiny : R), 0 <= tiny -> forall (a b : nshape) id c e, nonempty (ns_s a) -> nonempty (ns_s b) -> modest (ns_s a) -> modest (ns_s b) ->
  @gjk RNum tiny a b id = Some (c, e) ->
  core (ns_s a) (cp_a c) /\ core (ns_s b) (cp_b c) /\
  match e with
  | Axis => 0 <= cp_d c /\ (0 < cp_d c -> cp_d c = vdist (cp_a c) (cp_b c) /\
      (exists k, cp_d c <= k <= cp_d c + tiny /\ vsub (cp_b c) (cp_a c) = vscale (cp_n c) k) /\
      forall x y, core (ns_s a) x -> core (ns_s b) y -> cp_d c <= vdist x y)
  | Overlap => exists x, core (ns_s a) x /\ core (ns_s b) x
  | Limit => True
  end.
Proof. exact gjk_result. Qed.
Print Assumptions C54_gjk_partial.
(** So a contact between separated cores means that they are at most the radius sum apart; for a circle against a polygon also conversely. *)
Theorem C54_contact_partial : forall (tiny : R), 0 <= tiny -> forall (a b : nshape) n l, nonempty (ns_s a) -> nonempty (ns_s b) -> modest (ns_s a) -> modest (ns_s b) ->
  (order a <= order b)%nat -> (order b = 1 -> order a = 1)%nat -> (order b = 0 -> False)%nat ->
  (exists pts, @gjk RNum tiny a b 0 = Some (pts, Axis) /\ 0 < cp_d pts) -> @shapes_collide RNum tiny a b = Some (n, l) ->
  (l <> [] -> exists x y, core (ns_s a) x /\ core (ns_s b) y /\ vdist x y <= radius_of (ns_s a) + radius_of (ns_s b)) /\
  (order a = 0%nat -> (exists x y, core (ns_s a) x /\ core (ns_s b) y /\ vdist x y <= radius_of (ns_s a) + radius_of (ns_s b)) -> l <> []).
Proof. exact separated_exact. Qed.
Print Assumptions C54_contact_partial.
Example C54_witness : nonempty (ns_s low) /\ nonempty (ns_s high) /\ modest (ns_s low) /\ modest (ns_s high) /\ exists pts, @gjk RNum 0 low high 0 = Some (pts, Axis) /\ 0 < cp_d pts.
Proof. exact low_high_ok. Qed.
(** Level with a side of the other shape the distance comes out as 0: shapes far apart are reported as touching ... *)
Theorem C54_phantom_refuted : exists (a b : @nshape FNum) n c, a = made (as_circle 5.5 0 0.5) 1 /\ b = made (as_poly crate 0) 2 /\
  @shapes_collide FNum ftiny a b = Some (n, [c]) /\ bb_intersects (ns_bb a) (ns_bb b) = false.
Proof. exact phantom_contact. Qed.
Print Assumptions C54_phantom_refuted.
Theorem C54_collinear_refuted : exists (a b : @nshape FNum) n l, a = made (as_segment (fvec 0 0) (fvec 1 0) 0.125) 1 /\ b = made (as_segment (fvec 3 0) (fvec 4 0) 0.125) 2 /\
  @shapes_collide FNum ftiny a b = Some (n, l) /\ length l = 2%nat /\ bb_intersects (ns_bb a) (ns_bb b) = false.
Proof. exact collinear_contacts. Qed.
Print Assumptions C54_collinear_refuted.
(** ... and a circle overlapping the right side of a box is pushed upwards, by twice the overlap. *)
Theorem C54_normal_refuted : exists (a b : @nshape FNum) n c, a = made (as_circle 2.5 0 1) 1 /\ b = made (as_poly crate 0) 2 /\
  @shapes_collide FNum ftiny a b = Some (n, [c]) /\ vx n = 0%float /\ vy n = 1%float /\ ct_d c = (-1)%float.
Proof. exact wrong_normal. Qed.
Print Assumptions C54_normal_refuted.
