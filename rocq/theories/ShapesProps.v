(** C14, C44, C45, C46: bounding boxes, point queries and ray casts of shapes (over the reals unless stated for float64). *)
From Coq Require Import ZArith Reals List Bool Floats.
From Verif Require Import Num NumFloat Vec BB Transform BBTree BBTreeSpec BBTreeMain.
From Verif Require Import Shapes ShapesSpec ShapesPoint ShapesRay ShapesPoly ShapesPolyRay ShapesMain ShapesMade.
Import ListNotations.
Local Open Scope R_scope.
Local Notation vec := (@vec RNum).

(** ** C46.  The box computed by CacheBB/Update contains every point of the shape, ... *)
Theorem C46_box_contains_shape : forall (s : shape) (t : @transform RNum) s' b, shape_cache s t = (s', b) ->
  forall q, covers s' q -> bb_contains_vect b q = true.
Proof. exact cached_box. Qed.
Print Assumptions C46_box_contains_shape.
(** ... and the image of every point of the shape in the coordinates of its body. *)
Theorem C46_box_contains_image : forall (s : shape) (t : @transform RNum) s' b, rigid t -> shape_cache s t = (s', b) ->
  forall q, local_covers s q -> bb_contains_vect b (tf_apply t q) = true.
Proof. exact cached_box_local. Qed.
Print Assumptions C46_box_contains_image.
Example C46_witness : rigid turn /\ shape_ok (SPoly square_poly) /\ in_range (SPoly square_poly) (rv 3 0).
Proof. exact (conj turn_rigid square_ok). Qed.

(** What the constructors and CacheData leave behind: the hypotheses [shape_ok] below hold for every circle, every
    segment with different end points and every strictly convex counter-clockwise polygon, in every frame of a body. *)
Theorem C46_circle_made : forall (c : vec) (r : R) t s' bx, 0 <= r -> shape_cache (SCircle (Circle c vzero r)) t = (s', bx) ->
  shape_ok s' /\ core s' = (fun q => q = tf_apply t c) /\ radius_of s' = r.
Proof. exact circle_made. Qed.
Print Assumptions C46_circle_made.
Theorem C46_segment_made : forall (a b : vec) (r : R) t s' bx, a <> b -> 0 <= r -> turning t -> shape_cache (SSegment (new_segment a b r)) t = (s', bx) ->
  shape_ok s' /\ exists g, s' = SSegment g /\ sg_r g = r /\ sg_ta g = tf_apply t a /\ sg_tb g = tf_apply t b /\
    vdot (sg_tn g) (sg_tn g) = 1 /\ vdot (sg_tn g) (vsub (sg_tb g) (sg_ta g)) = 0.
Proof. exact segment_made. Qed.
Print Assumptions C46_segment_made.
Theorem C46_polygon_made : forall (vs : list vec) ps (r : R) dst t s' b, set_verts (length vs) vs = Some ps -> (3 <= length vs)%nat -> convex vs -> 0 <= r -> turning t ->
  shape_cache (SPoly (Poly r dst ps)) t = (s', b) -> shape_ok s' /\ core s' = hull (map (tf_apply t) vs) /\ radius_of s' = r.
Proof. exact poly_made. Qed.
Print Assumptions C46_polygon_made.

(** ** C44.  Point queries. *)
Theorem C44_circle : forall (c : circle) (p : vec), 0 <= ci_r c -> let i := circle_point_query c p in
  is_dist (core (SCircle c)) p (pi_dist i + ci_r c) /\ (covers (SCircle c) p <-> pi_dist i <= 0) /\
  (p <> ci_tc c -> vdist (pi_point i) (ci_tc c) = ci_r c /\ vdist p (pi_point i) = Rabs (pi_dist i)) /\ vmag (pi_grad i) = 1 /\
  (@magic_epsilon RNum < vdist p (ci_tc c) -> vscale (pi_grad i) (vdist p (ci_tc c)) = vsub p (ci_tc c)).
Proof. exact circle_query. Qed.
Print Assumptions C44_circle.
Theorem C44_segment : forall (g : segment) (p : vec), 0 <= sg_r g -> sg_ta g <> sg_tb g -> let i := segment_point_query g p in
  is_dist (core (SSegment g)) p (pi_dist i + sg_r g) /\ (covers (SSegment g) p <-> pi_dist i <= 0) /\
  (~ core (SSegment g) p -> is_dist (core (SSegment g)) (pi_point i) (sg_r g) /\ vdist p (pi_point i) = Rabs (pi_dist i)) /\
  (core (SSegment g) p -> pi_point i = p /\ pi_dist i = - sg_r g).
Proof. exact segment_query. Qed.
Print Assumptions C44_segment.
Theorem C44_polygon : forall (s : @poly RNum) p i, shape_ok (SPoly s) -> (exists q, on_boundary (map pl_v (po_dst s)) q /\ vdist p q < @ninf RNum) ->
  poly_point_query s p = Some i -> let vs := map pl_v (po_dst s) in
  is_dist (on_boundary vs) p (Rabs (pi_dist i + po_r s)) /\ (hull vs p <-> pi_dist i + po_r s <= 0) /\
  (covers (SPoly s) p <-> pi_dist i <= 0) /\
  (~ on_boundary vs p -> is_dist (hull vs) (pi_point i) (po_r s) /\ vdist p (pi_point i) = Rabs (pi_dist i)) /\ vmag (pi_grad i) = 1.
Proof. exact poly_query. Qed.
Print Assumptions C44_polygon.
(** PointQueryNearest, whatever the spatial index is. *)
Theorem C44_nearest : forall world visit p (mx : R) res, indexes world visit -> world_ok world p -> point_query_nearest visit p mx = res ->
  match res with
  | (Some j, i) => pi_dist i < mx /\ (exists s b, In (j, s, false, b) world /\ shape_point_query s p = Some i) /\
      (forall j' s b i', In (j', s, false, b) world -> shape_point_query s p = Some i' -> pi_dist i <= pi_dist i')
  | (None, _) => forall j s b i, In (j, s, false, b) world -> shape_point_query s p = Some i -> mx <= pi_dist i
  end.
Proof. exact query_nearest. Qed.
Print Assumptions C44_nearest.
Example C44_witness : let s := SCircle (Circle (V 0 0 : vec) (V 0 0 : vec) 1) in
  let world := [(7%nat, s, false, snd (shape_cache s (@tf_identity RNum)))] in
  indexes world (fun _ => [(7%nat, s, false)]) /\ world_ok world (V 3 4 : vec) /\
  exists i, shape_point_query s (V 3 4 : vec) = Some i /\ pi_dist i = 4.
Proof. exact nearest_witness. Qed.
(** The points left out: float64 answers NaN at the centre of a circle, on the boundary of a polygon and for a
    segment with equal ends; on the middle line of a thick segment Point is not on the surface. *)
Theorem C44_circle_centre_refuted : exists (c : @circle FNum) (p : @Vec.vec FNum), (0 <? ci_r c)%float = true /\ p = ci_tc c /\ is_nan (vx (pi_point (circle_point_query c p))) = true.
Proof. exact centre_nan. Qed.
Print Assumptions C44_circle_centre_refuted.
Theorem C44_polygon_boundary_refuted : exists (q : @poly FNum) (p : @Vec.vec FNum) i, fpoly [fvec (-1) (-1); fvec 1 (-1); fvec 1 1; fvec (-1) 1] 0 = Some q /\
  poly_point_query q p = Some i /\ is_nan (vx (pi_point i)) = true.
Proof. exact edge_nan. Qed.
Print Assumptions C44_polygon_boundary_refuted.
Theorem C44_segment_point_refuted : exists (a : @Vec.vec FNum) (r : float) (p : @Vec.vec FNum), is_nan (pi_dist (segment_point_query (fsegment a a r) p)) = true.
Proof. exact short_segment_nan. Qed.
Print Assumptions C44_segment_point_refuted.
Theorem C44_segment_middle_refuted : exists (g : @segment RNum) (p : vec), shape_ok (SSegment g) /\ ~ is_dist (core (SSegment g)) (pi_point (segment_point_query g p)) (sg_r g).
Proof. exact core_point. Qed.
Print Assumptions C44_segment_middle_refuted.

(** ** C45.  Ray casts against one shape. *)
Theorem C45_circle : forall (c : @circle RNum) (a b : vec) (r2 : R) i, 0 <= ci_r c -> 0 <= r2 -> 0 < ci_r c + r2 -> a <> b -> shape_segment_query (SCircle c) a b r2 = Some i ->
  (si_hit i = true -> first_touch (SCircle c) a b r2 (si_alpha i) /\ (r2 + ci_r c < vdist a (ci_tc c) -> good_hit (SCircle c) a b r2 i)) /\
  (forall t, 0 <= t <= 1 -> touches (SCircle c) a b r2 t -> si_hit i = true).
Proof. exact circle_cast. Qed.
Print Assumptions C45_circle.
(** Casts that start outside the infinite strip around the segment. *)
Theorem C45_segment_partial : forall (g : @segment RNum) (a b : vec) (r2 : R) i, 0 <= sg_r g -> 0 <= r2 -> sg_ta g <> sg_tb g ->
  vdot (sg_tn g) (sg_tn g) = 1 -> vdot (sg_tn g) (vsub (sg_tb g) (sg_ta g)) = 0 -> sg_r g + r2 < Rabs (vdot (sg_tn g) (vsub a (sg_ta g))) ->
  shape_segment_query (SSegment g) a b r2 = Some i ->
  (si_hit i = true -> good_hit (SSegment g) a b r2 i) /\ (forall t, 0 <= t < 1 -> touches (SSegment g) a b r2 t -> si_hit i = true).
Proof. exact segment_ray. Qed.
Print Assumptions C45_segment_partial.
(** Casts not parallel to a side. *)
Theorem C45_polygon_partial : forall (s : @poly RNum) (a b : vec) (r2 : R) i, shape_ok (SPoly s) -> in_range (SPoly s) a -> 0 <= r2 ->
  (forall u v, In (u, v) (sides (map pl_v (po_dst s))) -> vcross (vsub v u) (vsub b a) <> 0) ->
  shape_segment_query (SPoly s) a b r2 = Some i ->
  (si_hit i = true -> first_touch (SPoly s) a b r2 (si_alpha i) /\ (~ touches (SPoly s) a b r2 0 -> good_hit (SPoly s) a b r2 i)) /\
  (forall t, 0 <= t < 1 -> touches (SPoly s) a b r2 t -> si_hit i = true).
Proof. exact poly_cast. Qed.
Print Assumptions C45_polygon_partial.
Example C45_witness :
  (let g := rsegment (rv 0 0) (rv 10 0) (rv 0 (-1)) 1 in castable (SSegment g) (rv 2 5) (rv 4 (-5)) (1 / 2) /\ touches (SSegment g) (rv 2 5) (rv 4 (-5)) (1 / 2) (1 / 2)) /\
  (castable (SPoly square_poly) (rv 3 0) (rv (-3) 1) (1 / 4) /\ ~ touches (SPoly square_poly) (rv 3 0) (rv (-3) 1) (1 / 4) 0 /\ touches (SPoly square_poly) (rv 3 0) (rv (-3) 1) (1 / 4) (1 / 2)).
Proof. exact cast_examples. Qed.
(** A cast that starts inside a shape reports its far end as Point. *)
Theorem C45_start_inside_refuted : exists (c : @circle FNum) (a b : @Vec.vec FNum) i, shape_segment_query (SCircle c) a b 0%float = Some i /\
  si_hit i = true /\ si_alpha i = 0%float /\ si_point i = b /\ (ci_r c <? vdist (si_point i) (ci_tc c))%float = true.
Proof. exact inside_point. Qed.
Print Assumptions C45_start_inside_refuted.
(** From beside the end of a thick segment (float64): the reported hit is not the first touch ... *)
Theorem C45_segment_late_refuted : exists (g : @segment FNum) (a b k : @Vec.vec FNum) i, sg_r g = 1%float /\ shape_segment_query (SSegment g) a b 0%float = Some i /\
  si_hit i = true /\ si_alpha i = 0.5%float /\ k = vlerp (sg_ta g) (sg_tb g) 0.0125%float /\ vdist (vlerp a b 0.25%float) k = 0.75%float.
Proof. exact late_hit. Qed.
Print Assumptions C45_segment_late_refuted.
(** ... or there is none although the cast ends inside. *)
Theorem C45_segment_lost_refuted : exists (g : @segment FNum) (a b k : @Vec.vec FNum) i, sg_r g = 1%float /\ shape_segment_query (SSegment g) a b 0%float = Some i /\
  si_hit i = false /\ k = vlerp (sg_ta g) (sg_tb g) 0.2%float /\ vdist b k = 0.75%float.
Proof. exact lost_hit. Qed.
Print Assumptions C45_segment_lost_refuted.

(** ** C14.  Casts of radius 0 through the two trees: what is reported is the nearest hit, ... *)
Theorem C14_thin_cast_partial : forall (world : nat -> shape) (refused : nat -> bool) (a b : vec) (x : @index RNum), reached x ->
  (forall i, castable (world i) a b 0) -> (forall d i c q, key_box x (d, i) = Some c -> covers (world i) q -> bb_contains_vect c q = true) ->
  let r : R * option nat := segment_query_first (N:=RNum) x (cast world refused a b 0) a b in
  (forall d i info, In i (x_leaves x d) -> refused i = false -> shape_segment_query (world i) a b 0 = Some info -> si_hit info = true -> fst r <= si_alpha info) /\
  (r = (1, None) \/ exists d i info, In i (x_leaves x d) /\ refused i = false /\ snd r = Some i /\ shape_segment_query (world i) a b 0 = Some info /\ si_hit info = true /\
     fst r = si_alpha info /\ fst r < 1 /\ first_touch (world i) a b 0 (fst r)).
Proof. exact thin_cast. Qed.
Print Assumptions C14_thin_cast_partial.
(** ... and a shape met before the end of the segment is not missed. *)
Theorem C14_thin_found_partial : forall (world : nat -> shape) (refused : nat -> bool) (a b : vec) (x : @index RNum) d i (t : R), reached x ->
  (forall i, castable (world i) a b 0) -> (forall d i c q, key_box x (d, i) = Some c -> covers (world i) q -> bb_contains_vect c q = true) ->
  In i (x_leaves x d) -> refused i = false -> 0 <= t < 1 -> touches (world i) a b 0 t ->
  exists j, snd (segment_query_first (N:=RNum) x (cast world refused a b 0) a b) = Some j /\
    (fst (segment_query_first (N:=RNum) x (cast world refused a b 0) a b) : R) <= t.
Proof. exact thin_found. Qed.
Print Assumptions C14_thin_found_partial.
Example C14_witness : exists x : @index RNum, reached x /\ In 3%nat (x_leaves x false) /\ (forall i, castable (ring i) (rv (-1) (1 / 2)) (rv 3 (1 / 2)) 0) /\
  (forall d i c q, key_box x (d, i) = Some c -> covers (ring i) q -> bb_contains_vect c q = true) /\ touches (ring 3) (rv (-1) (1 / 2)) (rv 3 (1 / 2)) 0 (1 / 4).
Proof. exact ring_witness. Qed.
(** With a radius shapes are missed (float64): both shapes are in the index with their boxes, the first is hit, none is found. *)
Theorem C14_thick_cast_refuted : exists (x : @index FNum) (world : nat -> @shape FNum) (a b : @Vec.vec FNum) (radius : float),
  reached x /\ (forall i, In i [0; 1]%nat -> In i (x_leaves x false) /\ snd (shape_cache (world i) tf_identity) = x_box x i) /\
  snd (segment_query_first x (cast world (fun _ => false) a b radius) a b) = None /\
  exists info, shape_segment_query (world 0%nat) a b radius = Some info /\ si_hit info = true /\ (si_alpha info <? 1)%float = true.
Proof. exact thick_missed. Qed.
Print Assumptions C14_thick_cast_refuted.
