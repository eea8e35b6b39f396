(** C36: moments, areas and centroids (over the reals). *)
From Coq Require Import ZArith Reals List.
From Verif Require Import Num Vec BB Mass MassProofs.
Import ListNotations.
Local Open Scope R_scope.
Local Notation vec := (@vec RNum).

(** Moving a polygon does not change its area and moves its centroid along. *)
Theorem C36_area_translation : forall (l : list vec) o (r : R), area_for_poly (length l) (map (fun v => vadd v o) l) r = area_for_poly (length l) l r.
Proof. exact area_translate. Qed.
Print Assumptions C36_area_translation.
Theorem C36_centroid_translation : forall (l : list vec) o c, area_for_poly (length l) l 0 <> Some 0 ->
  centroid_for_poly (length l) l = Some c -> centroid_for_poly (length l) (map (fun v => vadd v o) l) = Some (vadd c o).
Proof. exact centroid_translate. Qed.
Print Assumptions C36_centroid_translation.
(** The offset argument of MomentForPoly is a translation of the polygon, ... *)
Theorem C36_moment_offset : forall (m : R) (l : list vec) o (r : R), length l <> 2%nat ->
  moment_for_poly m (length l) (map (fun v => vadd v o) l) vzero r = moment_for_poly m (length l) l o r.
Proof. exact moment_offset. Qed.
Print Assumptions C36_moment_offset.
(** ... except for two vertices, where it is ignored. *)
Theorem C36_moment_offset_refuted : exists (m : R) (a b o : vec) (r : R), moment_for_poly m 2 [a; b] o r <> moment_for_poly m 2 (map (fun v => vadd v o) [a; b]) vzero r.
Proof. exact two_offset. Qed.
Print Assumptions C36_moment_offset_refuted.
(** Parallel axes. *)
Theorem C36_moment_parallel_axis : forall (m : R) (l : list vec) o (r : R) c (i : R), length l <> 2%nat -> area_for_poly (length l) l 0 <> Some 0 ->
  centroid_for_poly (length l) l = Some c -> moment_for_poly m (length l) l vzero r = Some i ->
  moment_for_poly m (length l) l o r = Some (i + m * (2 * vdot c o + vdot o o)).
Proof. exact moment_parallel. Qed.
Print Assumptions C36_moment_parallel_axis.
(** The mass data of a polygon shape: its moment is about its centre of gravity. *)
Theorem C36_poly_mass_info : forall (l : list vec) (r : R) (m : R), (2 < length l)%nat -> area_for_poly (length l) l 0 <> Some 0 ->
  exists p, poly_mass_info (length l) l r = Some p /\ centroid_for_poly (length l) l = Some (sm_cog p) /\ area_for_poly (length l) l r = Some (sm_area p) /\
    moment_for_poly m (length l) l vzero r = Some (m * sm_i p + m * vmagsq (sm_cog p)) /\
    moment_for_poly m (length l) l (vneg (sm_cog p)) r = Some (m * sm_i p).
Proof. exact poly_info. Qed.
Print Assumptions C36_poly_mass_info.
(** The vertex the polygon starts with does not matter. *)
Theorem C36_area_start : forall (l m : list vec) (r : R), area_for_poly (length (l ++ m)) (l ++ m) r = area_for_poly (length (m ++ l)) (m ++ l) r.
Proof. exact rot_area. Qed.
Print Assumptions C36_area_start.
Theorem C36_centroid_start : forall (l m : list vec), centroid_for_poly (length (l ++ m)) (l ++ m) = centroid_for_poly (length (m ++ l)) (m ++ l).
Proof. exact rot_centroid. Qed.
Print Assumptions C36_centroid_start.
Theorem C36_moment_start : forall (k : R) (l m : list vec) o (r : R), moment_for_poly k (length (l ++ m)) (l ++ m) o r = moment_for_poly k (length (m ++ l)) (m ++ l) o r.
Proof. exact rot_moment. Qed.
Print Assumptions C36_moment_start.
(** The other way round the area changes its sign and the centroid stays. *)
Theorem C36_area_reversed : forall (l : list vec) (a : R), area_for_poly (length l) l 0 = Some a -> area_for_poly (length l) (rev l) 0 = Some (- a).
Proof. exact rev_area. Qed.
Print Assumptions C36_area_reversed.
Theorem C36_centroid_reversed : forall (l : list vec), area_for_poly (length l) l 0 <> Some 0 -> centroid_for_poly (length l) (rev l) = centroid_for_poly (length l) l.
Proof. exact rev_centroid. Qed.
Print Assumptions C36_centroid_reversed.
(** Cutting off the triangle a b c: areas add up, centroids are averaged by area, moments (masses in proportion to areas) add up. *)
Theorem C36_area_cut : forall a b c (l : list vec) (x y z : R), area_for_poly (length (a :: b :: c :: l)) (a :: b :: c :: l) 0 = Some x ->
  area_for_poly 3 [a; b; c] 0 = Some y -> area_for_poly (length (a :: c :: l)) (a :: c :: l) 0 = Some z -> x = y + z.
Proof. exact fan_area. Qed.
Print Assumptions C36_area_cut.
Theorem C36_centroid_cut : forall a b c (l : list vec) (x y z : R) u v w, area_for_poly (length (a :: b :: c :: l)) (a :: b :: c :: l) 0 = Some x ->
  area_for_poly 3 [a; b; c] 0 = Some y -> area_for_poly (length (a :: c :: l)) (a :: c :: l) 0 = Some z -> x <> 0 -> y <> 0 -> z <> 0 ->
  centroid_for_poly (length (a :: b :: c :: l)) (a :: b :: c :: l) = Some u -> centroid_for_poly 3 [a; b; c] = Some v -> centroid_for_poly (length (a :: c :: l)) (a :: c :: l) = Some w ->
  vscale u x = vadd (vscale v y) (vscale w z).
Proof. exact fan_centroid. Qed.
Print Assumptions C36_centroid_cut.
Theorem C36_moment_cut : forall a b c d (l : list vec) (r x y z i j k : R), area_for_poly (length (a :: b :: c :: d :: l)) (a :: b :: c :: d :: l) 0 = Some x ->
  area_for_poly 3 [a; b; c] 0 = Some y -> area_for_poly (length (a :: c :: d :: l)) (a :: c :: d :: l) 0 = Some z -> x <> 0 -> y <> 0 -> z <> 0 -> forall o,
  moment_for_poly (x : R) (length (a :: b :: c :: d :: l)) (a :: b :: c :: d :: l) o r = Some i -> moment_for_poly (y : R) 3 [a; b; c] o r = Some j ->
  moment_for_poly (z : R) (length (a :: c :: d :: l)) (a :: c :: d :: l) o r = Some k -> i = j + k.
Proof. exact fan_moment. Qed.
Print Assumptions C36_moment_cut.
(** Triangles. *)
Theorem C36_triangle_area : forall a b c : vec, area_for_poly 3 [a; b; c] 0 = Some (vcross (vsub b a) (vsub c a) / 2).
Proof. exact tri_area. Qed.
Print Assumptions C36_triangle_area.
Theorem C36_triangle_centroid : forall a b c : vec, vcross (vsub b a) (vsub c a) <> 0 -> centroid_for_poly 3 [a; b; c] = Some (vscale (vadd a (vadd b c)) (1 / 3)).
Proof. exact tri_centroid. Qed.
Print Assumptions C36_triangle_centroid.
Theorem C36_triangle_moment : forall (m : R) (a b c : vec) (r : R), vcross (vsub b a) (vsub c a) <> 0 ->
  moment_for_poly m 3 [a; b; c] (vneg (vscale (vadd a (vadd b c)) (1 / 3))) r = Some (m * (vdistsq a b + vdistsq b c + vdistsq c a) / 36).
Proof. exact tri_moment. Qed.
Print Assumptions C36_triangle_moment.
(** Boxes. *)
Theorem C36_box_area : forall b : @bb RNum, area_for_poly 4 (box_verts b) 0 = Some ((bR b - bL b) * (bT b - bB b)).
Proof. exact box_area. Qed.
Print Assumptions C36_box_area.
Theorem C36_box_centroid : forall b : @bb RNum, bR b <> bL b -> bT b <> bB b -> centroid_for_poly 4 (box_verts b) = Some (V ((bL b + bR b) / 2) ((bB b + bT b) / 2)).
Proof. exact box_centroid. Qed.
Print Assumptions C36_box_centroid.
Theorem C36_box_moment : forall (m : R) (b : @bb RNum) (r : R), bR b <> bL b -> bT b <> bB b -> moment_for_poly m 4 (box_verts b) vzero r = Some (moment_for_box2 m b).
Proof. exact box_moment. Qed.
Print Assumptions C36_box_moment.
Theorem C36_centred_box_moment : forall (m w h : R) (r : R), w <> 0 -> h <> 0 -> moment_for_poly m 4 (box_verts (centred_box w h)) vzero r = Some (moment_for_box m w h).
Proof. exact box_moment_centre. Qed.
Print Assumptions C36_centred_box_moment.
(** Counter-clockwise polygons have positive area, contrary to the comment at shape_factory.go:211. *)
Theorem C36_area_sign_refuted : exists a : R, area_for_poly 4 (box_verts (centred_box 1 1)) 0 = Some a /\ 0 < a /\ area_for_poly 4 (rev (box_verts (centred_box 1 1))) 0 = Some (- a).
Proof. exact square_area. Qed.
Print Assumptions C36_area_sign_refuted.
(** Discs: the moment (per density) starts from 0 and a thin ring of radius r adds its area, 2 pi r dr, times r squared; [npi] is math.Pi.
    A ring and the disc inside it make a disc.  Off centre, the parallel axis theorem. *)
Theorem C36_disc_area : forall r : R, area_for_circle 0 0 = 0 /\ (0 <= r -> derivable_pt_lim (fun x => area_for_circle 0 x) r (2 * npi * r)).
Proof. exact disc_area_derive. Qed.
Print Assumptions C36_disc_area.
Theorem C36_disc_moment : forall r : R, moment_for_circle (area_for_circle 0 0) 0 0 vzero = 0 /\
  derivable_pt_lim (fun x => moment_for_circle (area_for_circle 0 x) 0 x vzero) r (2 * npi * r * (r * r)).
Proof. exact disc_moment_derive. Qed.
Print Assumptions C36_disc_moment.
Theorem C36_ring_moment : forall (d1 d2 : R) (o : vec), 0 <= d1 <= d2 ->
  moment_for_circle (area_for_circle d1 d2) d1 d2 o + moment_for_circle (area_for_circle 0 d1) 0 d1 o = moment_for_circle (area_for_circle 0 d2) 0 d2 o.
Proof. exact ring_moment. Qed.
Print Assumptions C36_ring_moment.
Theorem C36_circle_parallel_axis : forall (m d1 d2 : R) (o : vec), moment_for_circle m d1 d2 o = moment_for_circle m d1 d2 vzero + m * vdot o o.
Proof. exact circle_parallel. Qed.
Print Assumptions C36_circle_parallel_axis.
Theorem C36_circle_mass : forall (m d1 d2 : R) (o : vec), moment_for_circle m d1 d2 o = m * moment_for_circle 1 d1 d2 o.
Proof. exact circle_linear. Qed.
Print Assumptions C36_circle_mass.
(** Circles: MomentForCircle2 passes the diameter on, but the moment a circle shape has comes from the radius: four times less. *)
Theorem C36_circle2_diameter : forall m r : R, moment_for_circle2 m r = moment_for_circle m n0 (2 * r) vzero.
Proof. exact circle2_diameter. Qed.
Print Assumptions C36_circle2_diameter.
Theorem C36_circle2_refuted : exists (m r : R) (c : vec), 0 < m /\ 0 < r /\ moment_for_circle2 m r <> m * sm_i (circle_mass_info r c).
Proof. exact circle2_wrong. Qed.
Print Assumptions C36_circle2_refuted.
Theorem C36_circle2_exact : forall (m r : R) (c : vec), moment_for_circle2 m r = 4 * (m * sm_i (circle_mass_info r c)).
Proof. exact circle2_four. Qed.
Print Assumptions C36_circle2_exact.
(** Segments. *)
Theorem C36_segment_moment : forall (m : R) (a b : vec) (r : R), moment_for_segment m a b r = m * sm_i (segment_mass_info a b r) + m * vmagsq (sm_cog (segment_mass_info a b r)).
Proof. exact segment_parallel. Qed.
Print Assumptions C36_segment_moment.
Theorem C36_segment_area : forall (a b : vec) (r : R), 0 <= r -> area_for_poly 2 [a; b] r = Some (area_for_segment a b r).
Proof. exact segment_as_poly. Qed.
Print Assumptions C36_segment_area.
Theorem C36_point_area : forall (a : vec) (r : R), area_for_segment a a r = area_for_circle 0 r.
Proof. exact circle_as_segment. Qed.
Print Assumptions C36_point_area.

Example C36_ex : @area_for_poly RNum 3 [@V RNum 0 0; @V RNum 1 0; @V RNum 0 1] 0 = Some (1 / 2).
Proof. exact ex_poly. Qed.
