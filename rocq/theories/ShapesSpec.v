(** What the queries of Shapes.v should answer (over the reals). *)
From Coq Require Import ZArith Reals List Bool.
From Verif Require Import Num Vec BB Transform Shapes.
Import ListNotations.
Local Open Scope R_scope.
Local Notation vec := (@vec RNum).

(** [is_dist K p d]: the set K has a point at distance d from p and none nearer. *)
Definition is_dist (K : vec -> Prop) (p : vec) (d : R) : Prop :=
  (exists q, K q /\ vdist p q = d) /\ forall q, K q -> d <= vdist p q.
(** The straight segment from a to b. *)
Definition between (a b q : vec) : Prop := exists t : R, 0 <= t <= 1 /\ q = vlerp a b t.
(** Convex hull: the points reached from the given ones by mixing. *)
Inductive hull (vs : list vec) : vec -> Prop :=
| hull_in v : In v vs -> hull vs v
| hull_mix a b (t : R) : hull vs a -> hull vs b -> 0 <= t <= 1 -> hull vs (vlerp a b t).
(** Strictly convex, counter-clockwise. *)
Definition convex (vs : list vec) : Prop :=
  forall i j k a b c, (i < j)%nat -> (j < k)%nat -> nth_error vs i = Some a -> nth_error vs j = Some b -> nth_error vs k = Some c ->
    0 < vcross (vsub b a) (vsub c a).
(** The sides: each vertex with the one before it, cyclically. *)
Definition sides (vs : list vec) : list (vec * vec) := combine (skipn (length vs - 1) vs ++ vs) vs.
Definition on_boundary (vs : list vec) (q : vec) : Prop := exists a b, In (a, b) (sides vs) /\ between a b q.
(** The planes of a polygon with these vertices. *)
Definition planes_of (vs : list vec) : list plane := map (fun e => Plane (snd e) (vunit (vrperp (vsub (snd e) (fst e))))) (sides vs).

(** The middle of a shape: all points at distance at most its radius from it are the shape. *)
Definition core (s : shape) : vec -> Prop :=
  match s with
  | SCircle c => fun q => q = ci_tc c
  | SSegment g => between (sg_ta g) (sg_tb g)
  | SPoly p => hull (map pl_v (po_dst p))
  end.
Definition radius_of (s : shape) : R :=
  match s with SCircle c => ci_r c | SSegment g => sg_r g | SPoly p => po_r p end.
Definition covers (s : shape) (q : vec) : Prop := exists k, core s k /\ vdist q k <= radius_of s.
(** The same for the shape in the coordinates of its body. *)
Definition local_core (s : shape) : vec -> Prop :=
  match s with
  | SCircle c => fun q => q = ci_c c
  | SSegment g => between (sg_a g) (sg_b g)
  | SPoly p => hull (map pl_v (po_src p))
  end.
Definition local_covers (s : shape) (q : vec) : Prop := exists k, local_core s k /\ vdist q k <= radius_of s.
(** Rotation (or reflection) and translation. *)
Definition rigid (t : @transform RNum) : Prop :=
  ta t * ta t + tb t * tb t = 1 /\ tc t * tc t + td t * td t = 1 /\ ta t * tc t + tb t * td t = 0.
(** The frames of bodies: a rotation and a translation. *)
Definition turning (t : @transform RNum) : Prop := ta t * ta t + tb t * tb t = 1 /\ tc t = - tb t /\ td t = ta t.
(** Shapes as the constructors and CacheData leave them. *)
Definition shape_ok (s : shape) : Prop :=
  match s with
  | SCircle c => 0 <= ci_r c
  | SSegment g => 0 <= sg_r g /\ sg_ta g <> sg_tb g
  | SPoly p => 0 <= po_r p /\ (3 <= length (po_dst p))%nat /\ convex (map pl_v (po_dst p)) /\ po_dst p = planes_of (map pl_v (po_dst p))
  end.
(** The circle of radius r swept from a to b touches the shape at fraction t. *)
Definition touches (s : shape) (a b : vec) (r t : R) : Prop := exists k, core s k /\ vdist (vlerp a b t) k <= radius_of s + r.
(** t is the first such fraction. *)
Definition first_touch (s : shape) (a b : vec) (r t : R) : Prop :=
  0 <= t <= 1 /\ touches s a b r t /\ forall u, 0 <= u < t -> ~ touches s a b r u.
(** The boundary of a polygon is not further away than the "infinity" the search starts from. *)
Definition in_range (s : shape) (p : vec) : Prop :=
  match s with
  | SPoly q => exists z, on_boundary (map pl_v (po_dst q)) z /\ vdist p z < ninf
  | _ => True
  end.
(** A world: the number, the data, "refused by the filter" and the cached box of every shape of a space;
    an index of it may report, for a box, any list of its shapes, in any order, that contains all those whose box meets the given one. *)
Definition indexes (world : list (nat * shape * bool * bb)) (visit : bb -> list (nat * shape * bool)) : Prop :=
  (forall box e, In e (visit box) -> exists b, In (e, b) world) /\
  (forall box e b, In (e, b) world -> bb_intersects b box = true -> In e (visit box)).
(** What CacheBB and the constructors guarantee of a world. *)
Definition world_ok (world : list (nat * shape * bool * bb)) (p : vec) : Prop :=
  forall i s f b, In (i, s, f, b) world -> shape_ok s /\ in_range s p /\ forall q, covers s q -> bb_contains_vect b q = true.
(** Info.Alpha of the shapes that Shape.SegmentQuery reports as hit and that are not refused. *)
Definition cast {N : Num} (world : nat -> shape) (refused : nat -> bool) (a b : Vec.vec) (radius : num) (i : nat) : option num :=
  match shape_segment_query (world i) a b radius with
  | Some info => if si_hit info && negb (refused i) then Some (si_alpha info) else None
  | None => None
  end.
(** The shapes for which C45 shows that a hit is a touch. *)
Definition castable (s : shape) (a b : vec) (r : R) : Prop :=
  match s with
  | SCircle c => 0 <= ci_r c /\ 0 < ci_r c + r /\ a <> b
  | SSegment g => 0 <= sg_r g /\ sg_ta g <> sg_tb g /\ vdot (sg_tn g) (sg_tn g) = 1 /\ vdot (sg_tn g) (vsub (sg_tb g) (sg_ta g)) = 0 /\
      sg_r g + r < Rabs (vdot (sg_tn g) (vsub a (sg_ta g)))
  | SPoly p => shape_ok (SPoly p) /\ in_range (SPoly p) a /\ forall u v, In (u, v) (sides (map pl_v (po_dst p))) -> vcross (vsub v u) (vsub b a) <> 0
  end.
(** A hit as it should be: Alpha is the first fraction at which the swept circle touches, Point is on the surface,
    Normal is the unit vector from the touched point to the centre of the swept circle, against the direction of the cast. *)
Definition good_hit (s : shape) (a b : vec) (r : R) (i : sinfo) : Prop :=
  first_touch s a b r (si_alpha i) /\ is_dist (core s) (si_point i) (radius_of s) /\
  vmag (si_normal i) = 1 /\ 0 <= vdot (si_normal i) (vsub a b) /\
  exists k, core s k /\ si_point i = vadd k (vscale (si_normal i) (radius_of s)) /\ vlerp a b (si_alpha i) = vadd k (vscale (si_normal i) (radius_of s + r)).
