(** Circles, segments and polygons: cached data, bounding boxes, point and segment queries.
    Models circle.go, segment.go, polyshape.go (without mass data and convexHull), shape.go:155-220,
    everything.go:249-251, 330-334 and the space-wide queries space.go:933-942, 1219-1230.

    A shape is the data its methods read; a pointer to it in a query result is the boolean "Shape != nil"
    (queries of one shape) or the position in a list (queries of a space). *)
From Coq Require Import ZArith List Bool.
From Verif Require Import Num Vec BB Transform.
Import ListNotations.
Local Open Scope num_scope.

Section Shapes.
Context {N : Num}.

(* everything.go:13 *)
Definition magic_epsilon : num := nlit 1 100000.
(* everything.go:249-251 *)
Definition clamp01 (f : num) : num := nmax n0 (nmin f n1).
(* everything.go:330-334 *)
Definition closest_point_on_segment (v a b : vec) : vec :=
  let delta := vsub a b in
  let t := clamp01 (vdot delta (vsub v b) / vmagsq delta) in
  vadd b (vscale delta t).

(* circle.go:9-13 *)
Record circle := Circle { ci_c : vec; ci_tc : vec; ci_r : num }.
(* segment.go:6-12; sg_rot is Body.Rotation() of the body (body.go:273-275) *)
Record segment := Segment { sg_a : vec; sg_b : vec; sg_n : vec; sg_ta : vec; sg_tb : vec; sg_tn : vec; sg_r : num; sg_at : vec; sg_bt : vec; sg_rot : vec }.
(* everything.go:169-171 *)
Record plane := Plane { pl_v : vec; pl_n : vec }.
(* polyshape.go:9-15; the first count planes (transformed) and the rest (untransformed) as two lists *)
Record poly := Poly { po_r : num; po_dst : list plane; po_src : list plane }.

(* everything.go:143-153 PointQueryInfo, without the shape *)
Record pinfo := PInfo { pi_point : vec; pi_dist : num; pi_grad : vec }.
(* everything.go:156-166 SegmentQueryInfo; si_hit is Shape != nil *)
Record sinfo := SInfo { si_hit : bool; si_point : vec; si_normal : vec; si_alpha : num }.
(* SegmentQueryInfo{nil, b, vec.Vec2{}, 1} (shape.go:202, segment.go:101, polyshape.go:128) *)
Definition blank (b : vec) : sinfo := SInfo false b vzero n1.

(** ** Circles *)
(* circle.go:15-18 *)
Definition circle_cache (c : circle) (t : transform) : circle * bb :=
  let tc := tf_apply t (ci_c c) in
  (Circle (ci_c c) tc (ci_r c), bb_circle tc (ci_r c)).
(* circle.go:20-34 *)
Definition circle_point_query (c : circle) (p : vec) : pinfo :=
  let delta := vsub p (ci_tc c) in
  let d := vmag delta in
  let r := ci_r c in
  PInfo (vadd (ci_tc c) (vscale delta (r / d))) (d - r)
        (if magic_epsilon <? d then vscale delta (n1 / d) else V n0 n1).
(* circle.go:67-87 CircleSegmentQuery; Go's x >= y is y <= x *)
Definition circle_segment_query (center : vec) (r1 : num) (a b : vec) (r2 : num) (info : sinfo) : sinfo :=
  let da := vsub a center in
  let db := vsub b center in
  let rsum := r1 + r2 in
  let qa := vdot da da - n2 * vdot da db + vdot db db in
  let qb := vdot da db - vdot da da in
  let det := qb * qb - qa * (vdot da da - rsum * rsum) in
  if n0 <=? det then
    let t := (- qb - nsqrt det) / qa in
    if (n0 <=? t) && (t <=? n1) then
      let n := vunit (vlerp da db t) in
      SInfo true (vsub (vlerp a b t) (vscale n r2)) n t
    else info
  else info.

(** ** Segments *)
(* shape_factory.go:17-32: n of a new segment; the tangents are zero *)
Definition new_segment (a b : vec) (r : num) : segment :=
  Segment a b (vrperp (vunit (vsub b a))) vzero vzero vzero r vzero vzero (V n1 n0).
(* segment.go:14-39 *)
Definition segment_cache (s : segment) (t : transform) : segment * bb :=
  let ta := tf_apply t (sg_a s) in
  let tb := tf_apply t (sg_b s) in
  let tn := tf_apply_vector t (sg_n s) in
  let '(l, r) := if vx ta <? vx tb then (vx ta, vx tb) else (vx tb, vx ta) in
  let '(b, tp) := if vy ta <? vy tb then (vy ta, vy tb) else (vy tb, vy ta) in
  let rad := sg_r s in
  (Segment (sg_a s) (sg_b s) (sg_n s) ta tb tn rad (sg_at s) (sg_bt s) (sg_rot s), mkBB (l - rad) (b - rad) (r + rad) (tp + rad)).
(* segment.go:41-63; Go's d != 0 is the negation of == *)
Definition segment_point_query (s : segment) (p : vec) : pinfo :=
  let closest := closest_point_on_segment p (sg_ta s) (sg_tb s) in
  let delta := vsub p closest in
  let d := vmag delta in
  let r := sg_r s in
  let g := vscale delta (n1 / d) in
  PInfo (if negb (d =? n0) then vadd closest (vscale g r) else closest) (d - r)
        (if magic_epsilon <? d then g else sg_n s).
(* segment.go:65-113 *)
Definition segment_segment_query (s : segment) (a b : vec) (r2 : num) (info : sinfo) : sinfo :=
  let n := sg_tn s in
  let d := vdot (vsub (sg_ta s) a) n in
  let r := sg_r s + r2 in
  let flippedN := if n0 <? d then vneg n else n in
  let segOffset := vsub (vscale flippedN r) a in
  let segA := vadd (sg_ta s) segOffset in
  let segB := vadd (sg_tb s) segOffset in
  let delta := vsub b a in
  if vcross delta segA * vcross delta segB <=? n0 then
    let dOffset := if n0 <? d then d - r else d + r in
    let ad := - dOffset in
    let bd := vdot delta n - dOffset in
    if ad * bd <? n0 then
      let t := ad / (ad - bd) in
      SInfo true (vsub (vlerp a b t) (vscale flippedN r2)) flippedN t
    else info
  else if negb (r =? n0) then
    let info1 := circle_segment_query (sg_ta s) (sg_r s) a b r2 (blank b) in
    let info2 := circle_segment_query (sg_tb s) (sg_r s) a b r2 (blank b) in
    if si_alpha info1 <? si_alpha info2 then info1 else info2
  else info.

(** ** Polygons *)
(* polyshape.go:150-162 SetVerts; None for the index out of range (count > len(verts)) *)
Definition set_verts (count : nat) (verts : list vec) : option (list plane) :=
  let fix go (is : list nat) : option (list plane) :=
    match is with
    | [] => Some []
    | i :: is =>
      match nth_error verts (Nat.modulo (i + count - 1) count), nth_error verts i, go is with
      | Some a, Some b, Some ps => Some (Plane b (vunit (vrperp (vsub b a))) :: ps)
      | _, _, _ => None
      end
    end in
  go (seq 0 count).
(* polyshape.go:17-43 *)
Definition poly_cache (s : poly) (t : transform) : poly * bb :=
  let dst := map (fun q => Plane (tf_apply t (pl_v q)) (tf_apply_vector t (pl_n q))) (po_src s) in
  let '(l, r, b, tp) := fold_left (fun acc q =>
    let '(l, r, b, tp) := acc in
    let v := pl_v q in
    (nmin l (vx v), nmax r (vx v), nmin b (vy v), nmax tp (vy v))) dst (ninf, - ninf, ninf, - ninf) in
  let radius := po_r s in
  (Poly radius dst (po_src s), mkBB (l - radius) (b - radius) (r + radius) (tp + radius)).
(* polyshape.go:58-75, one round; state (v0, minDist, closestPoint, closestNormal, outside); Go's x > 0 is 0 < x *)
Definition poly_round (p : vec) (st : vec * num * vec * vec * bool) (q : plane) : vec * num * vec * vec * bool :=
  let '(v0, minDist, cp, cn, outside) := st in
  let v1 := pl_v q in
  let outside := if outside then true else n0 <? vdot (pl_n q) (vsub p v1) in
  let closest := closest_point_on_segment p v0 v1 in
  let dist := vdist p closest in
  if dist <? minDist then (v1, dist, closest, pl_n q, outside) else (v1, minDist, cp, cn, outside).
(* polyshape.go:45-91; None for no vertex (planes[count-1] with count = 0) *)
Definition poly_point_query (s : poly) (p : vec) : option pinfo :=
  match rev (po_dst s) with
  | [] => None
  | last :: _ =>
    let '(_, minDist, cp, cn, outside) := fold_left (poly_round p) (po_dst s) (pl_v last, ninf, vzero, vzero, false) in
    let dist := if outside then minDist else - minDist in
    let g := vscale (vsub p cp) (n1 / dist) in
    let r := po_r s in
    Some (PInfo (vadd cp (vscale g r)) (dist - r) (if magic_epsilon <? minDist then g else cn))
  end.
(* polyshape.go:99-123, one side; v0 is the vertex before it *)
Definition poly_side_query (a b : vec) (rsum r2 : num) (v0 : vec) (q : plane) (info : sinfo) : sinfo :=
  let n := pl_n q in
  let an := vdot a n in
  let d := an - vdot (pl_v q) n - rsum in
  if d <? n0 then info
  else
    let bn := vdot b n in
    let t := d / (an - bn) in
    if (t <? n0) || (n1 <? t) then info
    else
      let point := vlerp a b t in
      let dt := vcross n point in
      let dtMin := vcross n v0 in
      let dtMax := vcross n (pl_v q) in
      if (dtMin <=? dt) && (dt <=? dtMax) then SInfo true (vsub (vlerp a b t) (vscale n r2)) n t
      else info.
(* polyshape.go:93-136; planes[(i-1+count)%count] is the plane before, cyclically *)
Definition poly_segment_query (s : poly) (a b : vec) (r2 : num) (info : sinfo) : sinfo :=
  let r := po_r s in
  let rsum := r + r2 in
  let sides := combine (map pl_v (skipn (length (po_dst s) - 1) (po_dst s) ++ po_dst s)) (po_dst s) in
  let info := fold_left (fun info e => poly_side_query a b rsum r2 (fst e) (snd e) info) sides info in
  if n0 <? rsum then
    fold_left (fun info q =>
      let ci := circle_segment_query (pl_v q) r a b r2 (blank b) in
      if si_alpha ci <? si_alpha info then ci else info) (po_dst s) info
  else info.

(** ** Any shape *)
Inductive shape := SCircle (c : circle) | SSegment (s : segment) | SPoly (p : poly).
(* shape.go:155-162; Class.CacheData *)
Definition shape_cache (s : shape) (t : transform) : shape * bb :=
  match s with
  | SCircle c => let '(c, b) := circle_cache c t in (SCircle c, b)
  | SSegment g => let '(g, b) := segment_cache g t in (SSegment g, b)
  | SPoly p => let '(p, b) := poly_cache p t in (SPoly p, b)
  end.
(* shape.go:192-196; Class.PointQuery; a polygon has at least one vertex, else None *)
Definition shape_point_query (s : shape) (p : vec) : option pinfo :=
  match s with
  | SCircle c => Some (circle_point_query c p)
  | SSegment g => Some (segment_point_query g p)
  | SPoly q => poly_point_query q p
  end.
(* Class.SegmentQuery (circle.go:36-38, segment.go:65, polyshape.go:93) *)
Definition class_segment_query (s : shape) (a b : vec) (radius : num) (info : sinfo) : sinfo :=
  match s with
  | SCircle c => circle_segment_query (ci_tc c) (ci_r c) a b radius info
  | SSegment g => segment_segment_query g a b radius info
  | SPoly q => poly_segment_query q a b radius info
  end.
(* shape.go:201-220; Go's x <= y *)
Definition shape_segment_query (s : shape) (a b : vec) (radius : num) : option sinfo :=
  let info := blank b in
  match shape_point_query s a with
  | None => None
  | Some nearest =>
    Some (if pi_dist nearest <=? radius then SInfo true (si_point info) (vunit (vsub a (pi_point nearest))) n0
          else class_segment_query s a b radius info)
  end.

(** ** Queries of a space
    The shapes an index reports, in the order it reports them, are a list of (number, shape, refused) where refused is
    Filter.Reject(context.filter) or Sensor.  (SegmentQueryFirst is in BBTree.v.) *)
(* space.go:1219-1230 NearestPointQueryNearest *)
Definition nearest_step (point : vec) (acc : option nat * pinfo) (e : nat * shape * bool) : option nat * pinfo :=
  let '(i, s, refused) := e in
  if refused then acc
  else match shape_point_query s point with
       | Some info => if pi_dist info <? pi_dist (snd acc) then (Some i, info) else acc
       | None => acc
       end.
(* space.go:933-942; [visit] gives what the two indexes report for a box, dynamic shapes first *)
Definition point_query_nearest (visit : bb -> list (nat * shape * bool)) (point : vec) (maxDistance : num) : option nat * pinfo :=
  let info := PInfo vzero maxDistance vzero in
  let box := bb_circle point (nmax maxDistance n0) in
  fold_left (nearest_step point) (visit box) (None, info).
End Shapes.
