(** The narrow phase: support points, GJK, EPA, contact points and the dispatch between kinds of shapes.
    Models collision.go, shape.go:59-70, 164-185, everything.go:88-134 (contacts), 307-342.

    Shapes are those of Shapes.v together with the cached box and the hash id.  Recursion of GJKRecurse is by fuel
    (None when it runs out; C43 proves that 61 is enough) and so is that of EPARecurse (30 is enough).
    A polygon without vertices makes the code index out of range: None.  The log message at collision.go:478 is left out. *)
From Coq Require Import ZArith NArith List Bool.
From Verif Require Import Num Vec BB Transform Shapes.
From Verif Require Filter.
Import ListNotations.
Local Open Scope num_scope.

Section Narrow.
Context {Nm : Num}.
(* math.SmallestNonzeroFloat64 (collision.go:250, 331-332) *)
Variable tiny : num.

(* everything.go:307-313; Go's f > min is min < f *)
Definition clamp (f mn mx : num) : num := if mn <? f then nmin f mx else nmin mn mx.
(* everything.go:316-319 *)
Definition lerp_t (a b : vec) (t : num) : vec :=
  let ht := nhalf * t in
  vadd (vscale a (nhalf - ht)) (vscale b (nhalf + ht)).
(* everything.go:325-328 *)
Definition closest_t (a b : vec) : num :=
  let delta := vsub b a in
  - clamp (vdot delta (vadd a b) / vmagsq delta) (- n1) n1.
(* everything.go:321-323 *)
Definition closest_dist (v0 v1 : vec) : num := vmagsq (lerp_t v0 v1 (closest_t v0 v1)).
(* everything.go:336-338 *)
Definition check_axis (v0 v1 p n : vec) : bool := vdot p n <=? nmax (vdot v0 n) (vdot v1 n).
(* everything.go:340-342; Go's x > y is y < x *)
Definition point_greater (v b c : vec) : bool :=
  (vx b - vx v) * (vy v + vy b - n2 * vy c) <? (vy b - vy v) * (vx v + vx b - n2 * vx c).

(* shape.go:13-39: what the narrow phase reads of a Shape *)
Record nshape := NShape { ns_s : shape; ns_bb : bb; ns_hash : N }.
(* shape.go:59-70 *)
Definition order (a : nshape) : nat := match ns_s a with SCircle _ => 0 | SSegment _ => 1 | SPoly _ => 2 end.
(* the segment's body turns its tangents by Body.Rotation (collision.go:135-137) *)
Definition tangent (g : segment) (t : vec) : vec := vrotate t (sg_rot g).

(* collision.go:16-24 *)
Record spoint := SPoint { sp_p : vec; sp_i : N }.
(* collision.go:48-61 PolySupportPointIndex, one round of the loop; state (max, index, i) *)
Definition support_round (n : vec) (st : num * nat * nat) (q : plane) : num * nat * nat :=
  let '(mx, index, i) := st in
  let d := vdot (pl_v q) n in
  if mx <? d then (d, i, S i) else (mx, index, S i).
(* collision.go:48-61 *)
Definition support_index (ps : list plane) (n : vec) : nat := snd (fst (fold_left (support_round n) ps (- ninf, O, O))).
(* planes[i]; i is in range whenever this is used on a non-empty polygon *)
Definition plane_at (p : poly) (i : nat) : plane := nth i (po_dst p) (Plane vzero vzero).
(* collision.go:28-46 *)
Definition support (s : shape) (n : vec) : spoint :=
  match s with
  | SCircle c => SPoint (ci_tc c) 0
  | SSegment g => if vdot (sg_tb g) n <? vdot (sg_ta g) n then SPoint (sg_ta g) 0 else SPoint (sg_tb g) 1
  | SPoly p => let i := support_index (po_dst p) n in SPoint (pl_v (plane_at p i)) (N.of_nat i)
  end.
(* shape.go:164-185 Shape.Point; i is below 256 *)
Definition point_of (s : shape) (i : N) : spoint :=
  match s with
  | SCircle c => SPoint (ci_tc c) 0
  | SSegment g => if (i =? 0)%N then SPoint (sg_ta g) i else SPoint (sg_tb g) i
  | SPoly p => let j := if (i <? N.of_nat (length (po_dst p)))%N then N.to_nat i else O in SPoint (pl_v (plane_at p j)) (N.of_nat j)
  end.
(* collision.go:214-223; the id is a uint32 *)
Record mpoint := MPoint { mp_a : vec; mp_b : vec; mp_ab : vec; mp_id : N }.
Definition new_mpoint (a b : spoint) : mpoint :=
  MPoint (sp_p a) (sp_p b) (vsub (sp_p b) (sp_p a)) (N.lor (N.shiftl (N.land (sp_i a) 255) 8) (N.land (sp_i b) 255)).
(* collision.go:63-72 *)
Definition ctx_support (s1 s2 : shape) (n : vec) : mpoint := new_mpoint (support s1 (vneg n)) (support s2 n).
(* collision.go:74-84 *)
Record cpoints := CPoints { cp_a : vec; cp_b : vec; cp_n : vec; cp_d : num; cp_id : N }.
(* collision.go:226-253; ids are below 2^16, so the shifted one is a uint32 *)
Definition closest_points (v0 v1 : mpoint) : cpoints :=
  let t := closest_t (mp_ab v0) (mp_ab v1) in
  let p := lerp_t (mp_ab v0) (mp_ab v1) t in
  let pa := lerp_t (mp_a v0) (mp_a v1) t in
  let pb := lerp_t (mp_b v0) (mp_b v1) t in
  let id := N.lor (N.shiftl (N.land (mp_id v0) 65535) 16) (N.land (mp_id v1) 65535) in
  let delta := vsub (mp_ab v1) (mp_ab v0) in
  let n := vunit (vrperp delta) in
  let d := vdot n p in
  if (d <=? n0) || ((- n1 <? t) && (t <? n1)) then CPoints pa pb n d id
  else
    let d2 := vmag p in
    CPoints pa pb (vscale p (n1 / (d2 + tiny))) d2 id.

(* collision.go:438-450: the side of the hull nearest to the origin; loop state (i, j, minDist, mini) *)
Definition nearest_side (hull : list mpoint) : nat :=
  let at_ i := mp_ab (nth i hull (MPoint vzero vzero vzero 0)) in
  let '(_, _, _, mini) := fold_left (fun st (_ : mpoint) =>
    let '(i, j, md, mini) := st in
    let d := closest_dist (at_ i) (at_ j) in
    if d <? md then (j, S j, d, i) else (j, S j, md, mini)) hull ((length hull - 1)%nat, O, ninf, O) in
  mini.
(* collision.go:460-474: hull[mini+1 ..] cyclically, each kept when it is beyond the line from the last kept point to the next one; [last] is hull2[count2-1] *)
Fixpoint rebuild (last : mpoint) (rest : list mpoint) (p : mpoint) : list mpoint :=
  match rest with
  | [] => []
  | h1 :: tl =>
    let h2 := match tl with h :: _ => mp_ab h | [] => mp_ab p end in
    if point_greater (mp_ab last) h2 (mp_ab h1) then h1 :: rebuild h1 tl p else rebuild last tl p
  end.
(* collision.go:13, 428-486 *)
Fixpoint epa_recurse (fuel : nat) (s1 s2 : shape) (hull : list mpoint) (iteration : nat) : option cpoints :=
  match fuel with
  | O => None
  | S fuel =>
    let mini := nearest_side hull in
    let next := Nat.modulo (mini + 1) (length hull) in
    let v0 := nth mini hull (MPoint vzero vzero vzero 0) in
    let v1 := nth next hull (MPoint vzero vzero vzero 0) in
    let p := ctx_support s1 s2 (vperp (vsub (mp_ab v1) (mp_ab v0))) in
    let duplicate := (mp_id p =? mp_id v0)%N || (mp_id p =? mp_id v1)%N in
    if negb duplicate && point_greater (mp_ab v0) (mp_ab v1) (mp_ab p) && Nat.ltb iteration 30 then
      epa_recurse fuel s1 s2 (p :: rebuild p (skipn next hull ++ firstn next hull) p) (iteration + 1)
    else Some (closest_points v0 v1)
  end.
(* collision.go:420-425 *)
Definition epa (s1 s2 : shape) (v0 v1 v2 : mpoint) : option cpoints := epa_recurse 30 s1 s2 [v0; v1; v2] 1.

(** How GJK ended, for the statements only: iteration limit, separating axis found, origin inside. *)
Inductive ending := Limit | Axis | Overlap.
(* collision.go:12, 382-415 *)
Fixpoint gjk_recurse (fuel : nat) (s1 s2 : shape) (v0 v1 : mpoint) (iteration : nat) : option (cpoints * ending) :=
  match fuel with
  | O => None
  | S fuel =>
    if Nat.ltb 30 iteration then Some (closest_points v0 v1, Limit)
    else if point_greater (mp_ab v1) (mp_ab v0) vzero then gjk_recurse fuel s1 s2 v1 v0 iteration
    else
      let t := closest_t (mp_ab v0) (mp_ab v1) in
      let n := if (- n1 <? t) && (t <? n1) then vperp (vsub (mp_ab v1) (mp_ab v0)) else vneg (lerp_t (mp_ab v0) (mp_ab v1) t) in
      let p := ctx_support s1 s2 n in
      if point_greater (mp_ab p) (mp_ab v0) vzero && point_greater (mp_ab v1) (mp_ab p) vzero then
        match epa s1 s2 v0 p v1 with Some c => Some (c, Overlap) | None => None end
      else if check_axis (mp_ab v0) (mp_ab v1) (mp_ab p) n then Some (closest_points v0 v1, Axis)
      else if closest_dist (mp_ab v0) (mp_ab p) <? closest_dist (mp_ab p) (mp_ab v1) then gjk_recurse fuel s1 s2 v0 p (iteration + 1)
      else gjk_recurse fuel s1 s2 p v1 (iteration + 1)
  end.
(* collision.go:362-379: the two starting points *)
Definition gjk_start (a b : nshape) (id : N) : mpoint * mpoint :=
  if negb (id =? 0)%N then
    (new_mpoint (point_of (ns_s a) (N.land (N.shiftr id 24) 255)) (point_of (ns_s b) (N.land (N.shiftr id 16) 255)),
     new_mpoint (point_of (ns_s a) (N.land (N.shiftr id 8) 255)) (point_of (ns_s b) (N.land id 255)))
  else
    let axis := vperp (vsub (bb_center (ns_bb a)) (bb_center (ns_bb b))) in
    (ctx_support (ns_s a) (ns_s b) axis, ctx_support (ns_s a) (ns_s b) (vneg axis)).
(* a polygon without planes: planes[0] is out of range *)
Definition has_points (s : shape) : bool := match s with SPoly p => match po_dst p with [] => false | _ => true end | _ => true end.
(* collision.go:362-379; the new collisionId is cp_id *)
Definition gjk (a b : nshape) (id : N) : option (cpoints * ending) :=
  if has_points (ns_s a) && has_points (ns_s b) then
    let '(v0, v1) := gjk_start a b id in gjk_recurse 61 (ns_s a) (ns_s b) v0 v1 1
  else None.

(* collision.go:255-265 *)
Record edge := Edge { e_a : vec; e_ah : N; e_b : vec; e_bh : N; e_r : num; e_n : vec }.
(* collision.go:267-285 *)
Definition segment_edge (g : segment) (hash : N) (n : vec) : edge :=
  if n0 <? vdot (sg_tn g) n then Edge (sg_ta g) (Filter.hash_pair hash 0) (sg_tb g) (Filter.hash_pair hash 1) (sg_r g) (sg_tn g)
  else Edge (sg_tb g) (Filter.hash_pair hash 1) (sg_ta g) (Filter.hash_pair hash 0) (sg_r g) (vneg (sg_tn g)).
(* collision.go:287-311 *)
Definition poly_edge (p : poly) (hash : N) (n : vec) : edge :=
  let count := length (po_dst p) in
  let i1 := support_index (po_dst p) n in
  let i0 := Nat.modulo (i1 + count - 1) count in
  let i2 := Nat.modulo (i1 + 1) count in
  let q i := plane_at p i in
  let h i := Filter.hash_pair hash (N.of_nat i) in
  if vdot n (pl_n (q i2)) <? vdot n (pl_n (q i1)) then Edge (pl_v (q i0)) (h i0) (pl_v (q i1)) (h i1) (po_r p) (pl_n (q i1))
  else Edge (pl_v (q i1)) (h i1) (pl_v (q i2)) (h i2) (po_r p) (pl_n (q i2)).

(* everything.go:88-97: Contact as PushContact leaves it *)
Record ncontact := NContact { nc_p1 : vec; nc_p2 : vec; nc_hash : N }.
(* everything.go:116-123: the normal, arr[0..count) and the collision id *)
Record ninfo := NInfo { nf_n : vec; nf_arr : list ncontact; nf_id : N }.
(* everything.go:125-134 *)
Definition push (i : ninfo) (p1 p2 : vec) (hash : N) : ninfo := NInfo (nf_n i) (nf_arr i ++ [NContact p1 p2 hash]) (nf_id i).
(* info.n = n *)
Definition with_n (i : ninfo) (n : vec) : ninfo := NInfo n (nf_arr i) (nf_id i).
(* *collisionId = id *)
Definition with_id (i : ninfo) (id : N) : ninfo := NInfo (nf_n i) (nf_arr i) id.

(* collision.go:314-353; Go's x > y is y < x *)
Definition contact_points (e1 e2 : edge) (pts : cpoints) (i : ninfo) : ninfo :=
  let mindist := e_r e1 + e_r e2 in
  if mindist <? cp_d pts then i
  else
    let n := cp_n pts in
    let i := with_n i n in
    let d1a := vcross (e_a e1) n in
    let d1b := vcross (e_b e1) n in
    let d2a := vcross (e_a e2) n in
    let d2b := vcross (e_b e2) n in
    let den1 := n1 / (d1b - d1a + tiny) in
    let den2 := n1 / (d2b - d2a + tiny) in
    let i :=
      let p1 := vadd (vscale n (e_r e1)) (vlerp (e_a e1) (e_b e1) (clamp01 ((d2b - d1a) * den1))) in
      let p2 := vadd (vscale n (- e_r e2)) (vlerp (e_a e2) (e_b e2) (clamp01 ((d1a - d2a) * den2))) in
      if vdot (vsub p2 p1) n <=? n0 then push i p1 p2 (Filter.hash_pair (e_ah e1) (e_bh e2)) else i in
    let p1 := vadd (vscale n (e_r e1)) (vlerp (e_a e1) (e_b e1) (clamp01 ((d2a - d1a) * den1))) in
    let p2 := vadd (vscale n (- e_r e2)) (vlerp (e_a e2) (e_b e2) (clamp01 ((d1b - d2a) * den2))) in
    if vdot (vsub p2 p1) n <=? n0 then push i p1 p2 (Filter.hash_pair (e_bh e1) (e_ah e2)) else i.

(* collision.go:88-105 *)
Definition circle_to_circle (c1 c2 : circle) (i : ninfo) : ninfo :=
  let mindist := ci_r c1 + ci_r c2 in
  let delta := vsub (ci_tc c2) (ci_tc c1) in
  let distsq := vmagsq delta in
  if distsq <? mindist * mindist then
    let dist := nsqrt distsq in
    let n := if negb (dist =? n0) then vscale delta (n1 / dist) else V n1 n0 in
    push (with_n i n) (vadd (ci_tc c1) (vscale n (ci_r c1))) (vadd (ci_tc c2) (vscale n (- ci_r c2))) 0
  else i.
(* collision.go:111-141 *)
Definition circle_to_segment (c : circle) (g : segment) (i : ninfo) : ninfo :=
  let segA := sg_ta g in
  let segDelta := vsub (sg_tb g) segA in
  let t := clamp01 (vdot segDelta (vsub (ci_tc c) segA) / vmagsq segDelta) in
  let closest := vadd segA (vscale segDelta t) in
  let mindist := ci_r c + sg_r g in
  let delta := vsub closest (ci_tc c) in
  let distsq := vmagsq delta in
  if distsq <? mindist * mindist then
    let dist := nsqrt distsq in
    let n := if negb (dist =? n0) then vscale delta (n1 / dist) else sg_tn g in
    let i := with_n i n in
    if (negb (t =? n0) || (n0 <=? vdot n (tangent g (sg_at g)))) && (negb (t =? n1) || (n0 <=? vdot n (tangent g (sg_bt g)))) then
      push i (vadd (ci_tc c) (vscale n (ci_r c))) (vadd closest (vscale n (- sg_r g))) 0
    else i
  else i.
(* collision.go:143-164 *)
Definition segment_to_segment (a b : nshape) (g1 g2 : segment) (i : ninfo) : option ninfo :=
  match gjk a b (nf_id i) with
  | None => None
  | Some (pts, _) =>
    let i := with_id i (cp_id pts) in
    let n := cp_n pts in
    Some (if sg_r g1 + sg_r g2 <? cp_d pts then i
          else if (negb (veqb (cp_a pts) (sg_ta g1)) || (vdot n (tangent g1 (sg_at g1)) <=? n0)) &&
                  (negb (veqb (cp_a pts) (sg_tb g1)) || (vdot n (tangent g1 (sg_bt g1)) <=? n0)) &&
                  (negb (veqb (cp_b pts) (sg_ta g2)) || (n0 <=? vdot n (tangent g2 (sg_at g2)))) &&
                  (negb (veqb (cp_b pts) (sg_tb g2)) || (n0 <=? vdot n (tangent g2 (sg_bt g2)))) then
            contact_points (segment_edge g1 (ns_hash a) n) (segment_edge g2 (ns_hash b) (vneg n)) pts i
          else i)
  end.
(* collision.go:166-177 *)
Definition circle_to_poly (a b : nshape) (c : circle) (p : poly) (i : ninfo) : option ninfo :=
  match gjk a b (nf_id i) with
  | None => None
  | Some (pts, _) =>
    let i := with_id i (cp_id pts) in
    Some (if cp_d pts <=? ci_r c + po_r p then
            let n := cp_n pts in
            push (with_n i n) (vadd (cp_a pts) (vscale n (ci_r c))) (vadd (cp_b pts) (vscale n (po_r p))) 0
          else i)
  end.
(* collision.go:179-196 *)
Definition segment_to_poly (a b : nshape) (g : segment) (p : poly) (i : ninfo) : option ninfo :=
  match gjk a b (nf_id i) with
  | None => None
  | Some (pts, _) =>
    let i := with_id i (cp_id pts) in
    let n := cp_n pts in
    Some (if (cp_d pts - sg_r g - po_r p <=? n0) &&
             ((negb (veqb (cp_a pts) (sg_ta g)) || (vdot n (tangent g (sg_at g)) <=? n0)) &&
              (negb (veqb (cp_a pts) (sg_tb g)) || (vdot n (tangent g (sg_bt g)) <=? n0))) then
            contact_points (segment_edge g (ns_hash a) n) (poly_edge p (ns_hash b) (vneg n)) pts i
          else i)
  end.
(* collision.go:198-211 *)
Definition poly_to_poly (a b : nshape) (p1 p2 : poly) (i : ninfo) : option ninfo :=
  match gjk a b (nf_id i) with
  | None => None
  | Some (pts, _) =>
    let i := with_id i (cp_id pts) in
    Some (if cp_d pts - po_r p1 - po_r p2 <=? n0 then
            contact_points (poly_edge p1 (ns_hash a) (cp_n pts)) (poly_edge p2 (ns_hash b) (vneg (cp_n pts))) pts i
          else i)
  end.

(* collision.go:488-498: BuiltinCollisionFuncs; CollisionError and the failing type assertions of a wrong entry are None *)
Inductive routine := CircleToCircle | CollisionError | CircleToSegment | SegmentToSegment | CircleToPoly | SegmentToPoly | PolyToPoly.
Definition table : list routine :=
  [CircleToCircle; CollisionError; CollisionError; CircleToSegment; SegmentToSegment; CollisionError; CircleToPoly; SegmentToPoly; PolyToPoly].
(* the table's routines applied to info.a, info.b; a type assertion panics on another type: None *)
Definition call (r : routine) (a b : nshape) (i : ninfo) : option ninfo :=
  match r, ns_s a, ns_s b with
  | CircleToCircle, SCircle c1, SCircle c2 => Some (circle_to_circle c1 c2 i)
  | CircleToSegment, SCircle c, SSegment g => Some (circle_to_segment c g i)
  | SegmentToSegment, SSegment g1, SSegment g2 => segment_to_segment a b g1 g2 i
  | CircleToPoly, SCircle c, SPoly p => circle_to_poly a b c p i
  | SegmentToPoly, SSegment g, SPoly p => segment_to_poly a b g p i
  | PolyToPoly, SPoly p1, SPoly p2 => poly_to_poly a b p1 p2 i
  | _, _, _ => None
  end.
(* collision.go:501-520; whether the shapes were swapped, and the info; ShapeTypeNum is 3 (shape.go) *)
Definition collide (a b : nshape) (id : N) : option (bool * ninfo) :=
  let swapped := Nat.ltb (order b) (order a) in
  let '(a, b) := if swapped then (b, a) else (a, b) in
  match nth_error table (order a + order b * 3) with
  | None => None
  | Some r => match call r a b (NInfo vzero [] id) with Some i => Some (swapped, i) | None => None end
  end.

(* arbiter.go ContactPointSet: PointA, PointB, Distance *)
Record cpoint := CPoint { ct_a : vec; ct_b : vec; ct_d : num }.
(* collision.go:523-553; the two shapes are different, so a != info.a exactly when they were swapped *)
Definition shapes_collide (a b : nshape) : option (vec * list cpoint) :=
  match collide a b 0 with
  | None => None
  | Some (swapped, i) =>
    let normal := if swapped then vneg (nf_n i) else nf_n i in
    Some (normal, map (fun c =>
      let d := vdot (vsub (nc_p2 c) (nc_p1 c)) normal in
      if swapped then CPoint (nc_p2 c) (nc_p1 c) d else CPoint (nc_p1 c) (nc_p2 c) d) (nf_arr i))
  end.
End Narrow.
Arguments ending : clear implicits.
Arguments routine : clear implicits.
