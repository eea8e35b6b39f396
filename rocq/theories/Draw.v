(** Drawing (/repo/idrawer.go).  The result is the list of calls made to the drawer, in order.
    The bodies are those of [H]; [shp], [jnt] and [arb] give the data of the shapes, constraints and arbiters that the lists of the
    space refer to by number.

    Simplifications: the drawer's answers (flags, colours) do not change while drawing; Data() is left out; a constraint has one of
    the ten classes of the library (any other panics). *)
From Coq Require Import ZArith NArith List Bool.
From Verif Require Import Num Vec BB Transform Body Shapes Solver.
From Verif Require Space.
Import ListNotations.
Local Open Scope num_scope.

Section Draw.
Context {N : Num} {colour : Type}.

(* idrawer.go:22-35 IDrawer: what the drawer answers *)
Record drawer := Drawer { dr_flags : BinNums.N; dr_outline : colour; dr_shape : nat -> colour; dr_constraint : colour; dr_point : colour }.
(* idrawer.go:23-27: the calls made to it *)
Inductive dcall :=
  | DCircle (pos : vec) (angle radius : num) (outline fill : colour)
  | DSegment (a b : vec) (fill : colour)
  | DFatSegment (a b : vec) (radius : num) (outline fill : colour)
  | DPolygon (verts : list vec) (radius : num) (outline fill : colour)
  | DDot (size : num) (pos : vec) (fill : colour).

(* idrawer.go:38-66 DrawShape: shape number i, its data s, angle of its body *)
Definition draw_shape (d : drawer) (angle : num) (i : nat) (s : shape) : dcall :=
  let outline := dr_outline d in
  let fill := dr_shape d i in
  match s with
  | SCircle c => DCircle (ci_tc c) angle (ci_r c) outline fill
  | SSegment g => DFatSegment (sg_ta g) (sg_tb g) (sg_r g) outline fill
  | SPoly p => DPolygon (map pl_v (po_dst p)) (po_r p) outline fill
  end.
(* idrawer.go:68-84 springVerts, in hundredths *)
Definition spring_verts : list vec :=
  map (fun e => V (nlit (fst e) 100) (nofZ (snd e)))
    [(0, 0); (20, 0); (25, 3); (30, -6); (35, 6); (40, -6); (45, 6); (50, -6); (55, 6); (60, -6); (65, 6); (70, -3); (75, 6); (80, 0); (100, 0)]%Z.
(* idrawer.go:133-146: the vertices of a spring drawn from a to b *)
Definition spring_points (a b : vec) : list vec :=
  let delta := vsub b a in
  let s := n1 / vmag delta in
  let r1 := V (vx delta) (- vy delta * s) in
  let r2 := V (vy delta) (vx delta * s) in
  map (fun v => V (vdot v r1 + vx a) (vdot v r2 + vy a)) spring_verts.
(* idrawer.go:148-150: a segment between each two neighbours *)
Fixpoint draw_path (fill : colour) (l : list vec) : list dcall :=
  match l with
  | a :: (b :: _) as t => DSegment a b fill :: draw_path fill t
  | _ => []
  end.
(* idrawer.go:87-161 DrawConstraint *)
Definition draw_constraint (d : drawer) (H : heap) (c : cstr) (k : jclass) : list dcall :=
  let color := dr_constraint d in
  let fa := tf_apply (b_tf (H (c_a c))) in
  let fb := tf_apply (b_tf (H (c_b c))) in
  let dot p := DDot (nofZ 5) p color in
  match k with
  | JPin p => [dot (fa (pn_anchA p)); dot (fb (pn_anchB p)); DSegment (fa (pn_anchA p)) (fb (pn_anchB p)) color]
  | JSlide p => [dot (fa (sl_anchA p)); dot (fb (sl_anchB p)); DSegment (fa (sl_anchA p)) (fb (sl_anchB p)) color]
  | JPivot p => [dot (fa (pv_anchA p)); dot (fb (pv_anchB p))]
  | JGroove p => [dot (fb (gv_anchB p)); DSegment (fa (gv_ga p)) (fa (gv_gb p)) color]
  | JSpring p =>
      let a := fa (sp_anchA p) in
      let b := fb (sp_anchB p) in
      dot a :: dot b :: draw_path color (spring_points a b)
  | JGear _ | JMotor _ | JRSpring _ | JRLimit _ | JRatchet _ => []
  end.
(* idrawer.go:180-194: the contacts of one arbiter *)
Definition draw_arbiter (d : drawer) (H : heap) (s : sarb) : list dcall :=
  let n := s_n s in
  map (fun c =>
    let p1 := vadd (b_pos (H (s_a s))) (k_r1 c) in
    let p2 := vadd (b_pos (H (s_b s))) (k_r2 c) in
    DSegment (vadd p1 (vscale n (- n2))) (vadd p2 (vscale n n2)) (dr_point d)) (s_contacts s).
(* idrawer.go:164-195 DrawSpace *)
Definition draw_space (d : drawer) (H : heap) (shp : nat -> shape) (jnt : nat -> cstr * jclass) (arb : nat -> sarb) (s : Space.space) : list dcall :=
  let shape i := draw_shape d (b_angle (H (Space.sh_body (Space.s_shape s i)))) i (shp i) in
  map shape (map snd (Space.s_dix s)) ++ map shape (map snd (Space.s_six s)) ++
  flat_map (fun c => draw_constraint d H (fst (jnt c)) (snd (jnt c))) (Space.s_cons s) ++
  flat_map (fun x => draw_arbiter d H (arb x)) (Space.s_arbs s).
End Draw.
Arguments drawer colour : clear implicits.
Arguments dcall {N} colour.
