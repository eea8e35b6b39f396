(** Observables of C71 for shapes: shapes, boxes and collision results seen from another origin. *)
From Coq Require Import ZArith NArith Bool List Arith Reals.
From Verif Require Import Num NumReal Vec VecReal BB Transform Body BodySpec Solver SolverSpec Joints JointsSpec Persist ApartSpec ShiftSpec Shapes Narrow.
Import ListNotations.
Local Open Scope R_scope.

Definition shift_plane (x : Rvec) (q : @plane RNum) : @plane RNum := Plane (vadd (pl_v q) x) (pl_n q).
Definition shift_shape (x : Rvec) (s : @shape RNum) : @shape RNum :=
  match s with
  | SCircle c => SCircle (Circle (ci_c c) (vadd (ci_tc c) x) (ci_r c))
  | SSegment g => SSegment (Segment (sg_a g) (sg_b g) (sg_n g) (vadd (sg_ta g) x) (vadd (sg_tb g) x) (sg_tn g) (sg_r g) (sg_at g) (sg_bt g) (sg_rot g))
  | SPoly p => SPoly (Poly (po_r p) (map (shift_plane x) (po_dst p)) (po_src p))
  end.
Definition shift_bb (x : Rvec) (b : @bb RNum) : @bb RNum := mkBB (bL b + vx x) (bB b + vy x) (bR b + vx x) (bT b + vy x).
Definition shift_tf (x : Rvec) (t : @transform RNum) : @transform RNum := Tf (ta t) (tb t) (tc t) (td t) (ttx t + vx x) (tty t + vy x).
Definition shift_nshape (x : Rvec) (s : @nshape RNum) : @nshape RNum := NShape (shift_shape x (ns_s s)) (shift_bb x (ns_bb s)) (ns_hash s).
Definition shift_info (x : Rvec) (i : @ninfo RNum) : @ninfo RNum := NInfo (nf_n i) (map (fun c => NContact (vadd (nc_p1 c) x) (vadd (nc_p2 c) x) (nc_hash c)) (nf_arr i)) (nf_id i).

(** Coordinates of at most 2^500, where a sum of two products stays below the largest float, the code's infinity (everything.go:12). *)
Definition far : R := IZR (2 ^ 500).
Definition near (k : R) (v : Rvec) : Prop := Rabs (vx v) <= k /\ Rabs (vy v) <= k.
Definition placed (s : @shape RNum) : Prop :=
  match s with
  | SCircle c => near far (ci_tc c)
  | SSegment g => near far (sg_ta g) /\ near far (sg_tb g)
  | SPoly p => Forall (fun q => near far (pl_v q)) (po_dst p)
  end.

(** A shape as a body with transform t has it in a step: cached data, box, and the rotation its body turns tangents by (shape.go:72-78, body.go:273-275). *)
Definition turned (t : @transform RNum) (s : @shape RNum) : @shape RNum :=
  match s with SSegment g => SSegment (Segment (sg_a g) (sg_b g) (sg_n g) (sg_ta g) (sg_tb g) (sg_tn g) (sg_r g) (sg_at g) (sg_bt g) (@V RNum (ta t) (tb t))) | s => s end.
Definition on_body (s : @shape RNum) (hash : N) (t : @transform RNum) : @nshape RNum := let '(s, b) := shape_cache s t in NShape (turned t s) b hash.
(** Two shapes of two bodies, with their hash ids, materials and the collision id of the pair; [sp_mem] is what the contact buffer held. *)
Record spair := SPair { sp_ba : nat; sp_bb : nat; sp_sa : @shape RNum; sp_sb : @shape RNum; sp_ha : N; sp_hb : N; sp_ma : @material RNum; sp_mb : @material RNum; sp_id : N; sp_mem : nat -> @contact RNum }.
(** What the collision phase makes of them and of the arbiter the pair had (space.go:1066-1131, collision.go:501-520). *)
Definition shape_test (tiny : R) (p : spair) (x y : Rbody) (o : option Rsarb) : option Rsarb :=
  match collide (Nm := RNum) tiny (on_body (sp_sa p) (sp_ha p) (b_tf x)) (on_body (sp_sb p) (sp_hb p) (b_tf y)) (sp_id p) with
  | Some (sw, i) =>
    match nf_arr i with
    | [] => None
    | _ =>
      let old := match o with Some s => s | None => @SArb RNum (sp_ba p) (sp_bb p) 0 0 vzero vzero false true false [] end in
      let H : Rheap := fun i => if Nat.eqb i (sp_ba p) then x else y in
      Some (if sw then update H (sp_bb p) (sp_ba p) (sp_mb p) (sp_ma p) sw (sp_mem p) i old else update H (sp_ba p) (sp_bb p) (sp_ma p) (sp_mb p) sw (sp_mem p) i old)
    end
  | None => None
  end.
(** Both shapes stay near enough to both origins, and polygons have vertices. *)
Definition pair_placed (x : Rvec) (H : Rheap) (p : spair) : Prop :=
  let a := ns_s (on_body (sp_sa p) 0 (b_tf (H (sp_ba p)))) in let b := ns_s (on_body (sp_sb p) 0 (b_tf (H (sp_bb p)))) in
  placed a /\ placed b /\ placed (shift_shape x a) /\ placed (shift_shape x b) /\ has_points a = true /\ has_points b = true.
Definition pairs_of (tiny : R) (ps : list spair) : list (@pair RNum) := map (fun p => @Pair RNum (sp_ba p) (sp_bb p) (shape_test tiny p)) ps.
(** A step that tests these pairs. *)
Definition shape_step (tiny : R) (ip : @given RNum * list spair) : @given RNum := tested (fst ip) (pairs_of tiny (snd ip)).
(** In each of some steps from w on the shapes are so placed. *)
Fixpoint placed_run (tiny : R) (x : Rvec) (ips : list (@given RNum * list spair)) (w : Rworld) : Prop :=
  match ips with
  | [] => True
  | ip :: ips => Forall (pair_placed x (move_all (i_dt (fst ip)) (i_dyn (fst ip)) (w_heap w))) (snd ip) /\ placed_run tiny x ips (step_with w (shape_step tiny ip))
  end.
