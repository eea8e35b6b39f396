(** What a picture shows (C66). *)
From Coq Require Import ZArith NArith Reals List Bool.
From Verif Require Import Num Vec BB Transform Body Shapes ShapesSpec Solver Draw.
Import ListNotations.
Local Open Scope R_scope.
Local Notation vec := (@vec RNum).

Section DrawSpec.
Context {colour : Type}.
(** The points of the plane that a filled shape covers. *)
Definition painted (c : @dcall RNum colour) (q : vec) : Prop :=
  match c with
  | DCircle p _ r _ _ => vdist q p <= r
  | DFatSegment a b r _ _ => exists k, between a b k /\ vdist q k <= r
  | DPolygon vs r _ _ => exists k, hull vs k /\ vdist q k <= r
  | DSegment a b _ => between a b q
  | DDot _ p _ => q = p
  end.
(** Colours: the outline if there is one, and the fill. *)
Definition colours {N : Num} (c : dcall colour) : option colour * colour :=
  match c with
  | DCircle _ _ _ o f | DFatSegment _ _ _ o f | DPolygon _ _ o f => (Some o, f)
  | DSegment _ _ f | DDot _ _ f => (None, f)
  end.
(** The dots, and the lines, among some calls. *)
Definition dots {N : Num} (l : list (dcall colour)) : list Vec.vec := flat_map (fun c => match c with DDot _ p _ => [p] | _ => [] end) l.
Definition lines {N : Num} (l : list (dcall colour)) : list (Vec.vec * Vec.vec) := flat_map (fun c => match c with DSegment a b _ => [(a, b)] | _ => [] end) l.
End DrawSpec.
(** Lines that lead from a to b, each starting where the one before ends. *)
Fixpoint leads {N : Num} (a : Vec.vec) (l : list (Vec.vec * Vec.vec)) (b : Vec.vec) : Prop :=
  match l with [] => a = b | (x, y) :: l => x = a /\ leads y l b end.
(** Not further than d from the straight line from a to b. *)
Definition close_to (a b : vec) (d : R) (q : vec) : Prop := exists k, between a b k /\ vdist q k <= d.
(** The anchors of a joint in the world, those of body a first; the ends of a groove for its body a. *)
Definition ends_of (H : @heap RNum) (c : @cstr RNum) (k : @jclass RNum) : option (vec * vec) :=
  let a := local_to_world (H (c_a c)) in
  let b := local_to_world (H (c_b c)) in
  match k with
  | JPin p => Some (a (pn_anchA p), b (pn_anchB p))
  | JSlide p => Some (a (sl_anchA p), b (sl_anchB p))
  | JPivot p => Some (a (pv_anchA p), b (pv_anchB p))
  | JSpring p => Some (a (sp_anchA p), b (sp_anchB p))
  | JGroove p => Some (a (gv_ga p), a (gv_gb p))
  | _ => None
  end.
