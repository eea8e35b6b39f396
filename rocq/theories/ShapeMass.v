(** Mass data of the shapes of one body, and what the setters of shapes do to the body.
    Models SetMass, SetDensity and the getters of /repo/shape.go:86-121, SetRadius and SetEndpoints (/repo/circle.go:53-61,
    /repo/segment.go:115-123, 137-147), SetVerts and SetVertsRaw (/repo/polyshape.go:150-182), AttachShape and RemoveShape
    (/repo/body.go:436-441, 546-560), the constructors (/repo/shape_factory.go:17-129).

    Simplifications: one body that all shapes belong to (SetBody is not modelled); Activate only resets the idle timer, as in
    Body.v; SetVertsUnsafe is SetVertsRaw of a hull (Hull.v).  A panic is [None]. *)
From Coq Require Import ZArith List Bool Arith.
From Verif Require Import Num Vec BB Transform Body Mass.
Import ListNotations.
Local Open Scope num_scope.

Section ShapeMass.
Context {N : Num} {T : Trig N}.

(* circle.go:9-13, segment.go:6-12, polyshape.go:9-15: the geometry in body coordinates *)
Inductive geom := GCircle (c : vec) (r : num) | GSegment (a b : vec) (r : num) | GPoly (count : nat) (verts : list vec) (r : num).
(* circle.go:40-47, segment.go:161-168, polyshape.go:290-298 *)
Definition geom_mass (g : geom) : option shapemass :=
  match g with
  | GCircle c r => Some (circle_mass_info r c)
  | GSegment a b r => Some (segment_mass_info a b r)
  | GPoly count verts r => poly_mass_info count verts r
  end.
Definition mass_info (m : num) (g : geom) : option massinfo :=
  match geom_mass g with Some k => Some (MassInfo m (sm_i k) (sm_area k) (sm_cog k)) | None => None end.
(* shape.go:19-39: Class and massInfo *)
Record mshape := MShape { ms_geom : geom; ms_info : massinfo }.
(* body.go:28-58: a body, its shapes (body.Shapes), and all shapes made for it so far, by number *)
Record mbody := MBody { mb_body : body; mb_list : list nat; mb_shape : nat -> mshape; mb_next : nat }.

(* the mass infos of body.Shapes (body.go:242-243) *)
Definition infos (s : mbody) : list massinfo := map (fun i => ms_info (mb_shape s i)) (mb_list s).
(* body.go:230-258 *)
Definition accumulated (s : mbody) : mbody := MBody (accumulate (mb_body s) (infos s)) (mb_list s) (mb_shape s) (mb_next s).
(* assignments *)
Definition put (s : mbody) (i : nat) (x : mshape) : mbody :=
  MBody (mb_body s) (mb_list s) (fun k => if Nat.eqb k i then x else mb_shape s k) (mb_next s).
Definition on_body (s : mbody) (f : body -> body) : mbody := MBody (f (mb_body s)) (mb_list s) (mb_shape s) (mb_next s).

(* body.go:436-441 AttachShape *)
Definition attach_shape (s : mbody) (i : nat) : mbody :=
  let s := MBody (mb_body s) (mb_list s ++ [i]) (mb_shape s) (mb_next s) in
  if n0 <? mi_m (ms_info (mb_shape s i)) then accumulated s else s.
(* shape_factory.go:17-31, 90-98, 115-129: the shape itself, with mass 0 *)
Definition make (s : mbody) (g : geom) : option mbody :=
  match mass_info n0 g with
  | Some k => Some (MBody (mb_body s) (mb_list s) (fun j => if Nat.eqb j (mb_next s) then MShape g k else mb_shape s j) (S (mb_next s)))
  | None => None
  end.
(* body.go:547-556: the last shape takes the place of the removed one *)
Fixpoint take_out (i last : nat) (l : list nat) : list nat :=
  match l with [] => [] | j :: l => if Nat.eqb j i then last :: l else j :: take_out i last l end.
Definition removed (i : nat) (l : list nat) : list nat :=
  if existsb (Nat.eqb i) l then removelast (take_out i (last l 0%nat) l) else l.
(* body.go:546-560 RemoveShape *)
Definition remove_shape (s : mbody) (i : nat) : mbody :=
  let s := MBody (mb_body s) (removed i (mb_list s)) (mb_shape s) (mb_next s) in
  if btype_eqb (b_type (mb_body s)) Dynamic && (n0 <? mi_m (ms_info (mb_shape s i))) then accumulated s else s.
(* shape.go:94-98 SetMass *)
Definition shape_set_mass (s : mbody) (i : nat) (m : num) : mbody :=
  let s := on_body s activate in
  let x := mb_shape s i in
  accumulated (put s i (MShape (ms_geom x) (MassInfo m (mi_i (ms_info x)) (mi_area (ms_info x)) (mi_cog (ms_info x))))).
(* shape.go:90-92, 100-102, 111-121: Mass, Density, Moment, Area, CenterOfGravity *)
Definition shape_mass (s : mbody) (i : nat) : num := mi_m (ms_info (mb_shape s i)).
Definition shape_density (s : mbody) (i : nat) : num := mi_m (ms_info (mb_shape s i)) / mi_area (ms_info (mb_shape s i)).
Definition shape_moment (s : mbody) (i : nat) : num := mi_m (ms_info (mb_shape s i)) * mi_i (ms_info (mb_shape s i)).
Definition shape_area (s : mbody) (i : nat) : num := mi_area (ms_info (mb_shape s i)).
Definition shape_cog (s : mbody) (i : nat) : vec := mi_cog (ms_info (mb_shape s i)).
(* shape.go:104-106 SetDensity *)
Definition shape_set_density (s : mbody) (i : nat) (d : num) : mbody := shape_set_mass s i (d * mi_area (ms_info (mb_shape s i))).
(* circle.go:53-61, segment.go:115-123, 137-147, polyshape.go:175-182: a new geometry, a new mass info, the old mass *)
Definition set_geom (s : mbody) (i : nat) (g : geom) : option mbody :=
  let m := mi_m (ms_info (mb_shape s i)) in
  match mass_info m g with
  | None => None
  | Some k => let s := put s i (MShape g k) in Some (if n0 <? m then accumulated s else s)
  end.
(* circle.go:53-61, segment.go:115-123 SetRadius; PolyShape has none *)
Definition set_radius (s : mbody) (i : nat) (r : num) : option mbody :=
  match ms_geom (mb_shape s i) with
  | GCircle c _ => set_geom s i (GCircle c r)
  | GSegment a b _ => set_geom s i (GSegment a b r)
  | GPoly _ _ _ => None
  end.
(* segment.go:137-147 SetEndpoints *)
Definition set_endpoints (s : mbody) (i : nat) (a b : vec) : option mbody :=
  match ms_geom (mb_shape s i) with GSegment _ _ r => set_geom s i (GSegment a b r) | _ => None end.
(* polyshape.go:175-182 SetVertsRaw *)
Definition set_verts_raw (s : mbody) (i count : nat) (verts : list vec) : option mbody :=
  match ms_geom (mb_shape s i) with GPoly _ _ r => set_geom s i (GPoly count verts r) | _ => None end.
(* polyshape.go:150-162 SetVerts: the vertices only; an index out of range panics *)
Definition set_verts (s : mbody) (i count : nat) (verts : list vec) : option mbody :=
  match ms_geom (mb_shape s i) with
  | GPoly _ _ r => if Nat.leb count (length verts) then Some (put s i (MShape (GPoly count verts r) (ms_info (mb_shape s i)))) else None
  | _ => None
  end.
(* body.go:138-164 SetType *)
Definition set_type (s : mbody) (bt : btype) : mbody := on_body s (fun b => set_type_num b bt (infos s)).
End ShapeMass.
