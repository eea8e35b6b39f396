(** Histories of a body with shapes, and how C60 is stated. *)
From Coq Require Import ZArith Bool Reals List.
From Verif Require Import Num NumReal Vec BB Transform Body BodySpec Mass ShapeMass.
Import ListNotations.
Local Open Scope R_scope.

Notation Rgeom := (@geom RNum).
Notation Rmbody := (@mbody RNum).
(** Public operations.  [MNew] makes and attaches a shape, [MNewRaw] (NewPolyShapeRaw) only makes it. *)
Inductive mop :=
| MNew (g : Rgeom) | MNewRaw (g : Rgeom) | MAttach (i : nat) | MRemove (i : nat)
| MMass (i : nat) (m : R) | MDensity (i : nat) (d : R) | MRadius (i : nat) (r : R) | MEndpoints (i : nat) (a b : Rvec)
| MVertsRaw (i count : nat) (verts : list Rvec) | MVerts (i count : nat) (verts : list Rvec)
| MType (bt : btype) | MOnBody (o : bop).
Definition mstep (s : Rmbody) (o : mop) : option Rmbody :=
  match o with
  | MNew g => match make s g with Some t => Some (attach_shape t (mb_next s)) | None => None end
  | MNewRaw g => make s g
  | MAttach i => Some (attach_shape s i)
  | MRemove i => Some (remove_shape s i)
  | MMass i m => Some (shape_set_mass s i m)
  | MDensity i d => Some (shape_set_density s i d)
  | MRadius i r => set_radius s i r
  | MEndpoints i a b => set_endpoints s i a b
  | MVertsRaw i count verts => set_verts_raw s i count verts
  | MVerts i count verts => set_verts s i count verts
  | MType bt => Some (set_type s bt)
  | MOnBody o => Some (on_body s (fun b => bstep b o))
  end.
(** The operations of a body that do not set its mass or moment directly. *)
Definition plain (o : bop) : bool :=
  match o with OpSetMass _ | OpSetMoment _ | OpAccumulate _ | OpSetType _ _ => false | _ => true end.
(** Shapes exist, masses are not negative, the mass of the body is not set by hand. *)
Definition mvalid (s : Rmbody) (o : mop) : Prop :=
  match o with
  | MNew _ | MNewRaw _ | MType _ => True
  | MAttach i | MRemove i | MRadius i _ | MEndpoints i _ _ | MVertsRaw i _ _ | MVerts i _ _ => (i < mb_next s)%nat
  | MMass i m => (i < mb_next s)%nat /\ 0 <= m
  | MDensity i d => (i < mb_next s)%nat /\ 0 <= d * shape_area s i
  | MOnBody o => plain o = true
  end.
(* a place holder for the shapes not made yet *)
Definition no_shape : @mshape RNum := MShape (GCircle (@V RNum 0 0) 0) (@MassInfo RNum 0 0 0 (@V RNum 0 0)).
(** After NewBody(m, i) and a history that did not panic. *)
Inductive lived (m i : R) : Rmbody -> Prop :=
| lived_new : lived m i (MBody (new_body m i) [] (fun _ => no_shape) 0)
| lived_step s o t : lived m i s -> mvalid s o -> mstep s o = Some t -> lived m i t.
(** The same without SetVerts. *)
Inductive lived_raw (m i : R) : Rmbody -> Prop :=
| raw_new : lived_raw m i (MBody (new_body m i) [] (fun _ => no_shape) 0)
| raw_step s o t : lived_raw m i s -> mvalid s o -> (forall k c v, o <> MVerts k c v) -> mstep s o = Some t -> lived_raw m i t.

(** Mass, centre of gravity and moment of the body are those of its shapes together. *)
Definition matches (b : Rbody) (l : list Rinfo) : Prop :=
  b_mass b = total_mass l /\
  vx (b_cog b) = first_x l / total_mass l /\ vy (b_cog b) = first_y l / total_mass l /\
  b_moi b = moment_about (b_cog b) l /\
  b_minv b = / b_mass b /\ b_iinv b = / b_moi b.
(** The mass info of shape i is the one of its current geometry, at its mass. *)
Definition true_info (s : Rmbody) (i : nat) : Prop :=
  exists k, geom_mass (ms_geom (mb_shape s i)) = Some k /\
    mi_i (ms_info (mb_shape s i)) = sm_i k /\ shape_area s i = sm_area k /\ shape_cog s i = sm_cog k.
