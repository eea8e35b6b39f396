(** Histories of operations on one body and specification vocabulary (used to state C05, C35, C52). *)
From Coq Require Import ZArith Bool Reals List Lra.
From Verif Require Import Num NumReal Vec BB Transform Body.
Import ListNotations.
Local Open Scope R_scope.

Notation Rvec := (@vec RNum).
Notation Rbody := (@body RNum).
Notation Rinfo := (@massinfo RNum).

(** Public operations that touch a body's numeric state (body.go line of each in Body.v).
    [OpAccumulate]/[OpSetType] carry the mass infos of the shapes attached at that moment. *)
Inductive bop :=
| OpSetPosition (p : Rvec) | OpSetAngle (a : R) | OpSetMass (m : R) | OpSetMoment (i : R)
| OpAccumulate (infos : list Rinfo) | OpSetType (bt : btype) (infos : list Rinfo)
| OpUpdateVelocity (g : Rvec) (damping dt : R) | OpUpdatePosition (dt : R)
| OpSetVelocity (v : Rvec) | OpSetAngularVelocity (w : R) | OpSetForce (f : Rvec) | OpSetTorque (t : R)
| OpForceWorld (f p : Rvec) | OpForceLocal (f p : Rvec) | OpImpulseWorld (j p : Rvec) | OpImpulseLocal (j p : Rvec).
Definition bstep (b : Rbody) (o : bop) : Rbody :=
  match o with
  | OpSetPosition p => set_position b p
  | OpSetAngle a => set_angle b a
  | OpSetMass m => set_mass b m
  | OpSetMoment i => set_moment b i
  | OpAccumulate infos => accumulate b infos
  | OpSetType bt infos => set_type_num b bt infos
  | OpUpdateVelocity g d dt => update_velocity b g d dt
  | OpUpdatePosition dt => update_position b dt
  | OpSetVelocity v => set_velocity b v
  | OpSetAngularVelocity w => set_angular_velocity b w
  | OpSetForce f => set_force b f
  | OpSetTorque t => set_torque b t
  | OpForceWorld f p => apply_force_world b f p
  | OpForceLocal f p => apply_force_local b f p
  | OpImpulseWorld j p => apply_impulse_world b j p
  | OpImpulseLocal j p => apply_impulse_local b j p
  end.
(** The body after NewBody(m, i) and a history of operations. *)
Definition history (m i : R) (ops : list bop) : Rbody := fold_left bstep ops (new_body m i).

(** Sums over shapes. *)
Definition Rsum {A} (f : A -> R) (l : list A) : R := fold_right (fun x s => f x + s) 0 l.
Definition total_mass (infos : list Rinfo) : R := Rsum (fun s => mi_m s) infos.
(** First moment of mass. *)
Definition first_x (infos : list Rinfo) : R := Rsum (fun s => mi_m s * vx (mi_cog s)) infos.
Definition first_y (infos : list Rinfo) : R := Rsum (fun s => mi_m s * vy (mi_cog s)) infos.
(** Moment about a point c: each shape's own moment plus m d^2 (parallel axes). *)
Definition moment_about (c : Rvec) (infos : list Rinfo) : R :=
  Rsum (fun s => mi_m s * mi_i s + mi_m s * ((vx (mi_cog s) - vx c) * (vx (mi_cog s) - vx c) + (vy (mi_cog s) - vy c) * (vy (mi_cog s) - vy c))) infos.
