(** Rigid body numeric state.  Models the parts of /repo/body.go that read and write numbers;
    list membership, sleeping and contact lists are modelled in Sleep.v / Space.v.

    Simplification: [activate] here only resets the idle timer (body.go:378), which is all
    Body.Activate does to the numeric state of this body. *)
From Coq Require Import ZArith Bool Reals List.
From Verif Require Import Num Vec BB Transform.
Import ListNotations.
Local Open Scope num_scope.

(* body.go:15-19 *)
Inductive btype := Dynamic | Kinematic | Static.
Definition btype_eqb (a b : btype) : bool :=
  match a, b with Dynamic, Dynamic | Kinematic, Kinematic | Static, Static => true | _, _ => false end.

Section Body.
Context {N : Num}.

(* everything.go:137-141 ShapeMassInfo *)
Record massinfo := MassInfo { mi_m : num; mi_i : num; mi_area : num; mi_cog : vec }.

(* body.go:28-58, numeric fields *)
Record body := Body {
  b_mass : num; b_minv : num; b_moi : num; b_iinv : num;
  b_angle : num; b_w : num; b_torque : num;
  b_cog : vec; b_pos : vec; b_vel : vec; b_force : vec;
  b_tf : transform; b_idle : num; b_vbias : vec; b_wbias : num }.

(* field updates (Go assignments) *)
Definition set_mass_fields (b : body) (m mi i ii : num) : body :=
  Body m mi i ii (b_angle b) (b_w b) (b_torque b) (b_cog b) (b_pos b) (b_vel b) (b_force b) (b_tf b) (b_idle b) (b_vbias b) (b_wbias b).
Definition set_angle_field (b : body) (a : num) : body :=
  Body (b_mass b) (b_minv b) (b_moi b) (b_iinv b) a (b_w b) (b_torque b) (b_cog b) (b_pos b) (b_vel b) (b_force b) (b_tf b) (b_idle b) (b_vbias b) (b_wbias b).
Definition set_vel_fields (b : body) (v : vec) (w : num) : body :=
  Body (b_mass b) (b_minv b) (b_moi b) (b_iinv b) (b_angle b) w (b_torque b) (b_cog b) (b_pos b) v (b_force b) (b_tf b) (b_idle b) (b_vbias b) (b_wbias b).
Definition set_force_fields (b : body) (f : vec) (t : num) : body :=
  Body (b_mass b) (b_minv b) (b_moi b) (b_iinv b) (b_angle b) (b_w b) t (b_cog b) (b_pos b) (b_vel b) f (b_tf b) (b_idle b) (b_vbias b) (b_wbias b).
Definition set_cog_field (b : body) (c : vec) : body :=
  Body (b_mass b) (b_minv b) (b_moi b) (b_iinv b) (b_angle b) (b_w b) (b_torque b) c (b_pos b) (b_vel b) (b_force b) (b_tf b) (b_idle b) (b_vbias b) (b_wbias b).
Definition set_pos_field (b : body) (p : vec) : body :=
  Body (b_mass b) (b_minv b) (b_moi b) (b_iinv b) (b_angle b) (b_w b) (b_torque b) (b_cog b) p (b_vel b) (b_force b) (b_tf b) (b_idle b) (b_vbias b) (b_wbias b).
Definition set_tf_field (b : body) (t : transform) : body :=
  Body (b_mass b) (b_minv b) (b_moi b) (b_iinv b) (b_angle b) (b_w b) (b_torque b) (b_cog b) (b_pos b) (b_vel b) (b_force b) t (b_idle b) (b_vbias b) (b_wbias b).
Definition set_idle_field (b : body) (x : num) : body :=
  Body (b_mass b) (b_minv b) (b_moi b) (b_iinv b) (b_angle b) (b_w b) (b_torque b) (b_cog b) (b_pos b) (b_vel b) (b_force b) (b_tf b) x (b_vbias b) (b_wbias b).
Definition set_bias_fields (b : body) (v : vec) (w : num) : body :=
  Body (b_mass b) (b_minv b) (b_moi b) (b_iinv b) (b_angle b) (b_w b) (b_torque b) (b_cog b) (b_pos b) (b_vel b) (b_force b) (b_tf b) (b_idle b) v w.

(* body.go:219-227 Type *)
Definition b_type (b : body) : btype :=
  if b_idle b =? ninf then Static
  else if b_mass b =? ninf then Kinematic
  else Dynamic.
(* body.go:374-378 Activate, see header *)
Definition activate (b : body) : body :=
  if btype_eqb (b_type b) Dynamic then set_idle_field b n0 else b.

Context {T : Trig N}.

(* body.go:358-366 SetTransform *)
Definition set_transform (b : body) (p : vec) (a : num) : body :=
  let rx := ncos a in
  let ry := nsin a in
  let c := b_cog b in
  set_tf_field b (tf_new rx (- ry) (vx p - (vx c * rx - vy c * ry))
                         ry rx (vy p - (vx c * ry + vy c * rx))).
(* body.go:102-106 SetAngle *)
Definition set_angle (b : body) (a : num) : body :=
  let b := set_angle_field (activate b) a in
  set_transform b (b_pos b) a.
(* body.go:114-118 SetMoment *)
Definition set_moment (b : body) (i : num) : body :=
  let b := activate b in set_mass_fields b (b_mass b) (b_minv b) i (n1 / i).
(* body.go:126-130 SetMass *)
Definition set_mass (b : body) (m : num) : body :=
  let b := activate b in set_mass_fields b m (n1 / m) (b_moi b) (b_iinv b).
(* body.go:73-85 NewBody *)
Definition new_body (mass moment : num) : body :=
  let b := Body n0 n0 n0 n0 n0 n0 n0 vzero vzero vzero vzero tf_identity n0 vzero n0 in
  set_angle (set_moment (set_mass b mass) moment) n0.
(* body.go:278-280 Position *)
Definition position (b : body) : vec := tf_apply (b_tf b) vzero.
(* body.go:283-287 SetPosition *)
Definition set_position (b : body) (p : vec) : body :=
  let b := activate b in
  let b := set_pos_field b (vadd (tf_apply_vector (b_tf b) (b_cog b)) p) in
  set_transform b (b_pos b) (b_angle b).
(* body.go:243-252: one iteration of the accumulation loop *)
Definition accum_step (b : body) (info : massinfo) : body :=
  let m := mi_m info in
  if n0 <? m then
    let msum := b_mass b + m in
    let moi := b_moi b + (m * mi_i info + vdistsq (b_cog b) (mi_cog info) * (m * b_mass b) / msum) in
    let cog := vlerp (b_cog b) (mi_cog info) (m / msum) in
    set_cog_field (set_mass_fields b msum (b_minv b) moi (b_iinv b)) cog
  else b.
(* body.go:230-258 AccumulateMassFromShapes; [infos] are the mass infos of body.Shapes in order *)
Definition accumulate (b : body) (infos : list massinfo) : body :=
  if negb (btype_eqb (b_type b) Dynamic) then b
  else
    let b := set_cog_field (set_mass_fields b n0 (b_minv b) n0 (b_iinv b)) vzero in
    let pos := position b in
    let b := fold_left accum_step infos b in
    let b := set_mass_fields b (b_mass b) (n1 / b_mass b) (b_moi b) (n1 / b_moi b) in
    set_position b pos.
(* body.go:138-164 SetType, numeric part *)
Definition set_type_num (b : body) (bt : btype) (infos : list massinfo) : body :=
  if btype_eqb (b_type b) bt then b
  else
    let b := set_idle_field b (match bt with Static => ninf | _ => n0 end) in
    match bt with
    | Dynamic => accumulate (set_mass_fields b n0 ninf n0 ninf) infos
    | _ => set_vel_fields (set_mass_fields b ninf n0 ninf n0) vzero n0
    end.
(* body.go:309-322 UpdateVelocity, body.go:621-631 BodyUpdateVelocity (identical) *)
Definition update_velocity (b : body) (g : vec) (damping dt : num) : body :=
  match b_type b with
  | Kinematic => b
  | _ =>
    let v := vadd (vscale (b_vel b) damping) (vscale (vadd g (vscale (b_force b) (b_minv b))) dt) in
    let w := b_w b * damping + b_torque b * b_iinv b * dt in
    set_force_fields (set_vel_fields b v w) vzero n0
  end.
(* body.go:634-641 BodyUpdatePosition *)
Definition update_position (b : body) (dt : num) : body :=
  let b := set_pos_field b (vadd (b_pos b) (vscale (vadd (b_vel b) (b_vbias b)) dt)) in
  let b := set_angle_field b (b_angle b + (b_w b + b_wbias b) * dt) in
  let b := set_transform b (b_pos b) (b_angle b) in
  set_bias_fields b vzero n0.
(* body.go:296-305 SetVelocity / SetVelocityVector *)
Definition set_velocity (b : body) (v : vec) : body := let b := activate b in set_vel_fields b v (b_w b).
(* body.go:352-355 SetAngularVelocity *)
Definition set_angular_velocity (b : body) (w : num) : body := let b := activate b in set_vel_fields b (b_vel b) w.
(* body.go:330-333 SetForce *)
Definition set_force (b : body) (f : vec) : body := let b := activate b in set_force_fields b f (b_torque b).
(* body.go:341-344 SetTorque *)
Definition set_torque (b : body) (t : num) : body := let b := activate b in set_force_fields b (b_force b) t.
(* body.go:486-488 WorldToLocal *)
Definition world_to_local (b : body) (p : vec) : vec := tf_apply (tf_rigid_inverse (b_tf b)) p.
(* body.go:493-495 LocalToWorld *)
Definition local_to_world (b : body) (p : vec) : vec := tf_apply (b_tf b) p.
(* body.go:498-504 ApplyForceAtWorldPoint *)
Definition apply_force_world (b : body) (f p : vec) : body :=
  let b := activate b in
  let r := vsub p (tf_apply (b_tf b) (b_cog b)) in
  set_force_fields b (vadd (b_force b) f) (b_torque b + vcross r f).
(* body.go:507-509 ApplyForceAtLocalPoint *)
Definition apply_force_local (b : body) (f p : vec) : body :=
  apply_force_world b (tf_apply_vector (b_tf b) f) (tf_apply (b_tf b) p).
(* arbiter.go:334-338 applyImpulse *)
Definition apply_impulse (b : body) (j r : vec) : body :=
  set_vel_fields b (V (vx (b_vel b) + vx j * b_minv b) (vy (b_vel b) + vy j * b_minv b))
                   (b_w b + b_iinv b * vcross r j).
(* body.go:512-517 ApplyImpulseAtWorldPoint *)
Definition apply_impulse_world (b : body) (j p : vec) : body :=
  let b := activate b in
  apply_impulse b j (vsub p (tf_apply (b_tf b) (b_cog b))).
(* body.go:520-522 ApplyImpulseAtLocalPoint *)
Definition apply_impulse_local (b : body) (j p : vec) : body :=
  apply_impulse_world b (tf_apply_vector (b_tf b) j) (tf_apply (b_tf b) p).
(* body.go:527-530 VelocityAtLocalPoint *)
Definition velocity_at_local (b : body) (p : vec) : vec :=
  let r := tf_apply_vector (b_tf b) (vsub p (b_cog b)) in
  vadd (b_vel b) (vscale (vperp r) (b_w b)).
(* body.go:535-538 VelocityAtWorldPoint *)
Definition velocity_at_world (b : body) (p : vec) : vec :=
  let r := vsub p (tf_apply (b_tf b) (b_cog b)) in
  vadd (b_vel b) (vscale (vperp r) (b_w b)).
(* body.go:444-456 KineticEnergy *)
Definition kinetic_energy (b : body) : num :=
  let vsq := vdot (b_vel b) (b_vel b) in
  let wsq := b_w b * b_w b in
  let a := if negb (vsq =? n0) then vsq * b_mass b else n0 in
  let c := if negb (wsq =? n0) then wsq * b_moi b else n0 in
  a + c.
End Body.
Arguments body : clear implicits.
Arguments body {N}.
Arguments massinfo : clear implicits.
Arguments massinfo {N}.
