(** C74: forces, impulses and the mass of one body (over the reals). *)
From Coq Require Import ZArith Bool Reals List.
From Verif Require Import Num NumReal Vec BB Transform Body BodySpec BodyForceProofs.
Local Open Scope R_scope.

(** An impulse at a world point does the work impulse times mean velocity of that point (KineticEnergy is twice the energy, C67). *)
Theorem C74_impulse_work : forall (b : Rbody) (j p : Rvec), b_mass b * b_minv b = 1 -> b_moi b * b_iinv b = 1 -> let c := apply_impulse_world b j p in
  kinetic_energy c - kinetic_energy b = vdot j (vadd (velocity_at_world b p) (velocity_at_world c p)).
Proof. exact impulse_work. Qed.
Print Assumptions C74_impulse_work.
(** The point that is hit does not move against the impulse. *)
Theorem C74_impulse_pushes : forall (b : Rbody) (j p : Rvec), 0 <= b_minv b -> 0 <= b_iinv b ->
  0 <= vdot (vsub (velocity_at_world (apply_impulse_world b j p) p) (velocity_at_world b p)) j.
Proof. exact impulse_pushes. Qed.
Print Assumptions C74_impulse_pushes.
(** Reciprocity: what j at p does to q along k, k at q does to p along j. *)
Theorem C74_impulse_reciprocal : forall (b : Rbody) (j k p q : Rvec),
  vdot (vsub (velocity_at_world (apply_impulse_world b j p) q) (velocity_at_world b q)) k =
  vdot (vsub (velocity_at_world (apply_impulse_world b k q) p) (velocity_at_world b p)) j.
Proof. exact impulse_reciprocal. Qed.
Print Assumptions C74_impulse_reciprocal.
(** A force during a step gives the velocities that the impulse force times dt gives after the step. *)
Theorem C74_force_is_impulse : forall (b : Rbody) (f p g : Rvec) (d dt : R), b_type b <> Kinematic ->
  let c := update_velocity (apply_force_world b f p) g d dt in let e := apply_impulse_world (update_velocity b g d dt) (vscale f dt) p in
  b_vel c = b_vel e /\ b_w c = b_w e.
Proof. exact force_is_impulse. Qed.
Print Assumptions C74_force_is_impulse.
(** The local forms take force, impulse and point in the coordinates of the body: the arrow from LocalToWorld(0) to LocalToWorld(f), at LocalToWorld(p). *)
Theorem C74_local_forms : forall (b : Rbody) (f p : Rvec), let arrow := vsub (local_to_world b f) (local_to_world b (rvec 0 0)) in
  apply_force_local b f p = apply_force_world b arrow (local_to_world b p) /\ apply_impulse_local b f p = apply_impulse_world b arrow (local_to_world b p).
Proof. exact local_forms. Qed.
Print Assumptions C74_local_forms.
(** SetMass and SetMoment keep the inverses right and change nothing else. *)
Theorem C74_set_mass : forall (b : Rbody) (m : R), m <> 0 -> let c := set_mass b m in
  b_mass c = m /\ m * b_minv c = 1 /\ b_moi c = b_moi b /\ b_iinv c = b_iinv b /\ b_vel c = b_vel b /\ b_w c = b_w b /\ b_tf c = b_tf b.
Proof. exact set_mass_inverse. Qed.
Print Assumptions C74_set_mass.
Theorem C74_set_moment : forall (b : Rbody) (i : R), i <> 0 -> let c := set_moment b i in
  b_moi c = i /\ i * b_iinv c = 1 /\ b_mass c = b_mass b /\ b_minv c = b_minv b /\ b_vel c = b_vel b /\ b_w c = b_w b /\ b_tf c = b_tf b.
Proof. exact set_moment_inverse. Qed.
Print Assumptions C74_set_moment.
(** A body made static or kinematic has that type, stands still where it is and cannot be pushed. *)
Theorem C74_set_type_stops : forall (b : Rbody) (bt : btype) (infos : list Rinfo), bt <> Dynamic -> b_type b <> bt ->
  let c := set_type_num b bt infos in b_type c = bt /\ b_vel c = rvec 0 0 /\ b_w c = 0 /\ b_minv c = 0 /\ b_iinv c = 0 /\ b_tf c = b_tf b.
Proof. exact set_type_stops. Qed.
Print Assumptions C74_set_type_stops.
(** A body of mass 2 and moment 3 hit with (0,6) at (1,0) meets the hypotheses. *)
Example C74_ex : let b := new_body (N := RNum) 2 3 in let c := apply_impulse_world b (rvec 0 6) (rvec 1 0) in
  b_type b = Dynamic /\ b_mass b * b_minv b = 1 /\ b_moi b * b_iinv b = 1 /\ b_vel c = rvec 0 3 /\ b_w c = 2.
Proof. exact ex_hit. Qed.
