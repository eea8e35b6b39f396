(** Property theorems C05, C35, C52 (one body, over the reals). *)
From Coq Require Import ZArith Bool Reals List Lra Permutation.
From Verif Require Import Num NumReal Vec BB Transform TransformProofs Body BodySpec BodyProofs.
Import ListNotations.
Local Open Scope R_scope.

Theorem C05_frame_is_rigid :
  forall (m i : R) (ops : list bop) (p q : @vec RNum),
  let b := history m i ops in
  world_to_local b (local_to_world b p) = p /\ local_to_world b (world_to_local b p) = p /\
  vdist (local_to_world b p) (local_to_world b q) = vdist p q.
Proof. exact (fun m i ops p q => conversions _ (history_coherent m i ops) p q). Qed.
Print Assumptions C05_frame_is_rigid.

(** SetPosition(p) makes Position() = p and is a pure translation of the whole frame. *)
Theorem C05_set_position :
  forall (m i : R) (ops : list bop) (p q : @vec RNum),
  let b := history m i ops in
  position (set_position b p) = p /\
  local_to_world (set_position b p) q = vadd (local_to_world b q) (vsub p (position b)).
Proof. exact (fun m i ops p q => conj (set_position_pos _ p (history_coherent m i ops)) (set_position_translates _ p q (history_coherent m i ops))). Qed.
Print Assumptions C05_set_position.

(** SetAngle(a) keeps the centre of gravity where it is in the world and makes the orientation the
    rotation by a. *)
Theorem C05_set_angle_rotates_about_cog :
  forall (m i : R) (ops : list bop) (a : R),
  let b := history m i ops in
  local_to_world (set_angle b a) (b_cog b) = local_to_world b (b_cog b) /\
  b_angle (set_angle b a) = a /\ b_cog (set_angle b a) = b_cog b /\
  (forall q, tf_apply_vector (b_tf (set_angle b a)) q = rvec (vx q * cos a - vy q * sin a) (vx q * sin a + vy q * cos a)).
Proof. exact (fun m i ops a => set_angle_cog _ a (history_coherent m i ops)). Qed.
Print Assumptions C05_set_angle_rotates_about_cog.

(** Recomputing the mass never moves the body: neither its position nor any local point. *)
Theorem C05_accumulate_keeps_frame :
  forall (m i : R) (ops : list bop) (infos : list (@massinfo RNum)) (q : @vec RNum),
  let b := history m i ops in
  position (accumulate b infos) = position b /\ local_to_world (accumulate b infos) q = local_to_world b q /\
  b_angle (accumulate b infos) = b_angle b.
Proof.
  exact (fun m i ops infos q => let H := accumulate_position _ infos (history_coherent m i ops) in
    conj (proj1 H) (conj (f_equal (fun t => tf_apply t q) (proj1 (proj2 H))) (proj2 (proj2 H)))).
Qed.
Print Assumptions C05_accumulate_keeps_frame.

(** The two velocity queries agree on corresponding points. *)
Theorem C05_velocity_queries_agree :
  forall (b : @body RNum) (p : @vec RNum), velocity_at_local b p = velocity_at_world b (local_to_world b p).
Proof. exact velocity_local_world. Qed.
Print Assumptions C05_velocity_queries_agree.

(** Finding: a direct call of the exported SetTransform with another angle desynchronises the frame, after which
    SetPosition(p) does not make Position() = p (body.go:283-287 uses the old rotation, then rebuilds from angle). *)
Theorem C05_set_transform_then_set_position_refuted :
  exists (b : @body RNum) (p q : @vec RNum), (exists m i ops, b = history m i ops) /\
  position (set_position (set_transform b q PI) p) <> p.
Proof. exact set_transform_desync. Qed.
Print Assumptions C05_set_transform_then_set_position_refuted.

Theorem C35_mass_from_shapes :
  forall (b : @body RNum) (infos : list (@massinfo RNum)),
  b_type b = Dynamic -> Forall (fun s => 0 <= mi_m s) infos -> 0 < total_mass infos ->
  let d := accumulate b infos in
  b_mass d = total_mass infos /\
  vx (b_cog d) = first_x infos / total_mass infos /\ vy (b_cog d) = first_y infos / total_mass infos /\
  b_moi d = moment_about (b_cog d) infos /\
  b_minv d = / b_mass d /\ b_iinv d = / b_moi d.
Proof. exact accumulate_mass. Qed.
Print Assumptions C35_mass_from_shapes.

Theorem C35_order_irrelevant :
  forall (b : @body RNum) (l l' : list (@massinfo RNum)),
  Permutation l l' -> Forall (fun s => 0 <= mi_m s) l -> accumulate b l = accumulate b l'.
Proof. exact accumulate_perm. Qed.
Print Assumptions C35_order_irrelevant.

Example C35_witness :
  let l := [@MassInfo RNum 1 2 1 (rvec 0 0); @MassInfo RNum 3 1 1 (rvec 4 0); @MassInfo RNum 0 1 1 (rvec 9 9)] in
  Forall (fun s => 0 <= mi_m s) l /\ total_mass l = 4 /\ first_x l / total_mass l = 3 /\ moment_about (rvec 3 0) l = 17.
Proof. cbn zeta. unfold rvec. split; [repeat constructor; cbn; lra|]. cbn. repeat split; lra. Qed.

Theorem C52_kinematic_velocity_untouched :
  forall (b : @body RNum) g d dt, b_type b = Kinematic -> update_velocity b g d dt = b.
Proof. exact update_velocity_kinematic. Qed.
Print Assumptions C52_kinematic_velocity_untouched.

Theorem C52_velocity_integration :
  forall (b : @body RNum) (g : @vec RNum) (d dt : R), b_type b <> Kinematic ->
  let c := update_velocity b g d dt in
  b_force c = rvec 0 0 /\ b_torque c = 0 /\
  b_vel c = rvec (d * vx (b_vel b) + (vx g + vx (b_force b) * b_minv b) * dt) (d * vy (b_vel b) + (vy g + vy (b_force b) * b_minv b) * dt) /\
  b_w c = d * b_w b + b_torque b * b_iinv b * dt /\
  b_tf c = b_tf b /\ b_pos c = b_pos b /\ b_angle c = b_angle b.
Proof. exact update_velocity_spec. Qed.
Print Assumptions C52_velocity_integration.

Theorem C52_position_integration :
  forall (b : @body RNum) (dt : R),
  let c := update_position b dt in
  b_vbias c = rvec 0 0 /\ b_wbias c = 0 /\ b_vel c = b_vel b /\ b_w c = b_w b /\
  b_angle c = b_angle b + (b_w b + b_wbias b) * dt /\
  local_to_world c (b_cog c) = rvec (vx (b_pos b) + (vx (b_vel b) + vx (b_vbias b)) * dt) (vy (b_pos b) + (vy (b_vel b) + vy (b_vbias b)) * dt) /\
  b_cog c = b_cog b.
Proof. exact update_position_spec. Qed.
Print Assumptions C52_position_integration.

(** A body at rest does not move, whatever its history. *)
Theorem C52_rest_keeps_transform :
  forall (m i dt : R) (ops : list bop), let b := history m i ops in
  b_vel b = rvec 0 0 -> b_vbias b = rvec 0 0 -> b_w b = 0 -> b_wbias b = 0 ->
  b_tf (update_position b dt) = b_tf b /\ b_pos (update_position b dt) = b_pos b /\ b_angle (update_position b dt) = b_angle b.
Proof. exact (fun m i dt ops => update_position_rest _ dt (history_coherent m i ops)). Qed.
Print Assumptions C52_rest_keeps_transform.
