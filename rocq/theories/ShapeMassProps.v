(** C60: the mass of a body and its shapes. *)
From Coq Require Import ZArith Bool Reals List Floats.
From Verif Require Import Num NumReal Vec BB Transform Body BodySpec Mass ShapeMass ShapeMassSpec ShapeMassProofs ShapeMassEx ShapeMassMore.
Import ListNotations.
Local Open Scope R_scope.

(** After any history a dynamic body whose shapes have some mass has exactly their total mass, their common centre of gravity and
    their moment about it, and the inverses of these.  (The inverse of a moment 0 - all shapes points - is not meaningful.) *)
Theorem C60_mass_matches : forall (m i : R) (s : Rmbody), lived m i s -> b_type (mb_body s) = Dynamic -> 0 < total_mass (infos s) ->
  b_mass (mb_body s) = total_mass (infos s) /\
  vx (b_cog (mb_body s)) = first_x (infos s) / total_mass (infos s) /\ vy (b_cog (mb_body s)) = first_y (infos s) / total_mass (infos s) /\
  b_moi (mb_body s) = moment_about (b_cog (mb_body s)) (infos s) /\
  b_minv (mb_body s) = / b_mass (mb_body s) /\ b_iinv (mb_body s) = / b_moi (mb_body s).
Proof. exact mass_matches. Qed.
Print Assumptions C60_mass_matches.

(** No operation on shapes, nor SetType, moves the frame of the body: its position and the world place of each of its points stay. *)
Theorem C60_frame_stays : forall (m i : R) (s : Rmbody) (o : mop) (t : Rmbody), lived m i s -> mvalid s o -> (forall b, o <> MOnBody b) -> mstep s o = Some t ->
  position (mb_body t) = position (mb_body s) /\ forall q, local_to_world (mb_body t) q = local_to_world (mb_body s) q.
Proof. exact frame_stays. Qed.
Print Assumptions C60_frame_stays.

(** Without SetVerts, the moment, area and centre of gravity of each shape are those of its current geometry. *)
Theorem C60_info_matches : forall (m i : R) (s : Rmbody), lived_raw m i s -> forall k, (k < mb_next s)%nat -> true_info s k.
Proof. exact info_matches. Qed.
Print Assumptions C60_info_matches.

(** SetMass changes the mass of that shape only, and no area, centre of gravity or geometry. *)
Theorem C60_set_mass : forall (s : Rmbody) (i : nat) (m : R) (k : nat),
  shape_mass (shape_set_mass s i m) k = (if Nat.eqb k i then m else shape_mass s k) /\
  shape_area (shape_set_mass s i m) k = shape_area s k /\ shape_cog (shape_set_mass s i m) k = shape_cog s k /\ mb_list (shape_set_mass s i m) = mb_list s /\
  ms_geom (mb_shape (shape_set_mass s i m) k) = ms_geom (mb_shape s k).
Proof. exact set_mass_gets. Qed.
Print Assumptions C60_set_mass.

(** SetDensity is read back by Density, unless the shape has no area. *)
Theorem C60_density : forall (s : Rmbody) (i : nat) (d : R), shape_area s i <> 0 ->
  shape_density (shape_set_density s i d) i = d /\ shape_mass (shape_set_density s i d) i = d * shape_area s i.
Proof. exact density_gets. Qed.
Print Assumptions C60_density.

(** The moment of a body is the sum of what Moment says of its shapes, each moved to the common centre of gravity. *)
Theorem C60_moments : forall (m i : R) (s : Rmbody), lived m i s -> b_type (mb_body s) = Dynamic -> 0 < total_mass (infos s) ->
  b_moi (mb_body s) = Rsum (fun k => shape_moment s k + shape_mass s k *
     (let d := vsub (shape_cog s k) (b_cog (mb_body s)) in vdot d d)) (mb_list s).
Proof. exact moments_sum. Qed.
Print Assumptions C60_moments.

(** SetRadius, SetEndpoints and SetVertsRaw change just that of the geometry, the mass of no shape and no other shape. *)
Theorem C60_setters : forall (s t : Rmbody) (i : nat),
  (forall r, set_radius s i r = Some t ->
     ((exists c r0, ms_geom (mb_shape s i) = GCircle c r0 /\ ms_geom (mb_shape t i) = GCircle c r) \/
      (exists a b r0, ms_geom (mb_shape s i) = GSegment a b r0 /\ ms_geom (mb_shape t i) = GSegment a b r)) /\
     shape_mass t i = shape_mass s i /\ (forall k, k <> i -> mb_shape t k = mb_shape s k) /\ mb_list t = mb_list s) /\
  (forall a b, set_endpoints s i a b = Some t ->
     (exists a0 b0 r, ms_geom (mb_shape s i) = GSegment a0 b0 r /\ ms_geom (mb_shape t i) = GSegment a b r) /\
     shape_mass t i = shape_mass s i /\ (forall k, k <> i -> mb_shape t k = mb_shape s k) /\ mb_list t = mb_list s) /\
  (forall n l, set_verts_raw s i n l = Some t ->
     (exists n0 l0 r, ms_geom (mb_shape s i) = GPoly n0 l0 r /\ ms_geom (mb_shape t i) = GPoly n l r) /\
     shape_mass t i = shape_mass s i /\ (forall k, k <> i -> mb_shape t k = mb_shape s k) /\ mb_list t = mb_list s).
Proof. exact setters_get. Qed.
Print Assumptions C60_setters.
Example C60_setters_ex : exists t : Rmbody, set_endpoints (MBody (new_body (N := RNum) 1 1) [0%nat] (fun _ => MShape (GSegment (@V RNum 0 0) (@V RNum 1 0) 1) (@MassInfo RNum 2 1 1 (@V RNum 0 0))) 1) 0 (@V RNum 0 0) (@V RNum 4 0) = Some t.
Proof. exact (ex_intro _ _ eq_refl). Qed.

(** SetVerts: a square of mass 6 gets vertices twice as far out; its area should be 16 and its moment 16, and stays 4 and 4. *)
Theorem C60_set_verts_refuted : forall T : Trig FNum, exists (s : @mbody FNum) (k : @shapemass FNum), @stretched T = Some s /\ geom_mass (ms_geom (mb_shape s 0)) = Some k /\
  (sm_area k = 16 /\ shape_area s 0 = 4)%float /\ b_mass (mb_body s) = 6%float /\ b_moi (mb_body s) = 4%float /\ (6 * sm_i k)%float = 16%float.
Proof. exact stretched_stale. Qed.
Print Assumptions C60_set_verts_refuted.

(** SetMass(0) of the only shape: the body given mass 5 has mass 0 and infinite inverses. *)
Theorem C60_massless_refuted : forall T : Trig FNum, exists s : @mbody FNum, @emptied T = Some s /\ b_type (mb_body s) = Dynamic /\
  b_mass (mb_body s) = 0%float /\ b_minv (mb_body s) = infinity /\ b_iinv (mb_body s) = infinity.
Proof. exact emptied_massless. Qed.
Print Assumptions C60_massless_refuted.

(** SetType(Static) and back: the mass 5 given to NewBody is lost. *)
Theorem C60_set_type_refuted : forall T : Trig FNum, exists s : @mbody FNum, b_type (mb_body s) = Dynamic /\ b_mass (mb_body s) = 5%float /\
  let t := set_type (set_type s Static) Dynamic in b_type (mb_body t) = Dynamic /\ b_mass (mb_body t) = 0%float /\ b_minv (mb_body t) = infinity.
Proof. exact type_there_and_back. Qed.
Print Assumptions C60_set_type_refuted.
