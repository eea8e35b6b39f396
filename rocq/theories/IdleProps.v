(** C67: idle times come from the motion of the bodies.  [kinetic b]: 1/2 m v^2 + 1/2 i w^2. *)
From Coq Require Import ZArith Reals List Bool Arith Floats.
From Verif Require Import Num NumReal NumFloat Vec Transform Body BodySpec EnergySpec SolverProofs6 BB Idle IdleSpec IdleProofs IdleEx.
From Verif Require Space SpaceSpec SpaceRuns.
Import ListNotations.
Local Open Scope R_scope.

(* a dynamic body is idle in a step when its energy is at most that of moving at the threshold speed without spin; only the idle time changes.
   The threshold speed is IdleSpeedThreshold, or what gravity adds in one step if that is 0. *)
Theorem C67_idle_time : forall (dv : R) (g : @vec RNum) (dt : R) (b : Rbody), 0 <= dv -> 0 <= dt -> b_type b = Dynamic ->
  let v := if Req_EM_T dv 0 then vmag g * dt else dv in
  let b' := idle_round (idle_speed_sq dv g dt) dt b in
  (kinetic (set_vel_fields b (BB.rvec v 0) 0) < kinetic b -> idle_time b' = 0) /\
  (kinetic b <= kinetic (set_vel_fields b (BB.rvec v 0) 0) -> idle_time b' = idle_time b + dt) /\
  set_idle_field b' (idle_time b) = b.
Proof. exact round_spec. Qed.
Print Assumptions C67_idle_time.
(* without spin the speeds are compared, whatever the mass *)
Theorem C67_speed : forall (dv : R) (g : @vec RNum) (dt : R) (b : Rbody), 0 <= dv -> 0 <= dt -> 0 < b_mass b -> b_w b = 0 ->
  too_fast (idle_speed_sq dv g dt) b = true <-> (if Req_EM_T dv 0 then vmag g * dt else dv) < vmag (b_vel b).
Proof. exact speed_iff. Qed.
Print Assumptions C67_speed.
(* a body in free fall is not idle from its second velocity update on: it does not fall asleep in the air *)
Theorem C67_free_fall : forall (n : nat) (g : @vec RNum) (dt : R) (b : Rbody), (2 <= n)%nat -> b_type b = Dynamic -> 0 < b_mass b ->
  b_vel b = vzero -> b_w b = 0 -> b_force b = vzero -> b_torque b = 0 -> g <> vzero -> 0 < dt ->
  idle_time (idle_round (idle_speed_sq 0 g dt) dt (falling n g dt b)) = 0.
Proof. exact falls_fast. Qed.
Print Assumptions C67_free_fall.
Example C67_free_fall_ex : exists b : Rbody, b_type b = Dynamic /\ 0 < b_mass b /\ b_vel b = vzero /\ b_w b = 0 /\ b_force b = vzero /\ b_torque b = 0 /\
  idle_time (idle_round (idle_speed_sq 0 (BB.rvec 0 (-1)) 1) 1 (falling 1 (BB.rvec 0 (-1)) 1 b)) = 1 /\
  idle_time (idle_round (idle_speed_sq 0 (BB.rvec 0 (-1)) 1) 1 (falling 2 (BB.rvec 0 (-1)) 1 b)) = 0.
Proof. exact falls_ex. Qed.
(* in a space: an awake body that is too fast is awake after the step with idle time 0, and so is every body it is connected to *)
Theorem C67_fast_awake : forall (N : Num) (H : nat -> body) (dv : num) (g : vec) (s : Space.space) thr dt evs old (s' : Space.space) y,
  let fast := fun i => too_fast (idle_speed_sq dv g dt) (H i) in
  SpaceSpec.reachable s -> SpaceSpec.valid (Space.OStep (Some thr) dt fast evs old []) s -> Space.sstep (Space.OStep (Some thr) dt fast evs old []) s = Some s' ->
  Space.contains_body s y = true -> Space.ty s y = Space.Dynamic -> Space.is_sleeping s y = false -> fast y = true ->
  Space.b_idle (Space.s_body s' y) = n0 /\ Space.is_sleeping s' y = false /\
  forall b, Space.is_sleeping s b = false -> SpaceSpec.connected s' b y -> Space.is_sleeping s' b = false.
Proof. exact (fun N H dv g s thr dt evs old s' y => fast_awake s thr dt (fun i => too_fast (idle_speed_sq dv g dt) (H i)) evs old s' y). Qed.
Print Assumptions C67_fast_awake.
Example C67_witness : exists s s' : @Space.space FNum, SpaceSpec.reachable s /\ SpaceSpec.valid step3 s /\ Space.sstep step3 s = Some s' /\
  map (Space.contains_body s) [1; 2; 3]%nat = [true; true; true] /\ map (Space.ty s) [1; 2; 3]%nat = [Space.Dynamic; Space.Dynamic; Space.Dynamic] /\
  map (Space.is_sleeping s) [1; 2; 3]%nat = [false; false; false] /\ map fast3 [1; 2; 3]%nat = [false; false; true] /\
  map (Space.is_sleeping s') [1; 2; 3]%nat = [true; true; false].
Proof. exact awake_ex. Qed.
(* KineticEnergy returns twice the kinetic energy; the comparison above is right because its threshold is doubled as well *)
Theorem C67_kinetic_energy : forall b : Rbody, kinetic_energy b = 2 * kinetic b.
Proof. exact ke_twice. Qed.
Print Assumptions C67_kinetic_energy.
Theorem C67_kinetic_energy_refuted : exists b : Rbody, kinetic_energy b <> kinetic b.
Proof. exact ke_refuted. Qed.
Print Assumptions C67_kinetic_energy_refuted.
