(** Idle times from the motion of the bodies: the first loop of ProcessComponents (/repo/space.go:451-479).
    Space.v leaves the comparison of speeds open ([fast]); this is what it is. *)
From Coq Require Import ZArith Bool.
From Verif Require Import Num Vec Transform Body.
Local Open Scope num_scope.

Section Idle.
Context {N : Num}.

(* space.go:453-459: dvsq; [dv] is IdleSpeedThreshold *)
Definition idle_speed_sq (dv : num) (g : vec) (dt : num) : num :=
  if negb (dv =? n0) then dv * dv else vmagsq g * dt * dt.
(* space.go:468-472: KineticEnergy() > keThreshold *)
Definition too_fast (dvsq : num) (b : body) : bool :=
  let keThreshold := if negb (dvsq =? n0) then b_mass b * dvsq else n0 in
  keThreshold <? kinetic_energy b.
(* space.go:462-478: one round *)
Definition idle_round (dvsq dt : num) (b : body) : body :=
  if btype_eqb (b_type b) Dynamic then
    if too_fast dvsq b then set_idle_field b n0 else set_idle_field b (b_idle b + dt)
  else b.
(* body.go:294-297, 329, 341, 352, 131-133: Velocity, Force, Torque, AngularVelocity, IdleTime are the fields *)
Definition idle_time (b : body) : num := b_idle b.
End Idle.
