(** Setters of joints seen from the space (constraint.go:50-108).  Only the wake up of the two bodies and the flag that the space
    reads (collideBodies) are modelled here; the numbers maxForce, maxBias and errorBias belong to the solver (Solver.v). *)
From Coq Require Import List Bool Arith.
From Verif Require Import Num Space.
Section Setters.
Context {N : Num}.
(* constraint.go:50-53 ActivateBodies, called first by SetMaxForce (65-71), SetMaxBias (77-83), SetErrorBias (89-95) and SetCollideBodies *)
Definition activate_bodies (c : nat) (s : space) : option space :=
  match body_activate (co_a (s_con s c)) s with
  | Some s1 => body_activate (co_b (s_con s c)) s1
  | None => None
  end.
(* constraint.go:105-108 SetCollideBodies *)
Definition set_collide_bodies (c : nat) (v : bool) (s : space) : option space :=
  match activate_bodies c s with
  | Some s1 => Some (set_con s1 c (Co (co_a (s_con s1 c)) (co_b (s_con s1 c)) v (co_in (s_con s1 c))))
  | None => None
  end.
End Setters.
