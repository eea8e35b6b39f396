(** C73: setters of joints. *)
From Coq Require Import ZArith List Bool Arith.
From Verif Require Import Num Space SpaceSpec SpaceSetters NumFloat SpaceSettersProofs.
Import ListNotations.
Local Open Scope nat_scope.

(** SetMaxForce, SetMaxBias and SetErrorBias wake the sleeping groups of both bodies of the joint, no other body, and cannot panic;
    what the space contains stays. *)
Theorem C73_setters_wake : forall (N : Num) (s : space) (c : nat), reachable s -> exists s', activate_bodies c s = Some s' /\ reachable s' /\
  s_con s' = s_con s /\ s_lock s' = s_lock s /\ (forall y, contains_body s' y = contains_body s y) /\
  (forall y, group s y = group s (co_a (s_con s c)) \/ group s y = group s (co_b (s_con s c)) -> is_sleeping s' y = false) /\
  (forall y, group s y <> group s (co_a (s_con s c)) -> group s y <> group s (co_b (s_con s c)) -> group s' y = group s y).
Proof. exact @activate_bodies_ok. Qed.
Print Assumptions C73_setters_wake.
(** SetCollideBodies does that too; a joint of the space is among those solved afterwards; and two bodies are kept from colliding
    exactly if some joint of the space between them does not let them collide, the changed one by its new value. *)
Theorem C73_set_collide_bodies : forall (N : Num) (s : space) (c : nat) (v : bool), reachable s -> exists s', set_collide_bodies c v s = Some s' /\
  (forall y, group s y = group s (co_a (s_con s c)) \/ group s y = group s (co_b (s_con s c)) -> is_sleeping s' y = false) /\
  (forall y, group s y <> group s (co_a (s_con s c)) -> group s y <> group s (co_b (s_con s c)) -> group s' y = group s y) /\
  (s_lock s = 0%Z -> contains_constraint s c = true -> In c (s_cons s')) /\
  forall x y, query_reject_constraints s' x y = true <->
    exists d, contains_constraint s d = true /\ (if Nat.eqb d c then v else co_collide (s_con s d)) = false /\
      ((co_a (s_con s d) = x /\ co_b (s_con s d) = y) \/ (co_a (s_con s d) = y /\ co_b (s_con s d) = x)).
Proof. exact @set_collide_ok. Qed.
Print Assumptions C73_set_collide_bodies.
(** Two sleeping bodies with a joint that keeps them from colliding. *)
Example C73_ex : exists s s' : @space FNum, reachable s /\ s_lock s = 0%Z /\ contains_constraint s 0 = true /\ set_collide_bodies 0 true s = Some s' /\
  map (is_sleeping s) [1; 2] = [true; true] /\ map (is_sleeping s') [1; 2] = [false; false] /\
  query_reject_constraints s 1 2 = true /\ query_reject_constraints s' 1 2 = false.
Proof. exact ex_set_collide. Qed.
