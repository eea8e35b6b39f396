(** What the theorems about the linked lists say. *)
From Coq Require Import List Bool Arith.
From Verif Require Import Space ThreadList.
Import ListNotations.
Local Open Scope nat_scope.

(** The arbiter has been pushed and not unthreaded since. *)
Definition pushed_now (x : nat) (os : list top) : bool :=
  fold_left (fun r o => match o with TInit _ _ _ => r | TPush y => if Nat.eqb x y then true else r | TUnthread y => if Nat.eqb x y then false else r end) os false.
(** The bodies it was last initialised with. *)
Definition bodies_now (x : nat) (os : list top) : nat * nat :=
  fold_left (fun r o => match o with TInit y a b => if Nat.eqb x y then (a, b) else r | _ => r end) os (0, 0).
(** The rules: an arbiter is initialised while it is in no list, and pushed only while it is in no list and between two
    different bodies.  Unthread may be called at any time (arbiter.go:83-85). *)
Definition tok (os : list top) : Prop :=
  forall before o after, os = before ++ o :: after ->
    match o with
    | TInit x _ _ => pushed_now x before = false
    | TPush x => pushed_now x before = false /\ fst (bodies_now x before) <> snd (bodies_now x before)
    | TUnthread _ => True
    end.
(** Walking the list backwards from its last element gives the same list reversed: prev is the inverse of next. *)
Definition mirrored (h : theap) (b : nat) (l : list nat) : Prop :=
  forall l1 x y l2, l = l1 ++ x :: y :: l2 -> next_of h b x = Some y /\ prev_of h b y = Some x.

(** The constraint has been added and not removed since. *)
Definition added_now (c : nat) (os : list cop) : bool :=
  fold_left (fun r o => match o with CAdd d => if Nat.eqb c d then true else r | CRemove d => if Nat.eqb c d then false else r end) os false.
Definition cok (a b : nat -> nat) (os : list cop) : Prop :=
  forall before o after, os = before ++ o :: after ->
    match o with CAdd c => added_now c before = false /\ a c <> b c | CRemove c => added_now c before = true end.
