(** How the properties of SpaceQuery.v are stated. *)
From Coq Require Import ZArith NArith List Bool Arith.
From Verif Require Import Num Vec BB BBTree BBTreeSpec Filter Narrow SpaceQuery.
From Verif Require Space.
Import ListNotations.

Section Spec.
Context {N : Num}.
(** The trees index the shapes of the lists of the space. *)
Definition indexes_space (s : Space.space) (x : index) : Prop :=
  (forall i, In i (x_leaves x true) <-> exists h, In (h, i) (Space.s_dix s)) /\
  (forall i, In i (x_leaves x false) <-> exists h, In (h, i) (Space.s_six s)).
(** The leaf of a shape covers its box, so after a shape was indexed or reindexed (C10). *)
Definition fresh (x : index) (d : bool) : Prop :=
  forall i, In i (x_leaves x d) -> exists b, key_box x (d, i) = Some b /\ bb_contains b (x_box x i) = true.
(** A shape in the space whose body can move in this step. *)
Definition contained (s : Space.space) (i : nat) : Prop := Space.contains_shape s i = true.
Definition resting (s : Space.space) (i : nat) : Prop :=
  Space.ty s (body_of s i) = Space.Static \/ Space.is_sleeping s (body_of s i) = true.
(** The pairs that have to be examined. *)
Definition eligible (s : Space.space) (flt : nat -> filter) (box : nat -> bb) (i j : nat) : Prop :=
  contained s i /\ contained s j /\ ~ (resting s i /\ resting s j) /\ body_of s i <> body_of s j /\
  reject (flt i) (flt j) = false /\ bb_intersects (box i) (box j) = true /\
  ~ exists c, Space.contains_constraint s c = true /\ Space.co_collide (Space.s_con s c) = false /\
      ((Space.co_a (Space.s_con s c) = body_of s i /\ Space.co_b (Space.s_con s c) = body_of s j) \/
       (Space.co_a (Space.s_con s c) = body_of s j /\ Space.co_b (Space.s_con s c) = body_of s i)).
(** How often a list mentions the pair, in either order. *)
Definition mentions (i j : nat) (l : list (nat * nat)) : nat :=
  length (List.filter (fun p => (Nat.eqb i (fst p) && Nat.eqb j (snd p)) || (Nat.eqb i (snd p) && Nat.eqb j (fst p))) l).
End Spec.
