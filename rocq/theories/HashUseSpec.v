(** How the properties of HashUse.v are stated. *)
From Coq Require Import ZArith List Bool Arith.
From Verif Require Import Num Vec BB SpaceHash SpaceHashSpec.
From Verif Require Space.
Import ListNotations.

Section Spec.
Context {N : Num}.
Variables (toint : num -> Z) (ffloor : num -> num) (dim : num) (cells : nat).
(** [h] results from some calls on a new index (no Reindex, which a space never calls) and holds the shapes of the list [l] of the space,
    each hashed last with a box [now] accepts for it. *)
Definition hashed (l : list (nat * nat)) (now : nat -> bb -> Prop) (h : hash) : Prop :=
  exists k cs, Forall fair cs /\ ~ In Reindex cs /\ run toint ffloor dim cells cs (new_hash cells k) = Some h /\
    (forall i, boxes_after cs i <> None <-> exists id, In (id, i) l) /\ (forall i b, boxes_after cs i = Some b -> now i b).
End Spec.
