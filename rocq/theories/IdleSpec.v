(** Vocabulary of C67. *)
From Coq Require Import Reals.
From Verif Require Import Num NumReal Vec Body BodySpec BB.

(* n velocity updates of a space with gravity g and no damping: body.go:308-323 *)
Fixpoint falling (n : nat) (g : @vec RNum) (dt : R) (b : Rbody) : Rbody :=
  match n with O => b | S n => update_velocity (falling n g dt b) g 1%R dt end.
