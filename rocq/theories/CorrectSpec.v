(** Vocabulary of C72: what it means that a joint works off its error.

    A joint measures an error at the start of the step (PreStep, for instance
    /repo/pin_joint.go:46-65) and then asks the solver for a rate of change of that error
    (ApplyImpulse).  [left] is the part of the error the user wants to be left after a step:
    ErrorBias raised to the power dt (/repo/everything.go:303-305, /repo/constraint.go:66-73).
    Nothing here refers to the functions of the model. *)
From Coq Require Import Reals.
From Verif Require Import Num NumReal Vec.
Local Open Scope R_scope.

(** [v] is a rate for the error [err] that is never faster than [maxbias], which after a time
    [dt] has never turned the error round nor made it larger, and which leaves exactly the
    part [left] of it unless that would be too fast; then some more is left.
    /repo/constraint.go:66-91 (ErrorBias, MaxBias). *)
Definition corrects (maxbias left dt err v : R) : Prop :=
  Rabs v <= maxbias /\
  (exists s, left <= s <= 1 /\ err + v * dt = s * err) /\
  ((1 - left) * Rabs err <= maxbias * dt -> err + v * dt = left * err).
(** The same for an error which is a displacement of the plane.
    /repo/pivot_joint.go:53-57, /repo/groove_joint.go:58-60. *)
Definition corrects_vec (maxbias left dt : R) (err v : @vec RNum) : Prop :=
  vmag v <= maxbias /\
  (exists s, left <= s <= 1 /\ vadd err (vscale v dt) = vscale err s) /\
  ((1 - left) * vmag err <= maxbias * dt -> vadd err (vscale v dt) = vscale err left).
(** What is left of a unit of error after a time [dt].  /repo/everything.go:303-305. *)
Definition left_after (errorbias dt : R) : R := Rpower errorbias dt.
