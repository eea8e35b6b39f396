(** What a convex hull should be, over the reals.  Nothing here is used by the model. *)
From Coq Require Import ZArith Reals List Bool.
From Verif Require Import Num Vec.
Import ListNotations.
Local Open Scope R_scope.
Local Notation rvec := (@vec RNum).

(** x lies on the left of, or on, the line from u to v *)
Definition leftish (u v x : rvec) : Prop := 0 <= vcross (vsub v u) (vsub x u).
(** no three different points of the list on a line *)
Definition no_three_in_line (l : list rvec) : Prop := forall u v w, In u l -> In v l -> In w l -> u <> v -> v <> w -> u <> w -> vcross (vsub v u) (vsub w u) <> 0.
