(** Polylines and the segments they are made of.  Nothing here is used by the model. *)
From Coq Require Import ZArith Reals List Bool.
From Verif Require Import Num Vec.
Import ListNotations.

Section Spec.
Context {Nm : Num}.
(** the segments of a polyline *)
Fixpoint pairs (l : list vec) : list (vec * vec) :=
  match l with
  | x :: (y :: _) as r => (x, y) :: pairs r
  | _ => []
  end.
(** the same point up to Vec2.Equal, which identifies 0 and -0 (and tells NaN from itself) *)
Definition same (u v : vec) : Prop := u = v \/ veqb u v = true.
Definition same_segment (s r : vec * vec) : Prop := same (fst s) (fst r) /\ same (snd s) (snd r).
Definition first_of (l : list vec) : vec := hd vzero l.
Definition last_of (l : list vec) : vec := last l vzero.
End Spec.
(** ** Simplification *)
Section Simplify.
Context {Nm : Num}.
(** the vertex at position k, going round after [count] vertices *)
Definition vert (l : list vec) (count k : nat) : vec := nth (k mod count) l vzero.
(** a strictly increasing way from s to e over the positions ks, with [ok] for each step *)
Inductive route (ok : nat -> nat -> Prop) : nat -> list nat -> nat -> Prop :=
| route_last s e : (s < e)%nat -> ok s e -> route ok s [] e
| route_step s k ks e : (s < k)%nat -> ok s k -> route ok k ks e -> route ok s (k :: ks) e.
(** r can be got from l by leaving vertices out *)
Inductive thinned : list vec -> list vec -> Prop :=
| thinned_nil : thinned [] []
| thinned_out x r l : thinned r l -> thinned r (x :: l)
| thinned_keep x r l : thinned r l -> thinned (x :: r) (x :: l).
End Simplify.
(** v is within tol of the line through a and b *)
Definition near_line (a b v : @vec RNum) (tol : R) : Prop := exists s : R, (vdist v (vlerp a b s) <= tol)%R.
(** what SimplifyVertexes should keep after the kept vertex y: z stays when the way y, z, next is not straight enough *)
Inductive kept {Nm : Num} (straight : vec -> vec -> vec -> bool) : vec -> list vec -> list vec -> Prop :=
| kept_end y z : kept straight y [z] [z]
| kept_not y z v rest r : straight y z v = true -> kept straight y (v :: rest) r -> kept straight y (z :: v :: rest) r
| kept_one y z v rest r : straight y z v = false -> kept straight z (v :: rest) r -> kept straight y (z :: v :: rest) (z :: r).
(** the cosine of the angle at z *)
Definition cosine {Nm : Num} (y z v : vec) : num := vdot (vunit (vsub y z)) (vunit (vsub v z)).
