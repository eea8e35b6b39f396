(** What the contours of a sampled grid should look like.  Counting is by Vec2.Equal.  Nothing here is used by the model. *)
From Coq Require Import ZArith List Bool.
From Verif Require Import Num Vec BB March.
Import ListNotations.
Local Open Scope num_scope.

Section Spec.
Context {Nm : Num}.
(** how many of the segments start / end at p *)
Definition starts (p : vec) (ss : list (vec * vec)) : nat := length (filter (fun s => veqb p (fst s)) ss).
Definition ends (p : vec) (ss : list (vec * vec)) : nat := length (filter (fun s => veqb p (snd s)) ss).

Variables (soft : bool) (sample : vec -> num) (bb : bb) (t : num) (xs ys : nat).
Local Notation xat := (xat bb xs).
Local Notation yat := (yat bb ys).
(** the value at node (i, j) of the grid *)
Definition value (i j : nat) : num :=
  sample (match i, j with
          | _, O => V (xat i) (bB bb)
          | O, S _ => V (bL bb) (yat j)
          | S _, S _ => V (xat i) (yat j)
          end).
Definition inside (i j : nat) : bool := t <? value i j.

(** an edge of the grid: (true, i, j) from (i, j) to (i+1, j), (false, i, j) from (i, j) to (i, j+1) *)
Definition edge : Type := bool * nat * nat.
Definition edge_ok (e : edge) : Prop :=
  let '(h, i, j) := e in if h then (S i < xs /\ j < ys)%nat else (i < xs /\ S j < ys)%nat.
Definition on_border (e : edge) : Prop :=
  let '(h, i, j) := e in if h then (j = 0 \/ S j = ys)%nat else (i = 0 \/ S i = xs)%nat.
(** the contour crosses the edge: one end is above the threshold and the other is not *)
Definition crossed (e : edge) : bool :=
  let '(h, i, j) := e in if h then xorb (inside i j) (inside (S i) j) else xorb (inside i j) (inside i (S j)).
(** where: by interpolation (MarchSoft) or in the middle (MarchHard) *)
Definition vertex (e : edge) : vec :=
  let '(h, i, j) := e in
  if h then V (if soft then midlerp (xat i) (xat (S i)) (value i j) (value (S i) j) t else lerp (xat i) (xat (S i)) nhalf) (yat j)
  else V (xat i) (if soft then midlerp (yat j) (yat (S j)) (value i j) (value i (S j)) t else lerp (yat j) (yat (S j)) nhalf).
Definition middle (i j : nat) : vec := V (lerp (xat i) (xat (S i)) nhalf) (lerp (yat j) (yat (S j)) nhalf).
End Spec.
(** Vec2.Equal is symmetric and transitive (it is not reflexive: NaN) *)
Definition per (Nm : Num) : Prop :=
  (forall x y : num, neqb x y = neqb y x) /\ (forall x y z : num, neqb x y = true -> neqb y z = true -> neqb x z = true).
