(** Histories of a spatial hash and what they should leave indexed. *)
From Coq Require Import ZArith List Bool PeanoNat Permutation.
From Verif Require Import Num Vec BB SpaceHash.
Import ListNotations.

Section History.
Context {Nm : Num}.
(** the calls on the index; [pick] and [order] are the choices left open by sync.Pool and by the order of the handle set *)
Inductive call :=
| Insert (pick shape : nat) (box : bb)
| Remove (shape : nat)
| ReindexObject (pick shape : nat) (box : bb)
| ReindexQuery (order : list nat -> list nat) (boxes : nat -> bb)
| Query (self : option nat) (box : bb)
| Ray (fuel : nat) (f : nat -> num) (a b : vec) (t_exit : num)
| Reindex.
(** any order of the handles will do, as long as it is one *)
Definition fair (c : call) : Prop := match c with ReindexQuery order _ => forall l, Permutation l (order l) | _ => True end.
(** the box each indexed shape was last hashed with *)
Definition boxes_after (cs : list call) : nat -> option bb :=
  fold_left (fun bx c => match c with
    | Insert _ o b => fun x => if Nat.eqb x o then Some b else bx x
    | Remove o => fun x => if Nat.eqb x o then None else bx x
    | ReindexObject _ o b => fun x => if Nat.eqb x o then option_map (fun _ => b) (bx x) else bx x
    | ReindexQuery _ boxes => fun x => option_map (fun _ => boxes x) (bx x)
    | _ => bx
    end) cs (fun _ => None).
Variables (toint : num -> Z) (ffloor : num -> num) (dim : num) (cells : nat).
(** the calls in turn; None is a panic *)
Definition perform (c : call) (s : hash) : option hash :=
  match c with
  | Insert pick o b => insert toint dim cells pick o b s
  | Remove o => Some (remove o s)
  | ReindexObject pick o b => reindex_object toint dim cells pick o b s
  | ReindexQuery order boxes => option_map fst (reindex_query toint dim cells order boxes s)
  | Query self b => option_map fst (query toint dim cells self b s)
  | Ray fuel f a b t => option_map (fun r => fst (fst (fst r))) (segment_query toint dim cells ffloor fuel f a b t s)
  | Reindex => Some (reindex s)
  end.
Definition run (cs : list call) (s : hash) : option hash := all_of perform cs s.
Definition valid_box (b : bb) : Prop := (bL b <=? bR b)%num = true /\ (bB b <=? bT b)%num = true.
End History.
(** the grid function is monotone on the numbers of [ok] *)
Definition monotone {Nm : Num} (toint : num -> Z) (dim : num) (ok : num -> Prop) : Prop :=
  forall x y, ok x -> ok y -> (x <=? y)%num = true -> (floor toint (x / dim)%num <= floor toint (y / dim)%num)%Z.
Definition box_in {Nm : Num} (ok : num -> Prop) (b : bb) : Prop := ok (bL b) /\ ok (bR b) /\ ok (bB b) /\ ok (bT b).
