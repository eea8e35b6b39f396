(** Vocabulary for the statements about BBTree.v; nothing here is used by the model. *)
From Coq Require Import ZArith Bool List Arith Permutation.
From Verif Require Import Num Vec BB BBProofs BBTree.
Import ListNotations.
Local Open Scope num_scope.

Section Spec.
Context {N : Num} {O : NumOrd N}.

(* the leaves of a tree of the index, with their boxes *)
Definition leaf_list (x : index) (d : bool) : list (nat * bb) :=
  match x_root x d with Some t => tleaves t | None => [] end.

(* every inner node has two children (by type) and its box contains the box of every leaf beneath it *)
Fixpoint bounded (t : tree) : Prop :=
  match t with
  | Leaf _ b => bb_ok b
  | Node b l r => bb_ok b /\ bounded l /\ bounded r /\
      (forall p, In p (tleaves l ++ tleaves r) -> bb_contains b (snd p) = true)
  end.

(* a shape's box has finite ordered sides, its velocity is finite *)
Definition good_box (b : bb) : Prop := bb_wf b /\ nfin (bL b) /\ nfin (bB b) /\ nfin (bR b) /\ nfin (bT b).
Definition good_vel (v : vec) : Prop := nfin (vx v) /\ nfin (vy v).

(* an operation respects the preconditions: a shape is inserted into a tree at most once, only a shape of the tree is
   removed, HashSet.Each visits every leaf once, boxes and velocities are finite *)
Definition xvalid (x : index) (o : xop) : Prop :=
  match o with
  | XShapes box vel => forall i, good_box (box i) /\ good_vel (vel i)
  | XInsert d i => ~ In i (x_leaves x d)
  | XRemove d i => In i (x_leaves x d)
  | XReindex d i => True
  | XQuery order => Permutation order (x_leaves x true)
  end.
Fixpoint xvalid_all (x : index) (h : list xop) : Prop :=
  match h with [] => True | o :: h => xvalid x o /\ xvalid_all (xstep x o) h end.
(* reached from two empty trees by a history of such operations *)
Definition reached (x : index) : Prop :=
  exists box vel h, (forall i, good_box (box i) /\ good_vel (vel i)) /\
    xvalid_all (index0 box vel) h /\ x = xrun (index0 box vel) h.

(* the unordered pair {a, b} in a list of pairs *)
Definition same_pair (a b : key) (p : pair) : bool :=
  (key_eqb a (fst p) && key_eqb b (snd p)) || (key_eqb a (snd p) && key_eqb b (fst p)).
Definition occurrences (a b : key) (l : list pair) : nat := length (filter (same_pair a b) l).
(* the box of a leaf node *)
Definition key_box (x : index) (k : key) : option bb := leaf_bb (x_root x (fst k)) (snd k).
(* two different leaf nodes, at least one of them dynamic, whose boxes intersect *)
Definition hit (x : index) (a b : key) : bool :=
  match key_box x a, key_box x b with
  | Some p, Some q => (fst a || fst b) && negb (key_eqb a b) && bb_intersects p q
  | _, _ => false
  end.

End Spec.

(* a ray callback that also writes down the shapes it is called with *)
Definition logged {N : Num} {St : Type} (f : nat -> St -> num * St) (i : nat) (s : St * list nat) : num * (St * list nat) :=
  let '(u, s') := f i (fst s) in (u, (s', snd s ++ [i])).

(* the operation indexes the shape afresh or looks at its box again *)
Definition reindexes {N : Num} (x : index) (o : xop) (d : bool) (i : nat) : Prop :=
  match o with
  | XInsert e j => e = d /\ j = i
  | XReindex e j => e = d /\ j = i /\ In i (x_leaves x d)
  | XQuery _ => d = true /\ In i (x_leaves x d)
  | _ => False
  end.
