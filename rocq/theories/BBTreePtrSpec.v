(** Vocabulary for the statements about BBTreePtr.v; nothing here is used by the model. *)
From Coq Require Import Bool List Arith Permutation.
From Verif Require Import Num Vec BB BBTree BBTreePtr.
Import ListNotations.
Local Open Scope nat_scope.

Section Spec.
Context {N : Num}.
(* an operation respects the preconditions: a shape is inserted into a tree at most once, only a shape of the tree is
   removed, HashSet.Each visits every leaf once; boxes and velocities may be anything *)
Definition in_order (x : index) (o : xop) : Prop :=
  match o with XInsert d i => ~ In i (x_leaves x d) | XRemove d i => In i (x_leaves x d) | XQuery order => Permutation order (x_leaves x true) | _ => True end.
Fixpoint in_order_all (x : index) (h : list xop) : Prop := match h with [] => True | o :: h => in_order x o /\ in_order_all (xstep x o) h end.
(* the calls of the callback that an operation makes according to BBTree.v, and the objects of such a call *)
Definition xcalls (x : index) (o : xop) : list pair := match o with XQuery order => snd (do_query x order) | _ => [] end.
Fixpoint xcalls_all (x : index) (h : list xop) : list (list pair) := match h with [] => [] | o :: h => xcalls x o :: xcalls_all (xstep x o) h end.
Definition objs (p : pair) : option nat * option nat := (Some (snd (fst p)), Some (snd (snd p))).

(* node a, whose parent is par, is the root of the tree t; all child and parent pointers beneath it agree *)
Fixpoint shows (f : nat -> node) (par : option nat) (a : nat) (t : tree) : Prop :=
  n_parent (f a) = par /\
  match t with
  | Leaf i b => n_obj (f a) = Some i /\ n_bb (f a) = b
  | Node b l r => n_obj (f a) = None /\ n_bb (f a) = b /\ exists p q, n_a (f a) = Some p /\ n_b (f a) = Some q /\ shows f (Some a) p l /\ shows f (Some a) q r
  end.
Definition root_shows (s : pindex) (d : bool) (t : option tree) : Prop :=
  match n_root (ix_n s) d, t with Some a, Some t => shows (nodes (ix_n s)) None a t | None, None => True | _, _ => False end.
(* node y is node x or beneath it *)
Inductive below (f : nat -> node) (x : nat) : nat -> Prop :=
| below_self : below f x x
| below_a a y : n_obj (f x) = None -> n_a (f x) = Some a -> below f a y -> below f x y
| below_b b y : n_obj (f x) = None -> n_b (f x) = Some b -> below f b y -> below f x y.
Definition tree_node (s : pindex) (d : bool) (x : nat) : Prop := exists r, n_root (ix_n s) d = Some r /\ below (nodes (ix_n s)) r x.
(* node a is the leaf of the shape k *)
Definition leaf_node (s : pindex) (k : key) (a : nat) : Prop := tree_node s (fst k) a /\ n_obj (nodes (ix_n s) a) = Some (snd k).
(* the pool of nodes from p on is l *)
Fixpoint pool_walk (f : nat -> node) (p : option nat) (l : list nat) : Prop := match l with [] => p = None | x :: r => p = Some x /\ pool_walk f (n_parent (f x)) r end.
End Spec.

(* the pool of pairs from p on is l *)
Fixpoint pair_pool_walk (h : pheap) (p : option nat) (l : list nat) : Prop := match l with [] => p = None | x :: r => p = Some x /\ pair_pool_walk h (t_next (pth h x true)) r end.
(* the pair list of a leaf from p on is l, doubly linked: prev is what the first pair must point back to *)
Fixpoint list_walk (h : pheap) (leaf : nat) (p prev : option nat) (l : list nat) : Prop :=
  match l with
  | [] => p = None
  | x :: r => p = Some x /\ exists sd, t_leaf (pth h x sd) = Some leaf /\ t_prev (pth h x sd) = prev /\ list_walk h leaf (t_next (pth h x sd)) (Some x) r
  end.
Definition pair_list (h : pheap) (leaf : nat) (l : list nat) : Prop := list_walk h leaf (p_head h leaf) None l.
(* the pair p is of the leaf a *)
Definition pair_of (h : pheap) (p a : nat) : Prop := exists sd, t_leaf (pth h p sd) = Some a.
Definition pair_ofb (h : pheap) (a p : nat) : bool := same (t_leaf (pth h p true)) (Some a) || same (t_leaf (pth h p false)) (Some a).
(* a history of the two trees from empty ones ends in state s with the calls c *)
Definition ptr_reached {N : Num} (buf : nat) (box : nat -> bb) (vel : nat -> vec) (h : list xop) (s : pindex) (c : list (list (option nat * option nat))) : Prop :=
  exists fuel, ptr_run buf fuel (pindex0 box vel) h = Some (s, c).
Fixpoint tree_size {N : Num} (t : tree) : nat := match t with Leaf _ _ => 1 | Node _ l r => S (tree_size l + tree_size r) end.
