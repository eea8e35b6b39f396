(** C15: the pointers of bb_tree.go.  [buf] is pooledBufferSize; boxes and velocities may be anything, NaN included. *)
From Coq Require Import Bool List Arith Permutation.
From Verif Require Import Num NumFloat Vec BB BBTree BBTreeMain BBTreePtr BBTreePtrSpec BBTreePtrTop BBTreePtrEx.
Import ListNotations.

(** No history of insertions, removals, reindexings and queries dereferences nil, and all loops end. *)
Theorem C15_runs :
  forall (N : Num) (buf : nat) (box : nat -> bb) (vel : nat -> vec) (h : list xop), in_order_all (index0 box vel) h ->
  exists n s c, forall fuel, n <= fuel -> ptr_run buf fuel (pindex0 box vel) h = Some (s, c).
Proof. exact @run_total. Qed.
Print Assumptions C15_runs.

(** The pointers form the trees of BBTree.v, child and parent pointers agreeing, and the callback is called with the same shapes in the same order. *)
Theorem C15_same_as_values :
  forall (N : Num) (buf : nat) (box : nat -> bb) (vel : nat -> vec) (h : list xop) (s : pindex) (c : list (list (option nat * option nat))),
  in_order_all (index0 box vel) h -> ptr_reached buf box vel h s c ->
  (forall d, root_shows s d (x_root (xrun (index0 box vel) h) d)) /\ c = map (map objs) (xcalls_all (index0 box vel) h).
Proof. exact @tree_top. Qed.
Print Assumptions C15_same_as_values.

Theorem C15_same_queries :
  forall (N : Num) (buf : nat) (box : nat -> bb) (vel : nat -> vec) (h : list xop) (s : pindex) (c : list (list (option nat * option nat))),
  in_order_all (index0 box vel) h -> ptr_reached buf box vel h s c ->
  forall d, exists n, forall fuel, n <= fuel ->
  (forall q, ptr_query fuel s d q = Some (map Some (index_query (xrun (index0 box vel) h) d q))) /\
  forall St (f : nat -> St -> num * St) a b e z, ptr_segment fuel f s d a b e z = Some (index_segment f (xrun (index0 box vel) h) d a b e z).
Proof. exact @queries_top. Qed.
Print Assumptions C15_same_queries.

(** The nodes of the two trees and of their two pools are all different; the trees have no other nodes than the leaves and inner nodes they show. *)
Theorem C15_nodes_apart :
  forall (N : Num) (buf : nat) (box : nat -> bb) (vel : nat -> vec) (h : list xop) (s : pindex) (c : list (list (option nat * option nat))),
  in_order_all (index0 box vel) h -> ptr_reached buf box vel h s c ->
  exists lt lf : bool -> list nat, (forall d a, In a (lt d) <-> tree_node s d a) /\
  (forall d, length (lt d) = match x_root (xrun (index0 box vel) h) d with Some t => tree_size t | None => 0 end) /\
  (forall d, pool_walk (nodes (ix_n s)) (n_pool (ix_n s) d) (lf d)) /\ NoDup (lt true ++ lt false ++ lf true ++ lf false).
Proof. exact @nodes_top. Qed.
Print Assumptions C15_nodes_apart.

(** The pair list of a leaf is properly doubly linked, and consists of the cached pairs of BBTree.v that contain the leaf. *)
Theorem C15_pair_lists :
  forall (N : Num) (buf : nat) (box : nat -> bb) (vel : nat -> vec) (h : list xop) (s : pindex) (c : list (list (option nat * option nat))),
  in_order_all (index0 box vel) h -> ptr_reached buf box vel h s c ->
  forall k a, leaf_node s k a -> exists l, pair_list (ix_p s) a l /\ NoDup l /\
  Forall2 (fun p q => exists b b', t_leaf (pth (ix_p s) q true) = Some b /\ t_leaf (pth (ix_p s) q false) = Some b' /\ leaf_node s (fst p) b /\ leaf_node s (snd p) b')
    (filter (touches k) (x_pairs (xrun (index0 box vel) h))) l.
Proof. exact @lists_top. Qed.
Print Assumptions C15_pair_lists.

(** A pair in a list is a pair of two different leaves of the trees and in the lists of exactly these. *)
Theorem C15_in_two_lists :
  forall (N : Num) (buf : nat) (box : nat -> bb) (vel : nat -> vec) (h : list xop) (s : pindex) (c : list (list (option nat * option nat))),
  in_order_all (index0 box vel) h -> ptr_reached buf box vel h s c ->
  forall a l p, pair_list (ix_p s) a l -> In p l ->
  exists b, b <> a /\ pair_of (ix_p s) p a /\ pair_of (ix_p s) p b /\ (exists ka kb, leaf_node s ka a /\ leaf_node s kb b) /\
  forall e m, pair_list (ix_p s) e m -> (In p m <-> e = a \/ e = b).
Proof. exact @two_lists_top. Qed.
Print Assumptions C15_in_two_lists.

Theorem C15_pairs_apart :
  forall (N : Num) (buf : nat) (box : nat -> bb) (vel : nat -> vec) (h : list xop) (s : pindex) (c : list (list (option nat * option nat))),
  in_order_all (index0 box vel) h -> ptr_reached buf box vel h s c ->
  exists lf, pair_pool_walk (ix_p s) (p_pool (ix_p s)) lf /\ NoDup lf /\ forall p a l, pair_list (ix_p s) a l -> In p l -> ~ In p lf.
Proof. exact @pair_pool_top. Qed.
Print Assumptions C15_pairs_apart.

(** PairsClear empties the list of the leaf and takes exactly its pairs out of the other lists, whose order stays. *)
Theorem C15_clear :
  forall (N : Num) (buf : nat) (box : nat -> bb) (vel : nat -> vec) (h : list xop) (s : pindex) (c : list (list (option nat * option nat))),
  in_order_all (index0 box vel) h -> ptr_reached buf box vel h s c ->
  forall a, exists n h', (forall fuel, n <= fuel -> ptr_pairs_clear fuel a (ix_p s) = Some h') /\ pair_list h' a [] /\
  (forall b l, pair_list (ix_p s) b l -> pair_list h' b (filter (fun p => negb (pair_ofb (ix_p s) a p)) l)) /\
  exists lf, pair_pool_walk h' (p_pool h') lf /\ NoDup lf /\ (forall p b l, pair_list h' b l -> In p l -> ~ In p lf).
Proof. exact @clear_top. Qed.
Print Assumptions C15_clear.

(** PairInsert puts a pair that was in no list in front of the lists of both leaves. *)
Theorem C15_insert :
  forall (N : Num) (buf : nat) (box : nat -> bb) (vel : nat -> vec) (h : list xop) (s : pindex) (c : list (list (option nat * option nat))),
  in_order_all (index0 box vel) h -> ptr_reached buf box vel h s c ->
  forall a b, a <> b -> exists p h', ptr_pair_insert buf a b (ix_p s) = h' /\ t_leaf (pth h' p true) = Some a /\ t_leaf (pth h' p false) = Some b /\
  (forall e l, pair_list (ix_p s) e l -> ~ In p l /\ pair_list h' e (if Nat.eqb e a || Nat.eqb e b then p :: l else l)) /\
  exists lf, pair_pool_walk h' (p_pool h') lf /\ NoDup lf /\ (forall q e l, pair_list h' e l -> In q l -> ~ In q lf).
Proof. exact @insert_top. Qed.
Print Assumptions C15_insert.

(** A history in float64 with a removal and a leaf that moves: three leaves, three pairs, each in two lists. *)
Example C15_witness : in_order_all (index0 ex_box1 ex_vel) ex_ops /\ exists s, ptr_reached 1024 ex_box1 ex_vel ex_ops s ex_calls /\
  leaf_node s (true, 2) 1021 /\ leaf_node s (true, 1) 1023 /\ leaf_node s (false, 3) 2049 /\
  pair_list (ix_p s) 1021 [1022; 1024] /\ pair_list (ix_p s) 1023 [1022; 1023] /\ pair_list (ix_p s) 2049 [1024; 1023].
Proof. exact ex_ptr_ok. Qed.
