(** bb_tree.go once more, with its pointers: nodes with parents, threaded pair lists, pools.

    Addresses are numbers, nil is None, so is dereferencing nil (a panic) or running out of [fuel], which bounds recursion depth and rounds of loops.
    The fields of a Node are spread over maps: [nodes] (obj, bb, parent, a, b), [p_head] (Leaf.pairs) and [ix_lstamp] (Leaf.stamp).
    The set of leaves (HashSet) is a list of shapes with their nodes; the order Each visits it in is an input of ReindexQuery.  collisionId is left out.
    true stands for the dynamic tree, false for the static one; the dynamic tree is the master of both (409-415). *)
From Coq Require Import ZArith Bool List Arith.
From Verif Require Import Num Vec BB BBTree.
Import ListNotations.
Local Open Scope num_scope.

(* f with the value at x replaced: *p = v *)
Definition put {A} (f : nat -> A) (x : nat) (v : A) : nat -> A := fun y => if Nat.eqb x y then v else f y.
Definition putb {A} (f : bool -> A) (x : bool) (v : A) : bool -> A := fun y => if Bool.eqb x y then v else f y.
(* comparison of pointers that may be nil *)
Definition same (p q : option nat) : bool := match p, q with Some x, Some y => Nat.eqb x y | None, None => true | _, _ => false end.
Notation "'let*' x := e 'in' k" := (match e with Some x => k | None => None end) (at level 200, x pattern, e at level 100, k at level 200).

Section Pairs.
(* pooledBufferSize, everything.go:11 *)
Variable buf : nat.
(* bb_tree.go:30-33 Thread *)
Record thread := Thread { t_prev : option nat; t_next : option nat; t_leaf : option nat }.
(* bb_tree.go:25-28 Pair: thread a is [pth p true], thread b is [pth p false]; 73 pooledPairs; 22 Leaf.pairs *)
Record pheap := PHeap { pth : nat -> bool -> thread; p_new : nat; p_pool : option nat; p_head : nat -> option nat }.
Definition no_thread := Thread None None None.
Definition set_thread (h : pheap) (p : nat) (s : bool) (t : thread) : pheap := PHeap (put (pth h) p (putb (pth h p) s t)) (p_new h) (p_pool h) (p_head h).
Definition set_phead (h : pheap) (l : nat) (v : option nat) : pheap := PHeap (pth h) (p_new h) (p_pool h) (put (p_head h) l v).
Definition set_ppool (h : pheap) (v : option nat) : pheap := PHeap (pth h) (p_new h) v (p_head h).
(* the thread of pair p chosen by `if p.a.leaf == leaf` (40, 48, 152, 160, 318) *)
Definition side (h : pheap) (p : nat) (leaf : option nat) : bool := same (t_leaf (pth h p true)) leaf.
Definition put_prev (h : pheap) (p : nat) (leaf : option nat) (v : option nat) : pheap :=
  let s := side h p leaf in let t := pth h p s in set_thread h p s (Thread v (t_next t) (t_leaf t)).
Definition put_next (h : pheap) (p : nat) (leaf : option nat) (v : option nat) : pheap :=
  let s := side h p leaf in let t := pth h p s in set_thread h p s (Thread (t_prev t) v (t_leaf t)).
(* bb_tree.go:35-56 Unlink *)
Definition unlink (t : thread) (h : pheap) : option pheap :=
  let h := match t_next t with Some n => put_prev h n (t_leaf t) (t_prev t) | None => h end in
  match t_prev t with
  | Some p => Some (put_next h p (t_leaf t) (t_next t))
  | None => match t_leaf t with Some l => Some (set_phead h l (t_next t)) | None => None end
  end.
(* bb_tree.go:185-189 RecyclePair *)
Definition recycle_pair (h : pheap) (p : nat) : pheap :=
  let t := pth h p true in set_ppool (set_thread h p true (Thread (t_prev t) (p_pool h) (t_leaf t))) (Some p).
(* &Pair{} *)
Definition alloc_pair (h : pheap) : nat * pheap := (p_new h, PHeap (put (pth h) (p_new h) (fun _ => no_thread)) (S (p_new h)) (p_pool h) (p_head h)).
(* bb_tree.go:178-180 *)
Fixpoint more_pairs (n : nat) (h : pheap) : pheap := match n with O => h | S n => let '(p, h) := alloc_pair h in more_pairs n (recycle_pair h p) end.
(* bb_tree.go:167-183 PairFromPool *)
Definition pair_from_pool (h : pheap) : nat * pheap :=
  match p_pool h with Some p => (p, set_ppool h (t_next (pth h p true))) | None => alloc_pair (more_pairs buf h) end.
(* bb_tree.go:139-165 PairInsert *)
Definition ptr_pair_insert (a b : nat) (h : pheap) : pheap :=
  let next_a := p_head h a in
  let next_b := p_head h b in
  let '(p, h) := pair_from_pool h in
  let h := set_thread h p true (Thread None next_a (Some a)) in
  let h := set_thread h p false (Thread None next_b (Some b)) in
  let h := set_phead h a (Some p) in
  let h := set_phead h b (Some p) in
  let h := match next_a with Some q => put_prev h q (Some a) (Some p) | None => h end in
  match next_b with Some q => put_prev h q (Some b) (Some p) | None => h end.
(* bb_tree.go:317-329 *)
Fixpoint clear_loop (fuel : nat) (leaf : nat) (p : option nat) (h : pheap) : option pheap :=
  match p, fuel with
  | None, _ => Some h
  | _, O => None
  | Some p, S fuel =>
      let s := side h p (Some leaf) in
      let next := t_next (pth h p s) in
      let* h := unlink (pth h p (negb s)) h in
      clear_loop fuel leaf next (recycle_pair h p)
  end.
(* bb_tree.go:313-330 PairsClear *)
Definition ptr_pairs_clear (fuel : nat) (leaf : nat) (h : pheap) : option pheap := clear_loop fuel leaf (p_head h leaf) (set_phead h leaf None).
Definition pheap0 : pheap := PHeap (fun _ _ => no_thread) 0 None (fun _ => None).
End Pairs.

Section Nodes.
Context {N : Num}.
Variable buf : nat.
(* bb_tree.go:417-424 Node *)
Record node := MkNode { n_obj : option nat; n_bb : bb; n_parent : option nat; n_a : option nat; n_b : option nat }.
(* the nodes, and BBTree.root and pooledNodes (69-71) of both trees *)
Record nheap := NHeap { nodes : nat -> node; n_new : nat; n_pool : bool -> option nat; n_root : bool -> option nat }.
Definition set_node (h : nheap) (x : nat) (v : node) : nheap := NHeap (put (nodes h) x v) (n_new h) (n_pool h) (n_root h).
Definition set_npool (h : nheap) (d : bool) (v : option nat) : nheap := NHeap (nodes h) (n_new h) (putb (n_pool h) d v) (n_root h).
Definition set_nroot (h : nheap) (d : bool) (v : option nat) : nheap := NHeap (nodes h) (n_new h) (n_pool h) (putb (n_root h) d v).
Definition set_parent (h : nheap) (x : nat) (v : option nat) : nheap := let n := nodes h x in set_node h x (MkNode (n_obj n) (n_bb n) v (n_a n) (n_b n)).
Definition set_bb (h : nheap) (x : nat) (v : bb) : nheap := let n := nodes h x in set_node h x (MkNode (n_obj n) v (n_parent n) (n_a n) (n_b n)).
(* bb_tree.go:426-434 NodeSetA, NodeSetB *)
Definition set_a (h : nheap) (x v : nat) : nheap := let n := nodes h x in set_parent (set_node h x (MkNode (n_obj n) (n_bb n) (n_parent n) (Some v) (n_b n))) v (Some x).
Definition set_b (h : nheap) (x v : nat) : nheap := let n := nodes h x in set_parent (set_node h x (MkNode (n_obj n) (n_bb n) (n_parent n) (n_a n) (Some v))) v (Some x).
Definition zero_node : node := MkNode None (mkBB n0 n0 n0 n0) None None None.
(* bb_tree.go:404-407 RecycleNode *)
Definition recycle_node (d : bool) (h : nheap) (x : nat) : nheap := set_npool (set_parent h x (n_pool h d)) d (Some x).
(* &Node{} *)
Definition alloc_node (h : nheap) : nat * nheap := (n_new h, NHeap (put (nodes h) (n_new h) zero_node) (S (n_new h)) (n_pool h) (n_root h)).
(* bb_tree.go:395-397 *)
Fixpoint more_nodes (n : nat) (d : bool) (h : nheap) : nheap := match n with O => h | S n => let '(x, h) := alloc_node h in more_nodes n d (recycle_node d h x) end.
(* bb_tree.go:386-402 NodeFromPool *)
Definition node_from_pool (d : bool) (h : nheap) : nat * nheap :=
  match n_pool h d with
  | Some x => (x, set_npool h d (n_parent (nodes h x)))
  | None => let '(x, h) := alloc_node (more_nodes buf d h) in (x, set_parent h x (n_pool h d))
  end.
(* bb_tree.go:364-373 NewNode *)
Definition ptr_new_node (d : bool) (a b : nat) (h : nheap) : nat * nheap :=
  let '(x, h) := node_from_pool d h in
  let n := nodes h x in
  let h := set_node h x (MkNode None (bb_merge (n_bb (nodes h a)) (n_bb (nodes h b))) None (n_a n) (n_b n)) in
  (x, set_b (set_a h x a) x b).
(* bb_tree.go:375-384 NewLeaf, the part in [nodes] *)
Definition ptr_new_leaf (d : bool) (i : nat) (b : bb) (h : nheap) : nat * nheap :=
  let '(x, h) := node_from_pool d h in
  let n := nodes h x in
  (x, set_node h x (MkNode (Some i) b None (n_a n) (n_b n))).
(* bb_tree.go:489-491 IsLeaf *)
Definition ptr_is_leaf (h : nheap) (x : nat) : bool := match n_obj (nodes h x) with Some _ => true | None => false end.
(* bb_tree.go:482-487 Other *)
Definition other (h : nheap) (x child : nat) : option nat := if same (n_a (nodes h x)) (Some child) then n_b (nodes h x) else n_a (nodes h x).
(* bb_tree.go:198-206 *)
Definition to_b (ba bb lb : bb) : bool :=
  let costA := bb_area bb + bb_merged_area ba lb in
  let costB := bb_area ba + bb_merged_area bb lb in
  if costA =? costB then bb_proximity bb lb <? bb_proximity ba lb else costB <? costA.
(* bb_tree.go:191-215 SubtreeInsert *)
Fixpoint ptr_insert (fuel : nat) (d : bool) (sub : option nat) (leaf : nat) (h : nheap) : option (nat * nheap) :=
  match sub, fuel with
  | None, _ => Some (leaf, h)
  | _, O => None
  | Some x, S fuel =>
      if ptr_is_leaf h x then Some (ptr_new_node d leaf x h)
      else
        let* a := n_a (nodes h x) in
        let* b := n_b (nodes h x) in
        let* h :=
          if to_b (n_bb (nodes h a)) (n_bb (nodes h b)) (n_bb (nodes h leaf))
          then let* (r, h) := ptr_insert fuel d (Some b) leaf h in Some (set_b h x r)
          else let* (r, h) := ptr_insert fuel d (Some a) leaf h in Some (set_a h x r) in
        Some (x, set_bb h x (bb_merge (n_bb (nodes h x)) (n_bb (nodes h leaf))))
  end.
(* bb_tree.go:243-245 *)
Fixpoint refit (fuel : nat) (cur : option nat) (h : nheap) : option nheap :=
  match cur, fuel with
  | None, _ => Some h
  | _, O => None
  | Some x, S fuel =>
      let* a := n_a (nodes h x) in
      let* b := n_b (nodes h x) in
      refit fuel (n_parent (nodes h x)) (set_bb h x (bb_merge (n_bb (nodes h a)) (n_bb (nodes h b))))
  end.
(* bb_tree.go:234-246 ReplaceChild *)
Definition replace_child (fuel : nat) (d : bool) (parent : option nat) (child value : nat) (h : nheap) : option nheap :=
  let* p := parent in
  let* h :=
    if same (n_a (nodes h p)) (Some child) then let* c := n_a (nodes h p) in Some (set_a (recycle_node d h c) p value)
    else let* c := n_b (nodes h p) in Some (set_b (recycle_node d h c) p value) in
  refit fuel parent h.
(* bb_tree.go:217-232 SubtreeRemove *)
Definition ptr_remove (fuel : nat) (d : bool) (sub : option nat) (leaf : nat) (h : nheap) : option (option nat * nheap) :=
  if same (Some leaf) sub then Some (None, h)
  else
    let parent := n_parent (nodes h leaf) in
    if same parent sub then
      let* s := sub in
      let* o := other h s leaf in
      Some (Some o, recycle_node d (set_parent h o (n_parent (nodes h s))) s)
    else
      let* p := parent in
      let* o := other h p leaf in
      let* h := replace_child fuel d (n_parent (nodes h p)) p o h in
      Some (sub, h).
End Nodes.
Arguments node {N}.
Arguments nheap {N}.

Section Index.
Context {N : Num}.
Variable buf : nat.
(* BBTree (62-77) of both trees *)
Record pindex := PIndex { ix_n : nheap; ix_p : pheap; ix_leaves : bool -> list (nat * nat); ix_stamp : nat; ix_lstamp : nat -> nat; ix_box : nat -> bb; ix_vel : nat -> vec }.
Definition set_n (x : pindex) (h : nheap) : pindex := PIndex h (ix_p x) (ix_leaves x) (ix_stamp x) (ix_lstamp x) (ix_box x) (ix_vel x).
Definition set_p (x : pindex) (h : pheap) : pindex := PIndex (ix_n x) h (ix_leaves x) (ix_stamp x) (ix_lstamp x) (ix_box x) (ix_vel x).
Definition set_ls (x : pindex) (d : bool) (l : list (nat * nat)) : pindex := PIndex (ix_n x) (ix_p x) (putb (ix_leaves x) d l) (ix_stamp x) (ix_lstamp x) (ix_box x) (ix_vel x).
Definition set_st (x : pindex) (a n : nat) : pindex := PIndex (ix_n x) (ix_p x) (ix_leaves x) (ix_stamp x) (put (ix_lstamp x) a n) (ix_box x) (ix_vel x).
(* bb_tree.go:114-121 IncrementStamp *)
Definition next_stamp (x : pindex) : pindex := PIndex (ix_n x) (ix_p x) (ix_leaves x) (S (ix_stamp x)) (ix_lstamp x) (ix_box x) (ix_vel x).
(* the shapes move *)
Definition set_sh (x : pindex) (box : nat -> bb) (vel : nat -> vec) : pindex := PIndex (ix_n x) (ix_p x) (ix_leaves x) (ix_stamp x) (ix_lstamp x) box vel.
(* bb_tree.go:345-362 GetBB *)
Definition ptr_get_bb (x : pindex) (d : bool) (i : nat) : bb := if d then fat_bb (ix_box x i) (ix_vel x i) else ix_box x i.
(* leaves.Find *)
Definition find_leaf (x : pindex) (d : bool) (i : nat) : option nat := option_map snd (find (fun p => Nat.eqb i (fst p)) (ix_leaves x d)).

(* the pair lists so far and the calls of context.f with the objects, newest first *)
Definition pacc := (pheap * list (option nat * option nat))%type.
(* bb_tree.go:464-480 MarkLeafQuery *)
Fixpoint ptr_mark_query (fuel : nat) (x : pindex) (sub leaf : nat) (left : bool) (m : pacc) : option pacc :=
  match fuel with
  | O => None
  | S fuel =>
      let h := nodes (ix_n x) in
      if bb_intersects (n_bb (h leaf)) (n_bb (h sub)) then
        if ptr_is_leaf (ix_n x) sub then
          if left then Some (ptr_pair_insert buf leaf sub (fst m), snd m)
          else Some (if Nat.ltb (ix_lstamp x sub) (ix_lstamp x leaf) then ptr_pair_insert buf sub leaf (fst m) else fst m, (n_obj (h leaf), n_obj (h sub)) :: snd m)
        else
          let* a := n_a (h sub) in
          let* b := n_b (h sub) in
          let* m := ptr_mark_query fuel x a leaf left m in
          ptr_mark_query fuel x b leaf left m
      else Some m
  end.
(* bb_tree.go:444-450 *)
Fixpoint ptr_mark_up (fuel : nat) (x : pindex) (node leaf : nat) (m : pacc) : option pacc :=
  match n_parent (nodes (ix_n x) node), fuel with
  | None, _ => Some m
  | _, O => None
  | Some p, S fuel =>
      let* m :=
        if same (Some node) (n_a (nodes (ix_n x) p)) then let* b := n_b (nodes (ix_n x) p) in ptr_mark_query fuel x b leaf true m
        else let* a := n_a (nodes (ix_n x) p) in ptr_mark_query fuel x a leaf false m in
      ptr_mark_up fuel x p leaf m
  end.
(* bb_tree.go:452-460 *)
Fixpoint ptr_pairs_walk (fuel : nat) (x : pindex) (leaf : nat) (p : option nat) (m : pacc) : option pacc :=
  match p, fuel with
  | None, _ => Some m
  | _, O => None
  | Some p, S fuel =>
      let h := fst m in
      if same (Some leaf) (t_leaf (pth h p false)) then
        let* l := t_leaf (pth h p true) in
        ptr_pairs_walk fuel x leaf (t_next (pth h p false)) (h, (n_obj (nodes (ix_n x) l), n_obj (nodes (ix_n x) leaf)) :: snd m)
      else ptr_pairs_walk fuel x leaf (t_next (pth h p true)) m
  end.
(* bb_tree.go:436-462 MarkLeaf *)
Definition ptr_mark_leaf (fuel : nat) (x : pindex) (leaf : nat) (m : pacc) : option pacc :=
  if Nat.eqb (ix_lstamp x leaf) (ix_stamp x) then
    let* m := match n_root (ix_n x) false with Some r => ptr_mark_query fuel x r leaf false m | None => Some m end in
    ptr_mark_up fuel x leaf leaf m
  else ptr_pairs_walk fuel x leaf (p_head (fst m) leaf) m.
(* bb_tree.go:503-510 MarkSubtree *)
Fixpoint ptr_mark_subtree (fuel : nat) (n : nat) (x : pindex) (sub : nat) (m : pacc) : option pacc :=
  match n with
  | O => None
  | S n =>
      if ptr_is_leaf (ix_n x) sub then ptr_mark_leaf fuel x sub m
      else
        let* a := n_a (nodes (ix_n x) sub) in
        let* b := n_b (nodes (ix_n x) sub) in
        let* m := ptr_mark_subtree fuel n x a m in
        ptr_mark_subtree fuel n x b m
  end.
(* bb_tree.go:123-137 LeafAddPairs *)
Definition ptr_add_pairs (fuel : nat) (x : pindex) (d : bool) (leaf : nat) : option pindex :=
  if d then let* m := ptr_mark_leaf fuel x leaf (ix_p x, []) in Some (set_p x (fst m))
  else match n_root (ix_n x) true with
       | Some r => let* m := ptr_mark_query fuel x r leaf true (ix_p x, []) in Some (set_p x (fst m))
       | None => Some x
       end.
(* bb_tree.go:101-112 Insert; 102-104 makes a leaf if the shape has none (375-384 with stamp and pairs) *)
Definition ptr_do_insert (fuel : nat) (x : pindex) (d : bool) (i : nat) : option pindex :=
  let '(leaf, x) :=
    match find_leaf x d i with
    | Some l => (l, x)
    | None => let '(l, h) := ptr_new_leaf buf d i (ptr_get_bb x d i) (ix_n x) in
              (l, set_ls (set_p (set_st (set_n x h) l 0) (set_phead (ix_p x) l None)) d ((i, l) :: ix_leaves x d))
    end in
  let* (r, h) := ptr_insert buf fuel d (n_root (ix_n x) d) leaf (ix_n x) in
  let x := set_n x (set_nroot h d (Some r)) in
  let* x := ptr_add_pairs fuel (set_st x leaf (ix_stamp x)) d leaf in
  Some (next_stamp x).
(* bb_tree.go:248-254 Remove; of an absent shape: leaf is nil *)
Definition ptr_do_remove (fuel : nat) (x : pindex) (d : bool) (i : nat) : option pindex :=
  let* leaf := find_leaf x d i in
  let x := set_ls x d (filter (fun p => negb (Nat.eqb i (fst p))) (ix_leaves x d)) in
  let* (r, h) := ptr_remove fuel d (n_root (ix_n x) d) leaf (ix_n x) in
  let* p := ptr_pairs_clear fuel leaf (ix_p x) in
  Some (set_p (set_n x (recycle_node d (set_nroot h d r) leaf)) p).
(* bb_tree.go:296-312 LeafUpdate *)
Definition ptr_leaf_update (fuel : nat) (x : pindex) (d : bool) (leaf : nat) : option (pindex * bool) :=
  let* i := n_obj (nodes (ix_n x) leaf) in
  if bb_contains (n_bb (nodes (ix_n x) leaf)) (ix_box x i) then Some (x, false)
  else
    let* (r, h) := ptr_remove fuel d (n_root (ix_n x) d) leaf (set_bb (ix_n x) leaf (ptr_get_bb x d i)) in
    let* (r, h) := ptr_insert buf fuel d r leaf h in
    let* p := ptr_pairs_clear fuel leaf (ix_p x) in
    Some (set_st (set_p (set_n x (set_nroot h d (Some r))) p) leaf (ix_stamp x), true).
(* bb_tree.go:260-268 ReindexObject *)
Definition ptr_do_reindex (fuel : nat) (x : pindex) (d : bool) (i : nat) : option pindex :=
  match find_leaf x d i with
  | None => Some x
  | Some leaf =>
      let* (x, moved) := ptr_leaf_update fuel x d leaf in
      let* x := if moved then ptr_add_pairs fuel x d leaf else Some x in
      Some (next_stamp x)
  end.
(* bb_tree.go:276-278 *)
Fixpoint ptr_update_all (fuel : nat) (x : pindex) (order : list nat) : option pindex :=
  match order with
  | [] => Some x
  | i :: order => let* leaf := find_leaf x true i in let* (x, _) := ptr_leaf_update fuel x true leaf in ptr_update_all fuel x order
  end.
(* bb_tree.go:270-294 ReindexQuery of the dynamic tree: the new state and the calls of f, oldest first *)
Definition ptr_do_query (fuel : nat) (x : pindex) (order : list nat) : option (pindex * list (option nat * option nat)) :=
  match n_root (ix_n x) true with
  | None => Some (x, [])
  | Some _ =>
      let* x := ptr_update_all fuel x order in
      let* r := n_root (ix_n x) true in
      let* m := ptr_mark_subtree fuel fuel x r (ix_p x, []) in
      Some (next_stamp (set_p x (fst m)), rev (snd m))
  end.
(* bb_tree.go:79-85 NewBBTree, twice *)
Definition pindex0 (box : nat -> bb) (vel : nat -> vec) : pindex :=
  PIndex (NHeap (fun _ => zero_node) 0 (fun _ => None) (fun _ => None)) pheap0 (fun _ => []) 0 (fun _ => 0%nat) box vel.
Definition ptr_step (fuel : nat) (x : pindex) (o : xop) : option (pindex * list (option nat * option nat)) :=
  let quiet (r : option pindex) := let* x := r in Some (x, []) in
  match o with
  | XShapes box vel => Some (set_sh x box vel, [])
  | XInsert d i => quiet (ptr_do_insert fuel x d i)
  | XRemove d i => quiet (ptr_do_remove fuel x d i)
  | XReindex d i => quiet (ptr_do_reindex fuel x d i)
  | XQuery order => ptr_do_query fuel x order
  end.
(* a history: the last state and the calls of f made by each operation *)
Fixpoint ptr_run (fuel : nat) (x : pindex) (h : list xop) : option (pindex * list (list (option nat * option nat))) :=
  match h with
  | [] => Some (x, [])
  | o :: h => let* (x, c) := ptr_step fuel x o in let* (x, cs) := ptr_run fuel x h in Some (x, c :: cs)
  end.
(* bb_tree.go:493-502 SubtreeQuery: the objects the callback is called with *)
Fixpoint ptr_subtree_query (fuel : nat) (h : nheap) (sub : nat) (q : bb) : option (list (option nat)) :=
  match fuel with
  | O => None
  | S fuel =>
      if bb_intersects (n_bb (nodes h sub)) q then
        if ptr_is_leaf h sub then Some [n_obj (nodes h sub)]
        else
          let* a := n_a (nodes h sub) in
          let* b := n_b (nodes h sub) in
          let* l := ptr_subtree_query fuel h a q in
          let* r := ptr_subtree_query fuel h b q in
          Some (l ++ r)
      else Some []
  end.
(* bb_tree.go:332-336 Query *)
Definition ptr_query (fuel : nat) (x : pindex) (d : bool) (q : bb) : option (list (option nat)) :=
  match n_root (ix_n x) d with Some r => ptr_subtree_query fuel (ix_n x) r q | None => Some [] end.
(* bb_tree.go:512-537 SubtreeSegmentQuery; f is the callback with the state it keeps *)
Fixpoint ptr_subtree_segment {St : Type} (fuel : nat) (f : nat -> St -> num * St) (a b : vec) (h : nheap) (sub : nat) (tExit : num) (s : St) : option (num * St) :=
  match fuel with
  | O => None
  | S fuel =>
      match n_obj (nodes h sub) with
      | Some i => Some (f i s)
      | None =>
          let* l := n_a (nodes h sub) in
          let* r := n_b (nodes h sub) in
          let tA := bb_segment_query (n_bb (nodes h l)) a b in
          let tB := bb_segment_query (n_bb (nodes h r)) a b in
          let go (t : num) (c : nat) (p : num * St) :=
            if t <? fst p then let* (u, s) := ptr_subtree_segment fuel f a b h c (fst p) (snd p) in Some (nmin (fst p) u, s) else Some p in
          if tA <? tB then let* p := go tA l (tExit, s) in go tB r p
          else let* p := go tB r (tExit, s) in go tA l p
      end
  end.
(* bb_tree.go:338-343 SegmentQuery *)
Definition ptr_segment {St : Type} (fuel : nat) (f : nat -> St -> num * St) (x : pindex) (d : bool) (a b : vec) (tExit : num) (s : St) : option St :=
  match n_root (ix_n x) d with Some r => let* p := ptr_subtree_segment fuel f a b (ix_n x) r tExit s in Some (snd p) | None => Some s end.
End Index.
Arguments pindex {N}.
