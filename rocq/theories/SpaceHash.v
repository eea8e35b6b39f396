(** Spatial hash: model of space_hash.go, the index behind Space.UseSpatialHash.

    Handles are pointers into a heap (a list).  A chain of SpaceHashBin pointers is the list of its handles: the bin pool (space_hash.go:363-366, 388-401)
    only recycles memory and is left out.  The handle set (hashset.go, C06 and C07) is the list of its elements; the order Each visits them in is an argument.
    sync.Pool.Get may give any pooled handle or a new one: which one is the argument [pick].  stamp (uint) is unbounded; callbacks do not change the index.
    None is a run-time panic. *)
From Coq Require Import ZArith List Bool PeanoNat.
From Verif Require Import Num Vec BB.
Import ListNotations.

Section SpaceHash.
Context {Nm : Num}.
(* Go's conversion int(f) of a float64 *)
Variable toint : num -> Z.
(* SpaceHash.celldim and numCells, space_hash.go:13-14 *)
Variable dim : num.
Variable cells : nat.

(* space_hash.go:340-344; shapes are numbers, None is nil *)
Record handle := Handle { obj : option nat; retains : Z; seen : nat }.
(* space_hash.go:10-23 *)
Record hash := Hash { table : list (list nat); hset : list nat; pool : list nat; heap : list handle; stamp : nat }.

Definition with_table t (s : hash) := Hash t (hset s) (pool s) (heap s) (stamp s).
Definition with_set l (s : hash) := Hash (table s) l (pool s) (heap s) (stamp s).
Definition with_pool p (s : hash) := Hash (table s) (hset s) p (heap s) (stamp s).
Definition with_heap h (s : hash) := Hash (table s) (hset s) (pool s) h (stamp s).

(* assignment to the i-th element of a slice or to *p *)
Fixpoint upd {A} (l : list A) (i : nat) (x : A) : list A :=
  match l, i with [], _ => [] | _ :: l, O => x :: l | y :: l, S i => y :: upd l i x end.
(* read and change the handle pointed to *)
Definition at_handle (s : hash) (h : nat) : handle := nth h (heap s) (Handle None 0 0).
Definition change (h : nat) (f : handle -> handle) (s : hash) : hash := with_heap (upd (heap s) h (f (at_handle s h))) s.

(* space_hash.go:25-42; [k] is pooledBufferSize, the handles put into the pool *)
Definition new_hash (k : nat) : hash := Hash (repeat [] cells) [] (seq 0 k) (repeat (Handle None 0 0) k) 1.

(* space_hash.go:161-167 *)
Definition floor (f : num) : Z := let i := toint f in if (f <? n0)%num && negb (nofZ i =? f)%num then (i - 1)%Z else i.
(* space_hash.go:336-338; uintptr has 64 bits; n = 0 panics *)
Definition hash_func (x y : Z) : option nat :=
  if Nat.eqb cells 0 then None
  else Some (Z.to_nat (Z.lxor ((x * 1640531513) mod 2 ^ 64) ((y * 2654435789) mod 2 ^ 64) mod Z.of_nat cells)).
(* for i := l; i <= r; i++ *)
Definition zrange (l r : Z) : list Z := map (fun k => (l + Z.of_nat k)%Z) (seq 0 (Z.to_nat (r - l + 1))).
(* space_hash.go:48-54, 175-181, 209-217: the cells of a box, in the order visited *)
Definition box_cells (b : bb) : list (Z * Z) :=
  flat_map (fun i => map (fun j => (i, j)) (zrange (floor (bB b / dim)%num) (floor (bT b / dim)%num))) (zrange (floor (bL b / dim)%num) (floor (bR b / dim)%num)).
(* hash.table[hashFunc(i, j, n)] *)
Definition chain_at (s : hash) (c : Z * Z) : option (nat * list nat) :=
  match hash_func (fst c) (snd c) with
  | Some i => option_map (pair i) (nth_error (table s) i)
  | None => None
  end.

(* space_hash.go:352-354 *)
Definition retain (h : nat) : hash -> hash := change h (fun x => Handle (obj x) (retains x + 1) (seen x)).
(* space_hash.go:356-361 *)
Definition release (h : nat) (s : hash) : hash :=
  let s := change h (fun x => Handle (obj x) (retains x - 1) (seen x)) s in
  if Z.eqb (retains (at_handle s h)) 0 then with_pool (h :: pool s) s else s.
(* space_hash.go:326-334 *)
Definition contains_handle (c : list nat) (h : nat) : bool := existsb (Nat.eqb h) c.

(* run over a list, stopping at a panic *)
Fixpoint all_of {A S} (f : A -> S -> option S) (l : list A) (s : S) : option S :=
  match l with [] => Some s | x :: l => match f x s with Some s => all_of f l s | None => None end end.

(* space_hash.go:55-67, one cell *)
Definition hash_cell (h : nat) (c : Z * Z) (s : hash) : option hash :=
  match chain_at s c with
  | None => None
  | Some (i, ch) => if contains_handle ch h then Some s else Some (with_table (upd (table s) i (h :: ch)) (retain h s))
  end.
(* space_hash.go:44-70 *)
Definition hash_handle (h : nat) (b : bb) : hash -> option hash := all_of (hash_cell h) (box_cells b).

(* handleSet.Find with the equality of space_hash.go:30-32 *)
Definition find_handle (s : hash) (o : nat) : option nat :=
  find (fun h => match obj (at_handle s h) with Some o' => Nat.eqb o o' | None => false end) (hset s).
(* space_hash.go:82-84 *)
Definition contains (s : hash) (o : nat) : bool := match find_handle s o with Some _ => true | None => false end.
(* space_hash.go:72-74 *)
Definition count (s : hash) : nat := length (hset s).

(* sync.Pool.Get: the pooled handle number [pick], or a new one when there is none *)
Definition get_handle (pick : nat) (s : hash) : hash * nat :=
  match nth_error (pool s) pick with
  | Some h => (with_pool (firstn pick (pool s) ++ skipn (S pick) (pool s)) s, h)
  | None => (with_heap (heap s ++ [Handle None 0 0]) s, length (heap s))
  end.
(* space_hash.go:86-94 *)
Definition insert (pick o : nat) (b : bb) (s : hash) : option hash :=
  match find_handle s o with
  | Some h => hash_handle h b s
  | None =>
      let '(s, h) := get_handle pick s in
      let s := change h (fun _ => Handle (Some o) 0 0) s in
      let s := retain h s in
      hash_handle h b (with_set (h :: hset s) s)
  end.
(* handleSet.Remove, hand.obj = nil, release: space_hash.go:97-102 and 113-117 *)
Definition orphan (h : nat) (s : hash) : hash :=
  let s := with_set (filter (fun x => negb (Nat.eqb x h)) (hset s)) s in
  release h (change h (fun x => Handle None (retains x) (seen x)) s).
(* space_hash.go:96-103 *)
Definition remove (o : nat) (s : hash) : hash := match find_handle s o with Some h => orphan h s | None => s end.
(* space_hash.go:112-121 *)
Definition reindex_object (pick o : nat) (b : bb) (s : hash) : option hash :=
  match find_handle s o with Some h => insert pick o b (orphan h s) | None => Some s end.

(* space_hash.go:368-386 *)
Definition clear_table (s : hash) : hash :=
  with_table (repeat [] (length (table s))) (fold_left (fun s h => release h s) (concat (table s)) s).
(* space_hash.go:105-110; bbfunc has no effect on the index *)
Definition reindex (s : hash) : hash := clear_table s.

(* space_hash.go:123-141: the chain without orphans, which are released in order *)
Fixpoint remove_orphans (c : list nat) (s : hash) : list nat * hash :=
  match c with
  | [] => ([], s)
  | h :: c =>
      match obj (at_handle s h) with
      | None => remove_orphans c (release h s)
      | Some _ => let '(c, s) := remove_orphans c s in (h :: c, s)
      end
  end.
(* space_hash.go:145-152 and 229-239: one run over a chain, up to its end or the first orphan (true).  [self] is obj when it is a shape;
   [f] is the callback, applied to what it has told so far *)
Fixpoint run_chain {A} (f : nat -> A -> A) (self : option nat) (c : list nat) (s : hash) (out : A) : hash * A * bool :=
  match c with
  | [] => (s, out, false)
  | h :: c =>
      let x := at_handle s h in
      if Nat.eqb (seen x) (stamp s) || match self, obj x with Some a, Some b => Nat.eqb a b | _, _ => false end then run_chain f self c s out
      else match obj x with
           | Some o => run_chain f self c (change h (fun x => Handle (obj x) (retains x) (stamp s)) s) (f o out)
           | None => (s, out, true)
           end
  end.
(* space_hash.go:143-159 and 225-245 with the restart; gives the chain back for the caller to store *)
Fixpoint query_helper {A} (fuel : nat) (f : nat -> A -> A) (self : option nat) (c : list nat) (s : hash) (out : A) : option (list nat * hash * A) :=
  match fuel with
  | O => None
  | S fuel =>
      let '(s, out, again) := run_chain f self c s out in
      if again then let '(c, s) := remove_orphans c s in query_helper fuel f self c s out
      else Some (c, s, out)
  end.
Definition restarts (c : list nat) : nat := S (length c).

(* space_hash.go:219, one cell *)
Definition query_cell {A} (f : nat -> A -> A) (self : option nat) (c : Z * Z) (so : hash * A) : option (hash * A) :=
  match chain_at (fst so) c with
  | None => None
  | Some (i, ch) =>
      match query_helper (restarts ch) f self ch (fst so) (snd so) with
      | Some (ch, s, out) => Some (with_table (upd (table s) i ch) s, out)
      | None => None
      end
  end.
Definition next_stamp (s : hash) : hash := Hash (table s) (hset s) (pool s) (heap s) (S (stamp s)).
(* space_hash.go:207-223; the callback only notes the shapes, latest first *)
Definition query (self : option nat) (b : bb) (s : hash) : option (hash * list nat) :=
  match all_of (query_cell cons self) (box_cells b) (s, []) with
  | Some (s, out) => Some (next_stamp s, out)
  | None => None
  end.

(* space_hash.go:183-198, one cell of ReindexQuery; the callback gets the pair *)
Definition rehash_cell (h o : nat) (c : Z * Z) (so : hash * list (nat * nat)) : option (hash * list (nat * nat)) :=
  match chain_at (fst so) c with
  | None => None
  | Some (i, ch) =>
      if contains_handle ch h then Some so
      else match query_helper (restarts ch) (fun x out => (o, x) :: out) (Some o) ch (retain h (fst so)) (snd so) with
           | Some (ch, s, out) => Some (with_table (upd (table s) i (h :: ch)) s, out)
           | None => None
           end
  end.
(* space_hash.go:172-201; bbfunc(nil) panics *)
Definition rehash_handle (boxes : nat -> bb) (h : nat) (so : hash * list (nat * nat)) : option (hash * list (nat * nat)) :=
  match obj (at_handle (fst so) h) with
  | None => None
  | Some o => match all_of (rehash_cell h o) (box_cells (boxes o)) so with Some (s, out) => Some (next_stamp s, out) | None => None end
  end.
(* space_hash.go:169-202: ReindexQuery up to CollideStatic *)
Definition reindex_query (order : list nat -> list nat) (boxes : nat -> bb) (s : hash) : option (hash * list (nat * nat)) :=
  all_of (rehash_handle boxes) (order (hset s)) (clear_table s, []).
(* space_hash.go:204 with spatial_index.go:95-101: [objs] are the shapes of the dynamic index *)
Definition collide_static (objs : list nat) (boxes : nat -> bb) (st : hash) (out : list (nat * nat)) : option (hash * list (nat * nat)) :=
  if Nat.eqb (count st) 0 then Some (st, out)
  else all_of (fun o '(st, out) => match query (Some o) (boxes o) st with Some (st, l) => Some (st, map (pair o) l ++ out) | None => None end) objs (st, out).

(* the walk of SegmentQuery: cell, t, next crossings *)
Record walk := Walk { cell_x : Z; cell_y : Z; now : num; next_h : num; next_v : num }.
(* space_hash.go:255-304: first state, steps of the cell and of the crossings.  [ffloor] is math.Floor *)
Definition walk_start (ffloor : num -> num) (a b : vec) : walk * (Z * Z * num * num) :=
  let right := (vx a <? vx b)%num in
  let up := (vy a <? vy b)%num in
  let temp_h := if right then (ffloor (vx a + n1) - vx a)%num else (vx a - ffloor (vx a))%num in
  let temp_v := if up then (ffloor (vy a + n1) - vy a)%num else (vy a - ffloor (vy a))%num in
  let dx := nabs (vx b - vx a)%num in
  let dy := nabs (vy b - vy a)%num in
  let dtdx := if (dx =? n0)%num then ninf else (n1 / dx)%num in
  let dtdy := if (dy =? n0)%num then ninf else (n1 / dy)%num in
  (Walk (floor (vx a)) (floor (vy a)) n0
     (if (temp_h =? n0)%num then dtdx else (temp_h * dtdx)%num)
     (if (temp_v =? n0)%num then dtdy else (temp_v * dtdy)%num),
   (if right then 1%Z else (-1)%Z, if up then 1%Z else (-1)%Z, dtdx, dtdy)).
(* space_hash.go:310-318 *)
Definition walk_step (d : Z * Z * num * num) (w : walk) : walk :=
  let '(xi, yi, dtdx, dtdy) := d in
  if (next_v w <? next_h w)%num then Walk (cell_x w) (cell_y w + yi) (next_v w) (next_h w) (next_v w + dtdy)%num
  else Walk (cell_x w + xi) (cell_y w) (next_h w) (next_h w + dtdx)%num (next_v w).
(* space_hash.go:226, 236 and 308: what the callback of a ray cast tells: the shapes, latest first, and the running minimum *)
Definition ray_note (f : nat -> num) (o : nat) (out : list nat * num) : list nat * num := (o :: fst out, nmin (snd out) (f o)).
(* space_hash.go:306-319; fuel for the loop, None is a panic or no end within it *)
Fixpoint walk_loop (fuel : nat) (f : nat -> num) (d : Z * Z * num * num) (w : walk) (t_exit : num) (s : hash) (out : list nat) : option (hash * list nat * num * list (Z * Z)) :=
  if (now w <? t_exit)%num then
    match fuel with
    | O => None
    | S fuel =>
        match query_cell (ray_note f) None (cell_x w, cell_y w) (s, (out, n1)) with
        | None => None
        | Some (s, (out, t)) =>
            match walk_loop fuel f d (walk_step d w) (nmin t_exit t) s out with
            | Some (s, out, te, cs) => Some (s, out, te, (cell_x w, cell_y w) :: cs)
            | None => None
            end
        end
    end
  else Some (s, out, t_exit, []).
(* space_hash.go:248-320; also gives the last tExit and the cells visited *)
Definition segment_query (ffloor : num -> num) (fuel : nat) (f : nat -> num) (a b : vec) (t_exit : num) (s : hash) : option (hash * list nat * num * list (Z * Z)) :=
  let a := vscale a (n1 / dim)%num in
  let b := vscale b (n1 / dim)%num in
  let '(w, d) := walk_start ffloor a b in
  match walk_loop fuel f d w t_exit s [] with
  | Some (s, out, te, cs) => Some (next_stamp s, out, te, cs)
  | None => None
  end.
End SpaceHash.
