(** The spatial hash: C16, C17, C18 (space_hash.go).

    A history is any list of calls on a new index (SpaceHashSpec.v); [pick] and [order] stand for the choices of sync.Pool and of the handle set, [toint] for Go's int(). *)
From Coq Require Import ZArith Reals List Bool PeanoNat Floats Permutation.
From Flocq Require Import Core.
From Verif Require Import Num NumReal NumFloat Vec BB SpaceHash SpaceHashSpec SpaceHashMain SpaceHashGrid SpaceHashWalk SpaceHashCases.
Import ListNotations.

(** No history without ray casts panics or fails to end, in any arithmetic. *)
Theorem C16_total : forall (Nm : Num) (toint : num -> Z) (ffloor : num -> num) (dim : num) (cells : nat), (0 < cells)%nat ->
  forall k cs, Forall fair cs -> (forall c, In c cs -> forall fuel f a b t, c <> Ray fuel f a b t) -> exists s, run toint ffloor dim cells cs (new_hash cells k) = Some s.
Proof. exact @run_total. Qed.
Print Assumptions C16_total.
(** After any history without Reindex: Query gives every indexed shape other than the asking one whose last box meets the box asked for, each once, and no removed shape.
    [ok] are the numbers on which the grid function is monotone. *)
Theorem C16_query : forall (Nm : Num) (toint : num -> Z) (ffloor : num -> num) (dim : num) (cells : nat), (0 < cells)%nat -> forall ok : num -> Prop, monotone toint dim ok ->
  forall k cs (s : hash) self b, Forall fair cs -> ~ In Reindex cs -> run toint ffloor dim cells cs (new_hash cells k) = Some s ->
  exists s' out, query toint dim cells self b s = Some (s', out) /\ NoDup out /\ (forall o, In o out -> boxes_after cs o <> None /\ self <> Some o) /\
  (forall o bx, boxes_after cs o = Some bx -> self <> Some o -> box_in ok b -> box_in ok bx -> valid_box b -> valid_box bx -> bb_intersects bx b = true -> In o out).
Proof. exact @found. Qed.
Print Assumptions C16_query.
(** Monotone it is: everywhere over the reals, and in float64 for finite numbers less than 2^62 cells from the origin. *)
Theorem C16_query_real : forall dim cells, (0 < dim)%R -> (0 < cells)%nat -> forall k cs (s : hash) self b, Forall fair cs -> ~ In Reindex cs -> run (Nm := RNum) Ztrunc rfloor dim cells cs (new_hash cells k) = Some s ->
  exists s' out, query (Nm := RNum) Ztrunc dim cells self b s = Some (s', out) /\ NoDup out /\ (forall o, In o out -> boxes_after cs o <> None /\ self <> Some o) /\
  (forall o bx, boxes_after cs o = Some bx -> self <> Some o -> valid_box b -> valid_box bx -> bb_intersects bx b = true -> In o out).
Proof. exact real_found. Qed.
Print Assumptions C16_query_real.
Theorem C16_float_grid : forall dim : float, Ffin dim -> PrimFloat.ltb 0 dim = true -> monotone (Nm := FNum) Fint dim (gridded dim).
Proof. exact float_monotone. Qed.
Print Assumptions C16_float_grid.
(** ReindexQuery: every two indexed shapes whose new boxes meet are given as a pair, once and in one order only; the pairs are of different indexed shapes. *)
Theorem C16_pairs : forall (Nm : Num) (toint : num -> Z) (ffloor : num -> num) (dim : num) (cells : nat), (0 < cells)%nat -> forall ok : num -> Prop, monotone toint dim ok ->
  forall k cs (s : hash) order boxes, Forall fair cs -> ~ In Reindex cs -> run toint ffloor dim cells cs (new_hash cells k) = Some s -> (forall l, Permutation l (order l)) ->
  exists s' out, reindex_query toint dim cells order boxes s = Some (s', out) /\ NoDup out /\
  (forall a b, In (a, b) out -> a <> b /\ boxes_after cs a <> None /\ boxes_after cs b <> None /\ ~ In (b, a) out) /\
  (forall a b, a <> b -> boxes_after cs a <> None -> boxes_after cs b <> None -> box_in ok (boxes a) -> box_in ok (boxes b) -> valid_box (boxes a) -> valid_box (boxes b) -> bb_intersects (boxes a) (boxes b) = true -> In (a, b) out \/ In (b, a) out).
Proof. exact @pairs_found. Qed.
Print Assumptions C16_pairs.
Theorem C16_pairs_real : forall dim cells, (0 < dim)%R -> (0 < cells)%nat -> forall k cs (s : hash) order boxes, Forall fair cs -> ~ In Reindex cs -> run (Nm := RNum) Ztrunc rfloor dim cells cs (new_hash cells k) = Some s -> (forall l, Permutation l (order l)) ->
  exists s' out, reindex_query (Nm := RNum) Ztrunc dim cells order boxes s = Some (s', out) /\ NoDup out /\
  (forall a b, In (a, b) out -> a <> b /\ boxes_after cs a <> None /\ boxes_after cs b <> None /\ ~ In (b, a) out) /\
  (forall a b, a <> b -> boxes_after cs a <> None -> boxes_after cs b <> None -> valid_box (boxes a) -> valid_box (boxes b) -> bb_intersects (boxes a) (boxes b) = true -> In (a, b) out \/ In (b, a) out).
Proof. exact real_pairs. Qed.
Print Assumptions C16_pairs_real.
(** Against the static index: every shape of the dynamic index is given with every static shape whose last box meets its box, once. *)
Theorem C16_static : forall (Nm : Num) (toint : num -> Z) (ffloor : num -> num) (dim : num) (cells : nat), (0 < cells)%nat -> forall ok : num -> Prop, monotone toint dim ok ->
  forall k cs (s : hash) objs boxes out, Forall fair cs -> ~ In Reindex cs -> run toint ffloor dim cells cs (new_hash cells k) = Some s -> NoDup objs ->
  exists s' new, collide_static toint dim cells objs boxes s out = Some (s', new ++ out) /\ NoDup new /\
  (forall a b, In (a, b) new -> In a objs /\ a <> b /\ boxes_after cs b <> None) /\
  (forall a b bx, In a objs -> a <> b -> boxes_after cs b = Some bx -> box_in ok (boxes a) -> box_in ok bx -> valid_box (boxes a) -> valid_box bx -> bb_intersects bx (boxes a) = true -> In (a, b) new).
Proof. exact @static_pairs. Qed.
Print Assumptions C16_static.
(** Not so after Reindex: the table is emptied and nothing is put back, so Query finds nothing. *)
Theorem C16_reindex_refuted : exists cs, Forall fair cs /\ ~ In Reindex cs /\ asked cs 1000 (fbox 20 20 30 30) = Some [6; 8]%nat /\ asked (cs ++ [Reindex]) 1000 (fbox 20 20 30 30) = Some [].
Proof. exact (ex_intro _ history (conj (proj1 fair_history) (conj (proj2 fair_history) (conj ran_many ran_reindex)))). Qed.
Print Assumptions C16_reindex_refuted.
(** With a single chain (all cells collide) shape 7 is reported too, though far away: hits are candidates. *)
Example C16_one_chain : asked history 1 (fbox 20 20 30 30) = Some [6; 7; 8]%nat.
Proof. exact ran_one. Qed.
Example C16_three_pairs : told_pairs history 1000 (fun o => match o with 6 => fbox 20 20 21 21 | 7 => fbox 21 (-1) 30 30 | _ => fbox 20.5 (-1) 22 20.5 end)%nat = Some [(8, 6); (8, 7); (7, 6)]%nat.
Proof. exact ran_pairs. Qed.

(** After any history, Reindex and ray casts included: the references to a handle are counted exactly, and the pool holds exactly the handles nothing refers to, each once. *)
Theorem C17_counts : forall (Nm : Num) (toint : num -> Z) (ffloor : num -> num) (dim : num) (cells : nat), (0 < cells)%nat ->
  forall k cs (s : hash), Forall fair cs -> run toint ffloor dim cells cs (new_hash cells k) = Some s ->
  (forall h, In h (concat (table s)) \/ In h (hset s) -> (h < length (heap s))%nat) /\
  (forall h, (h < length (heap s))%nat -> retains (at_handle s h) = Z.of_nat (count_occ Nat.eq_dec (concat (table s)) h + if in_dec Nat.eq_dec h (hset s) then 1 else 0)) /\
  NoDup (pool s) /\ (forall h, In h (pool s) <-> (h < length (heap s))%nat /\ ~ In h (concat (table s)) /\ ~ In h (hset s)) /\ NoDup (hset s).
Proof. exact @counts. Qed.
Print Assumptions C17_counts.
(** Removed shapes leave handles 0 and 1 referred to by the table only; the next ReindexQuery returns them to the pool. *)
Example C17_history : counted history = Some ([4; 2; 3]%nat, [], [4; 5; 5; 2; 25]%Z) /\ counted (history ++ [recount]) = Some ([4; 2; 3]%nat, [0; 1]%nat, [0; 0; 100; 2; 25]%Z).
Proof. exact (conj ran_counts ran_recounts). Qed.

(** Over the reals, a ray cast ends, reports indexed shapes only and each once.  If per axis it goes up, or goes down from inside a cell, or stays (on an edge or at least 1/MaxFloat64 above it),
    then every shape whose last box contains a point the ray reaches before the hit is reported, unless it only touches at a corner of the grid passed up-left. *)
Theorem C18_ray_partial : forall dim cells, (0 < dim)%R -> (0 < cells)%nat -> forall k cs (s : hash) f (a b : @vec RNum) te, Forall fair cs -> ~ In Reindex cs -> run (Nm := RNum) Ztrunc rfloor dim cells cs (new_hash cells k) = Some s -> (te <= 1)%R ->
  exists fuel s' out te' vs, segment_query (Nm := RNum) Ztrunc dim cells rfloor fuel f a b te s = Some (s', out, te', vs) /\ NoDup out /\ (forall o, In o out -> boxes_after cs o <> None) /\
  (good_start (vx a / dim) (vx b / dim) -> good_start (vy a / dim) (vy b / dim) ->
   forall o bx t, boxes_after cs o = Some bx -> (0 <= t < te')%R -> ~ corner dim a b t -> (let p := point_at a b t in bL bx <= vx p <= bR bx /\ bB bx <= vy p <= bT bx)%R -> In o out).
Proof. exact real_ray. Qed.
Print Assumptions C18_ray_partial.
(** The same for the cells alone. *)
Theorem C18_cells_partial : forall dim cells, (0 < dim)%R -> forall fuel f (a b : @vec RNum) te (s s' : hash) out te' cs, segment_query (Nm := RNum) Ztrunc dim cells rfloor fuel f a b te s = Some (s', out, te', cs) -> (te <= 1)%R ->
  good_start (vx a / dim) (vx b / dim) -> good_start (vy a / dim) (vy b / dim) -> forall t, (0 <= t < te')%R -> ~ corner dim a b t -> In (cell_of dim (point_at a b t)) cs.
Proof. exact ray_cells. Qed.
Print Assumptions C18_cells_partial.
Example C18_five_cells : cast three 0.5 0.5 3.75 1.25 = Some ([2; 1]%nat, 1%float, [(0, 0); (1, 0); (2, 0); (2, 1); (3, 1)]%Z).
Proof. exact cast_well. Qed.
(** Going left from exactly an edge of the grid, the first crossing is taken a whole cell too late: shape 1, between 0.25 and 0.75, is missed by the ray from (1, 0.5) to (0.25, 0.5). *)
Theorem C18_edge_refuted : exists cs o, boxes_after cs o = Some (fbox 0.25 0.25 0.75 0.75) /\ cast cs 1 0.5 0.25 0.5 = Some ([], 1%float, [(1, 0)]%Z).
Proof. exact edge_missed. Qed.
Print Assumptions C18_edge_refuted.
(** Going up-left through a corner: shape 3, whose corner (1, 1) is on the ray, is missed. *)
Theorem C18_corner_refuted : exists cs o, boxes_after cs o = Some (fbox 1 1 1.375 1.375) /\ cast cs 1.5 0.5 0.5 1.5 = Some ([1]%nat, 1%float, [(1, 0); (0, 0); (0, 1)]%Z) /\ o <> 1%nat.
Proof. exact corner_missed. Qed.
Print Assumptions C18_corner_refuted.
