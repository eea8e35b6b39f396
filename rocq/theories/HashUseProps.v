(** C64: a space that uses the spatial hash. *)
From Coq Require Import ZArith List Bool Arith Permutation Floats Reals.
From Flocq Require Import Core.
From Verif Require Import Num NumReal NumFloat Vec BB BBTree BBTreeSpec Filter SpaceHash SpaceHashSpec SpaceHashGrid SpaceHashWalk SpaceQuery SpaceQuerySpec SpaceQueryEx HashUse HashUseSpec HashUseProofs HashUseEx.
From Verif Require Space SpaceSpec.
Import ListNotations.

(** UseSpatialHash does not panic and leaves every shape in the index it was in, hashed with its box.
    [sta] and [dyn] are the shapes of the lists of the space in any order, [pick] what sync.Pool gives. *)
Theorem C64_switch : forall (N : Num) (toint : num -> Z) (ffloor : num -> num) (dim : num) (cells : nat), (0 < cells)%nat ->
  forall (s : Space.space) k pick box sta dyn, Permutation sta (map snd (Space.s_six s)) -> Permutation dyn (map snd (Space.s_dix s)) ->
  exists st dy, use_spatial_hash toint dim cells k pick box sta dyn = Some (st, dy) /\
    hashed toint ffloor dim cells (Space.s_six s) (fun i b => b = box i) st /\ hashed toint ffloor dim cells (Space.s_dix s) (fun i b => b = box i) dy.
Proof. exact @switch_ok. Qed.
Print Assumptions C64_switch.
(** Whatever happened to the indexes since, as long as they hold the shapes of the lists of the space: Each enumerates exactly these, and the counts are right. *)
Theorem C64_each : forall (N : Num) (toint : num -> Z) (ffloor : num -> num) (dim : num) (cells : nat), (0 < cells)%nat ->
  forall l now order h, hashed toint ffloor dim cells l now h -> (forall l, Permutation l (order l)) ->
  NoDup (each_shape order h) /\ length (each_shape order h) = count h /\ forall o, In o (each_shape order h) <-> exists id, In (id, o) l.
Proof. exact @hashed_each. Qed.
Print Assumptions C64_each.
Theorem C64_counts : forall (N : Num) (toint : num -> Z) (ffloor : num -> num) (dim : num) (cells : nat), (0 < cells)%nat ->
  forall (s : Space.space) nowS nowD st dy, SpaceSpec.reachable s -> Space.s_lock s = 0%Z -> hashed toint ffloor dim cells (Space.s_six s) nowS st -> hashed toint ffloor dim cells (Space.s_dix s) nowD dy ->
  hash_counts st dy = (length (Space.s_dix s), length (Space.s_six s), (length (Space.s_six s) + length (Space.s_dix s))%nat).
Proof. exact @counts_ok. Qed.
Print Assumptions C64_counts.
(** A step hands a pair of shapes to the narrow phase exactly once if it is eligible (as in C58), else never, if resting shapes are hashed with their boxes.
    [ok] are the numbers on which the grid function is monotone: all reals, floats within 2^62 cells of the origin (C16_float_grid). *)
Theorem C64_pairs_examined : forall (N : Num) (toint : num -> Z) (ffloor : num -> num) (dim : num) (cells : nat), (0 < cells)%nat -> forall ok : num -> Prop, monotone toint dim ok ->
  forall (s : Space.space) flt box order nowD st dy, SpaceSpec.reachable s -> Space.s_lock s = 0%Z -> (forall l, Permutation l (order l)) ->
  hashed toint ffloor dim cells (Space.s_six s) (fun i b => b = box i) st -> hashed toint ffloor dim cells (Space.s_dix s) nowD dy -> (forall i, contained s i -> box_in ok (box i) /\ valid_box (box i)) ->
  exists ps, hash_pairs toint dim cells s flt box order st dy = Some ps /\ forall i j,
    (eligible s flt box i j -> mentions i j ps = 1%nat) /\ (~ eligible s flt box i j -> mentions i j ps = 0%nat).
Proof. exact @pairs_exact. Qed.
Print Assumptions C64_pairs_examined.
(** BBQuery calls back once for every shape of the space that passes the filter and whose box meets the query. *)
Theorem C64_bb_query : forall (N : Num) (toint : num -> Z) (ffloor : num -> num) (dim : num) (cells : nat), (0 < cells)%nat -> forall ok : num -> Prop, monotone toint dim ok ->
  forall (s : Space.space) flt box f q st dy, SpaceSpec.reachable s -> Space.s_lock s = 0%Z ->
  hashed toint ffloor dim cells (Space.s_six s) (fun i b => b = box i) st -> hashed toint ffloor dim cells (Space.s_dix s) (fun i b => b = box i) dy ->
  (forall i, contained s i -> box_in ok (box i) /\ valid_box (box i)) -> box_in ok q /\ valid_box q ->
  exists l, hash_bb_query toint dim cells flt box f q st dy = Some l /\ NoDup l /\ forall i, In i l <-> contained s i /\ reject (flt i) f = false /\ bb_intersects (box i) q = true.
Proof. exact @bb_exact. Qed.
Print Assumptions C64_bb_query.
(** The tree and the hash hand the same pairs to the narrow phase, equally often. *)
Theorem C64_same_as_tree : forall dim cells, (0 < dim)%R -> (0 < cells)%nat -> forall (s : @Space.space RNum) flt x order tree_order nowD st dy,
  SpaceSpec.reachable (N := RNum) s -> Space.s_lock s = 0%Z -> (forall l, Permutation l (order l)) ->
  reached (N := RNum) x -> indexes_space s x -> fresh x false -> Permutation tree_order (x_leaves x true) ->
  hashed (N := RNum) Ztrunc rfloor dim cells (Space.s_six s) (fun i b => b = x_box x i) st -> hashed (N := RNum) Ztrunc rfloor dim cells (Space.s_dix s) nowD dy -> (forall i, contained s i -> valid_box (x_box x i)) ->
  exists ps, hash_pairs (N := RNum) Ztrunc dim cells s flt (x_box x) order st dy = Some ps /\ forall i j, mentions i j ps = mentions i j (narrow_pairs s flt x tree_order).
Proof. exact real_same. Qed.
Print Assumptions C64_same_as_tree.
(** The pile of C58_C59_witness, hashed: the same five pairs, the same three shapes in the box. *)
Example C64_witness : exists (s : @Space.space FNum) st dy, SpaceSpec.reachable (N := FNum) s /\ Space.s_lock s = 0%Z /\
  Permutation [0]%nat (map snd (Space.s_six s)) /\ Permutation [1; 2; 3]%nat (map snd (Space.s_dix s)) /\ monotone (Nm := FNum) Fint 2%float (gridded 2%float) /\
  (forall i, box_in (Nm := FNum) (gridded 2%float) (pile_box i) /\ valid_box (Nm := FNum) (pile_box i)) /\
  use_spatial_hash (N := FNum) Fint 2%float 50 8 coins pile_box [0]%nat [1; 2; 3]%nat = Some (st, dy) /\
  hash_pairs (N := FNum) Fint 2%float 50 s (fun _ => filter_all) pile_box (@rev nat) st dy = Some [(3, 2); (3, 1); (1, 0); (2, 0); (3, 0)]%nat /\
  hash_bb_query (N := FNum) Fint 2%float 50 (fun _ => filter_all) pile_box filter_all (fbb 2.25 1 5 5)%float st dy = Some [0; 3; 2]%nat /\ hash_counts st dy = (3, 1, 4)%nat.
Proof. exact hash_example. Qed.
