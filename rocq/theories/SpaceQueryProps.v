(** C58 and C59: the pairs examined by a step, and the space-wide box and shape queries. *)
From Coq Require Import ZArith NArith List Bool Arith Permutation Floats Reals.
From Verif Require Import Num NumReal NumFloat Vec BB Shapes BBTree BBTreeSpec BBTreeMain Filter Narrow NarrowMain SpaceQuery SpaceQuerySpec SpaceQueryProofs SpaceQueryEx.
From Verif Require Space SpaceSpec.
Import ListNotations.

(** C58.  A step hands a pair of shapes to the narrow phase exactly once if both are in the space, one of their bodies can move, their
    bodies differ, their filters agree, their boxes intersect and no constraint keeps their bodies from colliding; else never.
    [order] is any order in which the hash set of the dynamic tree may enumerate its leaves. *)
Theorem C58_pairs_examined : forall (N : Num) (O : NumOrd N) (s : Space.space) (flt : nat -> filter) (x : index) (order : list nat),
  SpaceSpec.reachable s -> Space.s_lock s = 0%Z -> reached x -> indexes_space s x -> fresh x false -> Permutation order (x_leaves x true) ->
  forall i j, (eligible s flt (x_box x) i j -> mentions i j (narrow_pairs s flt x order) = 1) /\
    (~ eligible s flt (x_box x) i j -> mentions i j (narrow_pairs s flt x order) = 0).
Proof. exact @narrow_exact. Qed.

Theorem C58_reject : forall (N : Num) (s : Space.space) (flt : nat -> filter) (x : index) (i j : nat), SpaceSpec.reachable s ->
  query_reject s flt x i j = false <-> body_of s i <> body_of s j /\ reject (flt i) (flt j) = false /\ bb_intersects (x_box x i) (x_box x j) = true /\
  ~ exists c, Space.contains_constraint s c = true /\ Space.co_collide (Space.s_con s c) = false /\
      ((Space.co_a (Space.s_con s c) = body_of s i /\ Space.co_b (Space.s_con s c) = body_of s j) \/
       (Space.co_a (Space.s_con s c) = body_of s j /\ Space.co_b (Space.s_con s c) = body_of s i)).
Proof. exact @query_reject_spec. Qed.

Theorem C58_reject_symmetric : forall (N : Num) (s : Space.space) (flt : nat -> filter) (x : index) (i j : nat), SpaceSpec.reachable s ->
  query_reject s flt x i j = query_reject s flt x j i.
Proof. exact @query_reject_sym. Qed.

(** C59.  BBQuery calls back once for every shape of the space that passes the filter and whose box meets the query. *)
Theorem C59_bb_query : forall (N : Num) (O : NumOrd N) (s : Space.space) (flt : nat -> filter) (x : index) (f : filter) (q : bb),
  SpaceSpec.reachable s -> Space.s_lock s = 0%Z -> reached x -> indexes_space s x -> fresh x false -> fresh x true ->
  NoDup (bb_query flt x f q) /\ forall i, In i (bb_query flt x f q) <-> contained s i /\ reject (flt i) f = false /\ bb_intersects (x_box x i) q = true.
Proof. exact @bb_query_exact. Qed.

(** ShapeQuery calls back at most once per shape, only with contacts of the narrow phase, and for every shape with contacts whose box
    meets that of the query. *)
Theorem C59_shape_query_calls : forall (N : Num) (O : NumOrd N) (tiny : num) (s : Space.space) (flt : nat -> filter) (sensor : nat -> bool) (sh : nat -> nshape) (x : index) (a : nat) (q : bb),
  SpaceSpec.reachable s -> Space.s_lock s = 0%Z -> reached x -> indexes_space s x -> fresh x false -> fresh x true ->
  let called := fst (shape_query tiny flt sensor sh x a q) in
  NoDup (map fst called) /\
  (forall b n l, In (b, (n, l)) called -> contained s b /\ b <> a /\ reject (flt a) (flt b) = false /\ shapes_collide tiny (sh a) (sh b) = Some (n, l) /\ l <> []) /\
  (forall b n l, contained s b -> b <> a -> reject (flt a) (flt b) = false -> bb_intersects (x_box x b) q = true -> shapes_collide tiny (sh a) (sh b) = Some (n, l) -> l <> [] ->
     In (b, (n, l)) called).
Proof. exact @shape_query_exact. Qed.

(** Among circles it finds exactly the ones that overlap the query. *)
Theorem C59_shape_query_circles : forall (tiny : R) (s : @Space.space RNum) (flt : nat -> filter) (sensor : nat -> bool) (sh : nat -> @nshape RNum) (cen : nat -> @vec RNum) (rad : nat -> R) (x : @index RNum) (a : nat),
  SpaceSpec.reachable (N := RNum) s -> Space.s_lock s = 0%Z -> reached (N := RNum) x -> indexes_space s x -> fresh x false -> fresh x true ->
  discs sh cen rad -> (forall i, x_box x i = ns_bb (sh i)) ->
  forall b, In b (map fst (fst (shape_query (N := RNum) tiny flt sensor sh x a (ns_bb (sh a))))) <->
    contained s b /\ b <> a /\ reject (flt a) (flt b) = false /\ (vdist (cen a) (cen b) < rad a + rad b)%R.
Proof. exact circle_query. Qed.

(** Its result, if no sensor is involved: whether anything was called back. *)
Theorem C59_shape_query_result : forall (N : Num) (tiny : num) (flt : nat -> filter) (sensor : nat -> bool) (sh : nat -> nshape) (x : index) (a : nat) (q : bb), sensor a = false ->
  let r := shape_query tiny flt sensor sh x a q in
  (forall b c, In (b, c) (fst r) -> sensor b = false) -> snd r = true <-> fst r <> [].
Proof. exact @shape_query_no_sensor. Qed.

(** It is true only if neither the query shape nor some shape hit is a sensor. *)
Theorem C59_shape_query_result_sound : forall (N : Num) (tiny : num) (flt : nat -> filter) (sensor : nat -> bool) (sh : nat -> nshape) (x : index) (a : nat) (q : bb),
  let r := shape_query tiny flt sensor sh x a q in
  snd r = true -> sensor a = false /\ exists b c, In (b, c) (fst r) /\ sensor b = false.
Proof. exact @shape_query_sound. Qed.

(** With sensors it is not whether a solid shape was hit: here the solid shape 2 is, but the sensor after it decides. *)
Theorem C59_last_sensor_refuted : exists (s : @Space.space FNum) (sensor : nat -> bool), let r := shape_query (N := FNum) ftiny (fun _ => filter_all) sensor three_sh three_x 1 (ns_bb (three_sh 1)) in
  SpaceSpec.reachable (N := FNum) s /\ Space.s_lock s = 0%Z /\ reached (N := FNum) three_x /\ indexes_space s three_x /\ fresh three_x false /\ fresh three_x true /\
  (forall i, x_box three_x i = ns_bb (three_sh i)) /\
  sensor 1 = false /\ sensor 2 = false /\ In 2 (map fst (fst r)) /\ snd r = false.
Proof. exact last_sensor. Qed.

(** A shape is reported though its box does not meet that of the query. *)
Theorem C59_far_hit_refuted : exists s : @Space.space FNum, let r := shape_query (N := FNum) ftiny (fun _ => filter_all) (fun _ => false) fast_sh fast_x 2 (ns_bb (fast_sh 2)) in
  SpaceSpec.reachable (N := FNum) s /\ Space.s_lock s = 0%Z /\ reached (N := FNum) fast_x /\ indexes_space s fast_x /\ fresh fast_x false /\ fresh fast_x true /\
  (forall i, x_box fast_x i = ns_bb (fast_sh i)) /\
  In 1 (map fst (fst r)) /\ snd r = true /\ bb_intersects (ns_bb (fast_sh 1)) (ns_bb (fast_sh 2)) = false.
Proof. exact far_hit. Qed.

(** Four overlapping boxes on the ground 0, bodies 1 and 2 hinged together: five pairs are examined, 1 with 2 is not. *)
Example C58_C59_witness : exists s : @Space.space FNum, SpaceSpec.reachable (N := FNum) s /\ Space.s_lock s = 0%Z /\ reached (N := FNum) pile /\ indexes_space s pile /\ fresh pile false /\ fresh pile true /\
  Permutation [3; 2; 1] (x_leaves pile true) /\
  mentions 1 2 (narrow_pairs s (fun _ => filter_all) pile [3; 2; 1]) = 0 /\ mentions 1 3 (narrow_pairs s (fun _ => filter_all) pile [3; 2; 1]) = 1 /\
  mentions 0 2 (narrow_pairs s (fun _ => filter_all) pile [3; 2; 1]) = 1 /\ length (narrow_pairs s (fun _ => filter_all) pile [3; 2; 1]) = 5 /\
  bb_query (fun _ => filter_all) pile filter_all (fbb 2.25 1 5 5)%float = [0; 3; 2].
Proof. exact pile_example. Qed.
(** Two overlapping circles in a space. *)
Example C59_circles_witness : exists (s : @Space.space RNum) (cen : nat -> @vec RNum) (rad : nat -> R), SpaceSpec.reachable (N := RNum) s /\ Space.s_lock s = 0%Z /\ reached (N := RNum) discs_x /\ indexes_space s discs_x /\
  fresh discs_x false /\ fresh discs_x true /\ discs discs_sh cen rad /\ (forall i, x_box discs_x i = ns_bb (discs_sh i)) /\
  contained s 0 /\ contained s 1 /\ (vdist (cen 1%nat) (cen 0%nat) < rad 1%nat + rad 0%nat)%R.
Proof. exact discs_example. Qed.

Print Assumptions C58_pairs_examined.
Print Assumptions C58_reject.
Print Assumptions C58_reject_symmetric.
Print Assumptions C59_bb_query.
Print Assumptions C59_shape_query_calls.
Print Assumptions C59_shape_query_circles.
Print Assumptions C59_shape_query_result.
Print Assumptions C59_shape_query_result_sound.
Print Assumptions C59_last_sensor_refuted.
Print Assumptions C59_far_hit_refuted.
