(** C70: parts of a world that do not touch do not influence each other. *)
From Coq Require Import ZArith NArith Reals List Bool Arith Lra Floats.
From Verif Require Import Num NumReal Vec Transform Body BodySpec Shapes Solver SolverSpec Joints JointsSpec Narrow Persist BB EquilEx DecaySpec ApartSpec ApartProofs ApartProofs2 ApartEx.
Import ListNotations.

(* any arithmetic, floating point included; two worlds with the same part P, in which no contact or joint ever links a body of P to another one: P
   has the same states, contacts, joints and impulses in both, bit for bit, after any number of steps with any settings *)
Theorem C70_apart : forall (N : Num) (T : Trig N) (E : Elem N) (P : nat -> bool) is is' w w', Forall2 (same_given P none) is is' -> same_part P none w w' ->
  closed_joints P none (w_joints w) -> closed_joints P none (w_joints w') -> untouched P none is w -> untouched P none is' w' ->
  same_part P none (fold_left step_with is w) (fold_left step_with is' w').
Proof. intros N T E P is is' w w' G. exact (any_apart P is is' G w w'). Qed.
Print Assumptions C70_apart.
(* the rest of the world removed: bodies, shapes, contacts and joints *)
Theorem C70_alone : forall (N : Num) (T : Trig N) (E : Elem N) (P : nat -> bool) (ips : list (given * list pair)) w, Forall (fun ip => Forall pair_ok (snd ip)) ips ->
  closed_joints P none (w_joints w) -> untouched P none (map (fun ip => tested (fst ip) (snd ip)) ips) w ->
  same_part P none (fold_left step_with (map (fun ip => tested (fst ip) (snd ip)) ips) w)
    (fold_left step_with (map (fun ip => tested_alone P none (fst ip) (snd ip)) ips) (alone P w)).
Proof. intros N T E. exact any_alone. Qed.
Print Assumptions C70_alone.
(* over the reals parts may also stand on the same static or kinematic bodies: bodies of infinite mass and moment pass nothing on *)
Theorem C70_apart_on_ground : forall (P S : nat -> bool) is is' (w w' : Rworld), Forall2 (same_given P S) is is' -> same_part P S w w' ->
  (forall i, S i = true -> b_minv (w_heap w i) = 0%R /\ b_iinv (w_heap w i) = 0%R) ->
  closed_joints P S (w_joints w) -> closed_joints P S (w_joints w') -> untouched P S is w -> untouched P S is' w' ->
  same_part P S (fold_left step_with is w) (fold_left step_with is' w').
Proof. intros P S is is' w w' G. exact (real_apart P S is is' G w w'). Qed.
Print Assumptions C70_apart_on_ground.
Theorem C70_alone_on_ground : forall (P S : nat -> bool) (ips : list (given * list pair)) (w : Rworld), Forall (fun ip => Forall pair_ok (snd ip)) ips ->
  (forall i, S i = true -> b_minv (w_heap w i) = 0%R /\ b_iinv (w_heap w i) = 0%R) ->
  closed_joints P S (w_joints w) -> untouched P S (map (fun ip => tested (fst ip) (snd ip)) ips) w ->
  same_part P S (fold_left step_with (map (fun ip => tested (fst ip) (snd ip)) ips) w)
    (fold_left step_with (map (fun ip => tested_alone P S (fst ip) (snd ip)) ips) (alone P w)).
Proof. exact real_alone. Qed.
Print Assumptions C70_alone_on_ground.
(* balls 1 and 2 touch each other, 1 and 3 touch the ground and have a gear on it; all pairs of balls are tested, and found are those of 0 and 1, 0 and 3, 1 and 2:
   the part of 1 and 2 *)
Example C70_ex : untouched pair12 the_ground [tested three_given three_pairs] three /\ Forall pair_ok three_pairs /\ closed_joints pair12 the_ground (w_joints three) /\
  (forall i, the_ground i = true -> b_minv (w_heap three i) = 0%R /\ b_iinv (w_heap three i) = 0%R) /\
  length (filter (jown pair12) (w_joints three)) = 1%nat /\ length (phase three_pairs (w_heap three) []) = 3%nat.
Proof.
  split; [exact three_untouched|]. split; [repeat (constructor; [apply ball_pair_ok|]); constructor|]. split.
  { intros ck [<-|[<-|[]]]; cbn; auto. }
  split. { intros i I. apply Nat.eqb_eq in I. subst i. cbn [three w_heap three_heap]. rewrite ground_is. split; reflexivity. }
  split; [reflexivity|]. destruct (three_phase []) as (a & b & c & E & _). cbn [three w_heap]. rewrite E. reflexivity.
Qed.

(* with floats the ground does pass something on: an impulse that overflows, times the inverse mass 0, makes the velocity of the static body NaN, and
   then that of every other body on it.  Both worlds are finite; in the first a body of mass 2^33 falls at 2^1000 on the ground that body 2 rests on *)
Theorem C70_floats_on_ground_refuted : forall (T : Trig FNum) (E : Elem FNum), exists P S (i : @given FNum) (w w' : @world FNum),
  same_given P S i i /\ same_part P S w w' /\ (forall k, S k = true -> b_minv (w_heap w k) = 0%float /\ b_iinv (w_heap w k) = 0%float) /\
  w_joints w = [] /\ w_joints w' = [] /\ untouched P S [i] w /\ untouched P S [i] w' /\
  P 2%nat = true /\ PrimFloat.is_nan (vy (b_vel (w_heap (step_with w i) 2%nat))) = true /\ PrimFloat.is_nan (vy (b_vel (w_heap (step_with w' i) 2%nat))) = false.
Proof. exact float_parts. Qed.
Print Assumptions C70_floats_on_ground_refuted.
