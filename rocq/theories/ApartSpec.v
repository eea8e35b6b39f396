(** Observables of C70: a part of a world, and what it has in common with the same part of another world. *)
From Coq Require Import ZArith Bool List Arith.
From Verif Require Import Num Vec Transform Body Solver Joints.
Import ListNotations.

Section Apart.
Context {N : Num} {T : Trig N} {E : Elem N}.
Variables (P S : nat -> bool).  (* the bodies of the part, and immovable ones it shares with others *)
(** The contacts and joints of the part. *)
Definition own (s : sarb) : bool := P (s_a s) || P (s_b s).
Definition jown (ck : sjoint) : bool := P (c_a (fst ck)) || P (c_b (fst ck)).
Definition seen (i : nat) : bool := P i || S i.
(** None of them reaches a body outside. *)
Definition closed_arbs (l : list sarb) : Prop := forall s, In s l -> own s = true -> seen (s_a s) = true /\ seen (s_b s) = true.
Definition closed_joints (l : list sjoint) : Prop := forall ck, In ck l -> jown ck = true -> seen (c_a (fst ck)) = true /\ seen (c_b (fst ck)) = true.
(** Two worlds with the same part. *)
Definition same_bodies (H H' : heap) : Prop := forall i, seen i = true -> H i = H' i.
Record same_part (w w' : world) : Prop := {
  sp_bodies : same_bodies (w_heap w) (w_heap w');
  sp_arbs : filter own (w_arbs w) = filter own (w_arbs w');
  sp_joints : filter jown (w_joints w) = filter jown (w_joints w') }.
(** What one step is given: the settings, the awake bodies in their order, and the collision phase, which makes the arbiters of the step from the moved
    bodies and the arbiters of the last one (space.go:540-579). *)
Record given := Given { i_n : nat; i_slop : num; i_bias : num; i_g : vec; i_damping : num; i_dt : num; i_prev : num; i_dyn : list nat; i_arbs : heap -> list sarb -> list sarb }.
(** Two steps are given the same about the part: as long as nothing outside is found to touch it, the arbiters of the part follow from its bodies and its old arbiters. *)
Record same_given (i i' : given) : Prop := {
  sg_n : i_n i = i_n i'; sg_slop : i_slop i = i_slop i'; sg_bias : i_bias i = i_bias i'; sg_g : i_g i = i_g i'; sg_damping : i_damping i = i_damping i';
  sg_dt : i_dt i = i_dt i'; sg_prev : i_prev i = i_prev i'; sg_dyn : filter seen (i_dyn i) = filter seen (i_dyn i');
  sg_arbs : forall H H' l l', same_bodies H H' -> filter own l = filter own l' -> closed_arbs (i_arbs i H l) -> closed_arbs (i_arbs i' H' l') ->
    filter own (i_arbs i H l) = filter own (i_arbs i' H' l') }.
(** Steps of a space (space.go:540-646). *)
Definition step_with (w : world) (i : given) : world :=
  full_step (i_n i) (i_slop i) (i_bias i) (i_g i) (i_damping i) (i_dt i) (i_prev i) (i_dyn i) (i_arbs i (move_all (i_dt i) (i_dyn i) (w_heap w)) (w_arbs w)) w.
(** After no step is anything outside found to touch the part. *)
Definition untouched (is : list given) (w : world) : Prop := forall k, closed_arbs (w_arbs (fold_left step_with (firstn k is) w)).

(** A collision phase that tests pairs of shapes, each alone: two bodies, and what is made of them and of the arbiter the pair had (space.go:564-579, 1066-1131). *)
Record pair := Pair { pr_a : nat; pr_b : nat; pr_test : body -> body -> option sarb -> option sarb }.
Definition old_arb (p : pair) (l : list sarb) : option sarb := find (fun s => Nat.eqb (s_a s) (pr_a p) && Nat.eqb (s_b s) (pr_b p)) l.
Definition phase (ps : list pair) (H : heap) (l : list sarb) : list sarb :=
  flat_map (fun p => match pr_test p (H (pr_a p)) (H (pr_b p)) (old_arb p l) with Some s => [s] | None => [] end) ps.
Definition pair_ok (p : pair) : Prop := forall a b o s, pr_test p a b o = Some s -> s_a s = pr_a p /\ s_b s = pr_b p.
(** The pairs inside the part. *)
Definition inside (p : pair) : bool := (P (pr_a p) || P (pr_b p)) && seen (pr_a p) && seen (pr_b p).
(** A step with such a phase, and the same step of the part alone. *)
Definition tested (i : given) (ps : list pair) : given := Given (i_n i) (i_slop i) (i_bias i) (i_g i) (i_damping i) (i_dt i) (i_prev i) (i_dyn i) (phase ps).
Definition tested_alone (i : given) (ps : list pair) : given :=
  Given (i_n i) (i_slop i) (i_bias i) (i_g i) (i_damping i) (i_dt i) (i_prev i) (filter seen (i_dyn i)) (phase (filter inside ps)).
Definition alone (w : world) : world := World (w_heap w) (filter own (w_arbs w)) (filter jown (w_joints w)).
End Apart.
(** No shared bodies. *)
Definition none (i : nat) : bool := false.
