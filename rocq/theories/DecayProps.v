(** C69: what is out of place is put right at the configured rate, CollisionBias or ErrorBias per unit of time, whatever the length of
    the steps and the number of iterations. *)
From Coq Require Import ZArith NArith Reals List Bool Arith Lra.
From Verif Require Import Num NumReal Vec Transform Body BodySpec Shapes Solver SolverSpec SolverProofs5 Joints JointsSpec Narrow Persist BB EquilEx DecaySpec DecayProofs DecayProofs2 DecayEx.
Import ListNotations.
Local Open Scope R_scope.

(* two balls at rest, no gravity: an overlap up to CollisionSlop stays; a larger one goes down to the slop exponentially, and the balls have no
   velocity from it afterwards *)
Theorem C69_overlap_decays : forall (q : pushing) (l : balls) (w : Rworld) (o : moment) (os : list moment),
  l_a l <> l_b l -> NoDup (p_dyn q) -> 0 < p_dt q -> 0 <= ci_r (l_ca l) -> 0 <= ci_r (l_cb l) -> 0 <= p_slop q -> 0 < p_bias q <= 1 ->
  w_arbs w = [] -> w_joints w = [] -> ball_ok q (w_heap w (l_a l)) (l_a l) (l_ca l) -> ball_ok q (w_heap w (l_b l)) (l_b l) (l_cb l) ->
  0 < b_minv (w_heap w (l_a l)) + b_minv (w_heap w (l_b l)) -> Forall (fun o => (1 <= o_n o)%nat) (o :: os) ->
  let w' := fold_left (ball_step q l) (o :: os) w in let x := overlap l (w_heap w) in
  (x <= p_slop q -> overlap l (w_heap w') = x) /\
  (p_slop q <= x -> overlap l (w_heap w') = p_slop q + (x - p_slop q) * Rpower (p_bias q) (p_dt q * INR (length os))) /\
  b_vel (w_heap w' (l_a l)) = vzero /\ b_vel (w_heap w' (l_b l)) = vzero /\ b_w (w_heap w' (l_a l)) = 0 /\ b_w (w_heap w' (l_b l)) = 0.
Proof. exact overlap_decays. Qed.
Print Assumptions C69_overlap_decays.
(* radius 1, centres 1 apart, CollisionSlop 1/10, CollisionBias 1/2, steps of 1 *)
Example C69_overlap_ex : ball_ok two_pushing (w_heap two_world 1%nat) 1 ball1 /\ ball_ok two_pushing (w_heap two_world 2%nat) 2 ball1 /\
  0 < b_minv (w_heap two_world 1%nat) + b_minv (w_heap two_world 2%nat) /\ overlap two_balls (w_heap two_world) = 1 /\ p_slop two_pushing = 1 / 10.
Proof. destruct two_ok as (A & B & C & D). repeat split; auto; apply A || apply B. Qed.

(* a gear joint alone on its bodies, under any gravity, damping, forces and velocities: as long as the joint reports less than its maximal force, the
   phase error after the first step goes to zero at the rate ErrorBias *)
Theorem C69_gear_decays : forall (q : pulling) (c : Rcstr) (p : @gear RNum) (w : Rworld) m prev nps,
  NoDup (u_dyn q) -> c_a c <> c_b c -> 0 < u_dt q -> 0 < c_errorbias c <= 1 -> 0 <= c_maxbias c -> w_joints w = [(c, JGear p)] ->
  b_iinv (w_heap w (c_a c)) * ge_ratioinv p + ge_ratio p * b_iinv (w_heap w (c_b c)) <> 0 ->
  carried q (w_heap w (c_a c)) (c_a c) -> carried q (w_heap w (c_b c)) (c_b c) ->
  Forall (fun np => (1 <= fst np)%nat) nps -> let w1 := pull_step q w (S m, prev) in
  (forall k, (k < length nps)%nat -> weak q (fold_left (pull_step q) (firstn k nps) w1)) ->
  (1 - Rpower (c_errorbias c) (u_dt q)) * Rabs (gear_error c p (w_heap w1)) <= c_maxbias c * u_dt q ->
  gear_error c p (w_heap (fold_left (pull_step q) nps w1)) = gear_error c p (w_heap w1) * Rpower (c_errorbias c) (u_dt q * INR (length nps)).
Proof. exact gear_decays. Qed.
Print Assumptions C69_gear_decays.
(* a body turned by 1 against a static one; ErrorBias 1/2, maximal force and bias 100 *)
Example C69_gear_ex : let w1 := pull_step (pulls 1) gear_world (1%nat, 1) in
  weak (pulls 1) w1 /\ gear_error pull_cstr gear1 (w_heap w1) = 1 /\ gear_error pull_cstr gear1 (w_heap (fold_left (pull_step (pulls 1)) [(1%nat, 1)] w1)) = 1 / 2.
Proof.
  cbv zeta. destruct (gear_first 1 1 eq_refl) as [W E]. destruct (gear_ok 1) as (ND & NZ & CA & CB). split; [exact W|]. split; [exact E|].
  assert (P : Rpower (1 / 2) 1 = 1 / 2) by (apply Rpower_1; lra).
  assert (F : Forall (fun np : nat * R => (1 <= fst np)%nat) [(1%nat, 1)]) by (repeat constructor).
  pose proof (C69_gear_decays (pulls 1) pull_cstr gear1 gear_world 0 1 [(1%nat, 1)] ND ltac:(discriminate) ltac:(cbn; lra) ltac:(cbn; lra) ltac:(cbn; lra) eq_refl NZ CA CB F) as X. cbv zeta in X.
  rewrite X; [rewrite E|intros [|k] K; [exact W|cbn in K; now apply Nat.succ_lt_mono in K]|rewrite E].
  - change (1 * Rpower (1 / 2) (1 * 1) = 1 / 2). rewrite Rmult_1_r, P. lra.
  - change ((1 - Rpower (1 / 2) 1) * Rabs 1 <= 100 * 1). rewrite P, Rabs_R1. lra.
Qed.
(* the same for the distance of two bodies that a pivot joint holds together at their centres of gravity *)
Theorem C69_pivot_decays : forall (q : pulling) (c : Rcstr) (p : @pivot RNum) (w : Rworld) m prev nps,
  NoDup (u_dyn q) -> c_a c <> c_b c -> 0 < u_dt q -> 0 < c_errorbias c <= 1 -> 0 <= c_maxforce c -> w_joints w = [(c, JPivot p)] ->
  pv_anchA p = b_cog (w_heap w (c_a c)) -> pv_anchB p = b_cog (w_heap w (c_b c)) -> movable_pair (w_heap w (c_a c)) (w_heap w (c_b c)) ->
  carried q (w_heap w (c_a c)) (c_a c) -> carried q (w_heap w (c_b c)) (c_b c) ->
  Forall (fun np => (1 <= fst np)%nat) nps -> let w1 := pull_step q w (S m, prev) in
  (forall k, (k < length nps)%nat -> weak q (fold_left (pull_step q) (firstn k nps) w1)) ->
  (1 - Rpower (c_errorbias c) (u_dt q)) * vmag (gap c (w_heap w1)) <= c_maxbias c * u_dt q ->
  gap c (w_heap (fold_left (pull_step q) nps w1)) = vscale (gap c (w_heap w1)) (Rpower (c_errorbias c) (u_dt q * INR (length nps))).
Proof. exact pivot_decays. Qed.
Print Assumptions C69_pivot_decays.
(* a unit body 1 away from a static one *)
Example C69_pivot_ex : let w1 := pull_step (pulls 1) pivot_world (1%nat, 1) in weak (pulls 1) w1 /\ gap pull_cstr (w_heap w1) = BB.rvec 1 0 /\
  pv_anchA pivot1 = b_cog (w_heap pivot_world (c_a pull_cstr)) /\ pv_anchB pivot1 = b_cog (w_heap pivot_world (c_b pull_cstr)) /\
  movable_pair (w_heap pivot_world (c_a pull_cstr)) (w_heap pivot_world (c_b pull_cstr)) /\
  carried (pulls 1) (w_heap pivot_world (c_a pull_cstr)) (c_a pull_cstr) /\ carried (pulls 1) (w_heap pivot_world (c_b pull_cstr)) (c_b pull_cstr).
Proof. cbv zeta. destruct (pivot_first 1 1 eq_refl) as [W E]. split; [exact W|]. split; [exact E|]. apply (pivot_ok 1). Qed.

(* the correction is a velocity computed for the length of its step and applied over the length of the next one: after a gear is out of phase by 1, a
   step eight times as long leaves it out by 3 the other way *)
Theorem C69_longer_step_refuted : exists q1 q2 c p w prev, u_dyn q1 = u_dyn q2 /\ 0 < u_dt q1 /\ 0 < u_dt q2 /\ w_joints w = [(c, JGear p)] /\ 0 < c_errorbias c <= 1 /\
  let w1 := pull_step q1 w (1%nat, prev) in
  weak q1 w1 /\ gear_error c p (w_heap w1) = 1 /\ forall n, gear_error c p (w_heap (pull_step q2 w1 (S n, u_dt q1))) = -3.
Proof. exact longer_step. Qed.
Print Assumptions C69_longer_step_refuted.
