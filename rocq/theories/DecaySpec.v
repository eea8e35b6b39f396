(** Observables of C69: two balls that overlap, and joints out of place. *)
From Coq Require Import ZArith NArith Bool Reals List.
From Verif Require Import Num NumReal Vec BB Transform Body BodySpec Shapes Solver SolverSpec Joints JointsSpec Narrow Persist.
Import ListNotations.
Local Open Scope R_scope.

(** Two circle shapes, their bodies and materials. *)
Record balls := Balls { l_a : nat; l_b : nat; l_ca : @circle RNum; l_cb : @circle RNum; l_ma : @material RNum; l_mb : @material RNum }.
(** What the collision phase finds of them: the shapes are put where the bodies are, then tested (space.go:564-579, circle.go:15-18, collision.go:88-105). *)
Definition ball_info (l : balls) (H : Rheap) : @ninfo RNum :=
  circle_to_circle (fst (circle_cache (l_ca l) (b_tf (H (l_a l))))) (fst (circle_cache (l_cb l) (b_tf (H (l_b l))))) (NInfo vzero [] 0%N).
(** The arbiter of the pair: the one of the last step or a new one (space.go:1066-1131). *)
Definition ball_arb (l : balls) (w : Rworld) : Rsarb :=
  match w_arbs w with s :: _ => s | [] => @SArb RNum (l_a l) (l_b l) 0 0 vzero vzero false true false [] end.
Definition ball_arbs (l : balls) (mem : nat -> Rcontact) (sw : bool) (H : Rheap) (w : Rworld) : list Rsarb :=
  match nf_arr (ball_info l H) with [] => [] | _ => [update H (l_a l) (l_b l) (l_ma l) (l_mb l) sw mem (ball_info l H) (ball_arb l w)] end.
(** What is the same in every step, and what is not: the iterations, the time step before, old contents of the buffers. *)
Record pushing := Pushing { p_slop : R; p_bias : R; p_damping : R; p_dt : R; p_dyn : list nat }.
Record moment := Moment { o_n : nat; o_prev : R; o_sw : bool; o_mem : nat -> Rcontact }.
(** A step of the space (CollisionSlop, CollisionBias, Damping, no gravity) in which these two shapes are tested (space.go:540-646; biasCoef 587). *)
Definition ball_step (q : pushing) (l : balls) (w : Rworld) (o : moment) : Rworld :=
  full_step (o_n o) (p_slop q) (1 - npow (p_bias q) (p_dt q)) (@vzero RNum) (p_damping q) (p_dt q) (o_prev o) (p_dyn q)
    (ball_arbs l (o_mem o) (o_sw o) (move_all (p_dt q) (p_dyn q) (w_heap w)) w) w.
(** Overlap of the two balls. *)
Definition overlap (l : balls) (H : Rheap) : R := ci_r (l_ca l) + ci_r (l_cb l) - vdist (b_pos (H (l_a l))) (b_pos (H (l_b l))).
(** A ball at rest: the circle is about the centre of gravity; the space moves the body or it cannot be moved. *)
Definition ball_ok (q : pushing) (b : Rbody) (i : nat) (c : @circle RNum) : Prop :=
  still b /\ (exists m j ops, b = history m j ops) /\ ci_c c = b_cog b /\ 0 <= b_minv b /\ (In i (p_dyn q) \/ b_minv b = 0).

(** A step of a space with one joint and no contacts on its bodies (space.go:540-646). *)
Record pulling := Pulling { u_g : Rvec; u_damping : R; u_dt : R; u_dyn : list nat }.
Definition pull_step (q : pulling) (w : Rworld) (np : nat * R) : Rworld :=
  full_step (fst np) 0 0 (u_g q) (u_damping q) (u_dt q) (snd np) (u_dyn q) [] w.
(** The reported impulse is below the maximal force for the time step. *)
Definition below_limit (c : Rcstr) (dt : R) (k : @jclass RNum) : Prop := joint_impulse k < c_maxforce c * dt.
Definition weak (q : pulling) (w : Rworld) : Prop := Forall (fun ck => below_limit (fst ck) (u_dt q) (snd ck)) (w_joints w).
(** A body that the space moves, or one that stays where it is. *)
Definition carried (q : pulling) (b : Rbody) (i : nat) : Prop := In i (u_dyn q) \/ (b_minv b = 0 /\ b_iinv b = 0 /\ b_vel b = vzero /\ b_w b = 0).
(** How far a gear is out of phase (gear_joint.go:39-40), and two bodies are apart. *)
Definition gear_error (c : Rcstr) (p : @gear RNum) (H : Rheap) : R := b_angle (H (c_b c)) * ge_ratio p - b_angle (H (c_a c)) - ge_phase p.
Definition gap (c : Rcstr) (H : Rheap) : Rvec := vsub (b_pos (H (c_b c))) (b_pos (H (c_a c))).
