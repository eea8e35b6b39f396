(** C71: the motion does not depend on the choice of the origin, nor, without damping, on a uniform motion of the observer. *)
From Coq Require Import ZArith NArith Reals List Bool Arith Lra Floats.
From Verif Require Import Num NumReal Vec Transform Body BodySpec Shapes Solver SolverSpec Joints JointsSpec Narrow Persist BB EquilEx DecaySpec ApartSpec ApartProofs ApartProofs2 ApartEx ShiftSpec ShiftProofs ShiftProofs2 ShiftEx ShiftShapeSpec ShiftShapes ShiftShapes2 ShiftShapesEx.
Import ListNotations.

(* two worlds that differ by the origin, static and kinematic bodies included, differ by it after any number of steps with any settings, gravity, damping,
   contacts and joints of every class; contacts, joints and all impulses are the same *)
Theorem C71_origin : forall (is : list (@given RNum)) (w w' : Rworld) (x : Rvec), Forall (fun i => origin_free all (i_arbs i)) is -> (forall i, rigid (w_heap w i)) -> Forall (fun ck => unit_groove (snd ck)) (w_joints w) ->
  shifted_world all x vzero w w' -> shifted_world all x vzero (fold_left step_with is w) (fold_left step_with is w').
Proof. exact origin. Qed.
Print Assumptions C71_origin.
(* a set of moving bodies that touches nothing else, seen by an observer moving with velocity -u *)
Theorem C71_boost : forall B u (is : list (@given RNum)) (w w' : Rworld) (x : Rvec),
  Forall (fun i => i_damping i = 1%R /\ NoDup (i_dyn i) /\ (forall k, B k = true -> In k (i_dyn i)) /\ origin_free B (i_arbs i) /\ forall H l s, In s (i_arbs i H l) -> B (s_a s) = true /\ B (s_b s) = true) is ->
  (forall i, B i = true -> rigid (w_heap w i)) -> (forall s, In s (w_arbs w) -> B (s_a s) = true /\ B (s_b s) = true) ->
  (forall ck, In ck (w_joints w) -> unit_groove (snd ck) /\ B (c_a (fst ck)) = true /\ B (c_b (fst ck)) = true) -> shifted_world B x u w w' ->
  shifted_world B (vadd x (vscale u (total_time is))) u (fold_left step_with is w) (fold_left step_with is w').
Proof. exact boost. Qed.
Print Assumptions C71_boost.
(* collision phases that test pairs of balls do not depend on the origin *)
Theorem C71_balls : forall B l, (forall t, In t l -> B (fst (fst t)) = true /\ B (snd (fst t)) = true) ->
  origin_free B (phase (map (fun t : nat * nat * (R * R) => ball_pair (fst (fst t)) (snd (fst t)) (fst (snd t)) (snd (snd t))) l)).
Proof. exact balls_free. Qed.
Print Assumptions C71_balls.
(* the narrow phase, for circles, segments and polygons with coordinates up to 2^500: the same normal, hashes and collision id, and the contact points shifted;
   [on_body] is what Shape.CacheBB makes of a shape for a transform of its body *)
Theorem C71_collide : forall (tiny : R) (x : Rvec) s1 s2 h1 h2 t1 t2 id, (0 < tiny)%R ->
  (forall s t, (s = s1 /\ t = t1) \/ (s = s2 /\ t = t2) -> placed (ns_s (on_body s 0 t)) /\ placed (shift_shape x (ns_s (on_body s 0 t))) /\ has_points (ns_s (on_body s 0 t)) = true) ->
  collide (Nm := RNum) tiny (on_body s1 h1 (shift_tf x t1)) (on_body s2 h2 (shift_tf x t2)) id =
  option_map (fun r => (fst r, shift_info x (snd r))) (collide (Nm := RNum) tiny (on_body s1 h1 t1) (on_body s2 h2 t2) id).
Proof. exact bodies_collide. Qed.
Print Assumptions C71_collide.
(* so that worlds of such shapes differ by the origin only, as long as they stay within these coordinates *)
Theorem C71_shapes_origin : forall (tiny : R) x (ips : list (@given RNum * list spair)) (w w' : Rworld), (0 < tiny)%R -> placed_run tiny x ips w -> (forall i, rigid (w_heap w i)) -> Forall (fun ck => unit_groove (snd ck)) (w_joints w) ->
  shifted_world all x vzero w w' -> shifted_world all x vzero (fold_left step_with (map (shape_step tiny) ips) w) (fold_left step_with (map (shape_step tiny) ips) w').
Proof. exact shapes_origin. Qed.
Print Assumptions C71_shapes_origin.
(* a square over a segment *)
Example C71_shapes_ex : placed_run 1 (BB.rvec 100 (-7)) [(square_given, [floor_square])] square_world /\ (forall i, rigid (w_heap square_world i)) /\
  shifted_world all (BB.rvec 100 (-7)) vzero square_world (@World RNum (fun i => shift_body (BB.rvec 100 (-7)) vzero (three_heap i)) [] []).
Proof. split; [exact square_placed|]. split; [exact three_rigid|apply square_shifted]. Qed.
(* three balls, two of which lie on a fixed ball and have gears on it; two of them in flight, with a gear between them *)
Example C71_origin_ex : forall x, Forall (fun i => origin_free all (i_arbs i)) [three_step; three_step] /\ (forall i, rigid (w_heap three i)) /\ shifted_world all x vzero three (three_moved x vzero) /\
  Forall (fun ck => unit_groove (snd ck)) (w_joints three) /\ length (w_joints three) = 2%nat /\ length (i_arbs three_step (w_heap three) []) = 3%nat.
Proof.
  intros x. split; [repeat (constructor; [exact three_free|]); constructor|]. split; [exact three_rigid|]. split; [exact (three_shifted x)|]. split; [repeat constructor|]. split; [reflexivity|].
  destruct (three_phase []) as (a & b & c & E & _). unfold three_step, tested. cbn [i_arbs three w_heap]. rewrite E. reflexivity.
Qed.
Example C71_boost_ex : forall x u,
  Forall (fun i => i_damping i = 1%R /\ NoDup (i_dyn i) /\ (forall k, pair12 k = true -> In k (i_dyn i)) /\ origin_free pair12 (i_arbs i) /\ forall H l s, In s (i_arbs i H l) -> pair12 (s_a s) = true /\ pair12 (s_b s) = true) [flight_step; flight_step] /\
  (forall i, pair12 i = true -> rigid (w_heap flight i)) /\ (forall ck, In ck (w_joints flight) -> unit_groove (snd ck) /\ pair12 (c_a (fst ck)) = true /\ pair12 (c_b (fst ck)) = true) /\ shifted_world pair12 x u flight (flight_moved x u).
Proof.
  intros x u. split; [repeat (constructor; [exact flight_goes|]); constructor|]. split; [intros; apply three_rigid|]. split; [intros ck [<-|[]]; repeat split|]. exact (flight_shifted x u).
Qed.

(* with damping the moving observer sees another motion: damping slows down relative to the space *)
Theorem C71_damped_boost_refuted : exists (B : nat -> bool) u (i : @given RNum) (w w' : Rworld) x, (0 <= i_damping i < 1)%R /\ NoDup (i_dyn i) /\ (forall k, B k = true -> In k (i_dyn i)) /\ (forall H l, i_arbs i H l = []) /\ w_joints w = [] /\ w_arbs w = [] /\
  shifted_world B x u w w' /\ ~ exists x', shifted_world B x' u (step_with w i) (step_with w' i).
Proof. exact damped_boost. Qed.
Print Assumptions C71_damped_boost_refuted.
(* with floats a body at 2^53 with velocity 1 never moves, one at 0 does *)
Theorem C71_floats_origin_refuted : forall (T : Trig FNum), exists x (dt : PrimFloat.float), let two (b : @body FNum) := update_position (N := FNum) (update_position (N := FNum) b dt) dt in
  vx (b_pos (two (at_x 0))) = 2%float /\ vx (b_pos (two (at_x x))) = x /\ PrimFloat.eqb (PrimFloat.add 2 x) x = false.
Proof. exact float_origin. Qed.
Print Assumptions C71_floats_origin_refuted.
