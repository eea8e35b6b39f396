(** C65: what arbiters and joints report is what the bodies received.  [each_view i arbs]: the arbiters Body.EachArbiter shows body i, as it
    shows them; [joint_push i]: the impulse vector a joint holds, on the side of body i; [free_momentum]: damping, gravity and the user's
    force alone; [fresh_arbs]: two different bodies per arbiter, and a first contact starts from zero. *)
From Coq Require Import ZArith Bool Reals List Lra.
From Verif Require Import Num NumReal Vec BB Transform Body BodySpec Solver SolverSpec SolverProofs6 ArbView ArbViewSpec ArbViewProofs ArbViewProofs2 ArbViewEx.
Import ListNotations.
Local Open Scope R_scope.

(* any number of iterations, arbiters and joints: the momentum of a body is explained by the reports of its own arbiters and joints *)
Theorem C65_momentum : forall n slop bias g d dt L (w : Rworld) i, dt <> 0 -> NoDup L -> In i L -> b_type (w_heap w i) = Dynamic ->
  b_mass (w_heap w i) * b_minv (w_heap w i) = 1 -> fresh_arbs w -> d = 1 \/ free_of is_spring i w ->
  let w' := solve n slop bias g d dt dt L w in
  momentum (w_heap w' i) = vadd (free_momentum g d dt (w_heap w i)) (vadd (Vsum total_impulse (each_view i (w_arbs w'))) (Vsum (joint_push i) (w_joints w'))).
Proof. exact momentum_account. Qed.
(* and so is its spin, by the contacts' and joints' impulses at their points *)
Theorem C65_spin : forall n slop bias g d dt L (w : Rworld) i, dt <> 0 -> NoDup L -> In i L -> b_type (w_heap w i) = Dynamic ->
  b_moi (w_heap w i) * b_iinv (w_heap w i) = 1 -> fresh_arbs w -> free_of is_rspring i w -> d = 1 \/ free_of is_spring i w ->
  let w' := solve n slop bias g d dt dt L w in
  b_moi (w_heap w' i) * b_w (w_heap w' i) = d * (b_moi (w_heap w i) * b_w (w_heap w i)) + dt * b_torque (w_heap w i) +
    Rsum (arb_twist i) (w_arbs w') + Rsum (joint_twist i) (w_joints w').
Proof. exact spin_account. Qed.
(* Constraint.Class.GetImpulse is the length of that vector *)
Theorem C65_joint_impulse : forall k : @jclass RNum, unit_axis k -> vmag (joint_vector k) = Rabs (joint_impulse k).
Proof. exact magnitude_report. Qed.
(* a scale: the arbiters of a body at rest report its weight *)
Theorem C65_weight : forall n slop bias g dt L (w : Rworld) i, dt <> 0 -> NoDup L -> In i L -> b_type (w_heap w i) = Dynamic ->
  b_mass (w_heap w i) * b_minv (w_heap w i) = 1 -> fresh_arbs w -> free_of (fun _ => True) i w ->
  let w' := solve n slop bias g 1 dt dt L w in
  b_vel (w_heap w i) = vzero -> b_vel (w_heap w' i) = vzero -> b_force (w_heap w i) = vzero ->
  Vsum total_impulse (each_view i (w_arbs w')) = vscale g (- (dt * b_mass (w_heap w i)))%R.
Proof. exact weight. Qed.
(* the two bodies of an arbiter see it from their own side: themselves first, opposite normals and impulses, the points exchanged *)
Theorem C65_two_views : forall (s : Rsarb) (H : Rheap), s_a s <> s_b s ->
  arb_bodies (seen_by (s_a s) s) = (s_a s, s_b s) /\ arb_bodies (seen_by (s_b s) s) = (s_b s, s_a s) /\
  arb_normal (seen_by (s_b s) s) = vneg (arb_normal (seen_by (s_a s) s)) /\
  total_impulse (seen_by (s_b s) s) = vneg (total_impulse (seen_by (s_a s) s)) /\
  cp_normal (contact_point_set H (seen_by (s_b s) s)) = arb_normal (seen_by (s_b s) s) /\
  cp_normal (contact_point_set H (seen_by (s_a s) s)) = arb_normal (seen_by (s_a s) s) /\
  cp_points (contact_point_set H (seen_by (s_b s) s)) = map (fun p => let '(p1, p2, d) := p in (p2, p1, d)) (cp_points (contact_point_set H (seen_by (s_a s) s))).
Proof. exact views. Qed.
(* what a change of the time step makes of it, exactly: the carried impulse is applied in part but reported in full *)
Theorem C65_time_step : forall n slop bias g d dt prevdt L (w : Rworld) i, prevdt <> 0 -> NoDup L -> In i L -> b_type (w_heap w i) = Dynamic ->
  b_mass (w_heap w i) * b_minv (w_heap w i) = 1 -> fresh_arbs w -> free_of (fun _ => True) i w ->
  let w' := solve n slop bias g d dt prevdt L w in
  vadd (momentum (w_heap w' i)) (vscale (Vsum total_impulse (each_view i (w_arbs w))) (1 - dt / prevdt)%R) =
  vadd (free_momentum g d dt (w_heap w i)) (vadd (Vsum total_impulse (each_view i (w_arbs w'))) (Vsum (joint_push i) (w_joints w'))).
Proof. exact time_step_account. Qed.
(* Finding: after the step was halved, TotalImpulse is off by half of the carried impulse, however many iterations are made *)
Theorem C65_time_step_refuted : exists (w : Rworld) i, b_type (w_heap w i) = Dynamic /\ b_mass (w_heap w i) * b_minv (w_heap w i) = 1 /\ fresh_arbs w /\
  free_of (fun _ => True) i w /\ b_vel (w_heap w i) = vzero /\ b_force (w_heap w i) = vzero /\
  forall n slop bias, let w' := solve n slop bias vzero 1 1 2 [i] w in
  vy (Vsum total_impulse (each_view i (w_arbs w'))) = vy (momentum (w_heap w' i)) + 1 / 2.
Proof. destruct av_ok as (_ & _ & C & D & E & F). exists av_world, 1%nat. repeat (split; [first [exact C|exact D|exact E|exact F|reflexivity]|]). exact av_short. Qed.
(* Finding: PreStep applies a spring's force before the velocities are damped, so that in a damped space it gives less than it reports *)
Theorem C65_damped_spring_refuted : exists (w : Rworld) i, b_type (w_heap w i) = Dynamic /\ b_mass (w_heap w i) * b_minv (w_heap w i) = 1 /\ w_arbs w = [] /\
  b_vel (w_heap w i) = vzero /\ b_force (w_heap w i) = vzero /\
  forall n slop bias, let w' := solve n slop bias vzero (1 / 2) 1 1 [0; 1]%nat w in
  vx (Vsum (joint_push i) (w_joints w')) = vx (momentum (w_heap w' i)) + 5.
Proof. destruct ds_ok as (_ & _ & C & D & _). exists ds_world, 1%nat. repeat (split; [first [exact C|exact D|reflexivity]|]). exact ds_short. Qed.

(** A body of weight 1 resting on a fixed one: the hypotheses of C65_momentum and C65_weight hold and its one arbiter reports (0, 1). *)
Example C65_witness : NoDup [1%nat] /\ In 1%nat [1%nat] /\ b_type (w_heap av_world 1%nat) = Dynamic /\ b_mass (w_heap av_world 1%nat) * b_minv (w_heap av_world 1%nat) = 1 /\
  fresh_arbs av_world /\ free_of (fun _ => True) 1 av_world /\
  Vsum total_impulse (each_view 1 (w_arbs (solve 1 (1 / 10) (1 / 10) (rvec 0 (-1)) 1 1 1 [1%nat] av_world))) = rvec 0 1.
Proof.
  destruct av_ok as (A & B & C & D & E & F). repeat (split; [assumption|]).
  rewrite (C65_weight 1 _ _ (rvec 0 (-1)) 1 [1%nat] av_world 1 ltac:(lra) A B C D E F eq_refl av_rests eq_refl). unfold vscale, rvec. cbn. unR. f_equal; ring.
Qed.

Print Assumptions C65_momentum.
Print Assumptions C65_spin.
Print Assumptions C65_joint_impulse.
Print Assumptions C65_weight.
Print Assumptions C65_two_views.
Print Assumptions C65_time_step.
Print Assumptions C65_time_step_refuted.
Print Assumptions C65_damped_spring_refuted.
