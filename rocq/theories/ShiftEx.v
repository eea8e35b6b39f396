(** Collision phases of balls do not depend on the origin; concrete worlds for C71. *)
From Coq Require Import ZArith NArith Bool Reals List Lra Lia Arith Floats.
From Verif Require Import Num NumReal Vec VecReal BB BBProofs Transform Body BodySpec BodyProofs Shapes Solver SolverSpec SolverProofs SolverProofs6 Joints JointsSpec JointsProofs Narrow Persist ArbViewEx EquilProofs EquilEx
  DecaySpec DecayEx ApartSpec ApartProofs ApartProofs2 ApartEx ShiftSpec ShiftProofs ShiftProofs2.
Import ListNotations.
Local Open Scope R_scope.

(** A test of a pair that does not depend on the origin. *)
Definition pair_free (p : @pair RNum) : Prop := forall x u a b o, pr_test p (shift_body x u a) (shift_body x u b) o = pr_test p a b o.
Lemma phase_free B ps : Forall pair_free ps -> (forall p, In p ps -> B (pr_a p) = true /\ B (pr_b p) = true) -> origin_free B (phase ps).
Proof.
  intros F I x u H H' l Q. unfold phase. induction F as [|p ps P F IH]; [reflexivity|]. cbn [flat_map]. destruct (I p (or_introl eq_refl)) as [A C]. rewrite (Q _ A), (Q _ C), P. f_equal. apply IH. intros q K. apply I. now right.
Qed.
Lemma phase_in B ps : Forall pair_ok ps -> (forall p, In p ps -> B (pr_a p) = true /\ B (pr_b p) = true) -> forall H l s, In s (phase ps H l) -> B (s_a s) = true /\ B (s_b s) = true.
Proof.
  intros F I H l s K. unfold phase in K. apply in_flat_map in K as (p & Ip & Is). destruct (pr_test p _ _ _) as [s'|] eqn:E0; [|destruct Is]. destruct Is as [<-|[]].
  destruct (proj1 (Forall_forall _ _) F p Ip _ _ _ _ E0) as [-> ->]. now apply I.
Qed.
Lemma sh_tf x u (b : Rbody) p : tf_apply (b_tf (shift_body x u b)) p = vadd (tf_apply (b_tf b) p) x.
Proof. apply vec_ext; unV; cbn; unR; ring. Qed.
Lemma ball_pair_free a b ra rb : pair_free (ball_pair a b ra rb).
Proof.
  intros x u p q o. unfold ball_pair. cbn [pr_test]. set (H := fun i => if Nat.eqb i a then p else q). set (H' := fun i => if Nat.eqb i a then shift_body x u p else shift_body x u q).
  assert (E : forall i, H' i = shift_body x u (H i)) by (intros i; unfold H, H'; destruct (Nat.eqb i a); reflexivity). clearbody H H'. set (l := Balls _ _ _ _ _ _).
  unfold ball_info, circle_to_circle. cbn [l l_a l_b l_ca l_cb circle_cache fst ci_r ci_tc ci_c]. rewrite !E, !sh_tf. set (ca := tf_apply (b_tf (H a)) (BB.rvec 0 0)). set (cb := tf_apply (b_tf (H b)) (BB.rvec 0 0)).
  assert (D : vsub (vadd cb x) (vadd ca x) = vsub cb ca) by (destruct ca, cb, x; apply vec_ext; unV; unR; ring). rewrite D. cbv zeta. destruct (_ <? _)%num; [|reflexivity]. cbn [nf_arr push with_n nf_n nf_id app]. f_equal.
  unfold update. cbn [nf_n nf_arr update_contacts push with_n app]. f_equal. f_equal. unfold update_contact. cbn [nc_p1 nc_p2 nc_hash]. rewrite !E. 
  change (b_pos (shift_body x u (H a))) with (vadd (b_pos (H a)) x). change (b_pos (shift_body x u (H b))) with (vadd (b_pos (H b)) x).
  assert (S : forall c v w : Rvec, vsub (vadd (vadd c x) v) (vadd w x) = vsub (vadd c v) w) by (intros [] [] []; destruct x; apply vec_ext; unV; unR; ring). rewrite !S. reflexivity.
Qed.

Lemma balls_free B l : (forall t, In t l -> B (fst (fst t)) = true /\ B (snd (fst t)) = true) ->
  origin_free B (phase (map (fun t : nat * nat * (R * R) => ball_pair (fst (fst t)) (snd (fst t)) (fst (snd t)) (snd (snd t))) l)).
Proof.
  intros I. apply phase_free.
  - apply Forall_forall. intros p K. apply in_map_iff in K as (t & <- & _). apply ball_pair_free.
  - intros p K. apply in_map_iff in K as (t & <- & K). exact (I t K).
Qed.
(** The three balls, and the same seen from another origin. *)
Definition three_moved (x u : Rvec) : Rworld := World (fun i => shift_body x u (three_heap i)) [] (w_joints three).
Definition three_step : @given RNum := tested three_given three_pairs.
Lemma three_free : origin_free all (i_arbs three_step).
Proof. apply phase_free; [repeat (constructor; [apply ball_pair_free|]); constructor|]. intros; split; reflexivity. Qed.
Lemma coherent_rigid (b : Rbody) : coherent b -> rigid b.
Proof.
  intros C [p1 p2]. rewrite C. unfold set_transform. cbn [b_tf set_tf_field tf_new b_pos b_angle b_cog]. unfold vmag, vmagsq, tf_apply_vector. f_equal. unV. cbn. unR. set (t := b_angle b : R).
  pose proof (sin2_cos2 t) as S. unfold Rsqr in S.
  transitivity ((sin t * sin t + cos t * cos t) * (p1 * p1 + p2 * p2)); [ring|rewrite S; ring].
Qed.
Lemma three_coherent i : coherent (three_heap i).
Proof. destruct i as [|[|[|[|i]]]]; cbn [three_heap]; unfold ground, unit_at; apply history_coherent. Qed.
Lemma three_rigid i : rigid (three_heap i). Proof. apply coherent_rigid, three_coherent. Qed.
Lemma three_shifted x : shifted_world all x vzero three (three_moved x vzero).
Proof. constructor; try reflexivity. intros i _. reflexivity. Qed.

(** Balls 1 and 2 without the ground, in flight. *)
Definition flight_step : @given RNum := tested (@Given RNum 10 (1 / 10) (1 / 2) (BB.rvec 0 (-1)) 1 1 1 [1; 2]%nat (fun _ _ => [])) [ball_pair 1 2 1 1].
Definition flight : Rworld := World three_heap [] [(@Cstr RNum 1%nat 2%nat 100 (1 / 2) 100, JGear gear1)].
Definition flight_moved (x u : Rvec) : Rworld := World (fun i => shift_body x u (three_heap i)) [] (w_joints flight).
Lemma flight_goes : i_damping flight_step = 1 /\ NoDup (i_dyn flight_step) /\ (forall k, pair12 k = true -> In k (i_dyn flight_step)) /\ origin_free pair12 (i_arbs flight_step) /\
  forall H l s, In s (i_arbs flight_step H l) -> pair12 (s_a s) = true /\ pair12 (s_b s) = true.
Proof.
  split; [reflexivity|]. split; [repeat constructor; cbn; intuition discriminate|]. split.
  { intros k K. unfold pair12 in K. apply orb_true_iff in K as [K|K]; apply Nat.eqb_eq in K; subst; cbn; auto. }
  assert (I : forall p, In p [ball_pair 1 2 1 1] -> pair12 (pr_a p) = true /\ pair12 (pr_b p) = true) by (intros p [<-|[]]; split; reflexivity).
  split; [apply phase_free; [repeat (constructor; [apply ball_pair_free|]); constructor|exact I]|]. apply phase_in; [repeat (constructor; [apply ball_pair_ok|]); constructor|exact I].
Qed.
Lemma flight_shifted x u : shifted_world pair12 x u flight (flight_moved x u).
Proof. constructor; try reflexivity. intros i _. reflexivity. Qed.

(** One body without gravity, damping 1/2: an observer moving against it sees it slowed down relative to themselves. *)
Definition slowed : @given RNum := @Given RNum 1 0 0 (BB.rvec 0 0) (1 / 2) 1 1 [0%nat] (fun _ _ => []).
Definition lone (x u : Rvec) : Rworld := @World RNum (fun _ => shift_body x u (unit_at 0 0)) [] [].
Lemma slowed_once b : w_heap (step_with (@World RNum (fun _ => b) [] []) slowed) 0%nat = update_velocity (update_position b 1) (BB.rvec 0 0) (1 / 2) 1.
Proof. reflexivity. Qed.
Lemma damped_boost : exists (B : nat -> bool) u i (w w' : Rworld) x, 0 <= i_damping i < 1 /\ NoDup (i_dyn i) /\ (forall k, B k = true -> In k (i_dyn i)) /\ (forall H l, i_arbs i H l = []) /\ w_joints w = [] /\ w_arbs w = [] /\
  shifted_world B x u w w' /\ ~ exists x', shifted_world B x' u (step_with w i) (step_with w' i).
Proof.
  exists (fun k => Nat.eqb k 0), (BB.rvec 1 0), slowed, (@World RNum (fun _ => unit_at 0 0) [] []), (lone vzero (BB.rvec 1 0)), vzero.
  split; [cbn; unR; lra|]. split; [repeat constructor; cbn; tauto|]. split; [intros k K; apply Nat.eqb_eq in K; subst; now left|]. split; [reflexivity|]. split; [reflexivity|]. split; [reflexivity|].
  split; [constructor; try reflexivity; intros i _; reflexivity|]. intros [x' [S _ _]]. specialize (S 0%nat eq_refl).
  apply (f_equal (fun b => vx (b_vel b))) in S. revert S. unfold lone. rewrite unit_ub.
  rewrite !slowed_once.
  unfold update_velocity. change (b_type (update_position (shift_body vzero (BB.rvec 1 0) (ub 0 0 0 0 0)) 1)) with (b_type (ub 0 0 0 0 0)). change (b_type (update_position (ub 0 0 0 0 0) 1)) with (b_type (ub 0 0 0 0 0)).
  rewrite ub_dynamic. unfold ub. cbn. unR. lra.
Qed.
Local Open Scope float_scope.
(** With floats a body far from the origin moves differently. *)
Definition at_x (x : PrimFloat.float) : @body FNum := @Body FNum 1 1 1 1 0 0 0 (fv 0 0) (fv x 0) (fv 1 0) (fv 0 0) (@Tf FNum 1 0 0 1 x 0) 0 (fv 0 0) 0.
Lemma float_origin (T : Trig FNum) : exists x (dt : PrimFloat.float), let two (b : @body FNum) := update_position (N := FNum) (update_position (N := FNum) b dt) dt in
  vx (b_pos (two (at_x 0))) = 2%float /\ vx (b_pos (two (at_x x))) = x /\ PrimFloat.eqb (PrimFloat.add 2 x) x = false.
Proof. exists 0x1p53%float, 1%float. split; [|split]; vm_compute; reflexivity. Qed.
