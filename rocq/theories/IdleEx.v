(** Examples for C67. *)
From Coq Require Import ZArith Reals Lra List Bool Arith Floats.
From Verif Require Import Num NumReal NumFloat Vec Transform Body BodySpec EnergySpec BodyProofs SolverProofs6 VecReal BB Idle IdleSpec IdleProofs ArbViewEx.
From Verif Require Space SpaceSpec SpaceRuns SpaceMain SpaceMain.
Import ListNotations.
Local Open Scope R_scope.

Lemma ke_refuted : exists b : Rbody, kinetic_energy b <> kinetic b.
Proof. exists (ub 0 0 1 0 0). rewrite ke_twice. unfold kinetic, ub. cbn. unR. lra. Qed.
Lemma falls_ex : exists b : Rbody, b_type b = Dynamic /\ 0 < b_mass b /\ b_vel b = vzero /\ b_w b = 0 /\ b_force b = vzero /\ b_torque b = 0 /\
  idle_time (idle_round (idle_speed_sq 0 (BB.rvec 0 (-1)) 1) 1 (falling 1 (BB.rvec 0 (-1)) 1 b)) = 1 /\
  idle_time (idle_round (idle_speed_sq 0 (BB.rvec 0 (-1)) 1) 1 (falling 2 (BB.rvec 0 (-1)) 1 b)) = 0.
Proof.
  exists (ub 0 0 0 0 0).
  pose proof (ub_dynamic 0 0 0 0 0) as Ty.
  split; [exact Ty|]. split; [cbn; lra|]. do 4 (split; [reflexivity|]). split.
  - destruct (falling_spec 1 (BB.rvec 0 (-1)) 1 (ub 0 0 0 0 0) Ty eq_refl eq_refl eq_refl eq_refl) as (V & W & _ & _ & M & _ & Ty1).
    set (c := falling 1 _ _ _) in *. assert (I : idle_time c = 0). { unfold c, falling, update_velocity. rewrite Ty. reflexivity. }
    pose proof (round_spec 0 (BB.rvec 0 (-1)) 1 c (Rle_refl 0) ltac:(lra) Ty1) as [_ [R _]]. cbv zeta in R. rewrite R, I; [lra|].
    destruct (Req_EM_T 0 0) as [_|X]; [|destruct (X eq_refl)].
    assert (E : vmag (BB.rvec 0 (-1)) = 1). { unfold vmag, vmagsq, vdot. cbn. unR. replace (0 * 0 + -1 * -1) with 1 by ring. apply sqrt_1. }
    unfold kinetic, set_vel_fields. rewrite V, W. cbn [b_mass b_moi b_vel b_w vx vy BB.rvec vscale]. rewrite E, M. cbn. unR. lra.
  - apply falls_fast; auto; try reflexivity; try lra; [cbn; lra|]. intros H. apply (f_equal vy) in H. cbn in H. lra.
Qed.
(* the pile of C29, with body 3 moving and the speeds compared as ProcessComponents does *)
Definition moving3 (i : nat) : @body FNum :=
  @Body FNum n1 n1 n1 n1 n0 n0 n0 vzero vzero (if Nat.eqb i 3 then @V FNum 1%float 0%float else vzero) vzero tf_identity n0 vzero n0.
Notation fast3 := (fun i => too_fast (@idle_speed_sq FNum 0%float (@V FNum 0%float (-0.5)%float) 1%float) (moving3 i)).
Notation step3 := (@Space.OStep FNum (Some nhalf) n1 fast3 [Space.Collides 1 0 true; Space.Collides 2 0 true] SpaceRuns.still []).
Lemma awake_ex : exists s s' : @Space.space FNum, SpaceSpec.reachable s /\ SpaceSpec.valid step3 s /\ Space.sstep step3 s = Some s' /\
  map (Space.contains_body s) [1; 2; 3]%nat = [true; true; true] /\ map (Space.ty s) [1; 2; 3]%nat = [Space.Dynamic; Space.Dynamic; Space.Dynamic] /\
  map (Space.is_sleeping s) [1; 2; 3]%nat = [false; false; false] /\ map fast3 [1; 2; 3]%nat = [false; false; true] /\
  map (Space.is_sleeping s') [1; 2; 3]%nat = [true; true; false].
Proof.
  destruct (SpaceRuns.sees_ex (SpaceRuns.runb SpaceRuns.awake_h SpaceRuns.piled0)
    (fun s => SpaceRuns.validb step3 s && SpaceRuns.sees (Space.sstep step3 s) (fun _ => true))) as [s [E H]]; [vm_compute; reflexivity|].
  apply andb_true_iff in H. destruct H as [V H]. apply SpaceRuns.sees_ex in H. destruct H as [s' [E' _]].
  assert (R : SpaceSpec.reachable s) by (eapply SpaceRuns.runb_reachable; exact E).
  exists s, s'. split; auto. split; [apply SpaceRuns.validb_ok; auto; apply SpaceMain.reachable_ok; auto|]. split; auto.
  assert (Q : forall A (f : Space.space -> A) v, match SpaceRuns.runb SpaceRuns.awake_h SpaceRuns.piled0 with Some s => f s | None => v end = v -> f s = v) by (intros A f v; rewrite E; auto).
  assert (Q' : forall A (f : Space.space -> A) v, match SpaceRuns.runb SpaceRuns.awake_h SpaceRuns.piled0 with Some s => match Space.sstep step3 s with Some s => f s | None => v end | None => v end = v -> f s' = v) by (intros A f v; rewrite E, E'; auto).
  split; [apply (Q _ (fun s => map (Space.contains_body s) [1; 2; 3]%nat)); vm_compute; reflexivity|].
  split; [apply (Q _ (fun s => map (Space.ty s) [1; 2; 3]%nat)); vm_compute; reflexivity|].
  split; [apply (Q _ (fun s => map (Space.is_sleeping s) [1; 2; 3]%nat)); vm_compute; reflexivity|].
  split; [vm_compute; reflexivity|apply (Q' _ (fun s => map (Space.is_sleeping s) [1; 2; 3]%nat)); vm_compute; reflexivity].
Qed.
