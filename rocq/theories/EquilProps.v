(** C68: a loaded world in equilibrium stays exactly as it is.  [equilibrium q ts w]: all bodies still, contacts that push within the
    friction cone, joints in place with loads below their maximal force, and the impulses on every dynamic body balance its weight. *)
From Coq Require Import ZArith Reals List Bool Arith.
From Verif Require Import Num NumReal Vec Transform Body BodySpec Solver SolverSpec Joints JointsSpec Narrow Persist ArbView ArbViewSpec BB EquilSpec EquilProofs3 EquilEx.
Import ListNotations.
Local Open Scope R_scope.

(* after any number of steps, with any iteration counts and bias coefficients: the same bodies; equilibrium; every body reports the same total
   impulse from its arbiters; every joint the same impulse and the same turning moment on every body *)
Theorem C68_equilibrium_persists : forall (q : pace) (ts : list touch) (nbs : list (nat * R)) (w : Rworld), equilibrium q ts w ->
  let w' := fold_left (space_step q ts) nbs w in
  w_heap w' = w_heap w /\ equilibrium q ts w' /\
  (forall i, Vsum total_impulse (each_view i (w_arbs w')) = Vsum total_impulse (each_view i (w_arbs w))) /\
  Forall2 (fun ck ck' => fst ck' = fst ck /\ forall i, joint_push i ck' = joint_push i ck /\ joint_twist i ck' = joint_twist i ck) (w_joints w) (w_joints w').
Proof. exact equilibrium_lasts. Qed.
Print Assumptions C68_equilibrium_persists.
(* two balls on each other, a weight on a pivot, one on a spring and a body on a slope held by friction; gravity 1, steps of 1 *)
Example C68_equilibrium_ex : equilibrium (Pace (BB.rvec 0 (-1)) 1 1 (1 / 10) [1; 2; 3; 4; 5]%nat) eq_touch eq_world /\
  length (w_arbs eq_world) = 3%nat /\ length (w_joints eq_world) = 2%nat /\
  (forall i, In i [1; 2; 3; 4; 5]%nat -> b_mass (w_heap eq_world i) = 1).
Proof.
  split; [exact eq_ok|]. split; [reflexivity|]. split; [reflexivity|]. intros i [<-|[<-|[<-|[<-|[<-|[]]]]]]; cbn [eq_world w_heap eq_heap]; rewrite unit_ub; reflexivity.
Qed.
(* with damping of the space a weight on a spring is not held where the force of the spring balances the weight: the impulse of the spring is
   applied before the velocities are damped, that of the weight after *)
Theorem C68_damped_spring_refuted : exists g dt slop L ts w, equilibrium (Pace g 1 dt slop L) ts w /\
  forall n bias, exists i, w_heap (space_step (Pace g (1 / 2) dt slop L) ts w (n, bias)) i <> w_heap w i.
Proof. exact damped_equilibrium. Qed.
Print Assumptions C68_damped_spring_refuted.
