(** Concrete worlds for C70. *)
From Coq Require Import ZArith NArith Bool Reals List Lra Lia Arith Floats.
From Verif Require Import Num NumReal Vec VecReal BB BBProofs Transform Body BodySpec BodyProofs Shapes Solver SolverSpec SolverProofs SolverProofs6 Joints JointsSpec JointsProofs Narrow Persist ArbViewEx EquilProofs EquilEx
  DecaySpec DecayEx ApartSpec ApartProofs ApartProofs2.
Import ListNotations.
Local Open Scope R_scope.

(** Pairs of balls as the collision phase tests them: the two circles, and the arbiter the pair had or a new one. *)
Definition ball_pair (a b : nat) (ra rb : R) : @pair RNum :=
  let l := Balls a b (Circle (BB.rvec 0 0) (BB.rvec 0 0) ra) (Circle (BB.rvec 0 0) (BB.rvec 0 0) rb) plain plain in
  @Pair RNum a b (fun x y o => let H : Rheap := fun i => if Nat.eqb i a then x else y in
    match nf_arr (ball_info l H) with [] => None
    | _ => Some (update H a b plain plain false dirt (ball_info l H) (match o with Some s => s | None => @SArb RNum a b 0 0 vzero vzero false true false [] end)) end).

Lemma ball_pair_ok a b ra rb : pair_ok (ball_pair a b ra rb).
Proof. intros x y o s. unfold ball_pair. cbn [pr_test pr_a pr_b]. destruct (nf_arr _); [discriminate|]. intros Q. inversion Q. split; reflexivity. Qed.
Lemma pair_far a b ra rb (x y : Rbody) o : Nat.eqb b a = false -> (ra + rb) * (ra + rb) <= vmagsq (vsub (tf_apply (b_tf y) (BB.rvec 0 0)) (tf_apply (b_tf x) (BB.rvec 0 0))) ->
  pr_test (ball_pair a b ra rb) x y o = None.
Proof.
  intros D Q. unfold ball_pair. cbn [pr_test]. unfold ball_info, circle_to_circle. cbn [l_a l_b l_ca l_cb circle_cache fst ci_r ci_tc ci_c]. rewrite Nat.eqb_refl, D. cbv zeta.
  match goal with |- context [if ?c then _ else _] => replace c with false end; [reflexivity|]. symmetry. unR. apply Rltb_false. exact Q.
Qed.
Lemma pair_near a b ra rb (x y : Rbody) o : Nat.eqb b a = false -> vmagsq (vsub (tf_apply (b_tf y) (BB.rvec 0 0)) (tf_apply (b_tf x) (BB.rvec 0 0))) < (ra + rb) * (ra + rb) ->
  exists s, pr_test (ball_pair a b ra rb) x y o = Some s.
Proof.
  intros D Q. unfold ball_pair. cbn [pr_test]. unfold ball_info, circle_to_circle. cbn [l_a l_b l_ca l_cb circle_cache fst ci_r ci_tc ci_c]. rewrite Nat.eqb_refl, D. cbv zeta.
  match goal with |- context [if ?c then _ else _] => replace c with true end; [eexists; reflexivity|]. symmetry. unR. apply Rltb_true. exact Q.
Qed.

(** Two balls that touch each other and the big ball of the ground, and a third ball on the same ground, far from them. *)
Definition three_heap : Rheap := fun i => match i with 1%nat => unit_at 0 0 | 2%nat => unit_at 1 0 | 3%nat => unit_at 10 0 | _ => ground end.
Definition three : Rworld := World three_heap [] [(@Cstr RNum 0%nat 1%nat 100 (1 / 2) 100, JGear gear1); (@Cstr RNum 0%nat 3%nat 100 (1 / 2) 100, JGear gear1)].
Definition three_pairs : list (@pair RNum) := [ball_pair 0 1 20 1; ball_pair 0 3 20 1; ball_pair 1 2 1 1; ball_pair 1 3 1 1; ball_pair 2 3 1 1].
Definition three_given : @given RNum := @Given RNum 10 (1 / 10) (1 / 2) (BB.rvec 0 (-1)) 1 1 1 [1; 2; 3]%nat (fun _ _ => []).
Definition pair12 (i : nat) : bool := Nat.eqb i 1 || Nat.eqb i 2.
Definition the_ground (i : nat) : bool := Nat.eqb i 0.
Lemma three_at i : In i [0; 1; 2; 3]%nat -> tf_apply (b_tf (three_heap i)) (BB.rvec 0 0) = BB.rvec (match i with 2%nat => 1 | 3%nat => 10 | _ => 0 end) 0.
Proof.
  intros [<-|[<-|[<-|[<-|[]]]]]; cbn [three_heap]; rewrite ?ground_is, ?unit_ub; unfold ub; cbn [b_tf]; apply vec_ext; cbn; unR; ring.
Qed.
Lemma three_rest : move_all (N := RNum) 1 [1; 2; 3]%nat three_heap = three_heap.
Proof.
  apply move_rest; intros i; destruct i as [|[|[|[|i]]]]; cbn [three_heap];
    try (rewrite ?ground_is, ?unit_ub; repeat split; fail); unfold ground, unit_at; apply history_coherent.
Qed.
Lemma three_phase l : exists s01 s03 s12, phase three_pairs three_heap l = [s01; s03; s12] /\ s_a s01 = 0%nat /\ s_b s01 = 1%nat /\ s_a s03 = 0%nat /\ s_b s03 = 3%nat /\ s_a s12 = 1%nat /\ s_b s12 = 2%nat.
Proof.
  pose proof (three_at 0%nat ltac:(cbn; auto)) as A0. pose proof (three_at 1%nat ltac:(cbn; auto)) as A1. pose proof (three_at 2%nat ltac:(cbn; auto)) as A2. pose proof (three_at 3%nat ltac:(cbn; auto)) as A3. cbv iota in *.
  destruct (pair_near 0%nat 1%nat 20 1 (three_heap 0%nat) (three_heap 1%nat) (old_arb (ball_pair 0%nat 1%nat 20 1) l) eq_refl) as [s01 E01]. { rewrite A0, A1. unV. cbn. unR. lra. }
  destruct (pair_near 0%nat 3%nat 20 1 (three_heap 0%nat) (three_heap 3%nat) (old_arb (ball_pair 0%nat 3%nat 20 1) l) eq_refl) as [s03 E03]. { rewrite A0, A3. unV. cbn. unR. lra. }
  destruct (pair_near 1%nat 2%nat 1 1 (three_heap 1%nat) (three_heap 2%nat) (old_arb (ball_pair 1%nat 2%nat 1 1) l) eq_refl) as [s12 E12]. { rewrite A1, A2. unV. cbn. unR. lra. }
  pose proof (pair_far 1%nat 3%nat 1 1 (three_heap 1%nat) (three_heap 3%nat) (old_arb (ball_pair 1%nat 3%nat 1 1) l) eq_refl ltac:(rewrite A1, A3; unV; cbn; unR; lra)) as E13.
  pose proof (pair_far 2%nat 3%nat 1 1 (three_heap 2%nat) (three_heap 3%nat) (old_arb (ball_pair 2%nat 3%nat 1 1) l) eq_refl ltac:(rewrite A2, A3; unV; cbn; unR; lra)) as E23.
  exists s01, s03, s12. split.
  - unfold phase, three_pairs. cbn [flat_map]. change (pr_a (ball_pair 0%nat 1%nat 20 1)) with 0%nat. change (pr_b (ball_pair 0%nat 1%nat 20 1)) with 1%nat. change (pr_a (ball_pair 0%nat 3%nat 20 1)) with 0%nat. change (pr_b (ball_pair 0%nat 3%nat 20 1)) with 3%nat.
    change (pr_a (ball_pair 1%nat 2%nat 1 1)) with 1%nat. change (pr_b (ball_pair 1%nat 2%nat 1 1)) with 2%nat. change (pr_a (ball_pair 1%nat 3%nat 1 1)) with 1%nat. change (pr_b (ball_pair 1%nat 3%nat 1 1)) with 3%nat. change (pr_a (ball_pair 2%nat 3%nat 1 1)) with 2%nat. change (pr_b (ball_pair 2%nat 3%nat 1 1)) with 3%nat.
    rewrite E01, E03, E12, E13, E23. reflexivity.
  - destruct (ball_pair_ok _ _ _ _ _ _ _ _ E01), (ball_pair_ok _ _ _ _ _ _ _ _ E03), (ball_pair_ok _ _ _ _ _ _ _ _ E12). auto 10.
Qed.
Lemma one_untouched {N : Num} {T : Trig N} {E : Elem N} P S (i : given) (w : world) : closed_arbs P S (w_arbs w) -> closed_arbs P S (i_arbs i (move_all (i_dt i) (i_dyn i) (w_heap w)) (w_arbs w)) -> untouched P S [i] w.
Proof.
  intros C0 C1. assert (K : closed_arbs P S (w_arbs (step_with w i))).
  { unfold step_with. match goal with |- closed_arbs _ _ (w_arbs (full_step ?n ?s ?b ?g ?d ?dt ?p ?dy ?ar ?w)) => destruct (step_ends n s b g d dt p dy ar w) as [E1 E2] end. exact (closed_ends P S s_a s_b _ _ E1 E2 C1). }
  intros [|k]; [exact C0|]. cbn [firstn fold_left]. destruct k; exact K.
Qed.
Lemma three_closed : closed_arbs pair12 the_ground (phase three_pairs (move_all (N := RNum) 1 [1; 2; 3]%nat three_heap) []).
Proof.
  rewrite three_rest. destruct (three_phase []) as (s01 & s03 & s12 & -> & A1 & B1 & A2 & B2 & A3 & B3).
  intros s [<-|[<-|[<-|[]]]]; unfold own; rewrite ?A1, ?B1, ?A2, ?B2, ?A3, ?B3; cbn; auto; discriminate.
Qed.
Lemma three_untouched : untouched pair12 the_ground [tested three_given three_pairs] three.
Proof. apply one_untouched; [intros s []|]. exact three_closed. Qed.

(** ** Floats: a heavy fast body on the ground makes the velocity of the ground NaN, and then that of the others on it *)
Local Close Scope R_scope.
Local Open Scope float_scope.
Definition fv (x y : PrimFloat.float) : @vec FNum := @V FNum x y.
Definition fbody (m minv idle x y v : PrimFloat.float) : @body FNum :=
  @Body FNum m minv m minv 0 0 0 (fv 0 0) (fv x y) (fv 0 v) (fv 0 0) (@Tf FNum 1 0 0 1 x y) idle (fv 0 0) 0.
Definition stage (v : PrimFloat.float) : @heap FNum := fun i => match i with 1%nat => fbody 0x1p33 0x1p-33 0 0 1 v | 2%nat => fbody 1 1 0 10 1 0 | _ => fbody FMaxFloat 0 FMaxFloat 0 0 0 end.
Definition fcontact (x : PrimFloat.float) : @contact FNum := @Contact FNum (fv x 0) (fv 0 (-1)) 0 0 0 0 0 0 0 0%Z.
Definition farb (b : nat) (x : PrimFloat.float) : @sarb FNum := @SArb FNum 0 b 0 0 (fv 0 0) (fv 0 1) false false false [fcontact x].
Definition falls : @given FNum := @Given FNum 1 0.125 0.125 (fv 0 (-1)) 1 0.0625 0.0625 [1; 2]%nat (fun _ _ => [farb 1 0; farb 2 10]).
Definition fworld (v : PrimFloat.float) : @world FNum := World (N := FNum) (stage v) [] [].
Definition only2 (i : nat) : bool := Nat.eqb i 2.
Lemma fast_nan (T : Trig FNum) (E : Elem FNum) : PrimFloat.is_nan (vy (b_vel (w_heap (step_with (fworld (-0x1p1000)) falls) 2%nat))) = true /\ PrimFloat.is_nan (vy (b_vel (w_heap (step_with (fworld (-1)) falls) 2%nat))) = false.
Proof. split; [vm_cast_no_check (eq_refl true)|vm_cast_no_check (eq_refl false)]. Qed.
Lemma falls_closed : closed_arbs only2 the_ground [farb 1 0; farb 2 10].
Proof. intros s [<-|[<-|[]]]; cbn; auto. Qed.
Lemma fast_same v v' : same_part only2 the_ground (fworld v) (fworld v').
Proof. constructor; cbn [fworld w_heap w_arbs w_joints]; try reflexivity. intros i. unfold seen, only2, the_ground. destruct i as [|[|[|i]]]; cbn; intros; try reflexivity; discriminate. Qed.
Lemma falls_given : same_given only2 the_ground falls falls.
Proof. constructor; reflexivity. Qed.
Lemma float_parts : forall (T : Trig FNum) (E : Elem FNum), exists P S (i : @given FNum) (w w' : @world FNum),
  same_given P S i i /\ same_part P S w w' /\ (forall k, S k = true -> b_minv (w_heap w k) = 0 /\ b_iinv (w_heap w k) = 0) /\ w_joints w = [] /\ w_joints w' = [] /\ untouched P S [i] w /\ untouched P S [i] w' /\
  P 2%nat = true /\ PrimFloat.is_nan (vy (b_vel (w_heap (step_with w i) 2%nat))) = true /\ PrimFloat.is_nan (vy (b_vel (w_heap (step_with w' i) 2%nat))) = false.
Proof.
  intros T E. exists only2, the_ground, falls, (fworld (-0x1p1000)), (fworld (-1)). split; [exact falls_given|]. split; [apply fast_same|]. split.
  { intros k K. unfold the_ground in K. apply Nat.eqb_eq in K. subst. split; reflexivity. }
  split; [reflexivity|]. split; [reflexivity|]. split; [apply one_untouched; [intros s []|exact falls_closed]|]. split; [apply one_untouched; [intros s []|exact falls_closed]|]. split; [reflexivity|]. exact (fast_nan T E).
Qed.
