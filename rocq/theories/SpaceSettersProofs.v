(** What the setters of joints do to the space. *)
From Coq Require Import ZArith List Bool Arith Lia.
From Verif Require Import Num Space SpaceSpec SpaceInv SpaceMove SpaceWake SpaceActivate SpaceMain SpaceSetters NumFloat SpaceRuns.
Import ListNotations.
Local Open Scope nat_scope.
Section Setters.
Context {N : Num}.
Lemma touch_full s b : reachable s -> exists s', body_activate b s = Some s' /\ reachable s' /\ s_con s' = s_con s /\ s_lock s' = s_lock s /\
  (forall y, contains_body s' y = contains_body s y) /\
  (forall y, group s y = group s b -> group s' y = None) /\ (forall y, group s y <> group s b -> group s' y = group s y).
Proof.
  intros R. destruct (no_panic s (OTouch b) R I) as [s' [E R']]. simpl in E. destruct (body_activate_ok [] s b (reachable_ok s R)) as [s1 [E1 [_ K]]].
  assert (s1 = s') by congruence. subst s1. exists s'. split; [exact E|]. split; [exact R'|]. split; [symmetry; apply (ce_con _ _ (k_core _ _ _ K))|].
  split; [apply (k_lock _ _ _ K)|]. split; [intros y; symmetry; apply (ce_in _ _ (k_core _ _ _ K))|]. split.
  - intros y H. destruct (group s b) as [r|] eqn:G.
    + apply (k_in _ _ _ K). split; unfold roots; unfold group in *; congruence.
    + destruct (k_out _ _ _ K y) as [O _]; [|unfold roots in O; unfold group in *; congruence]. intros [H1 H2]. unfold roots in *. unfold group in *. congruence.
  - intros y H. destruct (k_out _ _ _ K y) as [O _]; [|exact O]. intros [H1 H2]. apply H. exact H2.
Qed.
Lemma sleeping_group_iff s b : is_sleeping s b = false <-> group s b = None.
Proof. unfold is_sleeping, group. destruct (b_root _); split; congruence. Qed.
Lemma activate_bodies_ok s c : reachable s -> exists s', activate_bodies c s = Some s' /\ reachable s' /\ s_con s' = s_con s /\ s_lock s' = s_lock s /\
  (forall y, contains_body s' y = contains_body s y) /\
  (forall y, group s y = group s (co_a (s_con s c)) \/ group s y = group s (co_b (s_con s c)) -> is_sleeping s' y = false) /\
  (forall y, group s y <> group s (co_a (s_con s c)) -> group s y <> group s (co_b (s_con s c)) -> group s' y = group s y).
Proof.
  intros R. set (a := co_a _). set (b := co_b _). destruct (touch_full s a R) as [s1 [E1 [R1 [C1 [L1 [B1 [I1 O1]]]]]]].
  destruct (touch_full s1 b R1) as [s2 [E2 [R2 [C2 [L2 [B2 [I2 O2]]]]]]]. exists s2. unfold activate_bodies. fold a b. rewrite E1.
  split; [exact E2|]. split; [exact R2|]. split; [congruence|]. split; [congruence|]. split; [intros; congruence|].
  assert (D : forall x y : option nat, {x = y} + {x <> y}) by (decide equality; apply Nat.eq_dec).
  assert (Z : forall y, group s1 y = None -> group s2 y = None).
  { intros y H. destruct (D (group s1 y) (group s1 b)) as [e|n]; [auto|]. rewrite O2; auto. }
  split.
  - intros y H. apply sleeping_group_iff. destruct (D (group s y) (group s a)) as [e|n]; [apply Z, I1, e|]. destruct H as [H|H]; [contradiction|].
    apply I2. rewrite !O1 by congruence. exact H.
  - intros y H K. assert (group s1 y = group s y) as G by (apply O1, H). destruct (D (group s1 y) (group s1 b)) as [e|n]; [|rewrite O2; auto].
    rewrite (I2 _ e). destruct (D (group s b) (group s a)) as [e2|n2]; [|rewrite (O1 b n2), G in e; contradiction].
    rewrite (I1 _ e2) in e. congruence.
Qed.
Lemma set_collide_ok s c v : reachable s -> exists s', set_collide_bodies c v s = Some s' /\
  (forall y, group s y = group s (co_a (s_con s c)) \/ group s y = group s (co_b (s_con s c)) -> is_sleeping s' y = false) /\
  (forall y, group s y <> group s (co_a (s_con s c)) -> group s y <> group s (co_b (s_con s c)) -> group s' y = group s y) /\
  (s_lock s = 0%Z -> contains_constraint s c = true -> In c (s_cons s')) /\
  forall x y, query_reject_constraints s' x y = true <->
    exists d, contains_constraint s d = true /\ (if Nat.eqb d c then v else co_collide (s_con s d)) = false /\
      ((co_a (s_con s d) = x /\ co_b (s_con s d) = y) \/ (co_a (s_con s d) = y /\ co_b (s_con s d) = x)).
Proof.
  intros R. destruct (activate_bodies_ok s c R) as [s1 [E [R1 [C1 [L1 [B1 [I1 O1]]]]]]]. unfold set_collide_bodies. rewrite E.
  eexists. split; [reflexivity|]. split; [exact I1|]. split; [exact O1|]. split.
  - intros L IC. cbn. destruct (constraints_listed s1 c R1) as [_ Q]; [congruence|]. apply Q. unfold contains_constraint in *. rewrite C1.
    split; [exact IC|]. split; apply I1; auto.
  - intros x y. destruct (constraint_lists s1 x R1) as [_ Q]. unfold query_reject_constraints. rewrite existsb_exists. cbn [s_con s_body set_con]. rewrite C1.
    unfold contains_constraint in *. rewrite C1 in Q. unfold upd. split.
    + intros [d [H1 H2]]. apply Q in H1. exists d. rewrite (Nat.eqb_sym d c). destruct (Nat.eqb_spec c d) as [<-|n]; cbn in H2 |- *;
        rewrite andb_true_iff, negb_true_iff, orb_true_iff, !andb_true_iff, !Nat.eqb_eq in H2; tauto.
    + intros [d [H1 [H2 H3]]]. exists d. split; [apply Q; split; [exact H1|tauto]|]. rewrite (Nat.eqb_sym d c) in H2. destruct (Nat.eqb_spec c d) as [<-|n]; cbn in H2 |- *;
        rewrite andb_true_iff, negb_true_iff, orb_true_iff, !andb_true_iff, !Nat.eqb_eq; tauto.
Qed.
End Setters.
#[local] Existing Instance FNum.
Lemma ex_set_collide : exists s s' : space, reachable s /\ s_lock s = 0%Z /\ contains_constraint s 0 = true /\ set_collide_bodies 0 true s = Some s' /\
  map (is_sleeping s) [1; 2] = [true; true] /\ map (is_sleeping s') [1; 2] = [false; false] /\
  query_reject_constraints s 1 2 = true /\ query_reject_constraints s' 1 2 = false.
Proof.
  destruct (sees_ex (runb piled_h piled0) (fun s => (s_lock s =? 0)%Z && contains_constraint s 0 && is_sleeping s 1 && is_sleeping s 2 && query_reject_constraints s 1 2 &&
    sees (set_collide_bodies 0 true s) (fun s' => negb (is_sleeping s' 1) && negb (is_sleeping s' 2) && negb (query_reject_constraints s' 1 2)))) as [s [E H]]; [vm_compute; reflexivity|].
  repeat (apply andb_true_iff in H; destruct H as [H ?]). apply sees_ex in H0. destruct H0 as [s' [E' F]].
  repeat (apply andb_true_iff in F; destruct F as [F ?]). apply negb_true_iff in F, H0, H5. apply Z.eqb_eq in H.
  exists s, s'. split; [eapply runb_reachable; exact E|]. cbn [map]. repeat split; congruence.
Qed.
