(** AddBodyWithShapes (space.go:314-319) adds the body and all its shapes. *)
From Coq Require Import ZArith List Bool Arith Lia Permutation.
From Verif Require Import Num Space SpaceSpec SpaceInv SpaceMove SpaceWake SpaceActivate SpaceOps SpaceShapes SpaceCons SpaceType.
From Verif Require Import SpaceFlood SpaceSleep SpaceStep SpaceProcess SpaceMain SpaceMore NumFloat SpaceRuns.
Import ListNotations.
Local Open Scope nat_scope.

Section Add.
Context {N : Num}.
Lemma add_shape_frame x s s' : winv [] s -> add_shape x s = Some s' ->
  s_lock s' = s_lock s /\ forall b, b_shapes (s_body s' b) = b_shapes (s_body s b).
Proof.
  intros W. unfold add_shape. intros E. destruct (if is_type _ _ _ then _ else _) as [s1|] eqn:A in E; [|discriminate].
  assert (H : s_lock s1 = s_lock s /\ forall b, b_shapes (s_body s1 b) = b_shapes (s_body s b)).
  { destruct (is_type _ _ _); [inversion A; auto|]. destruct (body_activate_ok [] s (sh_body (s_shape s x)) W) as [s2 [E1 [_ K]]].
    assert (s2 = s1) by congruence. subst s2. split; [apply (k_lock _ _ _ K)|]. intros b. symmetry. apply (ce_sh _ _ (k_core _ _ _ K)). }
  destruct H as [H1 H2].
  destruct (is_type _ _ _); destruct (ix_insert _ _); inversion E; subst; cbn; auto.
Qed.
Lemma add_each b : forall l s, reachable s -> s_lock s = 0%Z -> contains_body s b = true -> NoDup l -> incl l (b_shapes (s_body s b)) ->
  (forall x, In x l -> contains_shape s x = false) ->
  exists s', ofold add_shape l s = Some s' /\ reachable s' /\ (forall y, contains_body s' y = contains_body s y) /\
    (forall x, contains_shape s' x = true <-> contains_shape s x = true \/ In x l).
Proof.
  induction l as [|x l IH]; intros s R L B ND I A.
  - exists s. split; [reflexivity|]. split; [exact R|]. split; [auto|]. intros x. simpl. tauto.
  - inversion ND as [|? ? NX ND']; subst. destruct (shapes_attached s b R) as [_ SB].
    assert (XB : sh_body (s_shape s x) = b) by (apply SB, I; simpl; auto).
    assert (V : valid (OAddShape x) s).
    { split; [exact L|]. split; [apply A; simpl; auto|]. rewrite XB. split; [apply I; simpl; auto|]. right. exact B. }
    destruct (no_panic s _ R V) as [s1 [E1 R1]]. simpl in E1. pose proof (reachable_ok s R) as W.
    destruct (add_shape_frame x s s1 W E1) as [L1 S1]. destruct (add_shape_ok s x W V) as [s2 [E2 [_ [B2 [S2 _]]]]].
    assert (s2 = s1) by congruence. subst s2. rewrite ofold_cons, E1.
    destruct (IH s1 R1) as [s' [E' [R' [B' S']]]].
    + congruence.
    + unfold contains_body in *. rewrite B2. exact B.
    + exact ND'.
    + intros y Y. rewrite S1. apply I. simpl; auto.
    + intros y Y. unfold contains_shape in *. rewrite S2. destruct (Nat.eqb_spec x y) as [->|D]; [tauto|]. apply A. simpl; auto.
    + exists s'. split; [exact E'|]. split; [exact R'|]. split; [intros y; rewrite B'; unfold contains_body; apply B2|].
      intros y. rewrite S'. unfold contains_shape. rewrite S2. simpl. destruct (Nat.eqb_spec x y) as [->|D]; simpl; intuition congruence.
Qed.
Lemma add_with_shapes s b : reachable s -> s_lock s = 0%Z -> contains_body s b = false ->
  (forall x, In x (b_shapes (s_body s b)) -> contains_shape s x = false) ->
  exists s', add_body_with_shapes b s = Some s' /\ reachable s' /\
    contains_body s' b = true /\ (forall y, y <> b -> contains_body s' y = contains_body s y) /\
    (forall x, contains_shape s' x = true <-> contains_shape s x = true \/ In x (b_shapes (s_body s b))).
Proof.
  intros R L B A. assert (V : valid (OAddBody b) s) by (split; auto).
  destruct (no_panic s _ R V) as [s1 [E1 R1]]. simpl in E1. inversion E1 as [E]. clear E1.
  assert (E8 : forall y, contains_body s1 y = if Nat.eqb b y then true else contains_body s y).
  { intros y. rewrite <- E. unfold contains_body, add_body, set_body, set_all, set_lists, upd; simpl. destruct (is_type s b Static); simpl; destruct (Nat.eqb_spec b y); subst; reflexivity. }
  assert (E9 : forall y, b_shapes (s_body s1 y) = b_shapes (s_body s y)).
  { intros y. rewrite <- E. unfold add_body, set_body, set_all, set_lists, upd; simpl. destruct (is_type s b Static); simpl; destruct (Nat.eqb_spec b y); subst; reflexivity. }
  assert (E10 : s_lock s1 = 0%Z) by (rewrite <- E, <- L; unfold add_body; destruct (is_type s b Static); reflexivity).
  assert (E11 : forall x, contains_shape s1 x = contains_shape s x) by (intros x; rewrite <- E; unfold add_body; destruct (is_type s b Static); reflexivity).
  destruct (shapes_attached s b R) as [ND _].
  destruct (add_each b (b_shapes (s_body s b)) s1 R1 E10) as [s' [Es [R' [B' S']]]].
  - rewrite E8, Nat.eqb_refl. reflexivity.
  - exact ND.
  - rewrite E9. apply incl_refl.
  - intros x X. rewrite E11. auto.
  - exists s'. split; [unfold add_body_with_shapes; rewrite E; exact Es|]. split; [exact R'|].
    split; [rewrite B', E8, Nat.eqb_refl; reflexivity|]. split.
    + intros y Y. rewrite B', E8. destruct (Nat.eqb_spec b y); [congruence|reflexivity].
    + intros x. rewrite S', E11. tauto.
Qed.
End Add.

(* a body with two shapes, not yet in the space *)
Lemma ex_add_two : exists s : @space FNum, reachable s /\ s_lock s = 0%Z /\ contains_body s 0 = false /\ b_shapes (s_body s 0) = [0; 1] /\
  contains_shape s 0 = false /\ contains_shape s 1 = false.
Proof.
  destruct (sees_ex (runb [OAttach 0; OAttach 1] (space0 (N := FNum) (tyf []) (fun _ => 0) (fun _ => Co 0 0 false false)))
    (fun s => (s_lock s =? 0)%Z && negb (contains_body s 0) && (if list_eq_dec Nat.eq_dec (b_shapes (s_body s 0)) [0; 1] then true else false) && negb (contains_shape s 0) && negb (contains_shape s 1))) as [s [E H]]; [vm_compute; reflexivity|].
  repeat (apply andb_true_iff in H; destruct H as [H ?]). exists s. split; [eapply runb_reachable; exact E|]. split; [apply Z.eqb_eq; auto|].
  split; [apply negb_true_iff; auto|]. split; [destruct (list_eq_dec _ _ _); [auto|discriminate]|]. split; apply negb_true_iff; auto.
Qed.
