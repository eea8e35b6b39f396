(** Adding and removing constraints, changing the type of a body and the gravity keep the invariant. *)
From Coq Require Import ZArith List Bool Arith Lia Permutation.
From Verif Require Import Num Space SpaceSpec SpaceInv SpaceMove SpaceWake SpaceActivate SpaceOps SpaceShapes.
Import ListNotations.
Local Open Scope nat_scope.

Section Cons.
Context {N : Num}.

(** ** AddConstraint, RemoveConstraint *)
Lemma wake_two Q s a b : winv Q s -> s_lock s = 0%Z ->
  exists s1 s2, body_activate a s = Some s1 /\ body_activate b s1 = Some s2 /\ winv Q s2 /\ core_eq s s2 /\
    parked s2 a = false /\ parked s2 b = false /\ s_lock s2 = 0%Z.
Proof.
  intros W L. destruct (body_activate_ok Q s a W) as [s1 [E1 [W1 K1]]]. destruct (body_activate_ok Q s1 b W1) as [s2 [E2 [W2 K2]]].
  assert (L1 : s_lock s1 = 0%Z) by (rewrite (k_lock _ _ _ K1); auto).
  exists s1, s2. split; auto. split; auto. split; auto. split; [eapply core_trans; [apply (k_core _ _ _ K1)|apply (k_core _ _ _ K2)]|].
  split; [eapply stays_awake; eauto; exact (after_wake _ _ _ _ W L K1)|]. split; [exact (after_wake _ _ _ _ W1 L1 K2)|].
  rewrite (k_lock _ _ _ K2); auto.
Qed.
Lemma add_constraint_ok s c : winv [] s -> valid (OAddConstraint c) s -> exists s', add_constraint c s = Some s' /\ winv [] s' /\
    (forall y, b_in (s_body s' y) = b_in (s_body s y)) /\ s_shape s' = s_shape s /\
    (forall y, s_con s' y = if Nat.eqb c y then Co (co_a (s_con s c)) (co_b (s_con s c)) (co_collide (s_con s c)) true else s_con s y).
Proof.
  intros W0 [L0 [V1 [V2 [V3 V4]]]]. unfold contains_constraint in V1. unfold add_constraint.
  destruct (wake_two [] s (co_a (s_con s c)) (co_b (s_con s c)) W0 L0) as [s1 [s2 [E1 [E2 [W [C [PA [PB _]]]]]]]]. rewrite E1, E2.
  assert (CI := ce_in _ _ C). assert (CS := ce_shape _ _ C). assert (CC := ce_con _ _ C).
  unfold usable, contains_body, ty in V3, V4. rewrite (ce_ty _ _ C), (ce_in _ _ C), CC in V3, V4. rewrite CC in PA, PB, V1, V2.
  rewrite CC.
  match goal with |- exists s', ?t = _ /\ _ => cut (exists s', t = Some s' /\ winv [] s' /\
    (forall y, b_in (s_body s' y) = b_in (s_body s2 y)) /\ s_shape s' = s_shape s2 /\
    (forall y, s_con s' y = if Nat.eqb c y then Co (co_a (s_con s2 c)) (co_b (s_con s2 c)) (co_collide (s_con s2 c)) true else s_con s2 y)) end.
  { intros [s' [G1 [G2 [G3 [G4 G5]]]]]. exists s'. split; auto. split; auto. split; [intros; rewrite CI; auto|]. split; [congruence|]. auto. }
  clear E1 E2 C CI CS CC W0 L0. clear s s1. rename s2 into s.
  eexists. split; [reflexivity|]. cbv zeta. set (s' := set_con _ _ _).
  set (a := co_a (s_con s c)) in *. set (b := co_b (s_con s c)) in *.
  assert (E1 : forall y, b_cons (s_body s' y) = if Nat.eqb a y || Nat.eqb b y then c :: b_cons (s_body s y) else b_cons (s_body s y)).
  { intros y. unfold s'; simpl. unfold upd. destruct (Nat.eqb_spec b y) as [D|D].
    - subst y. destruct (Nat.eqb_spec a b); [congruence|]. reflexivity.
    - destruct (Nat.eqb_spec a y); subst; reflexivity. }
  assert (E2 : s_cons s' = s_cons s ++ [c]) by reflexivity.
  assert (E3 : forall y, s_con s' y = if Nat.eqb c y then Co a b (co_collide (s_con s c)) true else s_con s y) by reflexivity.
  assert (K1 : forall y, s_body s' y = w_cons (s_body s y) (b_cons (s_body s' y))).
  { intros y. rewrite E1. unfold s'; simpl. unfold upd. destruct (Nat.eqb_spec b y) as [D|D].
    - subst y. destruct (Nat.eqb_spec a b); [congruence|]. reflexivity.
    - destruct (Nat.eqb_spec a y); subst; [reflexivity|]. destruct (s_body s y); reflexivity. }
  assert (F1 : forall y, b_type (s_body s' y) = b_type (s_body s y)) by (intros y; rewrite K1; reflexivity).
  assert (F2 : forall y, b_idle (s_body s' y) = b_idle (s_body s y)) by (intros y; rewrite K1; reflexivity).
  assert (F3 : forall y, b_shapes (s_body s' y) = b_shapes (s_body s y)) by (intros y; rewrite K1; reflexivity).
  assert (F4 : forall y, b_arbs (s_body s' y) = b_arbs (s_body s y)) by (intros y; rewrite K1; reflexivity).
  assert (F5 : forall y, b_in (s_body s' y) = b_in (s_body s y)) by (intros y; rewrite K1; reflexivity).
  assert (F6 : forall y, b_root (s_body s' y) = b_root (s_body s y)) by (intros y; rewrite K1; reflexivity).
  assert (F7 : forall y, b_next (s_body s' y) = b_next (s_body s y)) by (intros y; rewrite K1; reflexivity).
  clear K1. know s' s. clearbody s'. split; [|split; [auto|split; auto]].
  assert (S1 : forall y, co_a (s_con s' y) = co_a (s_con s y)) by (intros; rewrite E3; destruct (Nat.eqb_spec c y); subst; auto).
  assert (S2 : forall y, co_b (s_con s' y) = co_b (s_con s y)) by (intros; rewrite E3; destruct (Nat.eqb_spec c y); subst; auto).
  assert (S3 : forall y, co_in (s_con s' y) = if Nat.eqb c y then true else co_in (s_con s y)) by (intros; rewrite E3; destruct (Nat.eqb_spec c y); subst; auto).
  clear E3.
  assert (COE : forall y, cowner s' y = cowner s y) by (intros; unfold cowner, is_type, ty; xf s'; reflexivity).
  pose proof W as [I CL G KN WL WR].
  assert (CW : parked s (cowner s c) = false) by (destruct (cowner_end s c) as [->| ->]; auto).
  apply (winv_of [] [] s); unfold roots, nexts; auto.
  - split; unfold ty; intros; rewrite ?TE, ?LE, ?OE, ?COE in *.
    all: try solve [xf s'; destruct I; eauto].
    + xf s'. destruct (_ || _); [|apply (ic_n _ _ _ I)]. constructor; [|apply (ic_n _ _ _ I)]. rewrite (ic_e _ _ _ I). intros [? _]; congruence.
    + xf s'. destruct (Nat.eqb_spec c c0) as [D|D].
      * subst c0. fold a b. destruct (Nat.eqb_spec a b0) as [D1|D1], (Nat.eqb_spec b b0) as [D2|D2]; simpl; rewrite ?(ic_e _ _ _ I); fold a b; intuition congruence.
      * destruct (_ || _); simpl; rewrite (ic_e _ _ _ I); [|tauto]. split; [intros [?|?]; [congruence|auto]|auto].
    + xf s'. destruct (Nat.eqb_spec c c0) as [D|D]; [subst c0|]; auto. apply (ic_ne _ _ _ I); auto.
    + xf s'. destruct (Nat.eqb_spec c c0) as [D|D]; [subst c0; auto|]. apply (ic_ha _ _ _ I); auto.
    + xf s'. destruct (Nat.eqb_spec c c0) as [D|D]; [subst c0; auto|]. apply (ic_hb _ _ _ I); auto.
    + xf s'. rewrite in_app_iff, (ic_own _ _ _ I). simpl. destruct (Nat.eqb_spec c c0) as [D|D]; [subst c0|]; intuition congruence.
    + xf s'. apply nd_snoc; [apply (ic_cn _ _ _ I)|]. rewrite (ic_own _ _ _ I). intros [? _]; congruence.
  - intros u v H P. unfold ty. xf s'. destruct H as [[z H]|[d [H1 H2]]].
    + apply CL; auto. left. exists z. xf s'. auto.
    + rewrite S1, S2, S3 in *. destruct (Nat.eqb_spec c d) as [D|D].
      * subst d. fold a b in H2. destruct H2 as [[<- <-]|[<- <-]]; congruence.
      * apply CL; auto. right. exists d. auto.
  - intros y. unfold ty. xf s'. apply KN.
Qed.
Lemma filter_constraints_ok c l : In c l -> filter_constraints c l = Some (remove1 c l).
Proof.
  induction l as [|d l IH]; simpl; [intros []|]. intros H. rewrite (Nat.eqb_sym c d). destruct (Nat.eqb_spec d c); auto.
  rewrite IH; auto. destruct H; [congruence|auto].
Qed.
Lemma remove_constraint_ok s c : winv [] s -> valid (ORemoveConstraint c) s -> exists s', remove_constraint c s = Some s' /\ winv [] s' /\
    (forall y, b_in (s_body s' y) = b_in (s_body s y)) /\ s_shape s' = s_shape s /\
    (forall y, s_con s' y = if Nat.eqb c y then Co (co_a (s_con s c)) (co_b (s_con s c)) (co_collide (s_con s c)) false else s_con s y).
Proof.
  intros W0 [L0 V1]. unfold contains_constraint in V1. unfold remove_constraint.
  destruct (wake_two [] s (co_a (s_con s c)) (co_b (s_con s c)) W0 L0) as [s1 [s2 [E1 [E2 [W [C [PA [PB _]]]]]]]]. rewrite E1, E2.
  assert (CI := ce_in _ _ C). assert (CS := ce_shape _ _ C). assert (CC := ce_con _ _ C). rewrite CC in PA, PB, V1.
  rewrite CC.
  match goal with |- exists s', ?t = _ /\ _ => cut (exists s', t = Some s' /\ winv [] s' /\
    (forall y, b_in (s_body s' y) = b_in (s_body s2 y)) /\ s_shape s' = s_shape s2 /\
    (forall y, s_con s' y = if Nat.eqb c y then Co (co_a (s_con s2 c)) (co_b (s_con s2 c)) (co_collide (s_con s2 c)) false else s_con s2 y)) end.
  { intros [s' [G1 [G2 [G3 [G4 G5]]]]]. exists s'. split; auto. split; auto. split; [intros; rewrite CI; auto|]. split; [congruence|]. auto. }
  clear E1 E2 C CI CS CC W0 L0. clear s s1. rename s2 into s.
  pose proof W as [I CL G KN WL WR].
  set (a := co_a (s_con s c)) in *. set (b := co_b (s_con s c)) in *.
  assert (AB : a <> b) by (apply (ic_ne _ _ _ I); auto).
  unfold body_remove_constraint at 1. simpl s_body. rewrite filter_constraints_ok by (rewrite (ic_e _ _ _ I); auto).
  unfold body_remove_constraint. simpl s_body. rewrite upd_other by auto. rewrite filter_constraints_ok by (rewrite (ic_e _ _ _ I); auto).
  eexists. split; [reflexivity|]. set (s' := set_con _ _ _).
  assert (E1 : forall y, b_cons (s_body s' y) = if Nat.eqb a y || Nat.eqb b y then remove1 c (b_cons (s_body s y)) else b_cons (s_body s y)).
  { intros y. unfold s'; simpl. unfold upd. destruct (Nat.eqb_spec b y) as [D|D].
    - subst y. destruct (Nat.eqb_spec a b); [congruence|]. reflexivity.
    - destruct (Nat.eqb_spec a y); subst; reflexivity. }
  assert (E2 : s_cons s' = remove1 c (s_cons s)) by reflexivity.
  assert (E3 : forall y, s_con s' y = if Nat.eqb c y then Co a b (co_collide (s_con s c)) false else s_con s y) by reflexivity.
  assert (K1 : forall y, s_body s' y = w_cons (s_body s y) (b_cons (s_body s' y))).
  { intros y. rewrite E1. unfold s'; simpl. unfold upd. destruct (Nat.eqb_spec b y) as [D|D].
    - subst y. destruct (Nat.eqb_spec a b); [congruence|]. reflexivity.
    - destruct (Nat.eqb_spec a y); subst; [reflexivity|]. destruct (s_body s y); reflexivity. }
  assert (F1 : forall y, b_type (s_body s' y) = b_type (s_body s y)) by (intros y; rewrite K1; reflexivity).
  assert (F2 : forall y, b_idle (s_body s' y) = b_idle (s_body s y)) by (intros y; rewrite K1; reflexivity).
  assert (F3 : forall y, b_shapes (s_body s' y) = b_shapes (s_body s y)) by (intros y; rewrite K1; reflexivity).
  assert (F4 : forall y, b_arbs (s_body s' y) = b_arbs (s_body s y)) by (intros y; rewrite K1; reflexivity).
  assert (F5 : forall y, b_in (s_body s' y) = b_in (s_body s y)) by (intros y; rewrite K1; reflexivity).
  assert (F6 : forall y, b_root (s_body s' y) = b_root (s_body s y)) by (intros y; rewrite K1; reflexivity).
  assert (F7 : forall y, b_next (s_body s' y) = b_next (s_body s y)) by (intros y; rewrite K1; reflexivity).
  clear K1. know s' s. clearbody s'. split; [|split; [auto|split; auto]].
  assert (S1 : forall y, co_a (s_con s' y) = co_a (s_con s y)) by (intros; rewrite E3; destruct (Nat.eqb_spec c y); subst; auto).
  assert (S2 : forall y, co_b (s_con s' y) = co_b (s_con s y)) by (intros; rewrite E3; destruct (Nat.eqb_spec c y); subst; auto).
  assert (S3 : forall y, co_in (s_con s' y) = if Nat.eqb c y then false else co_in (s_con s y)) by (intros; rewrite E3; destruct (Nat.eqb_spec c y); subst; auto).
  clear E3.
  assert (COE : forall y, cowner s' y = cowner s y) by (intros; unfold cowner, is_type, ty; xf s'; reflexivity).
  apply (winv_of [] [] s); unfold roots, nexts; auto.
  - split; unfold ty; intros; rewrite ?TE, ?LE, ?OE, ?COE in *.
    all: try solve [xf s'; destruct I; eauto].
    + xf s'. destruct (_ || _); try apply remove1_nd; apply (ic_n _ _ _ I).
    + xf s'. destruct (Nat.eqb_spec c c0) as [D|D].
      * subst c0. split; [|intros [? _]; discriminate].
        destruct (Nat.eqb_spec a b0) as [D1|D1], (Nat.eqb_spec b b0) as [D2|D2]; simpl; rewrite ?remove1_spec, ?(ic_e _ _ _ I) by apply (ic_n _ _ _ I); fold a b; intuition congruence.
      * destruct (_ || _); simpl; rewrite ?remove1_spec, ?(ic_e _ _ _ I) by apply (ic_n _ _ _ I); intuition congruence.
    + xf s'. destruct (Nat.eqb_spec c c0) as [D|D]; [discriminate|]. apply (ic_ne _ _ _ I); auto.
    + xf s'. destruct (Nat.eqb_spec c c0) as [D|D]; [discriminate|]. apply (ic_ha _ _ _ I); auto.
    + xf s'. destruct (Nat.eqb_spec c c0) as [D|D]; [discriminate|]. apply (ic_hb _ _ _ I); auto.
    + xf s'. rewrite remove1_spec, (ic_own _ _ _ I) by apply (ic_cn _ _ _ I). destruct (Nat.eqb_spec c c0) as [D|D]; intuition congruence.
    + xf s'. apply remove1_nd, (ic_cn _ _ _ I).
  - intros u v H P. unfold ty. xf s'. apply CL; auto. destruct H as [[z H]|[d [H1 H2]]]; [left; exists z|right; exists d]; xf s'; auto.
    destruct (c =? d); [discriminate|auto].
  - intros y. unfold ty. xf s'. apply KN.
Qed.

(** ** SetGravity *)
Lemma gravity_loop_ok Q n : forall k arr s, winv Q s -> exists s', gravity_loop n k arr s = Some s' /\ winv Q s' /\ core_eq s s'.
Proof.
  induction n as [|n IH]; intros k arr s W; simpl; [exists s; auto using core_refl|].
  destruct (nth_error arr k) as [r|]; [|exists s; auto using core_refl].
  destruct (body_activate_ok Q s r W) as [s1 [E [W1 K]]]. rewrite E.
  destruct (IH (S k) (s_comps s1 ++ skipn (length (s_comps s1)) arr) s1 W1) as [s2 [E2 [W2 C2]]]. exists s2. split; auto. split; auto.
  eapply core_trans; [apply (k_core _ _ _ K)|auto].
Qed.
End Cons.
