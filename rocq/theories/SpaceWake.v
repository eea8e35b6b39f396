(** Body.Activate wakes a sleeping group, and Unlock puts back what was woken while the space was locked. *)
From Coq Require Import ZArith List Bool Arith Lia Permutation.
From Verif Require Import Num Space SpaceSpec SpaceInv SpaceMove.
Import ListNotations.
Local Open Scope nat_scope.

Section Wake.
Context {N : Num}.

(* following sleepingNext *)
Inductive chain (nx : nat -> option nat) : nat -> list nat -> Prop :=
| ch_one b : nx b = None -> chain nx b [b]
| ch_more b b' l : nx b = Some b' -> chain nx b' l -> chain nx b (b :: l).
Definition nexts (s : space) (b : nat) : option nat := b_next (s_body s b).
Definition roots (s : space) (b : nat) : option nat := b_root (s_body s b).
Lemma chain_head nx b l : chain nx b l -> In b l. Proof. destruct 1; simpl; auto. Qed.
Lemma chain_ext nx nx' b l : chain nx b l -> (forall y, In y l -> nx y = nx' y) -> chain nx' b l.
Proof.
  induction 1; intros E.
  - constructor. rewrite <- E; simpl; auto.
  - econstructor; [rewrite <- E; simpl; eauto|]. apply IHchain. intros; apply E; simpl; auto.
Qed.
Lemma chain_fun nx b l l' : chain nx b l -> chain nx b l' -> l = l'.
Proof.
  intros H. revert l'. induction H as [b H|b b' l H C IH]; intros l' H'; inversion H'; subst; try congruence; auto.
  rewrite H in *. match goal with E : Some _ = Some _ |- _ => inversion E; subst end. f_equal; auto.
Qed.

Record groups (s : space) : Prop := {
  g_nd : NoDup (s_comps s);
  g_chain : forall r, In r (s_comps s) -> exists l, chain (nexts s) r l /\ NoDup l /\ forall b, In b l <-> roots s b = Some r;
  g_root : forall b r, roots s b = Some r -> In r (s_comps s);
  g_next : forall b, roots s b = None -> nexts s b = None;
  g_rn : NoDup (s_roused s);
  g_rr : forall b, In b (s_roused s) -> roots s b = None }.
Definition closure (s : space) : Prop :=
  forall u v, linked s u v -> parked s u = true -> ty s v = Static \/ (parked s v = true /\ roots s u = roots s v).
Definition kin (s : space) : Prop := forall b, ty s b = Kinematic -> b_idle (s_body s b) = n0.
Record winv (Q : list nat) (s : space) : Prop := {
  w_p : pinv (parked s) Q s; w_cl : closure s; w_g : groups s; w_k : kin s;
  w_l : (0 <= s_lock s)%Z; w_r : s_lock s = 0%Z -> s_roused s = [] }.

Lemma linked_sym P Q s u v : pinv P Q s -> linked s u v -> linked s v u.
Proof.
  intros I [[x [H E]]|[c [H E]]]; [left; exists x|right; exists c]; split; auto; try tauto.
  assert (T := threaded_end _ _ _ _ _ I H). destruct E as [[A B]|[A B]]; subst.
  - apply (ia_s _ _ _ I). auto.
  - exact T.
Qed.
Lemma linked_core s s' u v : core_eq s s' -> linked s u v -> linked s' u v.
Proof.
  intros C [[x [H E]]|[c [H E]]]; [left; exists x|right; exists c].
  - rewrite <- (ce_arb _ _ C), <- (ce_ar _ _ C). auto.
  - rewrite <- (ce_con _ _ C). auto.
Qed.
Lemma ce_type s s' b : core_eq s s' -> ty s' b = ty s b.
Proof. intros C. symmetry. apply (ce_ty _ _ C). Qed.
Lemma parked_eq s s' b : roots s' b = roots s b -> s_roused s' = s_roused s -> parked s' b = parked s b.
Proof. unfold parked, is_sleeping, waiting, roots. intros -> ->. reflexivity. Qed.
Lemma parked_spec s b : parked s b = true <-> roots s b <> None \/ In b (s_roused s).
Proof.
  unfold parked, is_sleeping, waiting, roots. rewrite orb_true_iff, mem_spec.
  destruct (b_root (s_body s b)); intuition congruence.
Qed.
Lemma parked_no s b : parked s b = false <-> roots s b = None /\ ~ In b (s_roused s).
Proof.
  unfold parked, is_sleeping, waiting, roots. rewrite orb_false_iff, mem_false.
  destruct (b_root (s_body s b)); intuition congruence.
Qed.
Lemma sleeping_roots s b : is_sleeping s b = false <-> roots s b = None.
Proof. unfold is_sleeping, roots. destruct (b_root _); intuition congruence. Qed.

(** ** Changes of idle times only *)
Record tame (s s' : space) : Prop := {
  t_core : core_eq s s'; t_lists : lists_eq s s'; t_roots : forall b, roots s' b = roots s b; t_nexts : forall b, nexts s' b = nexts s b;
  t_comps : s_comps s' = s_comps s; t_roused : s_roused s' = s_roused s; t_lock : s_lock s' = s_lock s;
  t_kin : kin s -> kin s' }.
Lemma tame_refl s : tame s s.
Proof. split; auto using core_refl, lists_refl. Qed.
Lemma tame_trans s s' s'' : tame s s' -> tame s' s'' -> tame s s''.
Proof.
  intros [] []; split; try congruence; eauto using core_trans, lists_trans; intros; congruence.
Qed.
Lemma tame_winv Q s s' : tame s s' -> winv Q s -> winv Q s'.
Proof.
  intros [C L R X M U K HK] [I CL G KN WL WR].
  assert (PE : forall b, parked s b = parked s' b) by (intros; symmetry; apply parked_eq; auto).
  split.
  - eapply pinv_ext; [exact PE|]. eapply pinv_core; eauto.
  - intros u v H P. apply (linked_core s' s) in H; [|apply core_sym; auto]. rewrite <- !PE in *. rewrite (ce_type _ _ _ C).
    rewrite !R. apply CL; auto.
  - destruct G as [G1 G2 G3 G4 G5 G6]. split; rewrite ?M, ?U; auto.
    + intros r H. destruct (G2 r H) as [l [A [B D]]]. exists l. split; [|split; auto].
      * eapply chain_ext; eauto.
      * intros b. rewrite R. apply D.
    + intros b r. rewrite R. apply G3.
    + intros b. rewrite R, X. apply G4.
    + intros b. rewrite R. apply G6.
  - auto.
  - rewrite K; auto.
  - rewrite K, U. auto.
Qed.
Lemma upd_core (f : nat -> body) b v : b_type v = b_type (f b) -> b_shapes v = b_shapes (f b) -> b_arbs v = b_arbs (f b) ->
  b_cons v = b_cons (f b) -> b_in v = b_in (f b) ->
  forall y, b_type (f y) = b_type (upd f b v y) /\ b_shapes (f y) = b_shapes (upd f b v y) /\ b_arbs (f y) = b_arbs (upd f b v y) /\
    b_cons (f y) = b_cons (upd f b v y) /\ b_in (f y) = b_in (upd f b v y).
Proof. intros. unfold upd. destruct (Nat.eqb_spec b y); subst; auto 6. Qed.
Lemma set_body_core s b v : b_type v = b_type (s_body s b) -> b_shapes v = b_shapes (s_body s b) -> b_arbs v = b_arbs (s_body s b) ->
  b_cons v = b_cons (s_body s b) -> b_in v = b_in (s_body s b) -> core_eq s (set_body s b v).
Proof. intros. split; auto; intros y; simpl; edestruct (upd_core (s_body s) b v) with (y := y) as [? [? [? [? ?]]]]; eauto. Qed.
Lemma set_body_lists s b v : lists_eq s (set_body s b v). Proof. split; reflexivity. Qed.
Lemma idle_tame s b t : (ty s b = Kinematic -> t = n0) -> tame s (set_body s b (w_idle (s_body s b) t)).
Proof.
  intros K. split; auto using set_body_lists.
  - apply set_body_core; reflexivity.
  - intros y. unfold roots; simpl. unfold upd. destruct (Nat.eqb_spec b y); subst; reflexivity.
  - intros y. unfold nexts; simpl. unfold upd. destruct (Nat.eqb_spec b y); subst; reflexivity.
  - intros H y. unfold ty; simpl. unfold upd. destruct (Nat.eqb_spec b y); subst; simpl; auto.
Qed.
Lemma reset_tame s b : tame s (reset_idle b s).
Proof. unfold reset_idle. destruct (is_type s b Static); [apply tame_refl|apply idle_tame; auto]. Qed.
Lemma resets_tame b l s : tame s (fold_left (fun s x => reset_idle (other_arb s b x) s) l s).
Proof.
  revert s. induction l as [|x l IH]; intros s; simpl; [apply tame_refl|].
  eapply tame_trans; [apply reset_tame|apply IH].
Qed.
(* idle times only go to zero *)
Definition reset_or_same (s s' : space) : Prop := forall y, b_idle (s_body s' y) = b_idle (s_body s y) \/ b_idle (s_body s' y) = n0.
Lemma ros_trans s s' s'' : reset_or_same s s' -> reset_or_same s' s'' -> reset_or_same s s''.
Proof. intros A B y. destruct (A y), (B y); intuition congruence. Qed.
Lemma ros_refl s : reset_or_same s s. Proof. intros y; auto. Qed.
Lemma ros_set s b r n : reset_or_same s (set_body s b (w_sleep (w_idle (s_body s b) n0) r n)).
Proof. intros y. simpl. unfold upd. destruct (Nat.eqb_spec b y); subst; simpl; auto. Qed.
Lemma ros_idle s b : reset_or_same s (set_body s b (w_idle (s_body s b) n0)).
Proof. intros y. simpl. unfold upd. destruct (Nat.eqb_spec b y); subst; simpl; auto. Qed.
Lemma ros_resets b l s : reset_or_same s (fold_left (fun s x => reset_idle (other_arb s b x) s) l s).
Proof.
  revert s. induction l as [|x l IH]; intros s; simpl; [apply ros_refl|].
  eapply ros_trans; [|apply IH]. unfold reset_idle. destruct (is_type _ _ _); [apply ros_refl|apply ros_idle].
Qed.

(** ** The loop over the group *)
Definition minus_l (P : nat -> bool) (l : list nat) : nat -> bool := fun y => P y && negb (mem y l).
(* s' is s with the bodies in l woken *)
Definition woken (s : space) (l : list nat) (s' : space) : Prop :=
  forall y, s_body s' y = if mem y l then w_sleep (w_idle (s_body s y) n0) None None else s_body s y.
Record rest_eq (s s' : space) : Prop := {
  re_shape : s_shape s' = s_shape s; re_arb : s_arb s' = s_arb s; re_con : s_con s' = s_con s;
  re_sta : s_sta s' = s_sta s; re_comps : s_comps s' = s_comps s; re_lock : s_lock s' = s_lock s; re_ids : s_ids s' = s_ids s;
  re_arbc : s_arbc s' = s_arbc s; re_all : s_all s' = s_all s;
  re_arbs : exists l, s_arbs s' = s_arbs s ++ l; re_cons : exists l, s_cons s' = s_cons s ++ l }.
Lemma rest_refl s : rest_eq s s.
Proof. split; auto; exists []; rewrite app_nil_r; auto. Qed.
Lemma rest_trans s s' s'' : rest_eq s s' -> rest_eq s' s'' -> rest_eq s s''.
Proof.
  intros [A1 A2 A3 A4 A5 A6 A7 A8 A9 [la A10] [lc A11]] [B1 B2 B3 B4 B5 B6 B7 B8 B9 [ma B10] [mc B11]].
  split; try congruence; [exists (la ++ ma)|exists (lc ++ mc)]; rewrite app_assoc; congruence.
Qed.
Lemma woken_core s l s' : woken s l s' -> s_shape s' = s_shape s -> s_arb s' = s_arb s -> s_con s' = s_con s -> core_eq s s'.
Proof. intros W A B C. split; auto; intros y; rewrite (W y); destruct (mem y l); reflexivity. Qed.
Lemma mem_cons x y l : mem x (y :: l) = Nat.eqb x y || mem x l. Proof. reflexivity. Qed.

Lemma woken_step s b l s2 s' :
  ~ In b l -> s_body s2 = upd (s_body s) b (w_sleep (w_idle (s_body s b) n0) None None) -> woken s2 l s' -> woken s (b :: l) s'.
Proof.
  intros NI E W y. rewrite (W y), E, mem_cons. unfold upd. rewrite (Nat.eqb_sym y b).
  destruct (Nat.eqb_spec b y); subst; simpl; auto. rewrite (proj2 (mem_false _ _) NI). reflexivity.
Qed.

Lemma wake_unlocked Q l : forall r s P fuel,
  chain (nexts s) r l -> NoDup l -> pinv P Q s -> (forall b, In b l -> P b = true) -> s_lock s = 0%Z -> length l <= fuel ->
  exists s', wake_loop fuel (Some r) s = Some s' /\ pinv (minus_l P l) Q s' /\ woken s l s' /\ rest_eq s s' /\
    s_roused s' = s_roused s /\ s_dyn s' = s_dyn s ++ l.
Proof.
  induction l as [|b l IH]; intros r s P fuel C ND I HP L F; [inversion C|].
  assert (r = b) by (inversion C; auto). subst r.
  destruct fuel as [|fuel]; [simpl in F; lia|]. simpl.
  set (v := w_sleep _ _ _). set (s1 := set_body s b v).
  assert (C1 : core_eq s s1) by (apply set_body_core; reflexivity).
  assert (I1 : pinv P Q s1) by (eapply pinv_core; eauto using set_body_lists).
  destruct (activate_move P Q s1 b I1) as [s2 [E [I2 [FR [XA [XC XD]]]]]]; [apply HP; simpl; auto|exact L|].
  rewrite E. inversion ND as [|? ? NI ND']; subst.
  assert (R2 : rest_eq s s2) by (destruct FR; split; auto).
  assert (B2 : s_body s2 = upd (s_body s) b v) by (rewrite (fr_body _ _ FR); reflexivity).
  assert (PE : forall y, minus_l (minus P b) l y = minus_l P (b :: l) y).
  { intros y. unfold minus_l, minus. rewrite mem_cons. destruct (P y), (y =? b), (mem y l); reflexivity. }
  inversion C as [? H|? b' ? H C']; subst.
  - unfold nexts in H. rewrite H.
    exists s2. split; [destruct fuel; reflexivity|]. split; [eapply pinv_ext; [|exact I2]; intros y; rewrite <- PE; unfold minus_l; simpl; rewrite andb_true_r; auto|].
    split; [|split; [auto|split; [rewrite (fr_roused _ _ FR); reflexivity|auto]]].
    eapply (woken_step s b [] s2); auto. intros y; reflexivity.
  - unfold nexts in H. rewrite H.
    destruct (IH b' s2 (minus P b) fuel) as [s' [E' [I' [W [R' [RR DD]]]]]]; auto.
    + eapply chain_ext; eauto. intros y Y. unfold nexts. rewrite B2, upd_other; auto. intros ->; contradiction.
    + intros y Y. apply minus_t. split; [apply HP; simpl; auto|]. intros ->; contradiction.
    + rewrite (fr_lock _ _ FR). exact L.
    + simpl in F; lia.
    + exists s'. split; auto. split; [eapply pinv_ext; [|exact I']; auto|]. split; [eapply woken_step; eauto|].
      split; [eapply rest_trans; eauto|]. split; [rewrite RR, (fr_roused _ _ FR); reflexivity|].
      rewrite DD, XD. simpl. rewrite <- app_assoc. reflexivity.
Qed.

Lemma wake_locked l : forall r s fuel,
  chain (nexts s) r l -> NoDup l -> s_lock s <> 0%Z -> NoDup (s_roused s) -> length l <= fuel ->
  exists s', wake_loop fuel (Some r) s = Some s' /\ woken s l s' /\ rest_eq s s' /\ lists_eq s s' /\
    NoDup (s_roused s') /\ (forall y, In y (s_roused s') <-> In y (s_roused s) \/ In y l).
Proof.
  induction l as [|b l IH]; intros r s fuel C ND L NR F; [inversion C|].
  assert (r = b) by (inversion C; auto). subst r.
  destruct fuel as [|fuel]; [simpl in F; lia|]. simpl.
  set (v := w_sleep _ _ _). set (s1 := set_body s b v).
  unfold space_activate. replace (negb (s_lock s1 =? 0)%Z) with true by (simpl; destruct (Z.eqb_spec (s_lock s) 0); auto; contradiction).
  set (s2 := if mem b (s_roused s1) then s1 else set_roused s1 (s_roused s1 ++ [b])).
  inversion ND as [|? ? NI ND']; subst.
  assert (R2 : rest_eq s s2 /\ lists_eq s s2 /\ s_body s2 = upd (s_body s) b v).
  { unfold s2. destruct (mem b (s_roused s1)); (split; [|split; [split; reflexivity|reflexivity]]);
      (split; auto; exists []; rewrite app_nil_r; reflexivity). }
  destruct R2 as [R2 [LE B2]].
  assert (RO : NoDup (s_roused s2) /\ forall y, In y (s_roused s2) <-> In y (s_roused s) \/ y = b).
  { unfold s2. destruct (mem b (s_roused s1)) eqn:M; simpl in *.
    - apply mem_spec in M. split; auto. intuition congruence.
    - apply mem_false in M. split; [apply nd_snoc; auto|]. intros y. rewrite in_app_iff. simpl. intuition congruence. }
  destruct RO as [N2 S2].
  inversion C as [? H|? b' ? H C']; subst.
  - unfold nexts in H. rewrite H. exists s2. split; [destruct fuel; reflexivity|].
    split; [eapply (woken_step s b [] s2); auto; intros y; reflexivity|]. split; auto. split; auto. split; auto.
    intros y. rewrite S2. simpl. intuition.
  - unfold nexts in H. rewrite H.
    destruct (IH b' s2 fuel) as [s' [E' [W [R' [LE' [NR' S']]]]]]; auto.
    + eapply chain_ext; eauto. intros y Y. unfold nexts. rewrite B2, upd_other; auto. intros ->; contradiction.
    + rewrite (re_lock _ _ R2). auto.
    + simpl in F; lia.
    + exists s'. split; auto. split; [eapply woken_step; eauto|]. split; [eapply rest_trans; eauto|].
      split; [eapply lists_trans; eauto|]. split; auto. intros y. rewrite S', S2. simpl. intuition.
Qed.
End Wake.
