(** Concrete spaces: a checker for the rules, and runs that show what the theorems are about and where the code goes wrong. *)
From Coq Require Import ZArith List Bool Arith Lia.
From Verif Require Import Num NumFloat Space SpaceSpec SpaceInv SpaceMove SpaceWake SpaceActivate SpaceOps SpaceShapes SpaceCons SpaceType.
From Verif Require Import SpaceFlood SpaceSleep SpaceStep SpaceProcess SpaceMain SpaceMore.
Import ListNotations.
Local Open Scope nat_scope.

Section Check.
Context {N : Num}.
Definition same_twob (a b c d : nat) : bool := ((a =? c) && (b =? d)) || ((a =? d) && (b =? c)).
Fixpoint eventsb (s : space) (l : list event) : bool :=
  match l with
  | [] => true
  | Touches b :: l => negb (is_sleeping s b) && eventsb s l
  | Collides sa sb _ :: l =>
    contains_shape s sa && contains_shape s sb && negb (sh_body (s_shape s sa) =? sh_body (s_shape s sb)) &&
    negb (is_type s (sh_body (s_shape s sa)) Static) && negb (is_sleeping s (sh_body (s_shape s sa))) &&
    forallb (fun e => match e with Collides c d _ => negb (same_twob sa sb c d) | _ => true end) l && eventsb s l
  end.
Definition usableb (s : space) (b : nat) : bool := is_type s b Static || contains_body s b.
Definition noshapeb (s : space) (b : nat) : bool := forallb (fun x => negb (contains_shape s x)) (b_shapes (s_body s b)).
Definition allshapeb (s : space) (b : nat) : bool := forallb (contains_shape s) (b_shapes (s_body s b)).
Definition noconb (s : space) (b : nat) : bool := match b_cons (s_body s b) with [] => true | _ => false end.
Definition validb (o : op) (s : space) : bool :=
  match o with
  | OAttach x => negb (mem x (b_shapes (s_body s (sh_body (s_shape s x))))) && negb (parked s (sh_body (s_shape s x)))
  | OAddBody b => (s_lock s =? 0)%Z && negb (contains_body s b)
  | ORemoveBody b => (s_lock s =? 0)%Z && contains_body s b && noshapeb s b && noconb s b
  | OAddShape x => (s_lock s =? 0)%Z && negb (contains_shape s x) && mem x (b_shapes (s_body s (sh_body (s_shape s x)))) && usableb s (sh_body (s_shape s x))
  | ORemoveShape x => (s_lock s =? 0)%Z && contains_shape s x
  | OAddConstraint c => (s_lock s =? 0)%Z && negb (contains_constraint s c) && negb (co_a (s_con s c) =? co_b (s_con s c)) && usableb s (co_a (s_con s c)) && usableb s (co_b (s_con s c))
  | ORemoveConstraint c => (s_lock s =? 0)%Z && contains_constraint s c
  | OSetType b t => (s_lock s =? 0)%Z && negb (is_sleeping s b) &&
                    ((contains_body s b && allshapeb s b) || (negb (contains_body s b) && noshapeb s b && noconb s b)) &&
                    (negb (is_type s b Static) || forallb (fun v => negb (is_sleeping s v)) (neighbours s b))
  | OTouch _ | OTouchStatic _ _ | OGravity | OLock => true
  | OUnlock => (0 <? s_lock s)%Z
  | OStep thr dt fast evs old late =>
    (s_lock s =? 0)%Z && eventsb s evs &&
    match thr with
    | None => match s_comps s with [] => true | _ => false end
    | Some t => nltb n0 t && forallb (fun b => negb (is_type s b Dynamic) || allshapeb s b) (s_all s)
    end
  end.
Lemma eventsb_ok s l : eventsb s l = true -> events_ok s l.
Proof.
  induction l as [|[sa sb acc|b] l IH]; simpl; intros H; constructor; repeat (apply andb_true_iff in H; destruct H as [H ?]); auto.
  all: try (apply negb_true_iff; auto).
  - match goal with X : negb (_ =? _) = true |- _ => apply negb_true_iff, Nat.eqb_neq in X; auto end.
  - apply is_type_f. apply negb_true_iff. auto.
  - intros c d acc' I. match goal with X : forallb _ l = true |- _ => rewrite forallb_forall in X; specialize (X _ I); cbv beta iota in X; apply negb_true_iff in X; rename X into F end.
    intros [[-> ->]|[-> ->]]; unfold same_twob in F; rewrite !Nat.eqb_refl in F; simpl in F; rewrite ?orb_true_r in F; discriminate.
Qed.
Lemma usableb_ok s b : usableb s b = true -> usable s b.
Proof. unfold usableb, usable. intros H. apply orb_true_iff in H. destruct H; auto. left. apply is_type_t. auto. Qed.
Lemma noshapeb_ok s b : noshapeb s b = true -> no_shape_in s b.
Proof. unfold noshapeb, no_shape_in. intros H x X. rewrite forallb_forall in H. apply H in X. apply negb_true_iff; auto. Qed.
Lemma allshapeb_ok s b : allshapeb s b = true -> forall x, In x (b_shapes (s_body s b)) -> contains_shape s x = true.
Proof. unfold allshapeb. intros H x X. rewrite forallb_forall in H. apply H in X. auto. Qed.
Lemma noconb_ok s b : winv [] s -> noconb s b = true -> no_con_in s b.
Proof.
  unfold noconb, no_con_in. intros W H c C. destruct (b_cons (s_body s b)) eqn:E; [|discriminate].
  assert (X : ~ In c (b_cons (s_body s b))) by (rewrite E; simpl; auto). rewrite (ic_e _ _ _ (w_p _ _ W)) in X. unfold contains_constraint in C. split; intros <-; apply X; auto.
Qed.
Lemma validb_ok o s : winv [] s -> validb o s = true -> valid o s.
Proof.
  intros W H. destruct o; simpl in *; auto; repeat (apply andb_true_iff in H; destruct H as [H ?]);
  repeat match goal with
  | X : (s_lock _ =? 0)%Z = true |- _ => apply Z.eqb_eq in X
  | X : negb _ = true |- _ => apply negb_true_iff in X
  | X : (_ =? _) = false |- _ => apply Nat.eqb_neq in X
  | X : usableb _ _ = true |- _ => apply usableb_ok in X
  | X : noshapeb _ _ = true |- _ => apply noshapeb_ok in X
  | X : noconb _ _ = true |- _ => apply noconb_ok in X; auto
  | X : mem _ _ = true |- _ => apply mem_in in X
  end; auto.
  - split; auto. intros I. apply mem_in in I. congruence.
  - split; auto. split; auto. split.
    + match goal with X : contains_body _ _ && _ || _ = true |- _ => apply orb_true_iff in X; destruct X as [X|X] end; repeat (match goal with X : _ && _ = true |- _ => apply andb_true_iff in X; destruct X as [? ?] end).
      * left. split; auto. apply allshapeb_ok; auto.
      * right. split; [apply negb_true_iff; auto|]. split; [apply noshapeb_ok; auto|apply noconb_ok; auto].
    + intros S v L. match goal with X : negb (is_type _ _ _) || _ = true |- _ => rewrite (proj2 (is_type_t _ _ _) S) in X; simpl in X; rewrite forallb_forall in X; specialize (X v) end.
      apply negb_true_iff. apply H0. eapply neighbours_linked; eauto. apply (w_p _ _ W).
  - apply Z.ltb_lt in H. auto.
  - split; auto. split; [apply eventsb_ok; auto|]. destruct thr.
    + apply andb_true_iff in H0. destruct H0 as [A B]. split; auto. intros b x B1 D X. rewrite forallb_forall in B.
      apply (ib_all _ _ _ (w_p _ _ W)) in B1. apply B in B1. rewrite (proj2 (is_type_t _ _ _) D) in B1. simpl in B1. eapply allshapeb_ok; eauto.
    + intros b. destruct (s_comps s) eqn:E; [|discriminate]. apply sleeping_roots. destruct (roots s b) eqn:F; auto. apply (g_root _ (w_g _ _ W)) in F. rewrite E in F. destruct F.
Qed.
Fixpoint runb (h : list op) (s : space) : option space :=
  match h with
  | [] => Some s
  | o :: h => if validb o s then match sstep o s with Some s => runb h s | None => None end else None
  end.
Lemma runb_ok h : forall s s', winv [] s -> runb h s = Some s' -> valid_run h s /\ srun h s = Some s'.
Proof.
  induction h as [|o h IH]; intros s s' W E; simpl in E; [inversion E; split; [constructor|reflexivity]|].
  destruct (validb o s) eqn:V; [|discriminate]. apply validb_ok in V; auto. destruct (sstep_ok o s W V) as [s1 [E1 [W1 _]]]. rewrite E1 in E.
  destruct (IH s1 s' W1 E) as [A B]. split; [constructor; auto; intros; congruence|]. unfold srun. rewrite ofold_cons, E1. exact B.
Qed.
Lemma runb_reachable tys sb cn h s : runb h (space0 tys sb cn) = Some s -> reachable s.
Proof. intros E. apply runb_ok in E; [|apply space0_ok]. destruct E. exists tys, sb, cn, h. auto. Qed.
(* to look at a state without writing it down *)
Definition sees (s : option space) (f : space -> bool) : bool := match s with Some s => f s | None => false end.
Lemma sees_ex o f : sees o f = true -> exists s, o = Some s /\ f s = true.
Proof. destruct o; simpl; [eauto|discriminate]. Qed.
Lemma sees_none o : negb (sees o (fun _ => true)) = true -> o = None.
Proof. destruct o; simpl; [discriminate|auto]. Qed.
Lemma sees_some o : sees o (fun _ => true) = true -> o <> None.
Proof. destruct o; simpl; discriminate. Qed.
End Check.

(** ** Runs *)
Local Existing Instance FNum.
Definition tyf (l : list btype) (b : nat) : btype := nth b l Dynamic.
Definition still : nat -> bool := fun _ => false.
Definition sleepy (evs : list event) (old : nat -> bool) : op := OStep (Some nhalf) n1 still evs old [].
(* three bodies without shapes, each a group of its own *)
Definition three_h : list op := [OAddBody 0; OAddBody 1; OAddBody 2; sleepy [] still].
Lemma gravity_misses : exists (s s' : space) b, reachable s /\ s_lock s = 0%Z /\ sstep OGravity s = Some s' /\ contains_body s' b = true /\ is_sleeping s' b = true.
Proof.
  destruct (sees_ex (runb three_h (space0 (tyf []) (fun x => x) (fun _ => Co 0 0 false false))) (fun s => (s_lock s =? 0)%Z && sees (sstep OGravity s) (fun s' => contains_body s' 1 && is_sleeping s' 1))) as [s [E H]]; [vm_compute; reflexivity|].
  apply andb_true_iff in H. destruct H as [L H]. apply sees_ex in H. destruct H as [s' [E' H]]. apply andb_true_iff in H. exists s, s', 1.
  split; [eapply runb_reachable; exact E|]. split; [apply Z.eqb_eq; auto|]. split; auto.
Qed.
(* the ground 0, the boxes 1 and 2 on it, 2 hinged to 1: they fall asleep together; 3 is awake because it moves *)
Definition piled_h : list op :=
  [OAttach 0; OAttach 1; OAttach 2; OAttach 3; OAddBody 0; OAddBody 1; OAddBody 2; OAddBody 3; OAddShape 0; OAddShape 1; OAddShape 2; OAddShape 3; OAddConstraint 0;
   OStep (Some nhalf) n1 (fun b => b =? 3) [Collides 1 0 true; Collides 2 0 true] still []].
Notation piled0 := (space0 (tyf [Static]) (fun x => x) (fun _ => Co 1 2 false false)).
Notation piled := (runb piled_h piled0).
Lemma ex_piled : exists s, valid_run piled_h piled0 /\ srun piled_h piled0 = Some s /\ reachable s /\ s_lock s = 0%Z /\
  map (group s) [0; 1; 2; 3] = [None; Some 1; Some 1; None] /\ s_dyn s = [3] /\ s_sta s = [0] /\ map snd (s_dix s) = [3] /\ s_cons s = [] /\ s_arbs s = [] /\
  length (s_six s) = 3 /\ b_arbs (s_body s 0) = [1; 0] /\ b_arbs (s_body s 1) = [0] /\ b_arbs (s_body s 2) = [1] /\ b_cons (s_body s 1) = [0] /\
  query_reject_constraints s 2 1 = true /\ query_reject_constraints s 1 3 = false.
Proof.
  destruct (sees_ex (piled) (fun _ => true)) as [s [E _]]; [vm_compute; reflexivity|]. exists s. pose proof (runb_ok _ _ _ (space0_ok _ _ _) E) as [V S].
  split; auto. split; auto. split; [eapply runb_reachable; exact E|].
  assert (Q : forall A (f : space -> A) v, match piled with Some s => f s | None => v end = v -> f s = v) by (intros A f v; rewrite E; auto).
  split; [apply Q; reflexivity|]. split; [apply (Q _ (fun s => map (group s) [0;1;2;3])); vm_compute; reflexivity|].
  split; [apply Q; vm_compute; reflexivity|]. split; [apply Q; vm_compute; reflexivity|]. split; [apply (Q _ (fun s => map snd (s_dix s))); vm_compute; reflexivity|].
  split; [apply Q; vm_compute; reflexivity|]. split; [apply Q; vm_compute; reflexivity|]. split; [apply (Q _ (fun s => length (s_six s))); vm_compute; reflexivity|].
  split; [apply (Q _ (fun s => b_arbs (s_body s 0))); vm_compute; reflexivity|]. split; [apply (Q _ (fun s => b_arbs (s_body s 1))); vm_compute; reflexivity|].
  split; [apply (Q _ (fun s => b_arbs (s_body s 2))); vm_compute; reflexivity|]. split; [apply (Q _ (fun s => b_cons (s_body s 1))); vm_compute; reflexivity|].
  split; [apply (Q _ (fun s => query_reject_constraints s 2 1)); vm_compute; reflexivity|apply (Q _ (fun s => query_reject_constraints s 1 3)); vm_compute; reflexivity].
Qed.
(* touching body 2 wakes 1 and 2 and puts everything back *)
Lemma ex_woken : exists s s', reachable s /\ sstep (OTouch 2) s = Some s' /\ map (is_sleeping s) [1; 2] = [true; true] /\ map (is_sleeping s') [1; 2] = [false; false] /\
  s_dyn s' = [3; 1; 2] /\ s_arbs s' = [0; 1] /\ s_cons s' = [0] /\ map snd (s_dix s') = [2; 1; 3].
Proof.
  destruct (sees_ex (piled) (fun s => sees (sstep (OTouch 2) s) (fun _ => true))) as [s [E H]]; [vm_compute; reflexivity|]. apply sees_ex in H. destruct H as [s' [E' _]].
  exists s, s'. split; [eapply runb_reachable; exact E|]. split; auto.
  assert (Q : forall A (f : space -> A) v, match piled with Some s => f s | None => v end = v -> f s = v) by (intros A f v; rewrite E; auto).
  assert (Q' : forall A (f : space -> A) v, match piled with Some s => match sstep (OTouch 2) s with Some s => f s | None => v end | None => v end = v -> f s' = v) by (intros A f v; rewrite E, E'; auto).
  split; [apply (Q _ (fun s => map (is_sleeping s) [1;2])); vm_compute; reflexivity|]. split; [apply (Q' _ (fun s => map (is_sleeping s) [1;2])); vm_compute; reflexivity|].
  split; [apply Q'; vm_compute; reflexivity|]. split; [apply Q'; vm_compute; reflexivity|]. split; [apply Q'; vm_compute; reflexivity|apply (Q' _ (fun s => map snd (s_dix s))); vm_compute; reflexivity].
Qed.
(** ** What goes wrong outside the rules *)
(* body.go:138-216: the type of a sleeping body is changed before Activate, which then does nothing *)
Definition asleep_h : list op := [OAttach 1; OAddBody 1; OAddShape 1; sleepy [] still].
Lemma set_type_sleeping : exists (s : space) b, reachable s /\ s_lock s = 0%Z /\ contains_body s b = true /\ is_sleeping s b = true /\
  (forall x, In x (b_shapes (s_body s b)) -> contains_shape s x = true) /\ sstep (OSetType b Static) s = None /\ sstep (OSetType b Kinematic) s = None.
Proof.
  destruct (sees_ex (runb asleep_h (space0 (tyf []) (fun x => x) (fun _ => Co 0 0 false false)))
    (fun s => (s_lock s =? 0)%Z && contains_body s 1 && is_sleeping s 1 && allshapeb s 1 && negb (sees (sstep (OSetType 1 Static) s) (fun _ => true)) && negb (sees (sstep (OSetType 1 Kinematic) s) (fun _ => true)))) as [s [E H]]; [vm_compute; reflexivity|].
  repeat (apply andb_true_iff in H; destruct H as [H ?]). exists s, 1. split; [eapply runb_reachable; exact E|]. split; [apply Z.eqb_eq; auto|]. split; auto. split; auto. split; [apply allshapeb_ok; auto|].
  split; apply sees_none; auto.
Qed.
(* the same without shapes: no panic, but the body is in the list of static bodies and in a sleeping group *)
Definition bare_h : list op := [OAddBody 1; sleepy [] still].
Lemma set_type_sleeping_bare : exists (s s' : space) b, reachable s /\ s_lock s = 0%Z /\ contains_body s b = true /\
  sstep (OSetType b Static) s = Some s' /\ ty s' b = Static /\ In b (s_sta s') /\ is_sleeping s' b = true.
Proof.
  destruct (sees_ex (runb bare_h (space0 (tyf []) (fun x => x) (fun _ => Co 0 0 false false)))
    (fun s => (s_lock s =? 0)%Z && contains_body s 1 && sees (sstep (OSetType 1 Static) s) (fun s' => is_type s' 1 Static && mem 1 (s_sta s') && is_sleeping s' 1))) as [s [E H]]; [vm_compute; reflexivity|].
  repeat (apply andb_true_iff in H; destruct H as [H ?]). apply sees_ex in H0. destruct H0 as [s' [E' F]]. repeat (apply andb_true_iff in F; destruct F as [F ?]).
  exists s, s', 1. split; [eapply runb_reachable; exact E|]. split; [apply Z.eqb_eq; auto|]. split; auto. split; auto. split; [apply is_type_t; auto|]. split; [apply mem_in; auto|auto].
Qed.
(* a box asleep on the ground; the ground is made dynamic and moved away: the next step exits with "Inconsistency detected" *)
Definition ground_h : list op := [OAttach 0; OAttach 1; OAddBody 0; OAddBody 1; OAddShape 0; OAddShape 1; sleepy [Collides 1 0 true] still].
Lemma ground_freed : exists (s s' : space) b, reachable s /\ s_lock s = 0%Z /\ contains_body s b = true /\ is_sleeping s b = false /\
  sstep (OSetType b Dynamic) s = Some s' /\ sstep (sleepy [] still) s' = None.
Proof.
  destruct (sees_ex (runb ground_h (space0 (tyf [Static]) (fun x => x) (fun _ => Co 0 0 false false)))
    (fun s => (s_lock s =? 0)%Z && contains_body s 0 && negb (is_sleeping s 0) && sees (sstep (OSetType 0 Dynamic) s) (fun s' => negb (sees (sstep (sleepy [] still) s') (fun _ => true))))) as [s [E H]]; [vm_compute; reflexivity|].
  repeat (apply andb_true_iff in H; destruct H as [H ?]). apply sees_ex in H0. destruct H0 as [s' [E' F]].
  exists s, s', 0. split; [eapply runb_reachable; exact E|]. split; [apply Z.eqb_eq; auto|]. split; auto. split; [apply negb_true_iff; auto|]. split; auto.
  apply sees_none; auto.
Qed.
(* the same with a hinge on a static body made kinematic: after waking, the hinge is never solved again *)
Definition hinge_h : list op := [OAddBody 0; OAddBody 1; OAddConstraint 0; sleepy [] still].
Lemma hinge_lost : exists (s s1 s2 : space) c, reachable s /\ s_lock s = 0%Z /\ is_sleeping s 0 = false /\
  sstep (OSetType 0 Kinematic) s = Some s1 /\ sstep (OTouch 1) s1 = Some s2 /\
  contains_constraint s2 c = true /\ is_sleeping s2 (co_a (s_con s2 c)) = false /\ is_sleeping s2 (co_b (s_con s2 c)) = false /\ ~ In c (s_cons s2).
Proof.
  destruct (sees_ex (runb hinge_h (space0 (tyf [Static]) (fun x => x) (fun _ => Co 0 1 false false)))
    (fun s => (s_lock s =? 0)%Z && negb (is_sleeping s 0) && sees (sstep (OSetType 0 Kinematic) s) (fun s1 => sees (sstep (OTouch 1) s1) (fun s2 =>
      contains_constraint s2 0 && negb (is_sleeping s2 (co_a (s_con s2 0))) && negb (is_sleeping s2 (co_b (s_con s2 0))) && negb (mem 0 (s_cons s2)))))) as [s [E H]]; [vm_compute; reflexivity|].
  repeat (apply andb_true_iff in H; destruct H as [H ?]). apply sees_ex in H0. destruct H0 as [s1 [E1 F]]. apply sees_ex in F. destruct F as [s2 [E2 F]].
  repeat (apply andb_true_iff in F; destruct F as [F ?]).
  exists s, s1, s2, 0. split; [eapply runb_reachable; exact E|]. split; [apply Z.eqb_eq; auto|]. split; [apply negb_true_iff; auto|]. split; auto. split; auto. split; auto.
  split; [apply negb_true_iff; auto|]. split; [apply negb_true_iff; auto|]. intros I. apply mem_in in I. match goal with X : negb (mem _ _) = true |- _ => rewrite I in X; discriminate X end.
Qed.
(* a callback of the first half of the step wakes a sleeping body that has a contact: its arbiter is pushed twice *)
Lemma waking_callback : exists (s : space) b, reachable s /\ s_lock s = 0%Z /\ contains_body s b = true /\ is_sleeping s b = true /\
  sstep (sleepy [] still) s <> None /\ sstep (sleepy [Touches b] still) s = None.
Proof.
  destruct (sees_ex (runb ground_h (space0 (tyf [Static]) (fun x => x) (fun _ => Co 0 0 false false)))
    (fun s => (s_lock s =? 0)%Z && contains_body s 1 && is_sleeping s 1 && sees (sstep (sleepy [] still) s) (fun _ => true) && negb (sees (sstep (sleepy [Touches 1] still) s) (fun _ => true)))) as [s [E H]]; [vm_compute; reflexivity|].
  repeat (apply andb_true_iff in H; destruct H as [H ?]).
  exists s, 1. split; [eapply runb_reachable; exact E|]. split; [apply Z.eqb_eq; auto|]. split; auto. split; auto. split.
  - apply sees_some; auto.
  - apply sees_none; auto.
Qed.
(* a body with two shapes: one of them stays in the space *)
Definition pair_h : list op := [OAttach 0; OAttach 1; OAddBody 0; OAddShape 0; OAddShape 1].
Lemma shape_left : exists (s s' : space) b x, reachable s /\ s_lock s = 0%Z /\ contains_body s b = true /\ In x (b_shapes (s_body s b)) /\
  remove_body_with_shapes b s = Some s' /\ contains_body s' b = false /\ contains_shape s' x = true.
Proof.
  destruct (sees_ex (runb pair_h (space0 (tyf []) (fun _ => 0) (fun _ => Co 0 0 false false)))
    (fun s => (s_lock s =? 0)%Z && contains_body s 0 && mem 1 (b_shapes (s_body s 0)) && sees (remove_body_with_shapes 0 s) (fun s' => negb (contains_body s' 0) && contains_shape s' 1))) as [s [E H]]; [vm_compute; reflexivity|].
  repeat (apply andb_true_iff in H; destruct H as [H ?]). apply sees_ex in H0. destruct H0 as [s' [E' F]]. apply andb_true_iff in F. destruct F.
  exists s, s', 0, 1. split; [eapply runb_reachable; exact E|]. split; [apply Z.eqb_eq; auto|]. split; auto. split; [apply mem_in; auto|]. split; auto. split; auto. apply negb_true_iff; auto.
Qed.
(* the ground of piled made kinematic: everything moves *)
Definition moving_h : list op := [OAttach 0; OAttach 1; OAddBody 0; OAddBody 1; OAddShape 0; OAddShape 1].
Lemma ex_set_type : exists s s', reachable s /\ valid (OSetType 0 Kinematic) s /\ sstep (OSetType 0 Kinematic) s = Some s' /\
  s_sta s = [0] /\ s_dyn s = [1] /\ map snd (s_six s) = [0] /\ s_sta s' = [] /\ s_dyn s' = [1; 0] /\ s_six s' = [] /\ map snd (s_dix s') = [0; 1].
Proof.
  destruct (sees_ex (runb moving_h (space0 (tyf [Static]) (fun x => x) (fun _ => Co 0 0 false false)))
    (fun s => validb (OSetType 0 Kinematic) s && sees (sstep (OSetType 0 Kinematic) s) (fun _ => true))) as [s [E H]]; [vm_compute; reflexivity|].
  apply andb_true_iff in H. destruct H as [V H]. apply sees_ex in H. destruct H as [s' [E' _]].
  assert (R : reachable s) by (eapply runb_reachable; exact E).
  exists s, s'. split; auto. split; [apply validb_ok; auto; apply reachable_ok; auto|]. split; auto.
  assert (Q : forall A (f : space -> A) v, match runb moving_h (space0 (tyf [Static]) (fun x => x) (fun _ => Co 0 0 false false)) with Some s => f s | None => v end = v -> f s = v) by (intros A f v; rewrite E; auto).
  assert (Q' : forall A (f : space -> A) v, match runb moving_h (space0 (tyf [Static]) (fun x => x) (fun _ => Co 0 0 false false)) with Some s => match sstep (OSetType 0 Kinematic) s with Some s => f s | None => v end | None => v end = v -> f s' = v) by (intros A f v; rewrite E, E'; auto).
  split; [apply Q; vm_compute; reflexivity|]. split; [apply Q; vm_compute; reflexivity|]. split; [apply (Q _ (fun s => map snd (s_six s))); vm_compute; reflexivity|].
  split; [apply Q'; vm_compute; reflexivity|]. split; [apply Q'; vm_compute; reflexivity|]. split; [apply Q'; vm_compute; reflexivity|apply (Q' _ (fun s => map snd (s_dix s))); vm_compute; reflexivity].
Qed.
(* before and after the step of piled *)
Definition awake_h : list op :=
  [OAttach 0; OAttach 1; OAttach 2; OAttach 3; OAddBody 0; OAddBody 1; OAddBody 2; OAddBody 3; OAddShape 0; OAddShape 1; OAddShape 2; OAddShape 3; OAddConstraint 0].
Lemma ex_falls : exists s s', reachable s /\ valid (OStep (Some nhalf) n1 (fun b => b =? 3) [Collides 1 0 true; Collides 2 0 true] still []) s /\
  sstep (OStep (Some nhalf) n1 (fun b => b =? 3) [Collides 1 0 true; Collides 2 0 true] still []) s = Some s' /\
  map (is_sleeping s) [0; 1; 2; 3] = [false; false; false; false] /\ map (is_sleeping s') [0; 1; 2; 3] = [false; true; true; false] /\
  contains_body s' 3 = true /\ ty s' 3 = Dynamic.
Proof.
  destruct (sees_ex (runb awake_h piled0)
    (fun s => validb (OStep (Some nhalf) n1 (fun b => b =? 3) [Collides 1 0 true; Collides 2 0 true] still []) s &&
       sees (sstep (OStep (Some nhalf) n1 (fun b => b =? 3) [Collides 1 0 true; Collides 2 0 true] still []) s) (fun _ => true))) as [s [E H]]; [vm_compute; reflexivity|].
  apply andb_true_iff in H. destruct H as [V H]. apply sees_ex in H. destruct H as [s' [E' _]].
  assert (R : reachable s) by (eapply runb_reachable; exact E).
  exists s, s'. split; auto. split; [apply validb_ok; auto; apply reachable_ok; auto|]. split; auto.
  assert (Q : forall A (f : space -> A) v, match runb awake_h piled0 with Some s => f s | None => v end = v -> f s = v) by (intros A f v; rewrite E; auto).
  assert (Q' : forall A (f : space -> A) v, match runb awake_h piled0 with Some s => match sstep (OStep (Some nhalf) n1 (fun b => b =? 3) [Collides 1 0 true; Collides 2 0 true] still []) s with Some s => f s | None => v end | None => v end = v -> f s' = v) by (intros A f v; rewrite E, E'; auto).
  split; [apply (Q _ (fun s => map (is_sleeping s) [0;1;2;3])); vm_compute; reflexivity|]. split; [apply (Q' _ (fun s => map (is_sleeping s) [0;1;2;3])); vm_compute; reflexivity|].
  split; [apply (Q' _ (fun s => contains_body s 3)); vm_compute; reflexivity|apply (Q' _ (fun s => ty s 3)); vm_compute; reflexivity].
Qed.
(* removed and added again: the shape has a new id *)
Lemma ex_new_id : exists s s', reachable s /\ contains_shape s 1 = true /\ valid_run ([ORemoveShape 1; OAttach 1] ++ [OAddShape 1]) s /\
  srun ([ORemoveShape 1; OAttach 1] ++ [OAddShape 1]) s = Some s' /\ sh_id (s_shape s 1) = 2 /\ sh_id (s_shape s' 1) = 3.
Proof.
  destruct (sees_ex (runb moving_h (space0 (tyf [Static]) (fun x => x) (fun _ => Co 0 0 false false)))
    (fun s => contains_shape s 1 && (sh_id (s_shape s 1) =? 2) && sees (runb ([ORemoveShape 1; OAttach 1] ++ [OAddShape 1]) s) (fun s' => sh_id (s_shape s' 1) =? 3))) as [s [E H]]; [vm_compute; reflexivity|].
  repeat (apply andb_true_iff in H; destruct H as [H ?]). apply sees_ex in H0. destruct H0 as [s' [E' F]]. apply Nat.eqb_eq in F, H1.
  assert (R : reachable s) by (eapply runb_reachable; exact E). destruct (runb_ok _ _ _ (reachable_ok s R) E') as [V X].
  exists s, s'. do 5 (split; auto).
Qed.
(* woken while the space is locked, back in the lists when it is unlocked *)
Lemma ex_unlock : exists s s', reachable s /\ s_lock s = 1%Z /\ sstep OUnlock s = Some s' /\ s_dyn s = [3] /\ s_dyn s' = [3; 1; 2] /\ map (is_sleeping s) [1; 2] = [false; false].
Proof.
  destruct (sees_ex (runb (piled_h ++ [OLock; OTouch 2]) piled0) (fun s => (s_lock s =? 1)%Z && sees (sstep OUnlock s) (fun _ => true))) as [s [E H]]; [vm_compute; reflexivity|].
  apply andb_true_iff in H. destruct H as [L H]. apply sees_ex in H. destruct H as [s' [E' _]].
  assert (R : reachable s) by (eapply runb_reachable; exact E). exists s, s'. split; auto. split; [apply Z.eqb_eq; auto|]. split; auto.
  assert (Q : forall A (f : space -> A) v, match runb (piled_h ++ [OLock; OTouch 2]) piled0 with Some s => f s | None => v end = v -> f s = v) by (intros A f v; rewrite E; auto).
  assert (Q' : forall A (f : space -> A) v, match runb (piled_h ++ [OLock; OTouch 2]) piled0 with Some s => match sstep OUnlock s with Some s => f s | None => v end | None => v end = v -> f s' = v) by (intros A f v; rewrite E, E'; auto).
  split; [apply Q; vm_compute; reflexivity|]. split; [apply Q'; vm_compute; reflexivity|]. apply (Q _ (fun s => map (is_sleeping s) [1;2])); vm_compute; reflexivity.
Qed.
