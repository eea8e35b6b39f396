(** The invariant of the lists of a space, and the two elementary moves: one body goes to sleep, one body comes back. *)
From Coq Require Import ZArith List Bool Arith Lia Permutation.
From Verif Require Import Num Space SpaceSpec.
Import ListNotations.
Local Open Scope nat_scope.

(** ** Lists *)
Lemma mem_spec x l : mem x l = true <-> In x l.
Proof.
  unfold mem. rewrite existsb_exists. split.
  - intros [y [H E]]. apply Nat.eqb_eq in E. subst; auto.
  - intros H. exists x. split; auto. apply Nat.eqb_refl.
Qed.
Lemma mem_false x l : mem x l = false <-> ~ In x l.
Proof. rewrite <- mem_spec. destruct (mem x l); intuition congruence. Qed.
Lemma remove1_in x y l : In y (remove1 x l) -> In y l.
Proof. induction l as [|z l IH]; simpl; auto. destruct (Nat.eqb_spec x z); simpl; intuition. Qed.
Lemma remove1_nd x l : NoDup l -> NoDup (remove1 x l).
Proof.
  induction 1 as [|z l H ND IH]; simpl; [constructor|]. destruct (x =? z); auto. constructor; auto.
  intros I. apply H. eapply remove1_in; eauto.
Qed.
Lemma remove1_spec x y l : NoDup l -> (In y (remove1 x l) <-> In y l /\ y <> x).
Proof.
  induction 1 as [|z l H ND IH]; simpl; [intuition|]. destruct (Nat.eqb_spec x z) as [->|E]; simpl.
  - split; [intros I; split; auto; intros ->; contradiction|intuition congruence].
  - rewrite IH. intuition congruence.
Qed.
Lemma swap_remove_perm x l : In x l -> Permutation l (x :: swap_remove x l).
Proof.
  intros I. unfold swap_remove. destruct (rev l) as [|z r] eqn:E.
  - apply in_rev in I. rewrite E in I. destruct I.
  - assert (L : l = rev r ++ [z]) by (rewrite <- (rev_involutive l), E; reflexivity).
    set (q := rev r) in *. clearbody q. clear E. subst l.
    revert I. induction q as [|y q IH]; simpl; intros I.
    + destruct I as [->|[]]. constructor. constructor.
    + destruct (Nat.eqb_spec x y) as [->|D].
      * constructor. change (z :: q) with ([z] ++ q). apply Permutation_app_comm.
      * destruct I as [->|I]; [congruence|]. specialize (IH I).
        rewrite perm_swap. constructor. apply IH.
Qed.
Lemma swap_remove_spec x y l : NoDup l -> In x l -> (In y (swap_remove x l) <-> In y l /\ y <> x).
Proof.
  intros ND I. pose proof (swap_remove_perm x l I) as P. pose proof (Permutation_NoDup P ND) as ND'.
  inversion ND'; subst.
  assert (Q : In y l <-> In y (x :: swap_remove x l)).
  { split; apply Permutation_in; auto. apply Permutation_sym; auto. }
  rewrite Q. simpl. split; [intros J; split; auto; intros ->; auto|]. intuition congruence.
Qed.
Lemma swap_remove_nd x l : NoDup l -> In x l -> NoDup (swap_remove x l).
Proof. intros ND I. pose proof (Permutation_NoDup (swap_remove_perm x l I) ND) as H. inversion H; auto. Qed.
Lemma nd_app {A} (l m : list A) : NoDup l -> NoDup m -> (forall x, In x l -> ~ In x m) -> NoDup (l ++ m).
Proof.
  induction 1 as [|x l H ND IH]; simpl; intros NM D; auto. constructor.
  - rewrite in_app_iff. intros [I|I]; auto. eapply D; eauto.
  - apply IH; auto.
Qed.
Lemma nd_snoc {A} (l : list A) x : NoDup l -> ~ In x l -> NoDup (l ++ [x]).
Proof. intros. apply nd_app; auto. repeat constructor; auto. intros y I [<-|[]]; auto. Qed.
Lemma entry_eqb_spec x y : entry_eqb x y = true <-> x = y.
Proof.
  unfold entry_eqb. destruct x, y; simpl. rewrite andb_true_iff, !Nat.eqb_eq. split; [intros [-> ->]; auto|intros E; inversion E; auto].
Qed.

(** ** Loops that can fail *)
Section Ofold.
Context {A S : Type}.
Implicit Types (f : A -> S -> option S) (l : list A).
Lemma ofold_none f l : fold_left (fun o a => match o with Some s => f a s | None => None end) l None = None.
Proof. induction l; simpl; auto. Qed.
Lemma ofold_cons f a l s : ofold f (a :: l) s = match f a s with Some s' => ofold f l s' | None => None end.
Proof. unfold ofold; simpl. destruct (f a s); auto. apply ofold_none. Qed.
Lemma ofold_app f l m s : ofold f (l ++ m) s = match ofold f l s with Some s' => ofold f m s' | None => None end.
Proof. revert s. induction l as [|a l IH]; intros s; simpl; [reflexivity|]. rewrite !ofold_cons. destruct (f a s); auto. Qed.
Lemma ofold_inv f l s (I : list A -> S -> Prop) :
  I l s ->
  (forall a m s, I (a :: m) s -> exists s', f a s = Some s' /\ I m s') ->
  exists s', ofold f l s = Some s' /\ I [] s'.
Proof.
  intros H0 H. revert s H0. induction l as [|a l IH]; intros s H0.
  - exists s; auto.
  - destruct (H _ _ _ H0) as [s' [E I']]. rewrite ofold_cons, E. auto.
Qed.
End Ofold.

(** ** Moving shapes between indexes *)
Lemma ix_insert_spec e ix : ~ In e ix -> ix_insert e ix = Some (e :: ix).
Proof.
  intros H. unfold ix_insert. destruct (existsb (entry_eqb e) ix) eqn:E; auto.
  apply existsb_exists in E. destruct E as [y [I Y]]. apply entry_eqb_spec in Y. subst. contradiction.
Qed.
Lemma ix_remove_spec e ix : In e ix ->
  exists ix', ix_remove e ix = Some ix' /\ (forall e', In e' ix' <-> In e' ix /\ e' <> e) /\ (NoDup ix -> NoDup ix').
Proof.
  intros H. unfold ix_remove. replace (existsb (entry_eqb e) ix) with true.
  - eexists; split; [reflexivity|]. split; [|apply NoDup_filter]. intros e'. rewrite filter_In.
    rewrite negb_true_iff. split.
    + intros [I F]. split; auto. intros ->. rewrite (proj2 (entry_eqb_spec e e) eq_refl) in F. discriminate.
    + intros [I D]. split; auto. destruct (entry_eqb e e') eqn:E; auto. apply entry_eqb_spec in E. congruence.
  - symmetry. apply existsb_exists. exists e. split; auto. apply entry_eqb_spec; auto.
Qed.
Lemma ix_remove_inv e ix ix' : ix_remove e ix = Some ix' -> In e ix.
Proof.
  unfold ix_remove. destruct (existsb _ _) eqn:E; [|discriminate]. intros _. apply existsb_exists in E.
  destruct E as [y [I Y]]. apply entry_eqb_spec in Y. subst. auto.
Qed.
Lemma ix_move_all l from to :
  NoDup l -> (forall e, In e l -> In e from) -> (forall e, In e l -> ~ In e to) -> NoDup from -> NoDup to ->
  exists from' to', ofold ix_move l (from, to) = Some (from', to') /\
    (forall e, In e from' <-> In e from /\ ~ In e l) /\ (forall e, In e to' <-> In e to \/ In e l) /\ NoDup from' /\ NoDup to'.
Proof.
  intros ND. revert from to. induction ND as [|e l H ND IH]; intros from to F T NF NT.
  - exists from, to. simpl. intuition.
  - destruct (ix_remove_spec e from) as [from1 [E1 [S1 N1]]]; [apply F; left; auto|].
    destruct (IH from1 (e :: to)) as [from' [to' [E [S [S' [N N']]]]]].
    + intros e' I. apply S1. split; [apply F; right; auto|]. intros ->; contradiction.
    + intros e' I [->|J]; [contradiction|]. apply (T e'); auto. right; auto.
    + auto.
    + constructor; auto. apply T; left; auto.
    + exists from', to'. split; [|split; [|split; [|split]]]; auto.
      * rewrite ofold_cons. unfold ix_move at 1. simpl. rewrite E1.
        rewrite ix_insert_spec by (apply T; left; auto). exact E.
      * intros e'. rewrite S, S1. simpl. intuition.
      * intros e'. rewrite S'. simpl. intuition.
Qed.
Lemma ix_move_back l from :
  NoDup l -> (forall e, In e l -> In e from) -> NoDup from ->
  exists from', ofold (fun e ix => match ix_remove e ix with None => None | Some ix => ix_insert e ix end) l from = Some from' /\
    (forall e, In e from' <-> In e from) /\ NoDup from'.
Proof.
  intros ND. revert from. induction ND as [|e l H ND IH]; intros from F NF.
  - exists from. simpl. intuition.
  - destruct (ix_remove_spec e from) as [from1 [E1 [S1 N1]]]; [apply F; left; auto|].
    assert (I1 : ~ In e from1) by (rewrite S1; intuition).
    destruct (IH (e :: from1)) as [from' [E [S N]]].
    + intros e' I. simpl. rewrite S1. destruct (entry_eqb e e') eqn:X.
      * left. apply entry_eqb_spec; auto.
      * right. split; [apply F; right; auto|]. intros ->. rewrite (proj2 (entry_eqb_spec e e) eq_refl) in X. discriminate.
    + constructor; auto.
    + exists from'. split; [|split]; auto.
      * rewrite ofold_cons, E1, ix_insert_spec by auto. exact E.
      * intros e'. rewrite S. simpl. rewrite S1. split; [intros [<-|[? ?]]; auto; apply F; left; auto|].
        intros I. destruct (entry_eqb e e') eqn:X; [left; apply entry_eqb_spec; auto|].
        right. split; auto. intros ->. rewrite (proj2 (entry_eqb_spec e e) eq_refl) in X. discriminate.
Qed.

Section Inv.
Context {N : Num}.

Lemma upd_same {A} (f : nat -> A) k v : upd f k v k = v.
Proof. unfold upd. rewrite Nat.eqb_refl. reflexivity. Qed.
Lemma upd_other {A} (f : nat -> A) k k' v : k <> k' -> upd f k v k' = f k'.
Proof. unfold upd. destruct (Nat.eqb_spec k k'); congruence. Qed.

(* the body that takes the arbiter or constraint along *)
Definition owner (s : space) (x : nat) : nat := if is_type s (ar_a (s_arb s x)) Static then ar_b (s_arb s x) else ar_a (s_arb s x).
Definition cowner (s : space) (c : nat) : nat := if is_type s (co_a (s_con s c)) Static then co_b (s_con s c) else co_a (s_con s c).
(* in both contact lists *)
Definition threaded (s : space) (x : nat) : Prop := In x (b_arbs (s_body s (ar_a (s_arb s x)))).
Definition live (s : space) (x : nat) : Prop := threaded s x \/ In x (s_cache s).

(** [P]: the bodies out of the simulation.  [Q]: arbiters of this step that are not in the contact lists yet. *)
Record pinv (P : nat -> bool) (Q : list nat) (s : space) : Prop := {
  ib_all : forall b, In b (s_all s) <-> b_in (s_body s b) = true;
  ib_alln : NoDup (s_all s);
  ib_dyn : forall b, In b (s_dyn s) <-> b_in (s_body s b) = true /\ ty s b <> Static /\ P b = false;
  ib_dynn : NoDup (s_dyn s);
  ib_sta : forall b, In b (s_sta s) <-> b_in (s_body s b) = true /\ ty s b = Static;
  ib_stan : NoDup (s_sta s);
  ib_pd : forall b, P b = true -> ty s b = Dynamic /\ b_in (s_body s b) = true;
  is_n : forall b, NoDup (b_shapes (s_body s b));
  is_b : forall b x, In x (b_shapes (s_body s b)) -> sh_body (s_shape s x) = b;
  is_i : forall x, sh_in (s_shape s x) = true -> In x (b_shapes (s_body s (sh_body (s_shape s x))));
  is_h : forall x, sh_in (s_shape s x) = true ->
    ty s (sh_body (s_shape s x)) = Static \/ b_in (s_body s (sh_body (s_shape s x))) = true;
  is_p : forall b x, P b = true -> In x (b_shapes (s_body s b)) -> sh_in (s_shape s x) = true;
  is_dix : forall h x, In (h, x) (s_dix s) <->
    sh_in (s_shape s x) = true /\ h = sh_id (s_shape s x) /\ ty s (sh_body (s_shape s x)) <> Static /\ P (sh_body (s_shape s x)) = false;
  is_six : forall h x, In (h, x) (s_six s) <->
    sh_in (s_shape s x) = true /\ h = sh_id (s_shape s x) /\ (ty s (sh_body (s_shape s x)) = Static \/ P (sh_body (s_shape s x)) = true);
  is_dn : NoDup (s_dix s);
  is_sn : NoDup (s_six s);
  is_lt : forall x, sh_in (s_shape s x) = true -> 0 < sh_id (s_shape s x) < s_ids s;
  is_inj : forall x y, sh_in (s_shape s x) = true -> sh_in (s_shape s y) = true -> sh_id (s_shape s x) = sh_id (s_shape s y) -> x = y;
  is_pos : 0 < s_ids s;
  ia_n : forall b, NoDup (b_arbs (s_body s b));
  ia_e : forall b x, In x (b_arbs (s_body s b)) -> b = ar_a (s_arb s x) \/ b = ar_b (s_arb s x);
  ia_s : forall x, threaded s x <-> In x (b_arbs (s_body s (ar_b (s_arb s x))));
  ia_ne : forall x, live s x -> ar_a (s_arb s x) <> ar_b (s_arb s x);
  ia_sa : forall x, live s x -> sh_in (s_shape s (ar_sa (s_arb s x))) = true /\ sh_body (s_shape s (ar_sa (s_arb s x))) = ar_a (s_arb s x);
  ia_sb : forall x, live s x -> sh_in (s_shape s (ar_sb (s_arb s x))) = true /\ sh_body (s_shape s (ar_sb (s_arb s x))) = ar_b (s_arb s x);
  ia_an : NoDup (s_arbs s);
  ia_at : forall x, In x (s_arbs s) -> threaded s x \/ In x Q;
  ia_own : forall x, threaded s x -> (In x (s_arbs s) <-> P (owner s x) = false);
  ia_ac : forall x, In x (s_arbs s) -> In x (s_cache s);
  ia_cn : NoDup (s_cache s);
  ia_ct : forall x, In x (s_cache s) -> threaded s x -> In x (s_arbs s);
  ia_q : forall x, In x Q -> ~ threaded s x /\ In x (s_arbs s);
  ia_u : forall x y, live s x -> live s y -> same_shapes (s_arb s x) (s_arb s y) = true -> x = y;
  ia_lt : forall x, live s x -> x < s_arbc s;
  ic_n : forall b, NoDup (b_cons (s_body s b));
  ic_e : forall b c, In c (b_cons (s_body s b)) <-> co_in (s_con s c) = true /\ (b = co_a (s_con s c) \/ b = co_b (s_con s c));
  ic_ne : forall c, co_in (s_con s c) = true -> co_a (s_con s c) <> co_b (s_con s c);
  ic_ha : forall c, co_in (s_con s c) = true -> ty s (co_a (s_con s c)) = Static \/ b_in (s_body s (co_a (s_con s c))) = true;
  ic_hb : forall c, co_in (s_con s c) = true -> ty s (co_b (s_con s c)) = Static \/ b_in (s_body s (co_b (s_con s c))) = true;
  ic_own : forall c, In c (s_cons s) <-> co_in (s_con s c) = true /\ P (cowner s c) = false;
  ic_cn : NoDup (s_cons s) }.

(** The parts of the state that the invariant looks at. *)
Record core_eq (s s' : space) : Prop := {
  ce_ty : forall b, b_type (s_body s b) = b_type (s_body s' b);
  ce_sh : forall b, b_shapes (s_body s b) = b_shapes (s_body s' b);
  ce_ar : forall b, b_arbs (s_body s b) = b_arbs (s_body s' b);
  ce_co : forall b, b_cons (s_body s b) = b_cons (s_body s' b);
  ce_in : forall b, b_in (s_body s b) = b_in (s_body s' b);
  ce_shape : s_shape s = s_shape s'; ce_arb : s_arb s = s_arb s'; ce_con : s_con s = s_con s' }.
Record lists_eq (s s' : space) : Prop := {
  le_dyn : s_dyn s = s_dyn s'; le_sta : s_sta s = s_sta s'; le_dix : s_dix s = s_dix s'; le_six : s_six s = s_six s';
  le_arbs : s_arbs s = s_arbs s'; le_cache : s_cache s = s_cache s'; le_cons : s_cons s = s_cons s';
  le_ids : s_ids s = s_ids s'; le_arbc : s_arbc s = s_arbc s'; le_all : s_all s = s_all s' }.
Lemma core_refl s : core_eq s s. Proof. split; auto. Qed.
Lemma core_sym s s' : core_eq s s' -> core_eq s' s. Proof. intros []; split; auto. Qed.
Lemma core_trans s s' s'' : core_eq s s' -> core_eq s' s'' -> core_eq s s''.
Proof. intros [] []; split; intros; congruence. Qed.
Lemma lists_refl s : lists_eq s s. Proof. split; auto. Qed.
Lemma lists_trans s s' s'' : lists_eq s s' -> lists_eq s' s'' -> lists_eq s s''.
Proof. intros [] []; split; congruence. Qed.
Lemma ce_is_type s s' : core_eq s s' -> forall b t, is_type s b t = is_type s' b t.
Proof. intros C b t. unfold is_type, ty. rewrite (ce_ty _ _ C). reflexivity. Qed.
Lemma ce_owner s s' : core_eq s s' -> forall x, owner s x = owner s' x.
Proof. intros C x. unfold owner. rewrite (ce_is_type _ _ C), (ce_arb _ _ C). reflexivity. Qed.
Lemma ce_cowner s s' : core_eq s s' -> forall x, cowner s x = cowner s' x.
Proof. intros C x. unfold cowner. rewrite (ce_is_type _ _ C), (ce_con _ _ C). reflexivity. Qed.
Lemma ce_threaded s s' : core_eq s s' -> forall x, threaded s x <-> threaded s' x.
Proof. intros C x. unfold threaded. rewrite (ce_arb _ _ C), (ce_ar _ _ C). reflexivity. Qed.

Lemma pinv_core P Q s s' : core_eq s s' -> lists_eq s s' -> pinv P Q s -> pinv P Q s'.
Proof.
  intros C L H. pose proof (ce_threaded _ _ C) as CT. pose proof (ce_owner _ _ C) as CO. pose proof (ce_cowner _ _ C) as CC.
  assert (CL : forall x, live s x <-> live s' x) by (intros x; unfold live; rewrite CT, (le_cache _ _ L); reflexivity).
  destruct C as [C1 C2 C3 C4 C5 C6 C7 C8]. destruct L as [L1 L2 L3 L4 L5 L6 L7 L8 L9 L10].
  destruct H. unfold ty in *.
  split; unfold ty; intros;
    repeat first [ rewrite <- C1 | rewrite <- C2 | rewrite <- C3 | rewrite <- C4 | rewrite <- C5
                 | rewrite <- C6 | rewrite <- C7 | rewrite <- C8 | rewrite <- L1 | rewrite <- L2 | rewrite <- L3 | rewrite <- L4
                 | rewrite <- L5 | rewrite <- L6 | rewrite <- L7 | rewrite <- L8 | rewrite <- L9 | rewrite <- L10
                 | rewrite <- CT | rewrite <- CL | rewrite <- CO | rewrite <- CC
                 | match goal with H : _ |- _ => first
                   [ rewrite <- C1 in H | rewrite <- C2 in H | rewrite <- C3 in H | rewrite <- C4 in H | rewrite <- C5 in H
                   | rewrite <- C6 in H | rewrite <- C7 in H | rewrite <- C8 in H | rewrite <- L5 in H
                   | rewrite <- L6 in H | rewrite <- CT in H | rewrite <- CL in H ] end ];
    eauto.
Qed.
Lemma pinv_ext P P' Q s : (forall b, P b = P' b) -> pinv P Q s -> pinv P' Q s.
Proof.
  intros E H. destruct H. split; intros; repeat rewrite <- E in *; eauto.
Qed.
End Inv.
