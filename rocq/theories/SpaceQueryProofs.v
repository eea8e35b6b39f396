(** Proofs for C58 and C59. *)
From Coq Require Import ZArith NArith List Bool Arith Permutation Lia.
From Verif Require Import Num Vec BB BBProofs BBTree BBTreeSpec BBTreeProofs BBTreeInv BBTreeReindex BBTreeMain Filter FilterProofs Narrow SpaceQuery SpaceQuerySpec.
From Verif Require Space SpaceSpec SpaceMain.
Import ListNotations.
Local Open Scope nat_scope.

Section Pairs.
Context {N : Num} {O : NumOrd N}.
Lemma query_reject_spec s flt x i j : SpaceSpec.reachable s ->
  query_reject s flt x i j = false <-> body_of s i <> body_of s j /\ reject (flt i) (flt j) = false /\ bb_intersects (x_box x i) (x_box x j) = true /\
  ~ exists c, Space.contains_constraint s c = true /\ Space.co_collide (Space.s_con s c) = false /\
      ((Space.co_a (Space.s_con s c) = body_of s i /\ Space.co_b (Space.s_con s c) = body_of s j) \/
       (Space.co_a (Space.s_con s c) = body_of s j /\ Space.co_b (Space.s_con s c) = body_of s i)).
Proof.
  intros R. unfold query_reject. pose proof (SpaceMain.reject_spec s (body_of s i) (body_of s j) R) as Q.
  destruct (Nat.eqb_spec (body_of s i) (body_of s j)) as [E|E]; [split; [discriminate|tauto]|].
  destruct (reject (flt i) (flt j)); [split; [discriminate|intros (_ & ? & _); discriminate]|].
  destruct (bb_intersects _ _); cbn [negb]; [|split; [discriminate|intros (_ & _ & ? & _); discriminate]].
  destruct (Space.query_reject_constraints _ _ _); split; auto; try discriminate.
  - intros (_ & _ & _ & X). exfalso. apply X, Q; auto.
  - intros _. repeat split; auto. intros X. apply Q in X. discriminate.
Qed.
Lemma query_reject_sym s flt x i j : SpaceSpec.reachable s -> query_reject s flt x i j = query_reject s flt x j i.
Proof.
  intros R. unfold query_reject. rewrite (Nat.eqb_sym (body_of s i)), (reject_sym (flt i)), intersects_sym, (SpaceMain.reject_sym s (body_of s i)) by auto. reflexivity.
Qed.
Lemma occurs_in a b l : occurrences a b l <> 0 -> exists p, In p l /\ same_pair a b p = true.
Proof.
  unfold occurrences. destruct (List.filter (same_pair a b) l) as [|p m] eqn:E; [intros []; reflexivity|]. intros _. exists p. apply filter_In. rewrite E. left. auto.
Qed.
Lemma key_eqb_eq (k l : key) : key_eqb k l = true <-> k = l.
Proof.
  destruct k as [d i], l as [e j]. unfold key_eqb. cbn [fst snd]. rewrite andb_true_iff, Nat.eqb_eq, Bool.eqb_true_iff. split; [intros []; congruence|intros H; injection H; auto].
Qed.
Lemma same_pair_self (p : pair) : same_pair (fst p) (snd p) p = true.
Proof. unfold same_pair. rewrite (proj2 (key_eqb_eq (fst p) (fst p))), (proj2 (key_eqb_eq (snd p) (snd p))); auto. Qed.
Lemma in_occurs p l : In p l -> occurrences (fst p) (snd p) l <> 0.
Proof.
  intros I E. unfold occurrences in E. assert (X : In p (List.filter (same_pair (fst p) (snd p)) l)) by (apply filter_In; split; auto; apply same_pair_self).
  destruct (List.filter (same_pair (fst p) (snd p)) l); [destruct X|discriminate].
Qed.
Lemma leaf_of x d i : inv x -> (In i (x_leaves x d) <-> exists b, key_box x (d, i) = Some b).
Proof.
  intros [M _]. split; [intros I; apply indexed_box, is_indexed; auto|]. intros [b B]. destruct (in_dec Nat.eq_dec i (map fst (leaf_list x d))) as [I|I].
  - eapply Permutation_in; [apply M|exact I].
  - exfalso. assert (K : key_box x (d, i) = None) by (apply key_box_None; exact I). congruence.
Qed.
(* every call is about two leaves *)
Lemma calls_indexed x order p : reached x -> Permutation order (x_leaves x true) -> In p (snd (do_query x order)) ->
  In (snd (fst p)) (x_leaves x (fst (fst p))) /\ In (snd (snd p)) (x_leaves x (fst (snd p))).
Proof.
  intros R P I. apply in_occurs in I. rewrite (pairs_once x order R P) in I. apply reached_inv in R. pose proof (do_query_spec x order R P) as Q.
  destruct (do_query x order) as [y calls]. destruct Q as (Iy & _ & _ & _ & L). cbn [fst] in I. destruct (hit y (fst p) (snd p)) eqn:H; [|congruence].
  unfold hit in H. destruct p as [[d i] [e j]]. cbn [fst snd] in *. destruct (key_box y (d, i)) as [u|] eqn:U; [|discriminate]. destruct (key_box y (e, j)) as [v|] eqn:V; [|discriminate].
  rewrite <- !L. split; apply leaf_of; eauto.
Qed.
Lemma filter_len {A} (f g : A -> bool) l : (forall a, In a l -> f a = g a) -> length (List.filter f l) = length (List.filter g l).
Proof. intros H. erewrite filter_ext_in; eauto. Qed.
Lemma filter_none {A} (f : A -> bool) l : (forall a, In a l -> f a = false) -> length (List.filter f l) = 0.
Proof. induction l as [|a l IH]; intros H; simpl; auto. rewrite (H a) by (left; auto). apply IH. intros. apply H. right; auto. Qed.
Definition ment (i j : nat) (p : nat * nat) : bool := (Nat.eqb i (fst p) && Nat.eqb j (snd p)) || (Nat.eqb i (snd p) && Nat.eqb j (fst p)).
Lemma ment_ij i j p : ment i j p = true -> p = (i, j) \/ p = (j, i).
Proof. destruct p as [a b]. unfold ment. cbn [fst snd]. rewrite orb_true_iff, !andb_true_iff, !Nat.eqb_eq. intros [[-> ->]|[-> ->]]; auto. Qed.
Definition proj (p : pair) : nat * nat := (snd (fst p), snd (snd p)).
Lemma narrow_mentions s flt x order i j : SpaceSpec.reachable s ->
  mentions i j (narrow_pairs s flt x order) = if query_reject s flt x i j then 0 else length (List.filter (fun p => ment i j (proj p)) (snd (do_query x order))).
Proof.
  intros R. unfold mentions, narrow_pairs. change (fun p => (Nat.eqb i (fst p) && Nat.eqb j (snd p)) || (Nat.eqb i (snd p) && Nat.eqb j (fst p))) with (ment i j).
  generalize (snd (do_query x order)). intros l. change (map _ l) with (map proj l). induction l as [|p l IH]; [destruct (query_reject s flt x i j); reflexivity|]. cbn [map List.filter].
  destruct (ment i j (proj p)) eqn:M.
  - assert (E : query_reject s flt x (fst (proj p)) (snd (proj p)) = query_reject s flt x i j).
    { destruct (ment_ij _ _ _ M) as [-> | ->]; cbn [fst snd]; auto. apply query_reject_sym; auto. }
    rewrite E. destruct (query_reject s flt x i j) eqn:Q; cbn [negb]; [auto|]. cbn [List.filter]. rewrite M. cbn [length]. rewrite IH. reflexivity.
  - destruct (negb _); auto. cbn [List.filter]. rewrite M. exact IH.
Qed.
Lemma mentions_keys x order i j d e : reached x -> Permutation order (x_leaves x true) ->
  (forall k, ~ (In k (x_leaves x true) /\ In k (x_leaves x false))) -> In i (x_leaves x d) -> In j (x_leaves x e) ->
  length (List.filter (fun p => ment i j (proj p)) (snd (do_query x order))) = occurrences (d, i) (e, j) (snd (do_query x order)).
Proof.
  intros R P D Hi Hj. unfold occurrences. apply filter_len. intros p I. destruct (calls_indexed x order p R P I) as [A B].
  assert (U : forall k d e, In k (x_leaves x d) -> In k (x_leaves x e) -> d = e).
  { intros k [|] [|] X Y; auto; exfalso; apply (D k); auto. }
  destruct p as [[d1 i1] [d2 i2]]. unfold ment, proj, same_pair, key_eqb. cbn [fst snd] in *.
  destruct (Nat.eqb_spec i i1) as [E1|N1], (Nat.eqb_spec i i2) as [E2|N2], (Nat.eqb_spec j i2) as [E3|N3], (Nat.eqb_spec j i1) as [E4|N4]; subst;
    rewrite ?andb_false_r, ?andb_true_r; cbn [andb orb]; auto;
    repeat match goal with
    | X : In ?k (x_leaves x ?u), Y : In ?k (x_leaves x ?v) |- _ => assert (u = v) by (eapply U; eauto); subst; clear X
    end; rewrite ?Bool.eqb_reflx; auto.
Qed.
Lemma index_disjoint s x : SpaceSpec.reachable s -> Space.s_lock s = 0%Z -> indexes_space s x -> forall k, ~ (In k (x_leaves x true) /\ In k (x_leaves x false)).
Proof.
  intros R L [D S] k [A B]. apply D in A. apply S in B. destruct A as [h A], B as [g B]. destruct (SpaceMain.shapes_listed s k R L) as (_ & _ & X & Y & _).
  apply X in B. apply Y in A. destruct A as (_ & _ & A1 & A2), B as (_ & _ & [B|B]); congruence.
Qed.
Lemma indexed_where s x i : SpaceSpec.reachable s -> Space.s_lock s = 0%Z -> indexes_space s x ->
  (In i (x_leaves x true) <-> contained s i /\ ~ resting s i) /\ (In i (x_leaves x false) <-> contained s i /\ resting s i).
Proof.
  intros R L [D S]. destruct (SpaceMain.shapes_listed s i R L) as (_ & _ & X & Y & _). unfold contained, resting, body_of. split.
  - rewrite D. split.
    + intros [h H]. apply Y in H. destruct H as (A & _ & B & C). split; auto. intros [E|E]; congruence.
    + intros [A B]. exists (Space.sh_id (Space.s_shape s i)). apply Y. split; auto. split; auto. split; [intros E; apply B; auto|].
      destruct (Space.is_sleeping s _) eqn:E; auto. exfalso. apply B. auto.
  - rewrite S. split.
    + intros [h H]. apply X in H. tauto.
    + intros [A B]. exists (Space.sh_id (Space.s_shape s i)). apply X. auto.
Qed.
Lemma resting_dec s i : {resting s i} + {~ resting s i}.
Proof.
  unfold resting. destruct (Space.ty s (body_of s i)) eqn:T, (Space.is_sleeping s (body_of s i)) eqn:E; auto; right; intros [X|X]; congruence.
Qed.
(* the narrow phase examines the eligible pairs, each once, and no other *)
Lemma narrow_exact s flt x order : SpaceSpec.reachable s -> Space.s_lock s = 0%Z -> reached x -> indexes_space s x -> fresh x false ->
  Permutation order (x_leaves x true) -> forall i j,
  (eligible s flt (x_box x) i j -> mentions i j (narrow_pairs s flt x order) = 1) /\
  (~ eligible s flt (x_box x) i j -> mentions i j (narrow_pairs s flt x order) = 0).
Proof.
  intros R L Rx Ix F P i j. pose proof (index_disjoint s x R L Ix) as D. rewrite narrow_mentions by auto. split.
  - intros (Ci & Cj & Nr & Nb & Fl & Bx & Nc). rewrite (proj2 (query_reject_spec s flt x i j R)) by auto.
    destruct (indexed_where s x i R L Ix) as [Di Si], (indexed_where s x j R L Ix) as [Dj Sj].
    assert (ij : i <> j) by (intros ->; apply Nb; reflexivity).
    destruct (resting_dec s i) as [Ri|Ri], (resting_dec s j) as [Rj|Rj].
    + exfalso. auto.
    + assert (A : In i (x_leaves x false)) by (apply Si; auto). assert (B : In j (x_leaves x true)) by (apply Dj; auto).
      rewrite (mentions_keys x order i j false true) by auto. destruct (F i A) as (b & K & C).
      assert (S : occurrences (false, i) (true, j) (snd (do_query x order)) = occurrences (true, j) (false, i) (snd (do_query x order))).
      { unfold occurrences. apply filter_len. intros p _. unfold same_pair. rewrite orb_comm, (andb_comm (key_eqb (false, i) (snd p))), (andb_comm (key_eqb (false, i) (fst p))). reflexivity. }
      rewrite S. eapply no_static_overlap_missed; eauto. rewrite intersects_sym. auto.
    + assert (A : In i (x_leaves x true)) by (apply Di; auto). assert (B : In j (x_leaves x false)) by (apply Sj; auto).
      rewrite (mentions_keys x order i j true false) by auto. destruct (F j B) as (b & K & C). eapply no_static_overlap_missed; eauto.
    + assert (A : In i (x_leaves x true)) by (apply Di; auto). assert (B : In j (x_leaves x true)) by (apply Dj; auto).
      rewrite (mentions_keys x order i j true true) by auto. apply no_overlap_missed; auto.
  - intros Ne. destruct (query_reject s flt x i j) eqn:Q; auto. apply query_reject_spec in Q; auto. destruct Q as (Nb & Fl & Bx & Nc).
    assert (Z : contained s i -> contained s j -> resting s i /\ resting s j).
    { intros Ci Cj. destruct (resting_dec s i) as [Ri|Ri], (resting_dec s j) as [Rj|Rj]; auto; exfalso; apply Ne; split; auto; split; auto; split; auto; tauto. }
    destruct (Nat.eq_dec (length (List.filter (fun p => ment i j (proj p)) (snd (do_query x order)))) 0) as [E|E]; auto. exfalso.
    assert (X : exists p, In p (snd (do_query x order)) /\ ment i j (proj p) = true).
    { destruct (List.filter (fun p => ment i j (proj p)) (snd (do_query x order))) as [|p m] eqn:G; [destruct E; reflexivity|]. exists p. apply (filter_In (fun p => ment i j (proj p))). rewrite G. left; auto. }
    destruct X as (p & I & M). destruct (calls_indexed x order p Rx P I) as [A B].
    assert (W : forall k d, In k (x_leaves x d) -> contained s k /\ (d = true -> ~ resting s k) /\ (d = false -> resting s k)).
    { intros k d K. destruct (indexed_where s x k R L Ix) as [Dk Sk]. destruct d; [apply Dk in K|apply Sk in K]; destruct K; split; auto; split; auto; discriminate. }
    destruct (W _ _ A) as (CA & A1 & A2), (W _ _ B) as (CB & B1 & B2).
    apply in_occurs in I. rewrite (pairs_once x order Rx P) in I. destruct (hit (fst (do_query x order)) (fst p) (snd p)) eqn:H; [|congruence].
    unfold hit in H. destruct (key_box _ (fst p)) as [?|]; [|discriminate]. destruct (key_box _ (snd p)) as [?|]; [|discriminate].
    apply andb_true_iff in H. destruct H as [H _]. apply andb_true_iff in H. destruct H as [H _]. apply orb_true_iff in H.
    destruct p as [[kd ka] [ke kb]]. unfold proj in M. cbn [fst snd] in *. destruct (ment_ij _ _ _ M) as [G|G]; injection G as -> ->.
    + destruct (Z CA CB) as [Z1 Z2]. destruct H; [apply A1 in H|apply B1 in H]; tauto.
    + destruct (Z CB CA) as [Z1 Z2]. destruct H; [apply A1 in H|apply B1 in H]; tauto.
Qed.

(** ** Box queries *)
Lemma bb_query_exact s flt x f q : SpaceSpec.reachable s -> Space.s_lock s = 0%Z -> reached x -> indexes_space s x -> fresh x false -> fresh x true ->
  NoDup (bb_query flt x f q) /\ forall i, In i (bb_query flt x f q) <-> contained s i /\ reject (flt i) f = false /\ bb_intersects (x_box x i) q = true.
Proof.
  intros R L Rx Ix F0 F1. pose proof (index_disjoint s x R L Ix) as D.
  assert (Q : forall d, NoDup (index_query x d q) /\ (forall i, In i (index_query x d q) -> In i (x_leaves x d)) /\
                (forall i, In i (x_leaves x d) -> bb_intersects (x_box x i) q = true -> In i (index_query x d q))).
  { intros d. destruct (query_exact x d q Rx) as [A B]. split; auto. split.
    - intros i I. apply B in I. destruct I as (b & K & _). apply leaf_of; [apply reached_inv; auto|eauto].
    - intros i I H. destruct d; [destruct (F1 i I) as (b & K & C)|destruct (F0 i I) as (b & K & C)]; eapply query_complete; eauto. }
  destruct (Q true) as (N1 & A1 & B1), (Q false) as (N0 & A0 & B0). unfold bb_query. split.
  - assert (G : forall l1 l2 : list nat, NoDup l1 -> NoDup l2 -> (forall k, In k l1 -> ~ In k l2) -> NoDup (l1 ++ l2)).
    { clear. induction l1 as [|a l1 IH]; intros l2 H1 H2 H; simpl; auto. inversion H1; subst. constructor.
      - rewrite in_app_iff. intros [X|X]; [auto|apply (H a); simpl; auto].
      - apply IH; auto. intros k K. apply H. right; auto. }
    apply G; try apply NoDup_filter; auto. intros k K1 K2. apply filter_In in K1, K2. apply (D k). split; [apply A1|apply A0]; tauto.
  - intros i. destruct (indexed_where s x i R L Ix) as [Di Si]. rewrite in_app_iff, !filter_In. unfold bb_accepts. rewrite !andb_true_iff, !negb_true_iff. split.
    + intros [[I [X Y]]|[I [X Y]]]; [apply A0, Si in I|apply A1, Di in I]; tauto.
    + intros (C & X & Y). destruct (resting_dec s i) as [Ri|Ri]; [left|right]; (split; [|split; auto]); [apply B0|apply B1]; auto; [apply Si|apply Di]; auto.
Qed.

(** ** Shape queries *)
Variable tiny : num.
Definition points (sh : nat -> nshape) (a b : nat) : option (vec * list cpoint) :=
  match shapes_collide tiny (sh a) (sh b) with Some (n, c :: l) => Some (n, c :: l) | _ => None end.
Definition hit_of (flt : nat -> filter) (sh : nat -> nshape) (a b : nat) : option (vec * list cpoint) :=
  if reject (flt a) (flt b) || Nat.eqb a b then None else points sh a b.
Lemma call_hit flt sensor sh a st b : shape_query_call tiny flt sensor sh a st b =
  match hit_of flt sh a b with Some r => ((b, r) :: fst st, negb (sensor a || sensor b)) | None => st end.
Proof.
  unfold shape_query_call, hit_of, points. destruct (_ || _); auto. destruct (shapes_collide _ _ _) as [[n [|c l]]|]; auto.
Qed.
Fixpoint hits_of (flt : nat -> filter) (sh : nat -> nshape) (a : nat) (l : list nat) : list (nat * (vec * list cpoint)) :=
  match l with [] => [] | b :: l => match hit_of flt sh a b with Some r => (b, r) :: hits_of flt sh a l | None => hits_of flt sh a l end end.
Lemma hits_app flt sh a l m : hits_of flt sh a (l ++ m) = hits_of flt sh a l ++ hits_of flt sh a m.
Proof. induction l as [|b l IH]; simpl; auto. destruct (hit_of flt sh a b); simpl; rewrite IH; auto. Qed.
Lemma hits_In flt sh a l b r : In (b, r) (hits_of flt sh a l) <-> In b l /\ hit_of flt sh a b = Some r.
Proof.
  induction l as [|c l IH]; simpl; [tauto|]. destruct (hit_of flt sh a c) as [q|] eqn:E; simpl; rewrite IH; split.
  - intros [H|H]; [injection H as -> ->; auto|tauto].
  - intros [[->|H] K]; [left; congruence|right; auto].
  - tauto.
  - intros [[->|H] K]; [congruence|auto].
Qed.
Lemma fold_calls flt sensor sh a l : forall st, fold_left (shape_query_call tiny flt sensor sh a) l st =
  (rev (hits_of flt sh a l) ++ fst st, match rev (hits_of flt sh a l) with [] => snd st | (b, _) :: _ => negb (sensor a || sensor b) end).
Proof.
  induction l as [|b l IH]; intros st; simpl; [destruct st; reflexivity|]. rewrite IH, call_hit. destruct (hit_of flt sh a b) as [r|]; auto. cbn [fst snd rev].
  rewrite <- app_assoc. cbn [app]. f_equal. destruct (rev (hits_of flt sh a l)) as [|[c ?] ?]; reflexivity.
Qed.
Lemma shape_query_eq flt sensor sh x a q : let h := hits_of flt sh a (index_query x true q ++ index_query x false q) in
  shape_query tiny flt sensor sh x a q = (h, match rev h with [] => false | (b, _) :: _ => negb (sensor a || sensor b) end).
Proof.
  cbv zeta. unfold shape_query. rewrite <- fold_left_app, fold_calls. cbn [fst snd]. rewrite app_nil_r, rev_involutive. reflexivity.
Qed.
Lemma hit_some flt sh a b n l : hit_of flt sh a b = Some (n, l) <-> reject (flt a) (flt b) = false /\ b <> a /\ shapes_collide tiny (sh a) (sh b) = Some (n, l) /\ l <> [].
Proof.
  unfold hit_of, points. destruct (reject _ _); cbn [orb]; [split; [discriminate|intros []; discriminate]|].
  destruct (Nat.eqb_spec a b) as [->|Nb]; [split; [discriminate|intros (_ & X & _); congruence]|].
  destruct (shapes_collide _ _ _) as [[m [|c k]]|]; split; try discriminate.
  - intros (_ & _ & X & Y). injection X as <- <-. congruence.
  - intros X. injection X as <- <-. repeat split; auto; discriminate.
  - intros (_ & _ & X & _). injection X as <- <-. reflexivity.
  - intros (_ & _ & X & _). discriminate.
Qed.
Lemma shape_query_exact s flt sensor sh x a q : SpaceSpec.reachable s -> Space.s_lock s = 0%Z -> reached x -> indexes_space s x -> fresh x false -> fresh x true ->
  let called := fst (shape_query tiny flt sensor sh x a q) in
  NoDup (map fst called) /\
  (forall b n l, In (b, (n, l)) called -> contained s b /\ b <> a /\ reject (flt a) (flt b) = false /\ shapes_collide tiny (sh a) (sh b) = Some (n, l) /\ l <> []) /\
  (forall b n l, contained s b -> b <> a -> reject (flt a) (flt b) = false -> bb_intersects (x_box x b) q = true -> shapes_collide tiny (sh a) (sh b) = Some (n, l) -> l <> [] ->
     In (b, (n, l)) called).
Proof.
  intros R L Rx Ix F0 F1. cbv zeta. rewrite shape_query_eq. cbn [fst]. pose proof (index_disjoint s x R L Ix) as D.
  assert (Q : forall d, NoDup (index_query x d q) /\ (forall i, In i (index_query x d q) -> In i (x_leaves x d)) /\
                (forall i, In i (x_leaves x d) -> bb_intersects (x_box x i) q = true -> In i (index_query x d q))).
  { intros d. destruct (query_exact x d q Rx) as [A B]. split; auto. split.
    - intros i I. apply B in I. destruct I as (b & K & _). apply leaf_of; [apply reached_inv; auto|eauto].
    - intros i I H. destruct d; [destruct (F1 i I) as (b & K & C)|destruct (F0 i I) as (b & K & C)]; eapply query_complete; eauto. }
  destruct (Q true) as (N1 & A1 & B1), (Q false) as (N0 & A0 & B0).
  assert (ND : NoDup (index_query x true q ++ index_query x false q)).
  { assert (G : forall l1 l2 : list nat, NoDup l1 -> NoDup l2 -> (forall k, In k l1 -> ~ In k l2) -> NoDup (l1 ++ l2)).
    { clear. induction l1 as [|u l1 IH]; intros l2 H1 H2 H; simpl; auto. inversion H1; subst. constructor.
      - rewrite in_app_iff. intros [X|X]; [auto|apply (H u); simpl; auto].
      - apply IH; auto. intros k K. apply H. right; auto. }
    apply G; auto. intros k K1 K2. apply (D k). auto. }
  split; [|split].
  - revert ND. generalize (index_query x true q ++ index_query x false q). clear. induction l as [|b l IH]; intros H; [constructor|]. inversion H; subst. cbn [hits_of].
    destruct (hit_of flt sh a b); auto. cbn [map fst]. constructor; auto. intros I. apply in_map_iff in I. destruct I as ([c r] & E & I). cbn [fst] in E. subst c. apply hits_In in I. tauto.
  - intros b n l I. apply hits_In in I. destruct I as [I H]. apply hit_some in H. destruct H as (H1 & H2 & H3 & H4). repeat split; auto.
    destruct (indexed_where s x b R L Ix) as [Db Sb]. apply in_app_iff in I. destruct I as [I|I]; [apply A1, Db in I|apply A0, Sb in I]; tauto.
  - intros b n l C Nb Rj Bx Sc Nl. apply hits_In. split; [|apply hit_some; auto]. destruct (indexed_where s x b R L Ix) as [Db Sb]. apply in_app_iff.
    destruct (resting_dec s b) as [Rb|Rb]; [right; apply B0|left; apply B1]; auto; [apply Sb|apply Db]; auto.
Qed.
(* the result tells about the last call only *)
Lemma shape_query_result flt sensor sh x a q : let r := shape_query tiny flt sensor sh x a q in
  snd r = match rev (fst r) with [] => false | (b, _) :: _ => negb (sensor a || sensor b) end.
Proof. cbv zeta. rewrite shape_query_eq. reflexivity. Qed.
Lemma shape_query_no_sensor flt sensor sh x a q : sensor a = false -> let r := shape_query tiny flt sensor sh x a q in
  (forall b c, In (b, c) (fst r) -> sensor b = false) -> snd r = true <-> fst r <> [].
Proof.
  intros A. cbv zeta. rewrite shape_query_result. intros H. destruct (rev _) as [|[b c] m] eqn:E.
  - assert (X : fst (shape_query tiny flt sensor sh x a q) = []) by (rewrite <- (rev_involutive (fst _)), E; reflexivity). rewrite X. split; [discriminate|congruence].
  - assert (X : In (b, c) (fst (shape_query tiny flt sensor sh x a q))) by (apply in_rev; rewrite E; left; auto). rewrite A, (H b c X). split; auto. intros _ Y. rewrite Y in X. destruct X.
Qed.
Lemma shape_query_sound flt sensor sh x a q : let r := shape_query tiny flt sensor sh x a q in
  snd r = true -> sensor a = false /\ exists b c, In (b, c) (fst r) /\ sensor b = false.
Proof.
  cbv zeta. rewrite shape_query_result. destruct (rev _) as [|[b c] m] eqn:E; [discriminate|]. intros H. apply negb_true_iff, orb_false_iff in H. destruct H as [A B].
  split; auto. exists b, c. split; auto. apply in_rev. rewrite E. left. auto.
Qed.
End Pairs.
