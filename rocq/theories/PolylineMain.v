(** Proofs for C48: PolyLineCollectSegment. *)
From Coq Require Import ZArith Reals List Bool Lia PeanoNat Permutation Floats.
From Verif Require Import Num NumReal Vec BB March MarchSpec MarchMain Polyline PolylineSpec.
Import ListNotations.

Section Any.
Context {Nm : Num}.
Implicit Types (l A B : list vec) (ls rest : list (list vec)) (s : vec * vec).

Lemma pairs_cons x l : l <> [] -> pairs (x :: l) = (x, first_of l) :: pairs l.
Proof. destruct l; [congruence|reflexivity]. Qed.
Lemma last_cons x l : l <> [] -> last_of (x :: l) = last_of l.
Proof. destruct l; [congruence|reflexivity]. Qed.
Lemma first_app A B : A <> [] -> first_of (A ++ B) = first_of A.
Proof. destruct A; [congruence|reflexivity]. Qed.
Lemma last_app A B : B <> [] -> last_of (A ++ B) = last_of B.
Proof.
  intros H. induction A as [|x A IH]; [reflexivity|]. cbn [app]. rewrite last_cons; auto. destruct A, B; cbn; congruence.
Qed.
Lemma pairs_app A B : A <> [] -> B <> [] -> pairs (A ++ B) = pairs A ++ (last_of A, first_of B) :: pairs B.
Proof.
  intros HA HB. induction A as [|x A IH]; [congruence|]. destruct A as [|y A].
  - cbn [app]. rewrite pairs_cons by auto. reflexivity.
  - change ((x :: y :: A) ++ B) with (x :: (y :: A) ++ B). rewrite (pairs_cons x ((y :: A) ++ B)) by (intros H; discriminate H). rewrite IH by (intros H; discriminate H).
    rewrite (last_cons x (y :: A)) by (intros H; discriminate H). reflexivity.
Qed.
Lemma ends_at_spec v l : ends_at v l = true <-> l <> [] /\ veqb (last_of l) v = true.
Proof.
  unfold ends_at, last_of. destruct l as [|x r]; [split; [discriminate|intros [H _]; congruence]|].
  replace (last (x :: r) vzero) with (last r x). { split; [split; [discriminate|auto]|intros []; auto]. }
  clear. revert x. induction r as [|y r IH]; intros x; [reflexivity|]. cbn [last] in *. destruct r as [|z r]; [reflexivity|]. apply (IH y) || (rewrite IH; reflexivity).
Qed.
Lemma starts_at_spec v l : starts_at v l = true <-> l <> [] /\ veqb (first_of l) v = true.
Proof. destruct l; cbn; [split; [discriminate|intros [H _]; congruence]|]. split; [split; [discriminate|auto]|intros []; auto]. Qed.
Lemma find_spec f ls : match find_line f ls with
  | Some i => exists X l Y, ls = X ++ l :: Y /\ length X = i /\ f l = true
  | None => forall l, In l ls -> f l = false end.
Proof.
  induction ls as [|l ls IH]; cbn; [intros ? []|]. destruct (f l) eqn:E; [exists [], l, ls; auto|].
  destruct (find_line f ls) as [i|]; cbn.
  - destruct IH as (X & m & Y & -> & <- & F). exists (l :: X), m, Y. auto.
  - intros m [<-|H]; auto.
Qed.
Lemma change_at X l Y f : change (length X) f (X ++ l :: Y) = X ++ f l :: Y.
Proof. induction X; cbn; congruence. Qed.
Lemma delete_at X l Y : delete (length X) (X ++ l :: Y) = X ++ Y.
Proof. induction X; cbn; congruence. Qed.
Lemma nth_at X l Y : nth (length X) (X ++ l :: Y) [] = l.
Proof. rewrite app_nth2, Nat.sub_diag by lia. reflexivity. Qed.
Lemma split_two (ls X Y X' Y' : list (list vec)) A B : ls = X ++ A :: Y -> ls = X' ++ B :: Y' -> length X <> length X' ->
  exists U W Z, (ls = U ++ A :: W ++ B :: Z /\ length X = length U /\ length X' = length (U ++ A :: W)) \/ (ls = U ++ B :: W ++ A :: Z /\ length X' = length U /\ length X = length (U ++ B :: W)).
Proof.
  intros -> E D. destruct (lt_eq_lt_dec (length X) (length X')) as [[L|L]|L]; [|lia|].
  - exists X. assert (P : firstn (length X) (X' ++ B :: Y') = firstn (length X) X') by (rewrite firstn_app; replace (length X - length X')%nat with 0%nat by lia; now rewrite app_nil_r).
    rewrite <- E, firstn_app, firstn_all, Nat.sub_diag, app_nil_r in P.
    rewrite <- (firstn_skipn (length X) X') in E. rewrite <- P in E. rewrite <- app_assoc in E. apply app_inv_head in E.
    destruct (skipn (length X) X') as [|a W] eqn:S.
    { exfalso. pose proof (firstn_skipn (length X) X') as Q. rewrite S, app_nil_r, <- P in Q. subst X'. lia. }
    injection E as <- ->. exists W, Y'. left. split; auto. split; auto. pose proof (firstn_skipn (length X) X') as Q. rewrite S, <- P in Q. now rewrite <- Q.
  - exists X'. assert (P : firstn (length X') (X ++ A :: Y) = firstn (length X') X) by (rewrite firstn_app; replace (length X' - length X)%nat with 0%nat by lia; now rewrite app_nil_r).
    rewrite E, firstn_app, firstn_all, Nat.sub_diag, app_nil_r in P.
    rewrite <- (firstn_skipn (length X') X) in E. rewrite <- P in E. rewrite <- app_assoc in E. apply app_inv_head in E.
    destruct (skipn (length X') X) as [|a W] eqn:S.
    { exfalso. pose proof (firstn_skipn (length X') X) as Q. rewrite S, app_nil_r, <- P in Q. subst X. lia. }
    injection E as -> <-. exists W, Y. right. split; [|split; auto].
    + rewrite <- (firstn_skipn (length X') X), S, <- P, <- app_assoc. reflexivity.
    + pose proof (firstn_skipn (length X') X) as Q. rewrite S, <- P in Q. now rewrite <- Q.
Qed.

(** One segment, up to the order of the lines. *)
Inductive step (v0 v1 : vec) : list (list vec) -> list (list vec) -> Prop :=
| Extend A rest : ends_at v0 A = true -> (forall l, In l (A :: rest) -> starts_at v1 l = false) -> step v0 v1 (A :: rest) ((A ++ [v1]) :: rest)
| Loop A rest : ends_at v0 A = true -> starts_at v1 A = true -> step v0 v1 (A :: rest) ((A ++ [v1]) :: rest)
| Prepend A rest : starts_at v1 A = true -> (forall l, In l (A :: rest) -> ends_at v0 l = false) -> step v0 v1 (A :: rest) ((v0 :: A) :: rest)
| Join A B rest : ends_at v0 A = true -> starts_at v1 B = true -> step v0 v1 (A :: B :: rest) ((A ++ B) :: rest)
| New ls : (forall l, In l ls -> ends_at v0 l = false) -> (forall l, In l ls -> starts_at v1 l = false) -> step v0 v1 ls ([v0; v1] :: ls).
Lemma collect_step ls v0 v1 : exists ls1 ls2, Permutation ls ls1 /\ step v0 v1 ls1 ls2 /\ Permutation ls2 (collect ls (v0, v1)).
Proof.
  unfold collect, find_ends, find_starts. pose proof (find_spec (ends_at v0) ls) as E. pose proof (find_spec (starts_at v1) ls) as S.
  destruct (find_line (ends_at v0) ls) as [i|], (find_line (starts_at v1) ls) as [j|].
  - destruct E as (X & A & Y & E & <- & FA), S as (X' & B & Y' & S & <- & FB). destruct (Nat.eqb_spec (length X) (length X')) as [L|L].
    + assert (A = B /\ X = X' /\ Y = Y') as (<- & <- & <-).
      { rewrite E in S. clear -S L. revert X' S L. induction X as [|x X IH]; intros [|x' X'] S L; try discriminate; cbn in *; [injection S; auto|].
        injection S as -> S. destruct (IH X' S) as (-> & -> & ->); auto. }
      exists (A :: X ++ Y), ((A ++ [v1]) :: X ++ Y). split; [rewrite E; symmetry; apply Permutation_middle|]. split; [now apply Loop|]. rewrite E, change_at. apply Permutation_middle.
    + destruct (split_two ls X Y X' Y' A B E S L) as (U & W & Z & [(Q & L1 & L2)|(Q & L1 & L2)]).
      * exists (A :: B :: U ++ W ++ Z), ((A ++ B) :: U ++ W ++ Z). split; [|split; [now apply Join|]].
        -- rewrite Q. symmetry. apply Permutation_cons_app. rewrite app_assoc, (app_assoc U). apply Permutation_middle.
        -- unfold join. assert (N : nth (length X') ls [] = B) by (rewrite L2, Q, app_comm_cons, app_assoc; apply nth_at). rewrite N, Q, L1, change_at, L2.
           replace (length (U ++ A :: W)) with (length (U ++ (A ++ B) :: W)) by (rewrite !app_length; reflexivity).
           replace (U ++ (A ++ B) :: W ++ B :: Z) with ((U ++ (A ++ B) :: W) ++ B :: Z) by (rewrite <- app_assoc; reflexivity). rewrite delete_at, <- app_assoc. cbn [app]. apply Permutation_middle.
      * exists (A :: B :: U ++ W ++ Z), ((A ++ B) :: U ++ W ++ Z). split; [|split; [now apply Join|]].
        -- rewrite Q. etransitivity; [|apply perm_swap]. symmetry. apply Permutation_cons_app. rewrite app_assoc, (app_assoc U). apply Permutation_middle.
        -- unfold join. assert (N : nth (length X') ls [] = B) by (rewrite L1, Q; apply nth_at). rewrite N, Q, L1, L2.
           replace (U ++ B :: W ++ A :: Z) with ((U ++ B :: W) ++ A :: Z) by (rewrite <- app_assoc; reflexivity). rewrite change_at, <- app_assoc. cbn [app]. rewrite delete_at, (app_assoc U W), (app_assoc U W). apply Permutation_middle.
  - destruct E as (X & A & Y & -> & <- & FA). exists (A :: X ++ Y), ((A ++ [v1]) :: X ++ Y). split; [symmetry; apply Permutation_middle|]. split; [|rewrite change_at; apply Permutation_middle].
    apply Extend; auto. intros l H. apply S. apply (Permutation_in _ (Permutation_middle X Y A)), H.
  - destruct S as (X & A & Y & -> & <- & FA). exists (A :: X ++ Y), ((v0 :: A) :: X ++ Y). split; [symmetry; apply Permutation_middle|]. split; [|rewrite change_at; apply Permutation_middle].
    apply Prepend; auto. intros l H. apply E. apply (Permutation_in _ (Permutation_middle X Y A)), H.
  - exists ls, ([v0; v1] :: ls). split; auto. split; [now apply New|]. apply Permutation_cons_append.
Qed.

(** ** The segments *)
Definition all_pairs ls : list (vec * vec) := flat_map pairs ls.
Definition long l : Prop := (2 <= length l)%nat.
Lemma all_pairs_perm ls ls' : Permutation ls ls' -> Permutation (all_pairs ls) (all_pairs ls').
Proof. apply Permutation_flat_map. Qed.
Lemma long_ne l : long l -> l <> []. Proof. unfold long. destruct l; cbn; [lia|discriminate]. Qed.
Lemma same_refl v : same v v. Proof. now left. Qed.
Hypothesis P : per Nm.
Lemma step_pairs v0 v1 ls ls' : Forall long ls -> step v0 v1 ls ls' -> Forall long ls' /\ exists s, same_segment s (v0, v1) /\ Permutation (all_pairs ls') (s :: all_pairs ls).
Proof.
  intros F S. inversion S as [A rest H1 H2|A rest H1 H2|A rest H1 H2|A B rest H1 H2|ls0 H1 H2]; subst; clear S.
  1,2: inversion F as [|? ? FA FR]; subst; apply ends_at_spec in H1 as [NA H1]; split; [constructor; [unfold long in *; rewrite app_length; cbn; lia|auto]|];
    exists (last_of A, v1); split; [split; [right; exact H1|apply same_refl]|]; unfold all_pairs; cbn [flat_map]; rewrite pairs_app by (auto; discriminate); cbn; rewrite <- app_assoc; apply Permutation_sym, Permutation_middle.
  - inversion F as [|? ? FA FR]; subst. apply starts_at_spec in H1 as [NA H1]. split; [constructor; [unfold long in *; cbn; lia|auto]|].
    exists (v0, first_of A). split; [split; [apply same_refl|right; exact H1]|]. unfold all_pairs; cbn [flat_map]. rewrite pairs_cons by auto. reflexivity.
  - inversion F as [|? ? FA FR]; subst. inversion FR as [|? ? FB FR']; subst. apply ends_at_spec in H1 as [NA H1]. apply starts_at_spec in H2 as [NB H2]. split; [constructor; [unfold long in *; rewrite app_length; lia|auto]|].
    exists (last_of A, first_of B). split; [split; right; auto|]. unfold all_pairs; cbn [flat_map]. rewrite pairs_app by auto. rewrite <- app_assoc. cbn. apply Permutation_sym, Permutation_middle.
  - split; [constructor; [unfold long; cbn; lia|auto]|]. exists (v0, v1). split; [split; apply same_refl|]. reflexivity.
Qed.
Lemma Forall_perm (Q : list vec -> Prop) ls ls' : Permutation ls ls' -> Forall Q ls -> Forall Q ls'.
Proof. intros H. rewrite !Forall_forall. intros F x I. apply F. eapply Permutation_in; [symmetry; exact H|exact I]. Qed.
Lemma collect_pairs ls s : Forall long ls -> Forall long (collect ls s) /\ exists s', same_segment s' s /\ Permutation (all_pairs (collect ls s)) (s' :: all_pairs ls).
Proof.
  destruct s as [v0 v1]. intros F. destruct (collect_step ls v0 v1) as (ls1 & ls2 & P1 & S & P2).
  destruct (step_pairs v0 v1 ls1 ls2 (Forall_perm _ _ _ P1 F) S) as (F2 & s & Sa & Pe). split; [eapply Forall_perm; eauto|].
  exists s. split; auto. rewrite <- (all_pairs_perm _ _ P2), Pe. constructor. symmetry. now apply all_pairs_perm.
Qed.
Lemma collected_from ss : forall ls, Forall long ls -> let r := fold_left collect ss ls in
  Forall long r /\ exists ss', Forall2 same_segment ss' ss /\ Permutation (all_pairs r) (ss' ++ all_pairs ls).
Proof.
  induction ss as [|s ss IH]; intros ls F; cbn; [split; auto; exists []; split; auto|].
  destruct (collect_pairs ls s F) as (F1 & s' & Sa & Pe). destruct (IH _ F1) as (F2 & ss' & Sb & Pf). split; auto.
  exists (s' :: ss'). split; [constructor; auto|]. rewrite Pf, Pe. cbn. symmetry. apply Permutation_middle.
Qed.
Lemma collected ss : Forall long (collect_all ss) /\ exists ss', Forall2 same_segment ss' ss /\ Permutation (all_pairs (collect_all ss)) ss'.
Proof. destruct (collected_from ss [] (Forall_nil _)) as (F & ss' & S & H). split; auto. exists ss'. split; auto. cbn in H. now rewrite app_nil_r in H. Qed.

(** ** Where the lines end *)
Definition apart2 A B : Prop := veqb (last_of A) (first_of B) = false /\ veqb (last_of B) (first_of A) = false.
Inductive apart : list (list vec) -> Prop :=
| apart_nil : apart []
| apart_cons A rest : Forall (apart2 A) rest -> apart rest -> apart (A :: rest).
Lemma apart2_sym A B : apart2 A B -> apart2 B A. Proof. unfold apart2. tauto. Qed.
Lemma apart_perm ls ls' : Permutation ls ls' -> apart ls -> apart ls'.
Proof.
  induction 1 as [|A l l' H IH|A B l|l1 l2 l3 H1 IH1 H2 IH2]; intros Q; auto.
  - inversion Q; subst. constructor; auto. eapply Forall_perm; eauto.
  - inversion Q as [|? ? F1 Q1]; subst. inversion Q1 as [|? ? F2 Q2]; subst. inversion F1; subst. constructor; [constructor; auto; now apply apart2_sym|]. constructor; auto.
Qed.
Lemma count_perm (f : vec * vec -> bool) a b : Permutation a b -> length (filter f a) = length (filter f b).
Proof. induction 1; cbn; auto; try congruence; [destruct (f x); cbn; congruence|destruct (f x), (f y); cbn; auto]. Qed.
Lemma same_veqb p u v : same u v -> veqb p u = veqb p v.
Proof. intros [->|H]; auto. now apply veqb_same. Qed.
Lemma count_same p a b : Forall2 same_segment a b -> starts p a = starts p b /\ ends p a = ends p b.
Proof.
  unfold starts, ends. induction 1 as [|x y a b [S1 S2] F [I1 I2]]; [auto|]. cbn. rewrite (same_veqb p _ _ S1), (same_veqb p _ _ S2).
  destruct (veqb p (fst y)), (veqb p (snd y)); cbn; lia.
Qed.
Lemma starts_app p a b : starts p (a ++ b) = (starts p a + starts p b)%nat. Proof. unfold starts. now rewrite filter_app, app_length. Qed.
Lemma ends_app p a b : ends p (a ++ b) = (ends p a + ends p b)%nat. Proof. unfold ends. now rewrite filter_app, app_length. Qed.
Lemma starts_first p l : long l -> veqb p (first_of l) = true -> (1 <= starts p (pairs l))%nat.
Proof. destruct l as [|x [|y l]]; unfold long; cbn; try lia. intros _ H. unfold starts. cbn. rewrite H. cbn. lia. Qed.
Lemma step_apart v0 v1 ls ls' : Forall long ls -> (starts v1 (all_pairs ls) <= 1)%nat -> step v0 v1 ls ls' -> apart ls -> apart ls'.
Proof.
  intros F U S Q. inversion S as [A rest H1 H2|A rest H1 H2|A rest H1 H2|A B rest H1 H2|ls0 H1 H2]; subst; clear S.
  - inversion Q as [|? ? G Q1]; subst. apply ends_at_spec in H1 as [NA H1]. constructor; auto. rewrite Forall_forall in *. intros B HB. destruct (G B HB) as [G1 G2]. split.
    + rewrite last_app by discriminate. cbn. specialize (H2 B (or_intror HB)). assert (NB : B <> []) by (apply long_ne, F; now right). rewrite veqb_sym by auto. destruct (veqb (first_of B) v1) eqn:E; auto.
      exfalso. rewrite (proj2 (starts_at_spec v1 B)) in H2 by auto. discriminate.
    + rewrite first_app; auto.
  - inversion Q as [|? ? G Q1]; subst. apply ends_at_spec in H1 as [NA H1]. apply starts_at_spec in H2 as [_ H2]. constructor; auto. inversion F as [|? ? FA FR]; subst. rewrite Forall_forall in *. intros B HB. destruct (G B HB) as [G1 G2]. split.
    + rewrite last_app by discriminate. cbn. destruct (veqb v1 (first_of B)) eqn:E; auto. exfalso.
      apply in_split in HB as (X & Y & ->). unfold all_pairs in U. cbn [flat_map] in U. rewrite flat_map_app in U. cbn [flat_map] in U. rewrite !starts_app in U.
      pose proof (starts_first v1 A FA) as K1. rewrite veqb_sym in K1 by auto. specialize (K1 H2). pose proof (starts_first v1 B (FR B ltac:(apply in_or_app; right; now left)) E). lia.
    + rewrite first_app; auto.
  - inversion Q as [|? ? G Q1]; subst. apply starts_at_spec in H1 as [NA H1]. constructor; auto. rewrite Forall_forall in *. intros B HB. destruct (G B HB) as [G1 G2]. split.
    + rewrite last_cons; auto.
    + cbn. specialize (H2 B (or_intror HB)). assert (NB : B <> []) by (apply long_ne, F; now right). destruct (veqb (last_of B) v0) eqn:E; auto.
      exfalso. rewrite (proj2 (ends_at_spec v0 B)) in H2 by auto. discriminate.
  - inversion Q as [|? ? G Q1]; subst. inversion Q1 as [|? ? G' Q2]; subst. inversion G; subst. apply ends_at_spec in H1 as [NA H1]. apply starts_at_spec in H2 as [NB H2]. constructor; auto. rewrite Forall_forall in *. intros C HC. split.
    + rewrite last_app by auto. now apply G'.
    + rewrite first_app by auto. now apply H4.
  - constructor; auto. rewrite Forall_forall in *. intros B HB. assert (NB : B <> []) by (apply long_ne, F; auto). split; cbn.
    + rewrite veqb_sym by auto. specialize (H2 B HB). destruct (veqb (first_of B) v1) eqn:E; auto. rewrite (proj2 (starts_at_spec v1 B)) in H2 by auto. discriminate.
    + specialize (H1 B HB). destruct (veqb (last_of B) v0) eqn:E; auto. rewrite (proj2 (ends_at_spec v0 B)) in H1 by auto. discriminate.
Qed.
Lemma starts_perm p a b : Permutation a b -> starts p a = starts p b. Proof. apply count_perm. Qed.
Lemma ends_perm p a b : Permutation a b -> ends p a = ends p b. Proof. apply count_perm. Qed.
Lemma collect_apart ls s : Forall long ls -> (starts (snd s) (all_pairs ls) <= 1)%nat -> apart ls -> apart (collect ls s).
Proof.
  destruct s as [v0 v1]. intros F U Q. destruct (collect_step ls v0 v1) as (ls1 & ls2 & P1 & S & P2). apply (apart_perm _ _ P2). apply (step_apart v0 v1 ls1); [exact (Forall_perm _ _ _ P1 F)| |exact S|exact (apart_perm _ _ P1 Q)].
  rewrite <- (starts_perm _ _ _ (all_pairs_perm _ _ P1)). exact U.
Qed.
Lemma collected_apart ss : forall ls, Forall long ls -> apart ls -> (forall p, starts p (all_pairs ls) + starts p ss <= 1)%nat -> apart (fold_left collect ss ls).
Proof.
  induction ss as [|s ss IH]; intros ls F Q U; cbn; auto. destruct (collect_pairs ls s F) as (F1 & s' & Sa & Pe). apply IH; auto.
  - apply collect_apart; auto. specialize (U (snd s)). lia.
  - intros p. rewrite (starts_perm _ _ _ Pe). specialize (U p). destruct (count_same p [s'] [s] (Forall2_cons _ _ Sa (Forall2_nil _))) as [C _].
    change (s' :: all_pairs ls) with ([s'] ++ all_pairs ls). change (s :: ss) with ([s] ++ ss) in U. rewrite starts_app in *. lia.
Qed.
Lemma in_pairs_split l q : In q (pairs l) -> (snd q = last_of l) \/ exists r, In (snd q, r) (pairs (tl l)).
Proof.
  induction l as [|x l IH]; [intros []|]. destruct l as [|y l]; [intros []|]. rewrite pairs_cons by discriminate. rewrite last_cons by discriminate. cbn [tl]. intros [<-|H].
  - cbn [snd first_of hd]. destruct l as [|z l]; [left; reflexivity|]. right. exists z. left. reflexivity.
  - destruct (IH H) as [E|(r & E)]; [left; auto|]. right. exists r. cbn [tl] in E. destruct l as [|z l]; [destruct E|]. rewrite pairs_cons by discriminate. right. exact E.
Qed.
Lemma in_pairs_split' l q : In q (pairs l) -> (fst q = first_of l) \/ exists r, In (r, fst q) (pairs (removelast l)).
Proof.
  induction l as [|x l IH]; [intros []|]. destruct l as [|y l]; [intros []|]. rewrite pairs_cons by discriminate. intros [<-|H]; [left; reflexivity|].
  right. destruct (IH H) as [E|(r & E)].
  - cbn in E. destruct l as [|z l]; [destruct H|]. exists x. cbn. left. now rewrite <- E.
  - exists r. destruct l as [|z l]; [destruct E|]. change (removelast (x :: y :: z :: l)) with (x :: removelast (y :: z :: l)).
    assert (N : removelast (y :: z :: l) <> []) by (cbn; destruct l; discriminate). rewrite pairs_cons by auto. right. exact E.
Qed.
Lemma pos_in (f : vec * vec -> bool) a : (1 <= length (filter f a))%nat -> exists q, In q a /\ f q = true.
Proof. intros H. destruct (filter f a) as [|q r] eqn:E; [cbn in H; lia|]. exists q. apply filter_In. rewrite E. now left. Qed.
Lemma in_pos (f : vec * vec -> bool) a q : In q a -> f q = true -> (1 <= length (filter f a))%nat.
Proof. intros I H. assert (J : In q (filter f a)) by (apply filter_In; auto). destruct (filter f a); [destruct J|cbn; lia]. Qed.
Lemma pairs_tail l : long l -> exists q, pairs l = q :: pairs (tl l) /\ fst q = first_of l.
Proof. destruct l as [|x [|y l]]; unfold long; cbn; try lia. intros _. eexists. split; reflexivity. Qed.
Lemma pairs_front l : long l -> exists q, pairs l = pairs (removelast l) ++ [q] /\ snd q = last_of l.
Proof.
  unfold long. intros L. assert (N : l <> []) by (destruct l; cbn in L; [lia|discriminate]). pose proof (app_removelast_last vzero N) as E. exists (last_of (removelast l), last_of l). split; [|reflexivity].
  assert (N' : removelast l <> []). { intros Z. rewrite Z in E. apply (f_equal (@length _)) in E. cbn in E. lia. }
  transitivity (pairs (removelast l ++ [last l vzero])); [now rewrite <- E|]. rewrite pairs_app by (auto; discriminate). reflexivity.
Qed.
Lemma loose_ends ss l : (forall p, starts p ss <= 1)%nat -> (forall p, ends p ss <= 1)%nat -> In l (collect_all ss) ->
  veqb (first_of l) (last_of l) = true \/ (ends (first_of l) ss = 0%nat /\ starts (last_of l) ss = 0%nat).
Proof.
  intros Us Ue I. destruct (collected ss) as (F & ss' & Sa & Pe). 
  assert (Q : apart (collect_all ss)) by (apply collected_apart; [constructor|constructor|intros p; cbn; apply Us]).
  assert (Cs : forall p, starts p (all_pairs (collect_all ss)) = starts p ss) by (intros p; rewrite (starts_perm _ _ _ Pe); apply (count_same p _ _ Sa)).
  assert (Ce : forall p, ends p (all_pairs (collect_all ss)) = ends p ss) by (intros p; rewrite (ends_perm _ _ _ Pe); apply (count_same p _ _ Sa)).
  destruct (veqb (first_of l) (last_of l)) eqn:Cl; [now left|right].
  apply in_split in I as (X & Y & E). assert (Pm : Permutation (collect_all ss) (l :: X ++ Y)) by (rewrite E; symmetry; apply Permutation_middle).
  pose proof (apart_perm _ _ Pm Q) as Q'. pose proof (Forall_perm _ _ _ Pm F) as F'. inversion Q' as [|? ? G _]; subst. inversion F' as [|? ? L FR]; subst. rewrite Forall_forall in G, FR.
  assert (Ds : forall p, (starts p (pairs l) + starts p (all_pairs (X ++ Y)) <= 1)%nat) by (intros p; specialize (Us p); rewrite <- Cs, (starts_perm _ _ _ (all_pairs_perm _ _ Pm)) in Us; unfold all_pairs in *; cbn [flat_map] in Us; now rewrite starts_app in Us).
  assert (De : forall p, (ends p (pairs l) + ends p (all_pairs (X ++ Y)) <= 1)%nat) by (intros p; specialize (Ue p); rewrite <- Ce, (ends_perm _ _ _ (all_pairs_perm _ _ Pm)) in Ue; unfold all_pairs in *; cbn [flat_map] in Ue; now rewrite ends_app in Ue).
  rewrite <- Ce, <- Cs, (ends_perm _ _ _ (all_pairs_perm _ _ Pm)), (starts_perm _ _ _ (all_pairs_perm _ _ Pm)). unfold all_pairs in *. cbn [flat_map]. rewrite ends_app, starts_app. split.
  - set (x := first_of l) in *.
    destruct (Nat.eq_dec (ends x (pairs l)) 0) as [Z|Z].
    + rewrite Z. cbn. destruct (Nat.eq_dec (ends x (flat_map pairs (X ++ Y))) 0) as [|Z']; auto. exfalso.
      destruct (pos_in (fun s => veqb x (snd s)) (flat_map pairs (X ++ Y))) as (q & Iq & Eq); [unfold ends in Z'; lia|]. apply in_flat_map in Iq as (m & Im & Iq).
      destruct (in_pairs_split m q Iq) as [Em|(r & Ir)].
      * destruct (G m Im) as [_ G2]. rewrite <- Em in G2. rewrite veqb_sym in G2 by auto. fold x in G2. congruence.
      * pose proof (Ds x) as D. assert (1 <= starts x (pairs l))%nat by (destruct (pairs_tail l L) as (q0 & -> & Eq0); unfold starts; cbn; rewrite Eq0; fold x; destruct (veqb x x) eqn:Exx; [cbn; lia|]; exfalso; rewrite veqb_sym in Eq by auto; pose proof (veqb_trans P _ _ _ (eq_trans (veqb_sym P x (snd q)) Eq) Eq); congruence).
        assert (1 <= starts x (flat_map pairs (X ++ Y)))%nat; [|lia]. apply (in_pos (fun s => veqb x (fst s)) _ (snd q, r)); [|exact Eq]. apply in_flat_map. exists m. split; auto.
        destruct (pairs_tail m (FR m Im)) as (q0 & -> & _). now right.
    + exfalso. destruct (pos_in (fun s => veqb x (snd s)) (pairs l)) as (q & Iq & Eq); [unfold ends in Z; lia|]. destruct (in_pairs_split l q Iq) as [Em|(r & Ir)]; [rewrite Em in Eq; congruence|].
      pose proof (Ds x) as D. destruct (pairs_tail l L) as (q0 & E0 & Eq0). rewrite E0 in D. unfold starts at 1 in D. cbn [filter] in D. rewrite Eq0 in D. fold x in D.
      destruct (veqb x x) eqn:Exx; [|rewrite veqb_sym in Eq by auto; pose proof (veqb_trans P _ _ _ (eq_trans (veqb_sym P x (snd q)) Eq) Eq); congruence]. cbn [length] in D.
      pose proof (in_pos (fun s => veqb x (fst s)) _ _ Ir Eq). lia.
  - set (y := last_of l) in *.
    destruct (Nat.eq_dec (starts y (pairs l)) 0) as [Z|Z].
    + rewrite Z. cbn. destruct (Nat.eq_dec (starts y (flat_map pairs (X ++ Y))) 0) as [|Z']; auto. exfalso.
      destruct (pos_in (fun s => veqb y (fst s)) (flat_map pairs (X ++ Y))) as (q & Iq & Eq); [unfold starts in Z'; lia|]. apply in_flat_map in Iq as (m & Im & Iq).
      destruct (in_pairs_split' m q Iq) as [Em|(r & Ir)].
      * destruct (G m Im) as [G1 _]. rewrite <- Em in G1. fold y in G1. congruence.
      * pose proof (De y) as D. assert (1 <= ends y (pairs l))%nat by (destruct (pairs_front l L) as (q0 & -> & Eq0); unfold ends; rewrite filter_app, app_length; cbn; rewrite Eq0; fold y; destruct (veqb y y) eqn:Exx; [cbn; lia|]; exfalso; rewrite veqb_sym in Eq by auto; pose proof (veqb_trans P _ _ _ (eq_trans (veqb_sym P y (fst q)) Eq) Eq); congruence).
        assert (1 <= ends y (flat_map pairs (X ++ Y)))%nat; [|lia]. apply (in_pos (fun s => veqb y (snd s)) _ (r, fst q)); [|exact Eq]. apply in_flat_map. exists m. split; auto.
        destruct (pairs_front m (FR m Im)) as (q0 & -> & _). apply in_or_app. now left.
    + exfalso. destruct (pos_in (fun s => veqb y (fst s)) (pairs l)) as (q & Iq & Eq); [unfold starts in Z; lia|]. destruct (in_pairs_split' l q Iq) as [Em|(r & Ir)]; [rewrite Em in Eq; rewrite veqb_sym in Eq by auto; congruence|].
      pose proof (De y) as D. destruct (pairs_front l L) as (q0 & E0 & Eq0). rewrite E0 in D. unfold ends at 1 in D. rewrite filter_app, app_length in D. cbn [filter] in D. rewrite Eq0 in D. fold y in D.
      destruct (veqb y y) eqn:Exx; [|rewrite veqb_sym in Eq by auto; pose proof (veqb_trans P _ _ _ (eq_trans (veqb_sym P y (fst q)) Eq) Eq); congruence]. cbn [length] in D.
      pose proof (in_pos (fun s => veqb y (snd s)) _ _ Ir Eq). lia.
Qed.
End Any.

(** ** Over the reals *)
Lemma veqb_real (u v : @vec RNum) : veqb u v = true -> u = v.
Proof. destruct u as [a b], v as [c d]. unfold veqb. cbn [vx vy neqb RNum]. unfold Reqb. destruct (Req_EM_T a c), (Req_EM_T b d); cbn; intros E; try discriminate E; congruence. Qed.
Lemma collected_exact (ss : list (@vec RNum * @vec RNum)) : Permutation (flat_map pairs (collect_all ss)) ss.
Proof.
  destruct (collected ss) as (_ & ss' & S & H). replace ss with ss' at 2; [exact H|]. clear H. induction S as [|x y a b [E F] S IH]; auto.
  f_equal; auto. destruct x as [x1 x2], y as [y1 y2]. cbn in E, F. f_equal; [destruct E as [|E]|destruct F as [|F]]; auto using veqb_real.
Qed.
(** ** Example: the sides of a square out of order, one with a negative zero *)
Definition square_segments : list (@vec FNum * @vec FNum) := [(fvec 0 0, fvec 1 0); (fvec 1 1, fvec 0 1); (fvec 1 0, fvec 1 1); (fvec 0 1, fvec (-0) 0)].
Definition coordinates (v : @vec FNum) : float * float := (vx v, vy v).
Lemma square_collected : map (map coordinates) (collect_all (Nm := FNum) square_segments) = [[(0, 0); (1, 0); (1, 1); (0, 1); (-0, 0)]]%float.
Proof. vm_compute. reflexivity. Qed.
