(** Proofs about the spatial hash: references and chains. *)
From Coq Require Import ZArith List Bool PeanoNat Lia Permutation.
From Verif Require Import Num Vec BB SpaceHash.
Import ListNotations.

(** ** Lists *)
Lemma upd_length {A} (l : list A) i x : length (upd l i x) = length l.
Proof. revert i. induction l; intros [|i]; cbn; auto. Qed.
Lemma nth_upd {A} (l : list A) i j x d : nth i (upd l j x) d = if Nat.eqb i j && Nat.ltb j (length l) then x else nth i l d.
Proof. revert i j. induction l as [|y l IH]; intros [|i] [|j]; cbn; auto. - now rewrite andb_false_r. - rewrite IH. reflexivity. Qed.
Lemma nth_error_upd {A} (l : list A) i j x : nth_error (upd l j x) i = if Nat.eqb i j && Nat.ltb j (length l) then Some x else nth_error l i.
Proof. revert i j. induction l as [|y l IH]; intros [|i] [|j]; cbn; auto. - now rewrite andb_false_r. - rewrite IH. reflexivity. Qed.
Lemma in_upd {A} (l : list A) i x y : In y (upd l i x) -> y = x \/ In y l.
Proof. revert i. induction l as [|z l IH]; intros [|i]; cbn; auto; intros [E|H]; auto. apply IH in H. tauto. Qed.
Lemma concat_upd {A} (l : list (list A)) i c c' : nth_error l i = Some c -> exists r, Permutation (concat l) (c ++ r) /\ Permutation (concat (upd l i c')) (c' ++ r).
Proof.
  revert i. induction l as [|d l IH]; intros [|i]; try discriminate.
  - intros [= ->]. exists (concat l). auto.
  - intros H. destruct (IH i H) as (r & P & Q). exists (d ++ r). cbn. rewrite P, Q. split; rewrite !app_assoc; apply Permutation_app_tail, Permutation_app_comm.
Qed.
Notation occ := (count_occ Nat.eq_dec).
Lemma occ_app l l' x : occ (l ++ l') x = (occ l x + occ l' x)%nat.
Proof. induction l as [|y l IH]; cbn; auto. destruct (Nat.eq_dec y x); cbn; lia. Qed.
Lemma occ_perm l l' x : Permutation l l' -> occ l x = occ l' x.
Proof. intros P. now apply Permutation_count_occ. Qed.
Lemma occ_pos l x : (0 < occ l x)%nat <-> In x l.
Proof. symmetry. apply count_occ_In. Qed.
Lemma occ_zero l x : occ l x = 0%nat <-> ~ In x l.
Proof. symmetry. apply count_occ_not_In. Qed.
Lemma occ_nodup l x : NoDup l -> occ l x = if in_dec Nat.eq_dec x l then 1%nat else 0%nat.
Proof. intros N. destruct (in_dec Nat.eq_dec x l) as [I|I]; [now apply NoDup_count_occ'|now apply count_occ_not_In]. Qed.
Lemma in_zrange l r x : In x (zrange l r) <-> (l <= x <= r)%Z.
Proof.
  unfold zrange. rewrite in_map_iff. split.
  - intros (k & <- & K). apply in_seq in K. lia.
  - intros H. exists (Z.to_nat (x - l)). split; [lia|]. apply in_seq. lia.
Qed.
Lemma contains_in c h : contains_handle c h = true <-> In h c.
Proof. unfold contains_handle. rewrite existsb_exists. split; [intros (x & I & E); apply Nat.eqb_eq in E; now subst|intros I; exists h; split; auto; apply Nat.eqb_refl]. Qed.

(** ** Handles *)
Section Heap.
Notation hash := hash.
Lemma at_change h f s k : at_handle (change h f s) k = if Nat.eqb k h && Nat.ltb h (length (heap s)) then f (at_handle s h) else at_handle s k.
Proof. unfold at_handle, change. cbn. apply nth_upd. Qed.
Lemma at_same h f s : (h < length (heap s))%nat -> at_handle (change h f s) h = f (at_handle s h).
Proof. intros L. rewrite at_change, Nat.eqb_refl. apply Nat.ltb_lt in L. now rewrite L. Qed.
Lemma at_other h f s k : k <> h -> at_handle (change h f s) k = at_handle s k.
Proof. intros L. rewrite at_change. apply Nat.eqb_neq in L. now rewrite L. Qed.
Lemma heap_change h f s : length (heap (change h f s)) = length (heap s).
Proof. unfold change. cbn. apply upd_length. Qed.

(** the retain counts are those of the references [refs]; the pool holds the unreferenced handles *)
Record good (refs : list nat) (s : hash) : Prop := Good {
  g_valid : forall h, In h refs -> (h < length (heap s))%nat;
  g_count : forall h, (h < length (heap s))%nat -> retains (at_handle s h) = Z.of_nat (occ refs h);
  g_pool : NoDup (pool s);
  g_free : forall h, In h (pool s) <-> (h < length (heap s))%nat /\ ~ In h refs }.
Lemma good_perm refs refs' s : Permutation refs refs' -> good refs s -> good refs' s.
Proof.
  intros P [A B C D]. split; auto.
  - intros h H. apply A. now rewrite P.
  - intros h H. rewrite B by auto. now rewrite (occ_perm _ _ _ P).
  - intros h. rewrite D. now rewrite P.
Qed.
(** same up to retain counts and the pool *)
Record like (s s' : hash) : Prop := Like {
  k_heap : length (heap s') = length (heap s);
  k_set : hset s' = hset s;
  k_table : table s' = table s;
  k_stamp : stamp s' = stamp s;
  k_obj : forall h, obj (at_handle s' h) = obj (at_handle s h);
  k_seen : forall h, seen (at_handle s' h) = seen (at_handle s h) }.
Lemma like_refl s : like s s. Proof. split; auto. Qed.
Lemma like_trans s1 s2 s3 : like s1 s2 -> like s2 s3 -> like s1 s3.
Proof. intros [] []. split; try congruence; intros h; etransitivity; eauto. Qed.

Lemma retain_like h s : like s (retain h s).
Proof.
  split; auto; unfold retain; try apply heap_change; intros k; rewrite at_change; (destruct (Nat.eqb_spec k h) as [->|]; [destruct (Nat.ltb h (length (heap s)))|]; reflexivity).
Qed.
Lemma retain_good h refs s : In h refs -> good refs s -> good (h :: refs) (retain h s).
Proof.
  intros I [A B C D]. pose proof (A h I) as L. assert (E : length (heap (retain h s)) = length (heap s)) by apply (retain_like h s). split.
  - intros k [<-|K]; rewrite E; auto.
  - intros k K. rewrite E in K. unfold retain. destruct (Nat.eq_dec h k) as [->|N].
    + rewrite at_same by auto. cbn [retains]. rewrite B by auto. cbn [count_occ]. destruct (Nat.eq_dec k k); [lia|congruence].
    + rewrite at_other by auto. rewrite B by auto. cbn [count_occ]. destruct (Nat.eq_dec h k); [congruence|auto].
  - exact C.
  - intros k. rewrite E. change (pool (retain h s)) with (pool s). rewrite D. cbn. split; intros [K1 K2]; split; auto. intros [<-|K]; auto.
Qed.
Lemma release_like h s : like s (release h s).
Proof.
  set (f := fun x => Handle (obj x) (retains x - 1) (seen x)). assert (L : like s (change h f s)).
  { split; auto; try apply heap_change; intros k; rewrite at_change; (destruct (Nat.eqb_spec k h) as [->|]; [destruct (Nat.ltb h (length (heap s)))|]; reflexivity). }
  unfold release. fold f. destruct (Z.eqb _ 0); auto. destruct L. split; auto.
Qed.
Lemma release_good h refs s : good (h :: refs) s -> good refs (release h s).
Proof.
  intros [A B C D]. pose proof (A h (or_introl eq_refl)) as L. unfold release. set (f := fun x => Handle (obj x) (retains x - 1) (seen x)). cbv zeta.
  rewrite at_same by auto. cbn [f retains]. rewrite B by auto. cbn [count_occ]. destruct (Nat.eq_dec h h) as [_|]; [|congruence].
  replace (Z.of_nat (S (occ refs h)) - 1)%Z with (Z.of_nat (occ refs h)) by lia.
  assert (B' : forall k, (k < length (heap (change h f s)))%nat -> retains (at_handle (change h f s) k) = Z.of_nat (occ refs k)).
  { intros k K. rewrite heap_change in K. destruct (Nat.eq_dec h k) as [->|N].
    - rewrite at_same by auto. cbn [f retains]. rewrite B by auto. cbn [count_occ]. destruct (Nat.eq_dec k k); [lia|congruence].
    - rewrite at_other by auto. rewrite B by auto. cbn [count_occ]. destruct (Nat.eq_dec h k); [congruence|auto]. }
  destruct (Z.eqb_spec (Z.of_nat (occ refs h)) 0) as [Z|Z].
  - assert (N : ~ In h refs) by (apply occ_zero; lia). split.
    + intros k K. cbn. rewrite upd_length. apply A. now right.
    + exact B'.
    + cbn. constructor; auto. rewrite D. cbn. tauto.
    + intros k. cbn. rewrite upd_length, D. cbn. destruct (Nat.eq_dec h k) as [->|]; [tauto|]. intuition congruence.
  - assert (N : In h refs) by (apply occ_pos; lia). split.
    + intros k K. rewrite heap_change. apply A. now right.
    + exact B'.
    + exact C.
    + intros k. cbn. rewrite upd_length, D. cbn. destruct (Nat.eq_dec h k) as [->|]; [tauto|]. intuition congruence.
Qed.
(** changing obj or seen *)
Lemma change_good h f refs s : (forall x, retains (f x) = retains x) -> good refs s -> good refs (change h f s).
Proof.
  intros F [A B C D]. split.
  - intros k K. rewrite heap_change. auto.
  - intros k K. rewrite heap_change in K. rewrite at_change. destruct (Nat.eqb_spec k h) as [->|]; cbn [andb]; [destruct (Nat.ltb h (length (heap s))); [rewrite F|]|]; auto.
  - exact C.
  - intros k. cbn. rewrite upd_length. apply D.
Qed.
Lemma good_table refs t s : good refs s -> good refs (with_table t s). Proof. intros []. split; auto. Qed.
Lemma good_set refs t s : good refs s -> good refs (with_set t s). Proof. intros []. split; auto. Qed.
Lemma good_stamp refs s : good refs s -> good refs (next_stamp s). Proof. intros []. split; auto. Qed.

(** ** Chains *)
Definition live (s : hash) h := obj (at_handle s h) <> None.
Definition liveb (s : hash) h := match obj (at_handle s h) with Some _ => true | None => false end.
Lemma liveb_live s h : liveb s h = true <-> live s h.
Proof. unfold liveb, live. destruct (obj (at_handle s h)); intuition congruence. Qed.
Lemma like_liveb s s' h : like s s' -> liveb s' h = liveb s h.
Proof. intros K. unfold liveb. now rewrite (k_obj _ _ K). Qed.
Lemma remove_orphans_ok c : forall refs s, good (c ++ refs) s ->
  let '(c', s') := remove_orphans c s in c' = filter (liveb s) c /\ like s s' /\ good (c' ++ refs) s'.
Proof.
  induction c as [|h c IH]; intros refs s G; cbn [remove_orphans filter]; [split; auto; split; auto using like_refl|].
  unfold liveb at 1. destruct (obj (at_handle s h)) eqn:O.
  - specialize (IH (h :: refs) s). destruct (remove_orphans c s) as [c' s']. destruct IH as (E & K & G'); [eapply good_perm; [|exact G]; apply Permutation_middle|].
    split; [now rewrite E|]. split; auto. eapply good_perm; [|exact G']. symmetry. apply Permutation_middle.
  - specialize (IH refs (release h s)). destruct (remove_orphans c (release h s)) as [c' s']. destruct IH as (E & K & G'); [now apply release_good|].
    split; [|split; auto; eapply like_trans; eauto using release_like]. rewrite E. apply filter_ext. intros k. apply like_liveb, release_like.
Qed.

(** same up to retain counts, pool, and the marks of the handles [hs] *)
Record marked (hs : list nat) (s s' : hash) : Prop := Marked {
  m_heap : length (heap s') = length (heap s);
  m_set : hset s' = hset s;
  m_stamp : stamp s' = stamp s;
  m_obj : forall h, obj (at_handle s' h) = obj (at_handle s h);
  m_seen : forall h, seen (at_handle s' h) = if in_dec Nat.eq_dec h hs then stamp s else seen (at_handle s h) }.
Lemma like_marked s s' : like s s' -> marked [] s s'. Proof. intros []. split; auto. Qed.
Lemma marked_trans hs hs' s s' s'' : marked hs s s' -> marked hs' s' s'' -> marked (hs ++ hs') s s''.
Proof.
  intros [A1 A2 A3 A4 A5] [B1 B2 B3 B4 B5]. split; try congruence; intros h.
  rewrite B5, A5. rewrite A3. destruct (in_dec Nat.eq_dec h hs'), (in_dec Nat.eq_dec h hs), (in_dec Nat.eq_dec h (hs ++ hs')) as [I|I]; auto; rewrite in_app_iff in I; tauto.
Qed.
Lemma mark_one h s : (h < length (heap s))%nat -> marked [h] s (change h (fun x => Handle (obj x) (retains x) (stamp s)) s).
Proof.
  intros L. split; auto; try apply heap_change; intros k; (destruct (Nat.eq_dec k h) as [->|]; [rewrite at_same by auto|rewrite at_other by auto]); auto.
  - cbn. destruct (Nat.eq_dec h h); [auto|congruence].
  - cbn. destruct (Nat.eq_dec h k); [congruence|auto].
Qed.
Definition is_self (self : option nat) (o : option nat) : bool := match self, o with Some a, Some b => Nat.eqb a b | _, _ => false end.
(** the handles [hs] of the chain were reported, each once, none of them the asking shape's, an orphan's, or one seen before *)
Definition reported (self : option nat) (s : hash) (c hs : list nat) : Prop :=
  NoDup hs /\ forall h, In h hs -> In h c /\ live s h /\ is_self self (obj (at_handle s h)) = false /\ seen (at_handle s h) <> stamp s.
Definition shape_of (s : hash) (h : nat) : nat := match obj (at_handle s h) with Some o => o | None => 0 end.
Definition tell {A} (f : nat -> A -> A) (s : hash) (hs : list nat) (out : A) : A := fold_left (fun out h => f (shape_of s h) out) hs out.

Lemma run_chain_ok {A} (f : nat -> A -> A) self refs : forall c s out, good refs s -> (forall h, In h c -> (h < length (heap s))%nat) ->
  exists hs s' again, run_chain f self c s out = (s', tell f s hs out, again) /\ good refs s' /\ table s' = table s /\ marked hs s s' /\ reported self s c hs /\
    (again = false -> forall h, In h c -> seen (at_handle s' h) = stamp s \/ is_self self (obj (at_handle s h)) = true) /\
    (again = true -> exists h, In h c /\ ~ live s h).
Proof.
  induction c as [|h c IH]; intros s out G V.
  - exists [], s, false. split; auto. split; auto. split; auto. split; [apply like_marked, like_refl|]. split; [split; [apply NoDup_nil|contradiction]|]. split; [contradiction|discriminate].
  - cbn [run_chain]. fold (is_self self (obj (at_handle s h))). destruct (Nat.eqb_spec (seen (at_handle s h)) (stamp s)) as [Es|Es]; cbn [orb].
    + destruct (IH s out G) as (hs & s' & ag & E & G' & T & M & (N & R) & F & O); [intros; apply V; now right|]. exists hs, s', ag. split; auto. split; auto. split; auto. split; auto. split; [split; auto; intros k K; destruct (R k K) as (R1 & R2); split; [now right|auto]|]. split.
      * intros Ag k [<-|K]; auto. left. rewrite (m_seen _ _ _ M). destruct (in_dec _ _ _); auto.
      * intros Ag. destruct (O Ag) as (k & K & L). exists k. split; auto. now right.
    + destruct (is_self self (obj (at_handle s h))) eqn:Sf.
      * destruct (IH s out G) as (hs & s' & ag & E & G' & T & M & (N & R) & F & O); [intros; apply V; now right|]. exists hs, s', ag. split; auto. split; auto. split; auto. split; auto. split; [split; auto; intros k K; destruct (R k K) as (R1 & R2); split; [now right|auto]|]. split.
        -- intros Ag k [<-|K]; auto.
        -- intros Ag. destruct (O Ag) as (k & K & L). exists k. split; auto. now right.
      * destruct (obj (at_handle s h)) as [o|] eqn:Ob.
        -- set (s1 := change h _ s). assert (L : (h < length (heap s))%nat) by (apply V; now left). pose proof (mark_one h s L) as M1. fold s1 in M1.
           destruct (IH s1 (f o out)) as (hs & s' & ag & E & G' & T & M & (N & R) & F & O); [now apply change_good|intros; unfold s1; rewrite heap_change; apply V; now right|].
           exists (h :: hs), s', ag. split.
           { rewrite E. f_equal. f_equal. unfold tell. cbn [fold_left]. unfold shape_of at 3. rewrite Ob. clear - M1. generalize (f o out). induction hs as [|k hs IH]; intros out'; cbn; auto. rewrite IH. f_equal. f_equal. unfold shape_of. now rewrite (m_obj _ _ _ M1). }
           split; auto. split; [exact T|]. split; [exact (marked_trans [h] hs _ _ _ M1 M)|]. split; [split|].
           ++ constructor; auto. intros K. destruct (R h K) as (_ & _ & _ & X). apply X. rewrite (m_seen _ _ _ M1), (m_stamp _ _ _ M1). cbn. destruct (Nat.eq_dec h h); [auto|congruence].
           ++ intros k [<-|K].
              ** split; [now left|]. split; [unfold live; congruence|]. split; auto. now rewrite Ob.
              ** destruct (R k K) as (R1 & R2 & R3 & R4). split; [now right|]. unfold live in *. rewrite (m_obj _ _ _ M1) in R2, R3. split; auto. split; auto. rewrite (m_seen _ _ _ M1), (m_stamp _ _ _ M1) in R4. destruct (in_dec Nat.eq_dec k [h]); [congruence|auto].
           ++ split.
              ** intros Ag k [<-|K].
                 { left. rewrite (m_seen _ _ _ M), (m_seen _ _ _ M1), (m_stamp _ _ _ M1). destruct (in_dec Nat.eq_dec h hs); auto. cbn. destruct (Nat.eq_dec h h); [auto|congruence]. }
                 { destruct (F Ag k K) as [X|X]; [left; now rewrite (m_stamp _ _ _ M1) in X|right; now rewrite (m_obj _ _ _ M1) in X]. }
              ** intros Ag. destruct (O Ag) as (k & K & X). exists k. split; [now right|]. unfold live in *. now rewrite (m_obj _ _ _ M1) in X.
        -- exists [], s, true. split; auto. split; auto. split; auto. split; [apply like_marked, like_refl|]. split; [split; [constructor|contradiction]|]. split; [discriminate|]. intros _. exists h. split; [now left|]. unfold live. congruence.
Qed.
Lemma reported_app self s s' c c' hs hs' : marked hs s s' -> (forall h, In h c' -> In h c) -> reported self s c hs -> reported self s' c' hs' -> reported self s c (hs ++ hs').
Proof.
  intros M Sub [N R] [N' R']. assert (Disj : forall h, In h hs -> In h hs' -> False).
  { intros h I J. destruct (R' h J) as (_ & _ & _ & X). apply X. rewrite (m_seen _ _ _ M), (m_stamp _ _ _ M). destruct (in_dec Nat.eq_dec h hs); [auto|contradiction]. }
  split.
  - clear -N N' Disj. induction hs as [|h hs IH]; auto. inversion N; subst. cbn. constructor; [rewrite in_app_iff; intros [I|I]; auto; apply (Disj h); auto; now left|]. apply IH; auto. intros k I. apply Disj. now right.
  - intros h I. apply in_app_or in I as [I|I]; auto. destruct (R' h I) as (R1 & R2 & R3 & R4). unfold live in *. rewrite (m_obj _ _ _ M) in R2, R3. split; auto. split; auto. split; auto.
    intros X. destruct (in_dec Nat.eq_dec h hs) as [J|J]; [eauto|]. apply R4. rewrite (m_seen _ _ _ M), (m_stamp _ _ _ M). destruct (in_dec Nat.eq_dec h hs); [contradiction|auto].
Qed.
Lemma tell_app {A} (f : nat -> A -> A) s s' hs hs' out : (forall h, obj (at_handle s' h) = obj (at_handle s h)) -> tell f s' hs' (tell f s hs out) = tell f s (hs ++ hs') out.
Proof.
  intros M. unfold tell. rewrite fold_left_app. generalize (fold_left (fun out h => f (shape_of s h) out) hs out). induction hs' as [|k hs' IH]; intros o; cbn; auto. rewrite IH. f_equal. f_equal. unfold shape_of. now rewrite M.
Qed.
Lemma query_helper_ok {A} (f : nat -> A -> A) self refs c s out : good (c ++ refs) s -> NoDup c ->
  exists hs s' c', query_helper (restarts c) f self c s out = Some (c', s', tell f s hs out) /\ good (c' ++ refs) s' /\ table s' = table s /\ NoDup c' /\ marked hs s s' /\ reported self s c hs /\
    (forall h, In h c' -> In h c) /\ (forall h, In h c -> live s h -> In h c') /\
    (forall h, In h c' -> seen (at_handle s' h) = stamp s \/ is_self self (obj (at_handle s h)) = true).
Proof.
  intros G N. assert (V : forall h, In h c -> (h < length (heap s))%nat) by (intros h I; apply (g_valid _ _ G), in_or_app; auto).
  destruct (run_chain_ok f self _ c s out G V) as (hs & s1 & ag & E & G1 & T1 & M1 & R1 & F1 & O1). unfold restarts. cbn [query_helper]. rewrite E.
  destruct ag.
  - destruct (O1 eq_refl) as (k & K & NL). pose proof (remove_orphans_ok c refs s1 G1) as RO. destruct (remove_orphans c s1) as [c2 s2]. destruct RO as (E2 & K2 & G2).
    assert (M2 : marked hs s s2) by (rewrite <- (app_nil_r hs); eapply marked_trans; [exact M1|now apply like_marked]).
    assert (V2 : forall h, In h c2 -> (h < length (heap s2))%nat) by (intros h I; apply (g_valid _ _ G2), in_or_app; auto).
    assert (L2 : forall h, In h c2 <-> In h c /\ live s h). { intros h. rewrite E2, filter_In, liveb_live. unfold live. now rewrite (m_obj _ _ _ M1). }
    destruct (run_chain_ok f self _ c2 s2 (tell f s hs out) G2 V2) as (hs' & s3 & ag & E3 & G3 & T3 & M3 & R3 & F3 & O3).
    destruct c as [|c0 c]; [destruct K|]. cbn [length query_helper]. rewrite E3. destruct ag.
    + exfalso. destruct (O3 eq_refl) as (j & J & X). apply X. unfold live. rewrite (m_obj _ _ _ M2). now apply L2.
    + exists (hs ++ hs'), s3, c2. split; [f_equal; f_equal; apply tell_app, M2|]. split; auto. split; [rewrite T3, (k_table _ _ K2); exact T1|]. split; [rewrite E2; now apply NoDup_filter|].
      split; [eapply marked_trans; eauto|]. split; [apply (reported_app self s s2 (c0 :: c) c2 hs hs' M2); auto; intros h I; now apply L2|]. split; [intros h I; now apply L2|]. split; [intros h I J; now apply L2|].
      intros h I. destruct (F3 eq_refl h I) as [X|X]; [left; now rewrite (m_stamp _ _ _ M2) in X|right; now rewrite (m_obj _ _ _ M2) in X].
  - exists hs, s1, c. repeat (split; auto).
Qed.
End Heap.
