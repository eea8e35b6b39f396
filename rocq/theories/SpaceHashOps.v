(** Proofs about the spatial hash: the operations keep the index in order. *)
From Coq Require Import ZArith List Bool PeanoNat Lia Permutation.
From Verif Require Import Num Vec BB SpaceHash SpaceHashInv.
Import ListNotations.

Lemma NoDup_app_not {A} (l l' : list A) x : NoDup (l ++ l') -> In x l -> In x l' -> False.
Proof. induction l as [|y l IH]; cbn; [tauto|]. inversion 1; subst. intros [->|I] J; [apply H2, in_or_app; auto|auto]. Qed.
Lemma nodup_nth_error {A} (t : list (list A)) i c : (forall c, In c t -> NoDup c) -> nth_error t i = Some c -> NoDup c.
Proof. intros H E. apply H. eapply nth_error_In; eauto. Qed.
Lemma in_concat_nth {A} (t : list (list A)) x : In x (concat t) <-> exists i c, nth_error t i = Some c /\ In x c.
Proof.
  rewrite in_concat. split; [intros (c & I & J); apply In_nth_error in I as [i E]; eauto|intros (i & c & E & J); eauto using nth_error_In].
Qed.

Lemma concat_repeat {A} n : concat (repeat (@nil A) n) = [].
Proof. induction n; auto. Qed.

Section Ops.
Context {Nm : Num} (toint : num -> Z) (dim : num) (cells : nat).
Hypothesis some_cells : (0 < cells)%nat.
Notation box_cells := (box_cells toint dim).
Notation chain_at := (chain_at cells).

(** every handle counted once for each bin and once for the set; chains and set without repetition; the set holds just the handles with a shape, one per shape *)
Definition refs (s : hash) : list nat := concat (table s) ++ hset s.
Record inv (s : hash) : Prop := Inv {
  i_len : length (table s) = cells;
  i_good : good (refs s) s;
  i_chain : forall c, In c (table s) -> NoDup c;
  i_set : NoDup (hset s);
  i_obj : forall h, In h (hset s) <-> live s h;
  i_uniq : forall h h', live s h -> obj (at_handle s h) = obj (at_handle s h') -> h = h' }.
Definition fresh (s : hash) : Prop := forall h, (seen (at_handle s h) < stamp s)%nat.
(** the handle is in the chain of the cell *)
Definition on (s : hash) (c : Z * Z) (h : nat) : Prop := exists i ch, chain_at s c = Some (i, ch) /\ In h ch.

Lemma hash_func_ok x y : exists i, hash_func cells x y = Some i /\ (i < cells)%nat.
Proof using some_cells. clear - some_cells. 
  unfold hash_func. destruct (Nat.eqb_spec cells 0); [lia|]. eexists. split; eauto.
  match goal with |- context [Z.modulo ?a (Z.of_nat cells)] => pose proof (Z.mod_pos_bound a (Z.of_nat cells)) end. lia.
Qed.
Lemma chain_at_ok s c : length (table s) = cells -> exists i ch, chain_at s c = Some (i, ch) /\ hash_func cells (fst c) (snd c) = Some i /\ nth_error (table s) i = Some ch.
Proof using some_cells. clear - some_cells. 
  intros L. destruct (hash_func_ok (fst c) (snd c)) as (i & E & B). unfold SpaceHash.chain_at. rewrite E. destruct (nth_error (table s) i) as [ch|] eqn:N; [exists i, ch; auto|]. apply nth_error_None in N. lia.
Qed.
Lemma on_nth s c h : on s c h <-> exists i ch, hash_func cells (fst c) (snd c) = Some i /\ nth_error (table s) i = Some ch /\ In h ch.
Proof using Type. clear.
  unfold on, SpaceHash.chain_at. split.
  - intros (i & ch & E & I). destruct (hash_func cells (fst c) (snd c)) as [j|] eqn:H; [|discriminate]. destruct (nth_error (table s) j) as [ch'|] eqn:N; [|discriminate]. injection E as <- <-. exists j, ch'. auto.
  - intros (i & ch & E & N & I). rewrite E, N. exists i, ch. auto.
Qed.
Lemma on_upd s s' i ch ch' : nth_error (table s) i = Some ch -> table s' = upd (table s) i ch' -> forall c h, (In h ch -> In h ch') -> on s c h -> on s' c h.
Proof using Type. clear.
  intros N T c h Sub O. apply on_nth in O as (j & dh & F & M & I). apply on_nth. rewrite T. destruct (Nat.eq_dec j i) as [->|D].
  - exists i, ch'. split; auto. rewrite nth_error_upd, Nat.eqb_refl. assert (L : (i < length (table s))%nat) by (apply nth_error_Some; congruence). apply Nat.ltb_lt in L. rewrite L. split; auto. apply Sub. congruence.
  - exists j, dh. split; auto. rewrite nth_error_upd. apply Nat.eqb_neq in D. now rewrite D.
Qed.
Lemma on_new s i ch c h : nth_error (table s) i = Some ch -> hash_func cells (fst c) (snd c) = Some i -> forall t s', table s' = upd (table s) i t -> In h t -> on s' c h.
Proof using Type. clear.
  intros N F t s' T I. apply on_nth. exists i, t. split; auto. rewrite T, nth_error_upd, Nat.eqb_refl. assert (L : (i < length (table s))%nat) by (apply nth_error_Some; congruence). apply Nat.ltb_lt in L. now rewrite L.
Qed.
Lemma on_in s c h : on s c h -> In h (concat (table s)).
Proof using Type. clear. intros O. apply on_nth in O as (i & ch & _ & N & I). apply in_concat_nth. eauto. Qed.

(** replacing one chain, after something that changed nothing but counts and marks *)
Lemma inv_chain s s' hs i ch ch' : inv s -> nth_error (table s) i = Some ch -> marked hs s s' -> table s' = table s -> NoDup ch' ->
  (forall r, Permutation (concat (table s)) (ch ++ r) -> good (ch' ++ r ++ hset s) s') -> inv (with_table (upd (table s') i ch') s').
Proof using Type. clear.
  intros [I1 I2 I3 I4 I5 I6] N M T D G. destruct (concat_upd (table s) i ch ch' N) as (r & P & Q). split.
  - cbn. now rewrite upd_length, T.
  - apply good_table. apply good_perm with (ch' ++ r ++ hset s); [|now apply G]. unfold refs. cbn. rewrite T, Q, (m_set _ _ _ M), app_assoc. reflexivity.
  - cbn. intros c C. apply in_upd in C as [->|C]; auto. apply I3. now rewrite <- T.
  - cbn. now rewrite (m_set _ _ _ M).
  - intros h. change (In h (hset s') <-> live s' h). unfold live. rewrite (m_obj _ _ _ M), (m_set _ _ _ M). apply I5.
  - intros h h'. change (live s' h -> obj (at_handle s' h) = obj (at_handle s' h') -> h = h'). unfold live. rewrite !(m_obj _ _ _ M). apply I6.
Qed.
Lemma good_refs s i ch r : inv s -> nth_error (table s) i = Some ch -> Permutation (concat (table s)) (ch ++ r) -> good (ch ++ r ++ hset s) s.
Proof using Type. clear. intros I N P. eapply good_perm; [|exact (i_good _ I)]. unfold refs. now rewrite P, app_assoc. Qed.
Lemma live_valid s h : inv s -> live s h -> (h < length (heap s))%nat.
Proof using Type. clear. intros I L. apply (g_valid _ _ (i_good _ I)). unfold refs. apply in_or_app. right. now apply (i_obj _ I). Qed.

(** ** Hashing *)
Lemma hash_cell_ok h c s : inv s -> In h (hset s) -> exists s', hash_cell cells h c s = Some s' /\ inv s' /\ marked [] s s' /\ on s' c h /\ (forall c' h', on s c' h' -> on s' c' h').
Proof using some_cells. clear - some_cells. 
  intros I H. destruct (chain_at_ok s c (i_len _ I)) as (i & ch & E & F & N). unfold hash_cell. rewrite E. destruct (contains_handle ch h) eqn:C.
  - exists s. split; auto. split; auto. split; [apply like_marked, like_refl|]. split; auto. exists i, ch. split; auto. now apply contains_in.
  - assert (NI : ~ In h ch) by (rewrite <- contains_in; congruence). eexists. split; eauto. pose proof (retain_like h s) as K. assert (M : marked [] s (retain h s)) by now apply like_marked.
    assert (T : table (retain h s) = table s) by reflexivity. split.
    { apply (inv_chain s (retain h s) [] i ch (h :: ch)); auto.
      - constructor; auto. apply (i_chain _ I). eapply nth_error_In; eauto.
      - intros r P. apply (retain_good h (ch ++ r ++ hset s)); [|now apply good_refs with i]. rewrite !in_app_iff. auto. }
    split; [destruct M; split; auto|]. split.
    + eapply (on_new s i ch c h N F (h :: ch)); [reflexivity|now left].
    + intros c' h'. apply (on_upd s _ i ch (h :: ch) N); [reflexivity|]. intros J. now right.
Qed.
Lemma hash_cells_ok h : forall cs s, inv s -> In h (hset s) -> exists s', all_of (hash_cell cells h) cs s = Some s' /\ inv s' /\ marked [] s s' /\ (forall c, In c cs -> on s' c h) /\ (forall c' h', on s c' h' -> on s' c' h').
Proof using some_cells. clear - some_cells. 
  induction cs as [|c cs IH]; intros s I H; cbn [all_of].
  - exists s. split; auto. split; auto. split; [apply like_marked, like_refl|]. split; [contradiction|auto].
  - destruct (hash_cell_ok h c s I H) as (s1 & E & I1 & M1 & O1 & P1). rewrite E. destruct (IH s1 I1) as (s2 & E2 & I2 & M2 & O2 & P2); [now rewrite (m_set _ _ _ M1)|].
    exists s2. split; auto. split; auto. split; [exact (marked_trans [] [] _ _ _ M1 M2)|]. split; [intros d [<-|D]; auto|auto].
Qed.
Lemma find_handle_ok s o : inv s -> match find_handle s o with Some h => In h (hset s) /\ obj (at_handle s h) = Some o | None => forall h, obj (at_handle s h) <> Some o end.
Proof using Type. clear.
  intros I. unfold find_handle. destruct (find _ (hset s)) as [h|] eqn:F.
  - apply find_some in F as [H E]. destruct (obj (at_handle s h)) eqn:O; [|discriminate]. apply Nat.eqb_eq in E. now subst.
  - intros h O. assert (In h (hset s)) by (apply (i_obj _ I); unfold live; congruence). eapply find_none in F; eauto. cbn in F. rewrite O, Nat.eqb_refl in F. discriminate.
Qed.
(** taking a handle from the pool, or a new one *)
Lemma claim_ok pick o r s : good r s -> let '(s1, h) := get_handle pick s in let s2 := retain h (change h (fun _ => Handle (Some o) 0 0) s1) in
  good (h :: r) s2 /\ ~ In h r /\ table s2 = table s /\ hset s2 = hset s /\ stamp s2 = stamp s /\ obj (at_handle s2 h) = Some o /\ seen (at_handle s2 h) = 0%nat /\ (forall k, k <> h -> at_handle s2 k = at_handle s k).
Proof using Type. clear.
  intros [A B C D]. assert (Go : forall s1 h, good r s1 -> ~ In h r -> (h < length (heap s1))%nat -> ~ In h (pool s1) \/ False -> True) by auto. clear Go.
  assert (Core : forall s1 h, length (heap s) <= length (heap s1) -> (h < length (heap s1))%nat -> (forall k, k <> h -> (k < length (heap s1))%nat -> (k < length (heap s))%nat) -> ~ In h r -> NoDup (pool s1) -> (forall k, In k (pool s1) <-> k <> h /\ In k (pool s)) -> (forall k, k <> h -> at_handle s1 k = at_handle s k) -> 
    let s2 := retain h (change h (fun _ => Handle (Some o) 0 0) s1) in good (h :: r) s2 /\ obj (at_handle s2 h) = Some o /\ seen (at_handle s2 h) = 0%nat /\ (forall k, k <> h -> at_handle s2 k = at_handle s k)).
  { intros s1 h L1 L2 L3 NI ND PI AT. cbv zeta. unfold retain. assert (Lh : (h < length (heap (change h (fun _ => Handle (Some o) 0 0) s1)))%nat) by now rewrite heap_change.
    split; [split|].
    - intros k [<-|K]; rewrite !heap_change; auto. specialize (A k K). lia.
    - intros k. rewrite !heap_change. intros K. cbn [count_occ]. destruct (Nat.eq_dec h k) as [->|Ne].
      + rewrite at_same by auto. cbn [retains]. rewrite at_same by auto. cbn [retains]. apply occ_zero in NI. rewrite NI. reflexivity.
      + rewrite !at_other by auto. rewrite AT by auto. auto.
    - exact ND.
    - intros k. rewrite !heap_change. cbn. change (pool _) with (pool s1). rewrite PI, D. split.
      + intros (K1 & K2 & K3). split; [lia|]. intros [<-|K]; auto.
      + intros (K1 & K2). destruct (Nat.eq_dec k h) as [->|]; [tauto|]. split; auto.
    - rewrite !at_same by auto. split; [reflexivity|]. split; [reflexivity|]. intros k K. rewrite !at_other by auto. auto. }
  unfold get_handle. destruct (nth_error (pool s) pick) as [h|] eqn:P.
  - pose proof (nth_error_split _ _ P) as (l1 & l2 & E & L). assert (Q : firstn pick (pool s) ++ skipn (S pick) (pool s) = l1 ++ l2).
    { rewrite E. rewrite <- L. rewrite firstn_app, Nat.sub_diag, firstn_all, app_nil_r. f_equal. rewrite skipn_app, skipn_all2 by lia. replace (S (length l1) - length l1)%nat with 1%nat by lia. reflexivity. }
    rewrite Q. set (s1 := with_pool (l1 ++ l2) s). assert (In h (pool s)) by (rewrite E; apply in_elt). apply D in H as [Hl Hr]. rewrite E in C. pose proof (NoDup_remove _ _ _ C) as [C1 C2].
    destruct (Core s1 h) as (G & O & Sn & At); auto.
    + intros k. cbn. rewrite E. rewrite !in_app_iff. cbn. split; [intros K; split; [intros ->; apply C2, in_or_app; auto|tauto]|intros [K1 [K2|[K2|K2]]]; auto; congruence].
    + cbv zeta. repeat (split; auto).
  - set (h := length (heap s)). set (s1 := with_heap _ s). assert (Len : length (heap s1) = S h) by (unfold s1; cbn; rewrite app_length; cbn; unfold h; lia).
    assert (Nh : ~ In h r) by (intros K; apply A in K; unfold h in K; lia).
    destruct (Core s1 h) as (G & O & Sn & At); auto; try lia; try (fold h; lia).
    + intros k. cbn. split; [intros K; split; auto; intros ->; apply D in K; unfold h in K; lia|tauto].
    + intros k K. unfold s1, at_handle. cbn. destruct (Nat.lt_ge_cases k (length (heap s))); [now rewrite app_nth1|]. rewrite app_nth2 by lia. rewrite (nth_overflow (heap s)) by lia. fold h in H. fold h. destruct (k - h)%nat eqn:X; [lia|]. cbn. destruct n; reflexivity.
    + cbv zeta. repeat (split; auto).
Qed.
Lemma insert_ok pick o b s : inv s -> exists s' h, insert toint dim cells pick o b s = Some s' /\ inv s' /\ obj (at_handle s' h) = Some o /\ (forall c, In c (box_cells b) -> on s' c h) /\
  (forall k o', o' <> o -> obj (at_handle s' k) = Some o' <-> obj (at_handle s k) = Some o') /\ (forall c k, on s c k -> on s' c k) /\ (fresh s -> fresh s') /\
  (forall h', obj (at_handle s h') = Some o -> h' = h).
Proof using some_cells. 
  intros I. unfold insert. pose proof (find_handle_ok s o I) as F. destruct (find_handle s o) as [h|].
  - destruct F as [H O]. destruct (hash_cells_ok h (box_cells b) s I H) as (s' & E & I' & M & On & P). exists s', h. unfold hash_handle. split; auto. split; auto. split; [now rewrite (m_obj _ _ _ M)|]. split; auto. split; [intros k o' _; now rewrite (m_obj _ _ _ M)|]. split; auto.
    split; [intros Fr k; rewrite (m_seen _ _ _ M), (m_stamp _ _ _ M); apply Fr|]. intros h' O'. apply (i_uniq _ I); [unfold live|]; congruence.
  - pose proof (claim_ok pick o (refs s) s (i_good _ I)) as C. destruct (get_handle pick s) as [s1 h]. cbv zeta in C |- *. set (s2 := retain h _) in *. destruct C as (G & Nh & T & Hs & St & O & Sn & At). clearbody s2.
    set (s3 := with_set (h :: hset s2) s2). assert (Nhs : ~ In h (hset s)) by (intros K; apply Nh; unfold refs; apply in_or_app; auto).
    assert (I3 : inv s3).
    { destruct I as [I1 I2 I3 I4 I5 I6]. split.
      - cbn. now rewrite T.
      - apply good_set. eapply good_perm; [|exact G]. unfold refs, s3. cbn [table hset with_set]. rewrite T, Hs. apply Permutation_middle.
      - cbn. rewrite T. auto.
      - cbn. rewrite Hs. constructor; auto.
      - intros k. cbn. rewrite Hs. unfold live. change (at_handle s3 k) with (at_handle s2 k). destruct (Nat.eq_dec h k) as [<-|Ne]; [rewrite O; split; [discriminate|auto]|]. rewrite At by auto. rewrite I5. unfold live. split; [intros [|]; [congruence|auto]|auto].
      - intros k k'. unfold live. change (at_handle s3 k) with (at_handle s2 k). change (at_handle s3 k') with (at_handle s2 k'). destruct (Nat.eq_dec h k) as [<-|Ne], (Nat.eq_dec h k') as [<-|Ne']; auto.
        + rewrite O, (At k') by auto. intros _ X. symmetry in X. now apply F in X.
        + rewrite O, (At k) by auto. intros _ X. now apply F in X.
        + rewrite !At by auto. apply I6. }
    destruct (hash_cells_ok h (box_cells b) s3 I3) as (s' & E & I' & M & On & P); [now left|]. exists s', h. unfold hash_handle. cbn [s3] in E. split; auto. split; auto. split; [rewrite (m_obj _ _ _ M); exact O|]. split; auto. split.
    { intros k o' Ne. rewrite (m_obj _ _ _ M). change (at_handle s3 k) with (at_handle s2 k). destruct (Nat.eq_dec k h) as [->|D]; [|now rewrite At]. rewrite O. split; [congruence|]. intros X. exfalso. apply Nhs. apply (i_obj _ I). unfold live. congruence. }
    split; [intros c k K; apply P; unfold on, SpaceHash.chain_at in *; cbn; rewrite T; exact K|]. split.
    { intros Fr k. rewrite (m_seen _ _ _ M), (m_stamp _ _ _ M). destruct (in_dec _ _ _) as [[]|_]. change (at_handle s3 k) with (at_handle s2 k). change (stamp s3) with (stamp s2). rewrite St. pose proof (Fr k). destruct (Nat.eq_dec k h) as [->|D]; [rewrite Sn; lia|now rewrite At]. }
    intros h' X. now apply F in X.
Qed.
Lemma orphan_ok h o s : inv s -> In h (hset s) -> obj (at_handle s h) = Some o -> inv (orphan h s) /\ (forall k o', obj (at_handle (orphan h s) k) = Some o' <-> o' <> o /\ obj (at_handle s k) = Some o') /\ table (orphan h s) = table s /\ stamp (orphan h s) = stamp s /\ (forall k, seen (at_handle (orphan h s) k) = seen (at_handle s k)).
Proof using Type. clear.
  intros I H O. unfold orphan. set (l := filter _ (hset s)). set (s1 := change h _ (with_set l s)). pose proof (release_like h s1) as K.
  assert (L : (h < length (heap s))%nat) by (apply live_valid; auto; unfold live; congruence).
  assert (Ob : forall k, obj (at_handle s1 k) = if Nat.eqb k h then None else obj (at_handle s k)).
  { intros k. unfold s1. destruct (Nat.eqb_spec k h) as [->|D]; [rewrite at_same by auto; reflexivity|rewrite at_other by auto; reflexivity]. }
  assert (Se : forall k, seen (at_handle s1 k) = seen (at_handle s k)).
  { intros k. unfold s1. destruct (Nat.eq_dec k h) as [->|D]; [rewrite at_same by auto; reflexivity|rewrite at_other by auto; reflexivity]. }
  assert (Pl : Permutation (hset s) (h :: l)).
  { apply NoDup_Permutation; [apply (i_set _ I)|constructor; [unfold l; rewrite filter_In, Nat.eqb_refl; cbn; intros []; discriminate|unfold l; apply NoDup_filter, (i_set _ I)]|]. intros k. cbn. unfold l. rewrite filter_In. destruct (Nat.eqb_spec k h) as [->|D]; cbn; intuition congruence. }
  destruct I as [I1 I2 I3 I4 I5 I6]. split; [split|split; [|split; [|split]]].
  - rewrite (k_table _ _ K). exact I1.
  - apply good_perm with (concat (table s) ++ l); [unfold refs; rewrite (k_table _ _ K), (k_set _ _ K); reflexivity|]. apply release_good. unfold s1. apply change_good; [reflexivity|]. apply good_set. eapply good_perm; [|exact I2]. unfold refs. rewrite Pl. symmetry. apply Permutation_middle.
  - rewrite (k_table _ _ K). exact I3.
  - rewrite (k_set _ _ K). apply NoDup_filter. exact I4.
  - intros k. rewrite (k_set _ _ K). unfold live. rewrite (k_obj _ _ K), Ob. change (hset s1) with l. unfold l. rewrite filter_In, I5. unfold live. destruct (Nat.eqb_spec k h); cbn; intuition congruence.
  - intros k k'. unfold live. rewrite !(k_obj _ _ K), !Ob. destruct (Nat.eqb_spec k h), (Nat.eqb_spec k' h); try congruence. apply I6.
  - intros k o'. rewrite (k_obj _ _ K), Ob. destruct (Nat.eqb_spec k h) as [->|D]; [split; [discriminate|intros []; congruence]|]. split; [intros X; split; auto; intros ->; apply D, I6; [unfold live|]; congruence|tauto].
  - rewrite (k_table _ _ K). reflexivity.
  - rewrite (k_stamp _ _ K). reflexivity.
  - intros k. now rewrite (k_seen _ _ K), Se.
Qed.
Lemma clear_ok s : inv s -> inv (clear_table s) /\ marked [] s (clear_table s) /\ concat (table (clear_table s)) = [].
Proof using Type. clear.
  intros I. unfold clear_table. assert (R : forall l r s, good (l ++ r) s -> good r (fold_left (fun s h => release h s) l s) /\ like s (fold_left (fun s h => release h s) l s)).
  { induction l as [|h l IH]; intros r s0 G; cbn [fold_left]; [split; auto using like_refl|]. destruct (IH r (release h s0)) as [G' K']; [now apply release_good|]. split; auto. eapply like_trans; eauto using release_like. }
  destruct (R (concat (table s)) (hset s) s (i_good _ I)) as [G K]. set (s1 := fold_left _ _ s) in *.
  assert (Z : concat (repeat (@nil nat) (length (table s))) = []) by apply concat_repeat. destruct I as [I1 I2 I3 I4 I5 I6]. split; [split|split].
  - cbn. now rewrite repeat_length.
  - apply good_table. unfold refs. cbn [table with_table hset]. rewrite Z, (k_set _ _ K). exact G.
  - cbn. intros c C. apply repeat_spec in C. subst. constructor.
  - cbn. now rewrite (k_set _ _ K).
  - intros k. cbn. rewrite (k_set _ _ K), I5. unfold live. change (at_handle (with_table _ s1) k) with (at_handle s1 k). now rewrite (k_obj _ _ K).
  - intros k k'. unfold live. change (at_handle (with_table (repeat [] (length (table s))) s1)) with (at_handle s1). rewrite !(k_obj _ _ K). apply I6.
  - apply like_marked in K. destruct K; split; auto.
  - cbn. exact Z.
Qed.
Lemma new_hash_inv k : inv (new_hash cells k) /\ fresh (new_hash cells k) /\ forall h, obj (at_handle (new_hash cells k) h) = None.
Proof using Type. clear.
  assert (At : forall h, at_handle (new_hash cells k) h = Handle None 0 0). { intros h. unfold at_handle. cbn. destruct (Nat.lt_ge_cases h k); [now rewrite nth_repeat|]. apply nth_overflow. now rewrite repeat_length. }
  assert (Z : concat (repeat (@nil nat) cells) = []) by apply concat_repeat.
  split; [split|split; [intros h; rewrite At; cbn; lia|intros h; now rewrite At]].
  - cbn. apply repeat_length.
  - split; unfold refs; cbn [table hset new_hash]; rewrite ?Z; cbn -[at_handle].
    + contradiction.
    + intros h _. now rewrite At.
    + apply seq_NoDup.
    + intros h. rewrite in_seq, repeat_length. intuition lia.
  - cbn. intros c C. apply repeat_spec in C. subst. constructor.
  - constructor.
  - intros h. unfold live. rewrite At. cbn. tauto.
  - intros h h'. unfold live. rewrite At. cbn. tauto.
Qed.
End Ops.
