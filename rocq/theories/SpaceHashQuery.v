(** Proofs about the spatial hash: queries and ReindexQuery. *)
From Coq Require Import ZArith List Bool PeanoNat Lia Permutation.
From Verif Require Import Num Vec BB SpaceHash SpaceHashInv SpaceHashOps.
Import ListNotations.

Section Query.
Context {Nm : Num} (toint : num -> Z) (dim : num) (cells : nat).
Hypothesis some_cells : (0 < cells)%nat.
Notation box_cells := (box_cells toint dim).
Notation inv := (inv cells).
Notation on := (on cells).

Definition told (self : option nat) (s : hash) (hs : list nat) : Prop :=
  NoDup hs /\ forall h, In h hs -> live s h /\ is_self self (obj (at_handle s h)) = false /\ seen (at_handle s h) <> stamp s.
Lemma told_app self s s' hs hs' : marked hs s s' -> told self s hs -> told self s' hs' -> told self s (hs ++ hs').
Proof using Type. clear.
  intros M [N R] [N' R']. destruct (reported_app self s s' (hs ++ hs') (hs ++ hs') hs hs' M) as [A B]; auto.
  - split; auto. intros h I. split; [apply in_or_app|]; auto.
  - split; auto. intros h I. split; [apply in_or_app|]; auto.
  - split; auto. intros h I. apply B in I. tauto.
Qed.
Lemma reported_told self s c hs : reported self s c hs -> told self s hs.
Proof using Type. clear. intros [A B]. split; auto. intros h I. apply B in I. tauto. Qed.
Lemma marked_seen hs s s' h : marked hs s s' -> seen (at_handle s h) = stamp s -> seen (at_handle s' h) = stamp s.
Proof using Type. clear. intros M E. rewrite (m_seen _ _ _ M). destruct (in_dec _ _ _); auto. Qed.
Lemma inv_next s : inv s -> inv (next_stamp s).
Proof using Type. clear. intros [A B C D E F]. split; auto. now apply good_stamp in B. Qed.

Lemma query_cell_ok {A} (f : nat -> A -> A) self c s out : inv s ->
  exists hs s', query_cell cells f self c (s, out) = Some (s', tell f s hs out) /\ inv s' /\ marked hs s s' /\ told self s hs /\ (forall h, In h hs -> on s c h) /\
    (forall c' h, live s h -> on s c' h -> on s' c' h) /\ (forall c' h, on s' c' h -> on s c' h) /\
    (forall h, live s h -> on s c h -> seen (at_handle s' h) = stamp s \/ is_self self (obj (at_handle s h)) = true).
Proof using some_cells. clear - some_cells. 
  intros I. destruct (chain_at_ok cells some_cells s c (i_len _ _ I)) as (i & ch & E & F & N). unfold query_cell. cbn [fst snd]. rewrite E.
  destruct (concat_upd (table s) i ch [] N) as (r & P & _). pose proof (good_refs cells s i ch r I N P) as G.
  assert (ND : NoDup ch) by (apply (i_chain _ _ I); eapply nth_error_In; eauto).
  destruct (query_helper_ok f self (r ++ hset s) ch s out G ND) as (hs & s1 & ch' & E1 & G1 & T1 & ND1 & M1 & R1 & Sub & Keep & Seen). rewrite E1. exists hs. eexists. split; [reflexivity|].
  assert (TT : table (with_table (upd (table s1) i ch') s1) = upd (table s) i ch') by (cbn; now rewrite T1). split; [|split; [|split; [|split; [|split; [|split]]]]].
  - apply (inv_chain cells s s1 hs i ch ch'); auto. intros r' P'. eapply good_perm; [|exact G1]. apply Permutation_app_head. apply Permutation_app_tail. apply Permutation_app_inv_l with ch. now rewrite <- P, <- P'.
  - destruct M1; split; auto.
  - eapply reported_told; eauto.
  - intros h Hh. apply R1 in Hh as [Hh _]. exists i, ch. auto.
  - intros c' h L. apply (on_upd cells s _ i ch ch' N TT). intros J. now apply Keep.
  - intros c' h O. apply on_nth in O as (j & dh & F' & N' & J). rewrite TT, nth_error_upd in N'. apply on_nth. destruct (Nat.eqb_spec j i) as [->|D]; cbn [andb] in N'.
    + exists i, ch. split; auto. split; auto. destruct (Nat.ltb i (length (table s))); [apply Sub|]; congruence.
    + exists j, dh. auto.
  - intros h L O. apply on_nth in O as (j & dh & F' & N' & J). assert (j = i) by congruence. subst j. assert (dh = ch) by congruence. subst dh. apply Seen. now apply Keep.
Qed.
Lemma query_cells_ok {A} (f : nat -> A -> A) self : forall cs s out, inv s ->
  exists hs s', all_of (query_cell cells f self) cs (s, out) = Some (s', tell f s hs out) /\ inv s' /\ marked hs s s' /\ told self s hs /\ (forall h, In h hs -> exists c, In c cs /\ on s c h) /\
    (forall c' h, live s h -> on s c' h -> on s' c' h) /\
    (forall c h, In c cs -> live s h -> on s c h -> seen (at_handle s' h) = stamp s \/ is_self self (obj (at_handle s h)) = true).
Proof using some_cells. clear - some_cells. 
  induction cs as [|c cs IH]; intros s out I; cbn [all_of].
  - exists [], s. split; auto. split; auto. split; [apply like_marked, like_refl|]. split; [split; [constructor|contradiction]|]. split; [contradiction|]. split; [auto|contradiction].
  - destruct (query_cell_ok f self c s out I) as (hs & s1 & E & I1 & M1 & T1 & W1 & P1 & Q1 & S1). rewrite E.
    destruct (IH s1 (tell f s hs out) I1) as (hs' & s2 & E2 & I2 & M2 & T2 & W2 & P2 & S2). rewrite E2. rewrite (tell_app f s s1) by apply (m_obj _ _ _ M1).
    exists (hs ++ hs'), s2. split; auto. split; auto. split; [eapply marked_trans; eauto|]. split; [eapply told_app; eauto|]. split; [|split].
    + intros h H. apply in_app_or in H as [H|H]; [exists c; split; [now left|auto]|]. destruct (W2 h H) as (d & D & O). exists d. split; [now right|auto].
    + intros c' h L O. apply P2; auto. unfold live. now rewrite (m_obj _ _ _ M1).
    + intros d h [<-|D] L O.
      * destruct (S1 h L O) as [X|X]; auto. left. rewrite <- (m_stamp _ _ _ M1) in X |- *. eapply marked_seen; eauto.
      * rewrite <- (m_stamp _ _ _ M1), <- (m_obj _ _ _ M1). apply (S2 d h D); [unfold live; now rewrite (m_obj _ _ _ M1)|auto].
Qed.
Lemma tell_cons s hs out : tell cons s hs out = rev (map (shape_of s) hs) ++ out.
Proof using Type. clear. unfold tell. revert out. induction hs as [|h hs IH]; intros out; cbn; auto. rewrite IH, <- app_assoc. reflexivity. Qed.
Lemma shapes_nodup s hs : inv s -> NoDup hs -> (forall h, In h hs -> live s h) -> NoDup (map (shape_of s) hs).
Proof using Type. clear.
  intros I N L. induction N as [|h hs NI N IH]; cbn; constructor; auto.
  - intros J. apply in_map_iff in J as (k & E & K). apply NI. replace h with k; auto. apply (i_uniq _ _ I); [apply L; now right|]. pose proof (L k (or_intror K)) as A. pose proof (L h (or_introl eq_refl)) as B. unfold shape_of, live in *. destruct (obj (at_handle s k)), (obj (at_handle s h)); congruence.
  - apply IH. intros k K. apply L. now right.
Qed.
Lemma query_ok self b s : inv s -> fresh s -> exists s' out, query toint dim cells self b s = Some (s', out) /\ inv s' /\ fresh s' /\ NoDup out /\
  (forall o, In o out -> self <> Some o /\ exists h c, obj (at_handle s h) = Some o /\ In c (box_cells b) /\ on s c h) /\
  (forall h o c, obj (at_handle s h) = Some o -> self <> Some o -> In c (box_cells b) -> on s c h -> In o out) /\
  (forall h, obj (at_handle s' h) = obj (at_handle s h)) /\ (forall c h, live s h -> on s c h -> on s' c h).
Proof using some_cells. 
  intros I Fr. destruct (query_cells_ok cons self (box_cells b) s [] I) as (hs & s1 & E & I1 & M & [N T] & W & P & Cv). unfold query. rewrite E. rewrite tell_cons, app_nil_r.
  eexists _, _. split; [reflexivity|]. split; [now apply inv_next|]. split; [|split; [|split; [|split; [|split]]]].
  - intros h. change (seen (at_handle s1 h) < S (stamp s1))%nat. rewrite (m_seen _ _ _ M), (m_stamp _ _ _ M). pose proof (Fr h). destruct (in_dec _ _ _); lia.
  - apply NoDup_rev. apply shapes_nodup; auto. intros h H. now apply T in H.
  - intros o H. apply in_rev in H. apply in_map_iff in H as (h & O & H). destruct (T h H) as (L & Sf & Ne). unfold shape_of, live in *. destruct (obj (at_handle s h)) as [o'|] eqn:Oh; [|congruence]. subst o'. split.
    + intros ->. cbn in Sf. rewrite Nat.eqb_refl in Sf. discriminate.
    + destruct (W h H) as (c & C & On). exists h, c. auto.
  - intros h o c O Sf C On. rewrite <- in_rev. apply in_map_iff. exists h. split; [unfold shape_of; now rewrite O|]. destruct (Cv c h C) as [X|X]; auto.
    + unfold live. congruence.
    + rewrite (m_seen _ _ _ M) in X. pose proof (Fr h). destruct (in_dec Nat.eq_dec h hs); [auto|lia].
    + rewrite O in X. destruct self as [a|]; [|discriminate]. cbn in X. apply Nat.eqb_eq in X. congruence.
  - intros h. apply (m_obj _ _ _ M).
  - intros c h L O. apply P in O; auto.
Qed.

(** ** ReindexQuery *)
(** chains that hold h have been searched for it already *)
Definition searched (s : hash) h := forall ch k, In ch (table s) -> In h ch -> In k ch -> k = h \/ seen (at_handle s k) = stamp s \/ ~ live s k.
Lemma rehash_cell_ok h o c s out : inv s -> obj (at_handle s h) = Some o -> searched s h ->
  exists hs s', rehash_cell cells h o c (s, out) = Some (s', tell (fun x out => (o, x) :: out) s hs out) /\ inv s' /\ marked hs s s' /\ told (Some o) s hs /\ searched s' h /\ (forall k, In k hs -> on s c k) /\
    (forall c' k, live s k -> on s c' k -> on s' c' k) /\ on s' c h /\ (forall k, In k (concat (table s')) -> k = h \/ In k (concat (table s))) /\ (forall c' k, k <> h -> on s' c' k -> on s c' k) /\
    (forall k, live s k -> on s c k -> k = h \/ seen (at_handle s' k) = stamp s).
Proof using some_cells. clear - some_cells. 
  intros I O Sd. destruct (chain_at_ok cells some_cells s c (i_len _ _ I)) as (i & ch & E & F & N). unfold rehash_cell. cbn [fst snd]. rewrite E. destruct (contains_handle ch h) eqn:C.
  - apply contains_in in C. exists [], s. split; auto. split; auto. split; [apply like_marked, like_refl|]. split; [split; [constructor|contradiction]|]. split; auto. split; [contradiction|]. split; auto. split; [exists i, ch; auto|]. split; auto. split; auto.
    intros k L On. apply on_nth in On as (j & dh & F' & N' & J). assert (j = i) by congruence. subst j. assert (dh = ch) by congruence. subst dh. destruct (Sd ch k (nth_error_In _ _ N) C J) as [|[|]]; auto. contradiction.
  - assert (NI : ~ In h ch) by (rewrite <- contains_in; congruence). assert (Ih : In h (hset s)) by (apply (i_obj _ _ I); unfold live; congruence).
    destruct (concat_upd (table s) i ch [] N) as (r & P & _). pose proof (good_refs cells s i ch r I N P) as G. pose proof (retain_like h s) as K.
    assert (G0 : good (ch ++ h :: r ++ hset s) (retain h s)). { eapply good_perm; [apply Permutation_middle|]. apply retain_good; auto. rewrite !in_app_iff. auto. }
    assert (ND : NoDup ch) by (apply (i_chain _ _ I); eapply nth_error_In; eauto).
    destruct (query_helper_ok (fun x out => (o, x) :: out) (Some o) (h :: r ++ hset s) ch (retain h s) out G0 ND) as (hs & s1 & ch' & E1 & G1 & T1 & ND1 & M1 & R1 & Sub & Keep & Seen). rewrite E1.
    assert (M : marked hs s s1) by (change hs with ([] ++ hs); eapply marked_trans; [apply like_marked, K|exact M1]). clear M1.
    assert (TT : table (with_table (upd (table s1) i (h :: ch')) s1) = upd (table s) i (h :: ch')) by (cbn; now rewrite T1). set (s2 := with_table _ s1) in *.
    assert (M2 : marked hs s s2) by (destruct M; split; auto). assert (R : reported (Some o) s ch hs).
    { destruct R1 as [R1 R2]. split; auto. intros k Hk. destruct (R2 k Hk) as (X1 & X2 & X3 & X4). unfold live in *. rewrite (k_obj _ _ K) in *. rewrite (k_seen _ _ K), (k_stamp _ _ K) in X4. auto. }
    assert (NewI : nth_error (table s2) i = Some (h :: ch')).
    { rewrite TT, nth_error_upd, Nat.eqb_refl. assert (L : (i < length (table s))%nat) by (apply nth_error_Some; congruence). apply Nat.ltb_lt in L. now rewrite L. }
    assert (Seen' : forall k, In k ch' -> seen (at_handle s2 k) = stamp s \/ k = h).
    { intros k Hk. destruct (Seen k Hk) as [X|X]; auto. right. rewrite (k_obj _ _ K) in X. destruct (obj (at_handle s k)) as [o'|] eqn:Ok; [|discriminate]. cbn in X. apply Nat.eqb_eq in X. subst o'. apply (i_uniq _ _ I); unfold live; congruence. }
    exists hs, s2. split. { f_equal. f_equal. unfold tell. clear -K. revert out. induction hs as [|k hs IH]; intros out; cbn [fold_left]; auto. rewrite IH. f_equal. f_equal. unfold shape_of. now rewrite (k_obj _ _ K). }
    split; [|split; [exact M2|split; [eapply reported_told; eauto|split; [|split; [|split; [|split; [|split; [|split]]]]]]]].
    + apply (inv_chain cells s s1 hs i ch (h :: ch')); auto.
      * constructor; auto.
      * intros r' P'. eapply good_perm; [|exact G1]. rewrite <- Permutation_middle. apply Permutation_cons; auto. apply Permutation_app_head. apply Permutation_app_tail. apply Permutation_app_inv_l with ch. now rewrite <- P, <- P'.
    + intros dh k D Hh Hk. rewrite (m_stamp _ _ _ M2). unfold live. rewrite (m_obj _ _ _ M2). rewrite TT in D. apply in_upd in D as [->|D].
      * destruct Hk as [<-|Hk]; auto. destruct (Seen' k Hk); auto.
      * destruct (Sd dh k D Hh Hk) as [|[X|X]]; auto. right; left. eapply marked_seen; eauto.
    + intros k Hk. apply R in Hk as [Hk _]. exists i, ch. auto.
    + intros c' k L. apply (on_upd cells s s2 i ch (h :: ch') N TT). intros J. right. apply Keep; auto. unfold live. now rewrite (k_obj _ _ K).
    + eapply (on_new cells s i ch c h N F (h :: ch') s2 TT). now left.
    + intros k Hk. apply in_concat in Hk as (dh & D & Hk). rewrite TT in D. apply in_upd in D as [->|D].
      * destruct Hk as [<-|Hk]; auto. right. apply in_concat_nth. exists i, ch. split; auto.
      * right. apply in_concat. eauto.
    + intros c' k Ne On. apply on_nth in On as (j & dh & F' & N' & J). apply on_nth. destruct (Nat.eq_dec j i) as [->|D].
      * assert (dh = h :: ch') by congruence. subst dh. destruct J as [J|J]; [congruence|]. exists i, ch. auto.
      * exists j, dh. split; auto. rewrite TT, nth_error_upd in N'. apply Nat.eqb_neq in D. rewrite D in N'. auto.
    + intros k L On. apply on_nth in On as (j & dh & F' & N' & J). assert (j = i) by congruence. subst j. assert (dh = ch) by congruence. subst dh. destruct (Seen' k); auto. apply Keep; auto. unfold live. now rewrite (k_obj _ _ K).
Qed.
Lemma rehash_cells_ok h o : forall cs s out, inv s -> obj (at_handle s h) = Some o -> searched s h ->
  exists hs s', all_of (rehash_cell cells h o) cs (s, out) = Some (s', tell (fun x out => (o, x) :: out) s hs out) /\ inv s' /\ marked hs s s' /\ told (Some o) s hs /\ (forall k, In k hs -> exists c, In c cs /\ on s c k) /\
    (forall c' k, live s k -> on s c' k -> on s' c' k) /\ (forall c, In c cs -> on s' c h) /\ (forall k, In k (concat (table s')) -> k = h \/ In k (concat (table s))) /\
    (forall c' k, k <> h -> on s' c' k -> on s c' k) /\ (forall c k, In c cs -> live s k -> on s c k -> k = h \/ seen (at_handle s' k) = stamp s).
Proof using some_cells. clear - some_cells. 
  induction cs as [|c cs IH]; intros s out I O Sd; cbn [all_of].
  - exists [], s. split; auto. split; auto. split; [apply like_marked, like_refl|]. split; [split; [constructor|contradiction]|]. split; [contradiction|]. split; auto. split; [contradiction|]. split; auto. split; [auto|contradiction].
  - destruct (rehash_cell_ok h o c s out I O Sd) as (hs & s1 & E & I1 & M1 & T1 & Sd1 & W1 & P1 & H1 & N1 & Q1 & S1). rewrite E.
    assert (Lv : forall k, live s k -> live s1 k) by (intros k; unfold live; now rewrite (m_obj _ _ _ M1)).
    destruct (IH s1 (tell (fun x out => (o, x) :: out) s hs out) I1) as (hs' & s2 & E2 & I2 & M2 & T2 & W2 & P2 & H2 & N2 & Q2 & S2); auto; [now rewrite (m_obj _ _ _ M1)|]. rewrite E2, (tell_app _ s s1) by apply (m_obj _ _ _ M1).
    exists (hs ++ hs'), s2. split; auto. split; auto. split; [eapply marked_trans; eauto|]. split; [eapply told_app; eauto|]. split; [|split; [|split; [|split; [|split]]]].
    + intros k Hk. apply in_app_or in Hk as [Hk|Hk]; [exists c; split; [now left|auto]|]. destruct (W2 k Hk) as (d & D & On). exists d. split; [now right|]. apply Q1; auto. intros ->. destruct T2 as [_ T2]. apply T2 in Hk as (_ & X & _). rewrite (m_obj _ _ _ M1), O in X. cbn in X. rewrite Nat.eqb_refl in X. discriminate.
    + intros c' k L On. apply P2; auto.
    + intros d [<-|D]; auto. apply P2; auto. apply Lv. unfold live. congruence.
    + intros k Hk. destruct (N2 k Hk); auto.
    + intros c' k Ne On. auto.
    + intros d k [<-|D] L On.
      * destruct (S1 k L On) as [X|X]; auto. right. rewrite <- (m_stamp _ _ _ M1) in X |- *. eapply marked_seen; eauto.
      * rewrite <- (m_stamp _ _ _ M1). apply (S2 d k D); auto.
Qed.
Lemma tell_pairs s (o : nat) hs out : tell (fun x out => (o, x) :: out) s hs out = rev (map (fun k => (o, shape_of s k)) hs) ++ out.
Proof using Type. clear. unfold tell. revert out. induction hs as [|h hs IH]; intros out; cbn [fold_left map rev]; auto. rewrite IH, <- app_assoc. reflexivity. Qed.

(** handles in the order visited *)
Lemma rehash_ok boxes : forall l s out, inv s -> fresh s -> NoDup l -> (forall h, In h l -> live s h /\ ~ In h (concat (table s))) ->
  exists (ps : list (nat * nat)) s', all_of (rehash_handle toint dim cells boxes) l (s, out) = Some (s', map (fun p : nat * nat => (shape_of s (fst p), shape_of s (snd p))) ps ++ out) /\ inv s' /\ fresh s' /\
    (forall h, obj (at_handle s' h) = obj (at_handle s h)) /\ NoDup ps /\
    (forall h k, In (h, k) ps -> live s k /\ exists l1 l2, l = l1 ++ h :: l2 /\ (In k (concat (table s)) \/ In k l1)) /\
    (forall c k, live s k -> on s c k -> on s' c k) /\ (forall h c, In h l -> In c (box_cells (boxes (shape_of s h))) -> on s' c h) /\
    (forall h k c, In h l -> In c (box_cells (boxes (shape_of s h))) -> live s k -> on s c k -> In (h, k) ps) /\
    (forall l1 k l2 h l3 c, l = l1 ++ k :: l2 ++ h :: l3 -> In c (box_cells (boxes (shape_of s h))) -> In c (box_cells (boxes (shape_of s k))) -> In (h, k) ps).
Proof using some_cells. 
  induction l as [|h l IH]; intros s out I Fr ND LV; cbn [all_of].
  - exists [], s. split; auto. split; auto. split; auto. split; auto. split; [constructor|]. split; [contradiction|]. split; auto. split; [contradiction|]. split; [contradiction|]. intros [|? ?]; discriminate.
  - inversion ND as [|? ? Nh ND']; subst. destruct (LV h (or_introl eq_refl)) as [Lh Off]. unfold rehash_handle at 1. cbn [fst]. unfold live in Lh. destruct (obj (at_handle s h)) as [o|] eqn:O; [|congruence]. clear Lh.
    assert (Sh : shape_of s h = o) by (unfold shape_of; now rewrite O).
    destruct (rehash_cells_ok h o (box_cells (boxes o)) s out I O) as (hs & s1 & E & I1 & M1 & [T1 T2] & W1 & P1 & H1 & N1 & Q1 & S1).
    { intros ch k D Hh _. exfalso. apply Off. apply in_concat. eauto. }
    rewrite E. rewrite tell_pairs. set (s2 := next_stamp s1).
    assert (Ob : forall k, obj (at_handle s2 k) = obj (at_handle s k)) by apply (m_obj _ _ _ M1).
    assert (ShE : forall k, shape_of s2 k = shape_of s k) by (intros k; unfold shape_of; now rewrite Ob).
    assert (LvE : forall k, live s2 k <-> live s k) by (intros k; unfold live; now rewrite Ob).
    assert (Fr2 : fresh s2). { intros k. change (seen (at_handle s1 k) < S (stamp s1))%nat. rewrite (m_seen _ _ _ M1), (m_stamp _ _ _ M1). pose proof (Fr k). destruct (in_dec _ _ _); lia. }
    destruct (IH s2 (rev (map (fun k => (o, shape_of s k)) hs) ++ out)) as (ps & s' & E' & I' & Fr' & Ob' & NP & Bef & P' & H' & C1 & C2); auto; [now apply inv_next| |].
    { intros k Hk. destruct (LV k (or_intror Hk)) as [A B]. split; [now apply LvE|]. intros X. apply N1 in X as [->|X]; auto. }
    assert (Told : forall k, live s k -> forall c, In c (box_cells (boxes o)) -> on s c k -> In k hs).
    { intros k Lk c C On. destruct (S1 c k C Lk On) as [->|X]; [exfalso; apply Off; eapply on_in; eauto|]. rewrite (m_seen _ _ _ M1) in X. pose proof (Fr k). destruct (in_dec Nat.eq_dec k hs); [auto|lia]. }
    exists (ps ++ rev (map (pair h) hs)), s'. split.
    { rewrite E'. rewrite map_app, <- app_assoc. f_equal. f_equal. f_equal; [apply map_ext; intros [a b]; cbn [fst snd]; now rewrite !ShE|]. rewrite map_rev, map_map. f_equal. f_equal. apply map_ext. intros k. cbn [fst snd]. now rewrite Sh. }
    split; auto. split; auto. split; [intros k; now rewrite Ob', Ob|]. split; [|split; [|split; [|split; [|split]]]].
    + assert (NR : NoDup (rev (map (pair h) hs))). { apply NoDup_rev. clear - T1. induction T1; cbn; constructor; auto. rewrite in_map_iff. intros (y & [= ->] & Y). auto. }
      assert (Dis : forall p, In p ps -> In p (rev (map (pair h) hs)) -> False). { intros [a b] A B. apply in_rev, in_map_iff in B as (y & [= <- <-] & _). destruct (Bef _ _ A) as (_ & l1 & l2 & X & _). apply Nh. rewrite X. apply in_elt. }
      clear - NP NR Dis. induction NP as [|p ps Np NP IH]; cbn; auto. constructor; [rewrite in_app_iff; intros [X|X]; auto; apply (Dis p); auto; now left|]. apply IH. intros q Q. apply Dis. now right.
    + intros a b X. apply in_app_or in X as [X|X].
      * destruct (Bef a b X) as (Lb & l1 & l2 & El & Pos). split; [now apply LvE|]. exists (h :: l1), l2. split; [now rewrite El|]. destruct Pos as [Pos|Pos]; [|right; now right]. apply N1 in Pos as [->|Pos]; [right; now left|auto].
      * apply in_rev, in_map_iff in X as (y & [= <- <-] & Y). destruct (T2 y Y) as (A & _ & _). split; auto. exists [], l. split; auto. left. destruct (W1 y Y) as (c & _ & On). eapply on_in; eauto.
    + intros c k Lk On. apply P'; [now apply LvE|]. now apply P1.
    + intros a c [<-|A] C; [|apply H'; auto; now rewrite ShE]. apply P'; [apply LvE; unfold live; congruence|]. rewrite Sh in C. exact (H1 c C).
    + intros a k c [<-|A] C Lk On.
      * rewrite Sh in C. apply in_or_app. right. rewrite <- in_rev. apply in_map. eauto.
      * apply in_or_app. left. apply (C1 a k c); auto; [now rewrite ShE|now apply LvE|]. now apply P1.
    + intros l1 k l2 a l3 c El Ca Ck. destruct l1 as [|x l1]; cbn in El; injection El as <- El.
      * apply in_or_app. left. apply (C1 a h c); [rewrite El; apply in_elt|now rewrite ShE|apply LvE; unfold live; congruence|]. rewrite Sh in Ck. exact (H1 c Ck).
      * apply in_or_app. left. apply (C2 l1 k l2 a l3 c); auto; now rewrite ShE.
Qed.
End Query.
