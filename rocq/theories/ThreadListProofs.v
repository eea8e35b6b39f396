(** Proofs about the linked lists. *)
From Coq Require Import List Bool Arith Lia.
From Verif Require Import Space SpaceInv ThreadList ThreadListSpec.
Import ListNotations.
Local Open Scope nat_scope.

Lemma upd_eq {A} (f : nat -> A) x v y : upd f x v y = if Nat.eqb x y then v else f y.
Proof. reflexivity. Qed.

(** ** Lists *)
Lemma hd_app_r {A} (l m n : list A) : l <> [] -> hd_error (l ++ m) = hd_error (l ++ n).
Proof. destruct l; [congruence|reflexivity]. Qed.
Lemma remove1_notin x l : ~ In x l -> remove1 x l = l.
Proof. induction l as [|y l IH]; simpl; intros H; auto. destruct (Nat.eqb_spec x y); [subst; tauto|]. rewrite IH; tauto. Qed.
Lemma remove1_mid x a c : ~ In x a -> remove1 x (a ++ x :: c) = a ++ c.
Proof. induction a as [|y a IH]; simpl; intros H; [rewrite Nat.eqb_refl; auto|]. destruct (Nat.eqb_spec x y); [subst; tauto|]. rewrite IH; tauto. Qed.
Lemma app_split {A} : forall (a c l1 l2 : list A) z, a ++ c = l1 ++ z :: l2 ->
  (exists a2, a = l1 ++ z :: a2 /\ l2 = a2 ++ c) \/ (exists c1, c = c1 ++ z :: l2 /\ l1 = a ++ c1).
Proof.
  induction a as [|y a IH]; intros c l1 l2 z E; simpl in E.
  - right. exists l1. auto.
  - destruct l1 as [|w l1]; simpl in E; inversion E; subst.
    + left. exists a. auto.
    + destruct (IH _ _ _ _ H1) as [[a2 [P Q]]|[c1 [P Q]]]; [left; exists a2|right; exists c1]; subst; auto.
Qed.

(** ** Arbiters *)
Definition endp (h : theap) (b x : nat) : Prop := t_a h x = b \/ t_b h x = b.
Lemma next_set_next h b x v b' z : endp h b x -> endp h b' z -> next_of (set_next h b x v) b' z = if (x =? z) && (b =? b') then v else next_of h b' z.
Proof.
  unfold endp, next_of, set_next. intros E E'. destruct (Nat.eqb_spec (t_a h x) b) as [A|A]; simpl; rewrite upd_eq;
  destruct (Nat.eqb_spec x z) as [X|X], (Nat.eqb_spec b b') as [B|B]; simpl; subst; repeat match goal with |- context [?p =? ?q] => destruct (Nat.eqb_spec p q) end; try congruence; destruct E, E'; congruence.
Qed.
Lemma prev_set_prev h b x v b' z : endp h b x -> endp h b' z -> prev_of (set_prev h b x v) b' z = if (x =? z) && (b =? b') then v else prev_of h b' z.
Proof.
  unfold endp, prev_of, set_prev. intros E E'. destruct (Nat.eqb_spec (t_a h x) b) as [A|A]; simpl; rewrite upd_eq;
  destruct (Nat.eqb_spec x z) as [X|X], (Nat.eqb_spec b b') as [B|B]; simpl; subst; repeat match goal with |- context [?p =? ?q] => destruct (Nat.eqb_spec p q) end; try congruence; destruct E, E'; congruence.
Qed.
Lemma prev_set_next h b x v b' z : prev_of (set_next h b x v) b' z = prev_of h b' z.
Proof. unfold prev_of, set_next. destruct (t_a h x =? b); reflexivity. Qed.
Lemma next_set_prev h b x v b' z : next_of (set_prev h b x v) b' z = next_of h b' z.
Proof. unfold next_of, set_prev. destruct (t_a h x =? b); reflexivity. Qed.
Lemma next_set_head h b v b' z : next_of (set_head h b v) b' z = next_of h b' z. Proof. reflexivity. Qed.
Lemma prev_set_head h b v b' z : prev_of (set_head h b v) b' z = prev_of h b' z. Proof. reflexivity. Qed.
Lemma head_set_next h b x v y : t_head (set_next h b x v) y = t_head h y. Proof. unfold set_next. destruct (t_a h x =? b); reflexivity. Qed.
Lemma head_set_prev h b x v y : t_head (set_prev h b x v) y = t_head h y. Proof. unfold set_prev. destruct (t_a h x =? b); reflexivity. Qed.
Lemma head_set_head h b v y : t_head (set_head h b v) y = if b =? y then v else t_head h y. Proof. reflexivity. Qed.
Definition same_ends (h h' : theap) : Prop := t_a h' = t_a h /\ t_b h' = t_b h.
Lemma ends_set_next h b x v : same_ends h (set_next h b x v). Proof. unfold set_next. destruct (t_a h x =? b); split; reflexivity. Qed.
Lemma ends_set_prev h b x v : same_ends h (set_prev h b x v). Proof. unfold set_prev. destruct (t_a h x =? b); split; reflexivity. Qed.
Lemma ends_set_head h b v : same_ends h (set_head h b v). Proof. split; reflexivity. Qed.
Lemma ends_refl h : same_ends h h. Proof. split; reflexivity. Qed.
Lemma ends_trans h1 h2 h3 : same_ends h1 h2 -> same_ends h2 h3 -> same_ends h1 h3. Proof. intros [A B] [C D]. split; congruence. Qed.
Lemma endp_same h h' b x : same_ends h h' -> endp h b x -> endp h' b x. Proof. intros [A B]. unfold endp. rewrite A, B. auto. Qed.
Lemma endp_back h h' b x : same_ends h h' -> endp h' b x -> endp h b x. Proof. intros [A B]. unfold endp. rewrite A, B. auto. Qed.

(* the heap holds these lists *)
Record rep (h : theap) (L : nat -> list nat) : Prop := {
  r_nd : forall b, NoDup (L b);
  r_end : forall b x, In x (L b) -> endp h b x;
  r_head : forall b, t_head h b = hd_error (L b);
  r_link : forall b l1 x l2, L b = l1 ++ x :: l2 -> next_of h b x = hd_error l2 /\ prev_of h b x = hd_error (rev l1);
  r_out : forall b x, endp h b x -> ~ In x (L b) -> next_of h b x = None /\ prev_of h b x = None }.

Lemma push_ends x b h : same_ends h (push_ptr x b h).
Proof.
  unfold push_ptr. eapply ends_trans; [|apply ends_set_head]. destruct (t_head h b); [eapply ends_trans; [|apply ends_set_prev]|]; apply ends_set_next.
Qed.
Lemma push_rep x b h L : rep h L -> endp h b x -> ~ In x (L b) -> rep (push_ptr x b h) (upd L b (x :: L b)).
Proof.
  intros [ND EN HD LK OUT] E NI. pose proof (push_ends x b h) as SE.
  assert (HN : forall b' z, endp h b' z -> next_of (push_ptr x b h) b' z = if (x =? z) && (b =? b') then t_head h b else next_of h b' z).
  { intros b' z E'. unfold push_ptr. rewrite next_set_head. destruct (t_head h b); rewrite ?next_set_prev; rewrite next_set_next by auto; reflexivity. }
  assert (HP : forall b' z, endp h b' z -> prev_of (push_ptr x b h) b' z = match L b with y :: _ => if (y =? z) && (b =? b') then Some x else prev_of h b' z | [] => prev_of h b' z end).
  { intros b' z E'. unfold push_ptr. rewrite prev_set_head. rewrite HD. destruct (L b) as [|y l] eqn:EL; simpl; [rewrite prev_set_next; auto|].
    rewrite prev_set_prev, prev_set_next; auto; (eapply endp_same; [apply ends_set_next|]; auto). apply EN. rewrite EL. simpl. auto. }
  assert (HH : forall b', t_head (push_ptr x b h) b' = if b =? b' then Some x else t_head h b').
  { intros b'. unfold push_ptr. rewrite head_set_head. destruct (b =? b'); auto. destruct (t_head h b); rewrite ?head_set_prev, ?head_set_next; auto. }
  destruct (OUT b x E NI) as [ON OP].
  split; intros b'; rewrite ?upd_eq.
  - destruct (Nat.eqb_spec b b'); auto. constructor; auto.
  - intros z. destruct (Nat.eqb_spec b b') as [<-|B]; intros H; eapply endp_same; eauto. destruct H as [<-|H]; auto.
  - rewrite HH, HD. destruct (b =? b'); auto.
  - intros l1 z l2 EL. destruct (Nat.eqb_spec b b') as [<-|B].
    + destruct l1 as [|w l1]; simpl in EL; inversion EL; subst.
      * rewrite HN, HP by auto. rewrite !Nat.eqb_refl. simpl. rewrite HD. split; auto. destruct (L b) as [|y l]; auto.
        destruct (Nat.eqb_spec y z); [subst; simpl in NI; tauto|]. simpl. auto.
      * assert (IZ : In z (L b)) by (rewrite H1; apply in_app_iff; simpl; auto). assert (EZ := EN _ _ IZ).
        destruct (LK _ _ _ _ H1) as [LN LP]. rewrite HN, HP by auto.
        destruct (Nat.eqb_spec w z) as [->|D]; [tauto|]. simpl. split; auto.
        rewrite H1. destruct l1 as [|y l1]; simpl in *; rewrite ?Nat.eqb_refl; simpl; auto.
        assert (y <> z). { intros ->. pose proof (ND b) as N1. rewrite H1 in N1. inversion N1; subst. apply H2. apply in_app_iff. simpl. auto. }
        destruct (Nat.eqb_spec y z); [congruence|]. simpl. rewrite LP. rewrite !hd_app_r with (m := [w]) (n := []) by (destruct (rev l1); simpl; discriminate). rewrite app_nil_r. auto.
    + assert (IZ : In z (L b')) by (rewrite EL; apply in_app_iff; simpl; auto). assert (EZ := EN _ _ IZ).
      destruct (LK _ _ _ _ EL) as [LN LP]. rewrite HN, HP by auto. rewrite (proj2 (Nat.eqb_neq b b') B), andb_false_r. split; auto. destruct (L b); auto. rewrite andb_false_r. auto.
  - intros z EZ NZ. apply (endp_back _ _ _ _ SE) in EZ. rewrite HN, HP by auto. destruct (Nat.eqb_spec b b') as [<-|B].
    + simpl in NZ. destruct (Nat.eqb_spec x z); [subst; tauto|]. simpl. destruct (OUT b z) as [A1 A2]; auto. split; auto.
      destruct (L b) as [|y l] eqn:EL; auto. destruct (Nat.eqb_spec y z); [subst; simpl in NZ; tauto|]. auto.
    + rewrite !andb_false_r. destruct (OUT b' z) as [A1 A2]; auto. split; auto. destruct (L b); auto. rewrite andb_false_r. auto.
Qed.

Lemma helper_ends x b h : same_ends h (unthread_helper x b h).
Proof.
  unfold unthread_helper. eapply ends_trans; [|apply ends_set_prev]. eapply ends_trans; [|apply ends_set_next].
  set (h1 := match prev_of h b x with Some _ => _ | None => _ end).
  assert (same_ends h h1). { unfold h1. destruct (prev_of h b x); [apply ends_set_next|]. destruct (match t_head h b with Some y => y =? x | None => false end); [apply ends_set_head|apply ends_refl]. }
  destruct (next_of h b x); auto. eapply ends_trans; [eauto|apply ends_set_prev].
Qed.
Lemma hd_in {A} (l : list A) x : hd_error l = Some x -> In x l. Proof. destruct l; simpl; [discriminate|]. intros H; inversion H; auto. Qed.
Lemma helper_rep x b h L : rep h L -> endp h b x -> rep (unthread_helper x b h) (upd L b (remove1 x (L b))).
Proof.
  intros R E. pose proof R as [ND EN HD LK OUT]. pose proof (helper_ends x b h) as SE.
  assert (PE : forall p, prev_of h b x = Some p -> endp h b p /\ In p (L b)).
  { intros p P. destruct (in_dec Nat.eq_dec x (L b)) as [I|I]; [|destruct (OUT b x E I); congruence].
    destruct (in_split _ _ I) as [l1 [l2 S]]. destruct (LK _ _ _ _ S) as [_ Q]. rewrite Q in P. apply hd_in, in_rev in P.
    assert (In p (L b)) by (rewrite S; apply in_app_iff; auto). auto. }
  assert (NE : forall p, next_of h b x = Some p -> endp h b p /\ In p (L b)).
  { intros p P. destruct (in_dec Nat.eq_dec x (L b)) as [I|I]; [|destruct (OUT b x E I); congruence].
    destruct (in_split _ _ I) as [l1 [l2 S]]. destruct (LK _ _ _ _ S) as [Q _]. rewrite Q in P. apply hd_in in P.
    assert (In p (L b)) by (rewrite S; apply in_app_iff; simpl; auto). auto. }
  set (h1 := match prev_of h b x with Some p => set_next h b p (next_of h b x)
             | None => if match t_head h b with Some y => Nat.eqb y x | None => false end then set_head h b (next_of h b x) else h end).
  set (h2 := match next_of h b x with Some q => set_prev h1 b q (prev_of h b x) | None => h1 end).
  assert (HU : unthread_helper x b h = set_prev (set_next h2 b x None) b x None) by reflexivity.
  assert (S1 : same_ends h h1). { unfold h1. destruct (prev_of h b x); [apply ends_set_next|]. destruct (match t_head h b with Some y => y =? x | None => false end); [apply ends_set_head|apply ends_refl]. }
  assert (S2 : same_ends h h2). { unfold h2. destruct (next_of h b x); auto. eapply ends_trans; [eauto|apply ends_set_prev]. }
  assert (HN : forall b' z, endp h b' z -> next_of (unthread_helper x b h) b' z =
     if (x =? z) && (b =? b') then None else match prev_of h b x with Some p => if (p =? z) && (b =? b') then next_of h b x else next_of h b' z | None => next_of h b' z end).
  { intros b' z E'. rewrite HU, next_set_prev, next_set_next by (eapply endp_same; eauto). destruct ((x =? z) && (b =? b')); auto.
    unfold h2. assert (H1 : next_of h1 b' z = match prev_of h b x with Some p => if (p =? z) && (b =? b') then next_of h b x else next_of h b' z | None => next_of h b' z end).
    { unfold h1. destruct (prev_of h b x) as [p|] eqn:P; [apply next_set_next; auto; apply PE; auto|].
      destruct (match t_head h b with Some y => y =? x | None => false end); auto. }
    destruct (next_of h b x) at 1; rewrite ?next_set_prev; auto. }
  assert (HP : forall b' z, endp h b' z -> prev_of (unthread_helper x b h) b' z =
     if (x =? z) && (b =? b') then None else match next_of h b x with Some p => if (p =? z) && (b =? b') then prev_of h b x else prev_of h b' z | None => prev_of h b' z end).
  { intros b' z E'. rewrite HU, prev_set_prev by (eapply endp_same; [apply ends_set_next|]; eapply endp_same; eauto). destruct ((x =? z) && (b =? b')); auto.
    rewrite prev_set_next. unfold h2. assert (H1 : prev_of h1 b' z = prev_of h b' z).
    { unfold h1. destruct (prev_of h b x) as [p|] eqn:P; [apply prev_set_next|].
      destruct (match t_head h b with Some y => y =? x | None => false end); auto. }
    destruct (next_of h b x) as [q|] eqn:Q; rewrite ?H1; auto. rewrite prev_set_prev, H1; auto; eapply endp_same; eauto. apply NE; auto. }
  assert (HH : forall b', t_head (unthread_helper x b h) b' = if (b =? b') && match t_head h b with Some y => Nat.eqb y x | None => false end && match prev_of h b x with None => true | _ => false end then next_of h b x else t_head h b').
  { intros b'. rewrite HU, head_set_prev, head_set_next. unfold h2. assert (H1 : t_head h1 b' = if (b =? b') && match t_head h b with Some y => Nat.eqb y x | None => false end && match prev_of h b x with None => true | _ => false end then next_of h b x else t_head h b').
    { unfold h1. destruct (prev_of h b x); [rewrite head_set_next, andb_false_r; auto|]. destruct (match t_head h b with Some y => y =? x | None => false end).
      - rewrite head_set_head. destruct (b =? b'); auto.
      - rewrite andb_false_r. auto. }
    destruct (next_of h b x) at 1; rewrite ?head_set_prev; auto. }
  clearbody h1 h2. clear HU S1 S2.
  (* the other bodies *)
  assert (OTH : forall b' z, b' <> b -> endp h b' z -> next_of (unthread_helper x b h) b' z = next_of h b' z /\ prev_of (unthread_helper x b h) b' z = prev_of h b' z).
  { intros b' z B E'. rewrite HN, HP by auto. rewrite (proj2 (Nat.eqb_neq b b')) by auto. rewrite !andb_false_r. destruct (prev_of h b x), (next_of h b x); rewrite ?andb_false_r; auto. }
  destruct (in_dec Nat.eq_dec x (L b)) as [I|I].
  - destruct (in_split _ _ I) as [a [c S]]. assert (NDb := ND b). rewrite S in NDb. assert (XN := NoDup_remove_2 _ _ _ NDb). rewrite in_app_iff in XN.
    destruct (LK _ _ _ _ S) as [XNX XPV]. rewrite XNX, XPV in *. rewrite S, remove1_mid by tauto.
    assert (ND2 := NoDup_remove_1 _ _ _ NDb).
    split; intros b'; rewrite ?upd_eq.
    + destruct (b =? b'); auto.
    + intros z. destruct (Nat.eqb_spec b b') as [<-|B]; intros H; eapply endp_same; eauto. apply EN. rewrite S. apply in_app_iff in H. apply in_app_iff. simpl. tauto.
    + rewrite HH. destruct (Nat.eqb_spec b b') as [<-|B]; [|simpl; auto]. rewrite HD, S. simpl. destruct a as [|w a]; simpl; [rewrite Nat.eqb_refl; auto|].
      destruct (Nat.eqb_spec w x); [subst; simpl in XN; tauto|]. reflexivity.
    + intros l1 z l2 EL. destruct (Nat.eqb_spec b b') as [<-|B].
      * assert (ZI : In z (a ++ c)) by (rewrite EL; apply in_app_iff; simpl; auto).
        assert (ZL : In z (L b)) by (rewrite S; apply in_app_iff in ZI; apply in_app_iff; simpl; tauto).
        rewrite HN, HP by auto. rewrite Nat.eqb_refl, !andb_true_r. destruct (Nat.eqb_spec x z) as [->|XZ]; [apply in_app_iff in ZI; tauto|].
        destruct (app_split _ _ _ _ _ EL) as [[a2 [P Q]]|[c1 [P Q]]].
        -- assert (SZ : L b = l1 ++ z :: (a2 ++ x :: c)) by (rewrite S, P, <- app_assoc; reflexivity). destruct (LK _ _ _ _ SZ) as [ZN ZP]. rewrite ZN, ZP.
           split.
           ++ rewrite P, rev_app_distr. simpl. destruct (rev a2) as [|w r] eqn:RA.
              ** assert (a2 = []) by (rewrite <- (rev_involutive a2), RA; auto). subst a2. simpl. rewrite Nat.eqb_refl. subst l2. reflexivity.
              ** assert (AW : In w a2) by (rewrite in_rev, RA; simpl; auto). simpl. destruct (Nat.eqb_spec w z) as [->|].
                 { exfalso. rewrite P in ND2. rewrite <- app_assoc in ND2. apply NoDup_remove_2 in ND2. apply ND2. rewrite !in_app_iff. auto. }
                 subst l2. apply hd_app_r. destruct a2; [discriminate|discriminate].
           ++ destruct (hd_error c) as [q|] eqn:HC; auto. destruct (Nat.eqb_spec q z) as [->|]; auto. exfalso. apply hd_in in HC.
              rewrite P in ND2. rewrite <- app_assoc in ND2. apply NoDup_remove_2 in ND2. apply ND2. rewrite !in_app_iff. auto.
        -- assert (SZ : L b = (a ++ x :: c1) ++ z :: l2) by (rewrite S, P, <- app_assoc; reflexivity). destruct (LK _ _ _ _ SZ) as [ZN ZP]. rewrite ZN, ZP. subst c. split.
           ++ destruct (hd_error (rev a)) as [p|] eqn:HA; auto. destruct (Nat.eqb_spec p z) as [->|]; auto. exfalso. apply hd_in, in_rev in HA.
              rewrite app_assoc in ND2. apply NoDup_remove_2 in ND2. apply ND2. rewrite !in_app_iff. auto.
           ++ subst l1. rewrite !rev_app_distr. simpl. destruct c1 as [|w c1]; simpl; [rewrite Nat.eqb_refl; auto|].
              destruct (Nat.eqb_spec w z) as [->|].
              { exfalso. rewrite app_assoc in ND2. apply NoDup_remove_2 in ND2. apply ND2. rewrite !in_app_iff. simpl. auto. }
              destruct (rev c1); reflexivity.
      * assert (IZ : In z (L b')) by (rewrite EL; apply in_app_iff; simpl; auto). destruct (OTH b' z) as [O1 O2]; auto. rewrite O1, O2. apply LK; auto.
    + intros z EZ NZ. apply (endp_back _ _ _ _ SE) in EZ. destruct (Nat.eqb_spec b b') as [<-|B].
      * rewrite HN, HP by auto. rewrite Nat.eqb_refl, !andb_true_r. destruct (Nat.eqb_spec x z) as [->|XZ]; auto.
        assert (NZL : ~ In z (L b)) by (rewrite S; rewrite in_app_iff in *; simpl; intuition).
        destruct (OUT b z EZ NZL) as [O1 O2]. rewrite O1, O2. split.
        -- destruct (hd_error (rev a)) as [p|] eqn:HA; auto. destruct (Nat.eqb_spec p z) as [->|]; auto. exfalso. apply hd_in, in_rev in HA. apply NZ, in_app_iff. auto.
        -- destruct (hd_error c) as [p|] eqn:HA; auto. destruct (Nat.eqb_spec p z) as [->|]; auto. exfalso. apply hd_in in HA. apply NZ, in_app_iff. auto.
      * destruct (OTH b' z) as [O1 O2]; auto. rewrite O1, O2. apply OUT; auto.
  - destruct (OUT b x E I) as [ON OP]. rewrite ON, OP in *. rewrite remove1_notin by auto.
    assert (UE : forall b', upd L b (L b) b' = L b') by (intros b'; rewrite upd_eq; destruct (Nat.eqb_spec b b'); subst; auto).
    assert (NX : forall b' z, endp h b' z -> next_of (unthread_helper x b h) b' z = next_of h b' z).
    { intros b' z E'. rewrite HN by auto. destruct (Nat.eqb_spec x z) as [->|], (Nat.eqb_spec b b') as [<-|]; simpl; auto. }
    assert (PX : forall b' z, endp h b' z -> prev_of (unthread_helper x b h) b' z = prev_of h b' z).
    { intros b' z E'. rewrite HP by auto. destruct (Nat.eqb_spec x z) as [->|], (Nat.eqb_spec b b') as [<-|]; simpl; auto. }
    split; intros b'; rewrite ?UE; auto.
    + intros z Z. eapply endp_same; eauto.
    + rewrite HH, HD. destruct (Nat.eqb_spec b b') as [<-|B]; simpl; auto. rewrite HD. destruct (L b) as [|y l] eqn:EL; auto. simpl. destruct (Nat.eqb_spec y x) as [->|]; auto. simpl in I. tauto.
    + intros l1 z l2 EL. assert (In z (L b')) by (rewrite EL; apply in_app_iff; simpl; auto). rewrite NX, PX by auto. apply LK; auto.
    + intros z EZ NZ. apply (endp_back _ _ _ _ SE) in EZ. rewrite NX, PX by auto. auto.
Qed.
Lemma rep_ext h L L' : (forall b, L b = L' b) -> rep h L -> rep h L'.
Proof.
  intros E [A B C D F]. split; intros; rewrite <- ?E in *; eauto.
Qed.
(* arbiter.go:70-73: the arbiter leaves the lists of its two bodies and no other *)
Lemma unthread_rep x h L : rep h L -> rep (unthread_ptr x h) (fun b => remove1 x (L b)) /\ same_ends h (unthread_ptr x h).
Proof.
  intros R. unfold unthread_ptr.
  assert (R1 : rep (unthread_helper x (t_a h x) h) (upd L (t_a h x) (remove1 x (L (t_a h x))))) by (apply helper_rep; auto; left; auto).
  pose proof (helper_ends x (t_a h x) h) as S1.
  assert (E2 : endp (unthread_helper x (t_a h x) h) (t_b h x) x) by (eapply endp_same; eauto; right; auto).
  pose proof (helper_rep x (t_b h x) _ _ R1 E2) as R2. split; [|eapply ends_trans; [exact S1|apply helper_ends]].
  eapply rep_ext; [|exact R2]. intros b. rewrite !upd_eq.
  destruct (Nat.eqb_spec (t_b h x) b) as [B|B].
  - destruct (Nat.eqb_spec (t_a h x) (t_b h x)) as [A|A]; [rewrite A, B|rewrite B; auto].
    rewrite remove1_notin; auto. rewrite remove1_spec by apply (r_nd _ _ R). tauto.
  - destruct (Nat.eqb_spec (t_a h x) b) as [A|A]; [rewrite A; auto|]. symmetry. apply remove1_notin. intros I. apply (r_end _ _ R) in I. destruct I; congruence.
Qed.
Lemma pushes_rep x h L : rep h L -> t_a h x <> t_b h x -> (forall b, ~ In x (L b)) ->
  rep (push_ptr x (t_b h x) (push_ptr x (t_a h x) h)) (fun b => if (t_a h x =? b) || (t_b h x =? b) then x :: L b else L b) /\
  same_ends h (push_ptr x (t_b h x) (push_ptr x (t_a h x) h)).
Proof.
  intros R D NI. assert (R1 : rep (push_ptr x (t_a h x) h) (upd L (t_a h x) (x :: L (t_a h x)))) by (apply push_rep; auto; left; auto).
  pose proof (push_ends x (t_a h x) h) as S1.
  assert (E2 : endp (push_ptr x (t_a h x) h) (t_b h x) x) by (eapply endp_same; eauto; right; auto).
  assert (R2 := push_rep x (t_b h x) _ _ R1 E2). split; [|eapply ends_trans; [exact S1|apply push_ends]].
  eapply rep_ext; [|apply R2]; intros; rewrite !upd_eq, ?(proj2 (Nat.eqb_neq _ _) D); auto.
  destruct (Nat.eqb_spec (t_b h x) b) as [B|B]; [rewrite B, orb_true_r; auto|]. destruct (Nat.eqb_spec (t_a h x) b) as [<-|]; auto.
Qed.
Lemma init_rep x a b h L : rep h L -> (forall y, ~ In x (L y)) -> rep (init_ptr x a b h) L.
Proof.
  intros [ND EN HD LK OUT] NI. split; auto; intros b'.
  - intros y Y. assert (x <> y) by (intros ->; apply (NI _ Y)). unfold endp. simpl. rewrite !upd_eq. destruct (Nat.eqb_spec x y); [congruence|]. apply EN; auto.
  - intros l1 y l2 E. assert (x <> y) by (intros ->; apply (NI b'); rewrite E; apply in_app_iff; simpl; auto).
    unfold next_of, prev_of. simpl. rewrite !upd_eq. destruct (Nat.eqb_spec x y); [congruence|]. apply (LK _ _ _ _ E).
  - intros y E NY. unfold next_of, prev_of, endp in *. simpl in *. rewrite !upd_eq in *. destruct (Nat.eqb_spec x y) as [->|].
    + destruct (a =? b'); auto.
    + apply (OUT b' y E NY).
Qed.
Lemma rep0 : rep theap0 (fun _ => []).
Proof.
  split; intros; simpl; auto; try solve [constructor]; try contradiction.
  - destruct l1; discriminate.
  - unfold next_of, prev_of; simpl. destruct (t_a theap0 x =? b), b; auto.
Qed.
Definition lists_of (os : list top) (h : theap) (L : nat -> list nat) : Prop :=
  rep h L /\ (forall b x, In x (L b) <-> pushed_now x os = true /\ endp h b x) /\ (forall x, bodies_now x os = (t_a h x, t_b h x)).
Lemma tok_app os o : tok (os ++ [o]) -> tok os /\ match o with
    | TInit x _ _ => pushed_now x os = false
    | TPush x => pushed_now x os = false /\ fst (bodies_now x os) <> snd (bodies_now x os)
    | TUnthread _ => True end.
Proof.
  intros T. split; [|exact (T os o [] eq_refl)]. intros be p af E. apply (T be p (af ++ [o])). rewrite E, <- app_assoc. reflexivity.
Qed.
Lemma run_lists os : tok os -> exists L, lists_of os (trun os theap0) L.
Proof.
  induction os as [|o os IH] using rev_ind; intros T.
  - exists (fun _ => []). split; [apply rep0|]. split; [simpl; intros; unfold pushed_now; simpl; intuition discriminate|]. intros x. reflexivity.
  - destruct (tok_app _ _ T) as [T1 T2]. destruct (IH T1) as [L [R [M B]]]. unfold trun. rewrite fold_left_app. simpl.
    change (fold_left (fun h o => tstep o h) os theap0) with (trun os theap0). set (h := trun os theap0) in *.
    assert (PN : forall x p, pushed_now x (os ++ [p]) = match p with TInit _ _ _ => pushed_now x os | TPush y => if x =? y then true else pushed_now x os | TUnthread y => if x =? y then false else pushed_now x os end).
    { intros x p. unfold pushed_now. rewrite fold_left_app. reflexivity. }
    assert (BN : forall x p, bodies_now x (os ++ [p]) = match p with TInit y a b => if x =? y then (a, b) else bodies_now x os | _ => bodies_now x os end).
    { intros x p. unfold bodies_now. rewrite fold_left_app. reflexivity. }
    destruct o as [x a b|x|x]; simpl tstep.
    + assert (NI : forall y, ~ In x (L y)) by (intros y Y; apply M in Y; destruct Y; congruence).
      exists L. split; [apply init_rep; auto|]. split.
      * intros c y. rewrite M, PN. unfold endp. simpl. rewrite !upd_eq. destruct (Nat.eqb_spec x y) as [<-|]; [|tauto]. rewrite T2. intuition discriminate.
      * intros y. rewrite BN. simpl. rewrite !upd_eq. rewrite (Nat.eqb_sym y x). destruct (x =? y); auto.
    + destruct T2 as [P D]. assert (NI : forall y, ~ In x (L y)) by (intros y Y; apply M in Y; destruct Y; congruence).
      rewrite B in D. simpl in D. destruct (pushes_rep x h L R D NI) as [R1 S1]. eexists. split; [exact R1|]. split.
      * intros c y. rewrite PN. simpl. rewrite (Nat.eqb_sym y x).
        assert (EE : endp (push_ptr x (t_b h x) (push_ptr x (t_a h x) h)) c y <-> endp h c y) by (split; intros; [eapply endp_back|eapply endp_same]; eauto). rewrite EE.
        destruct (Nat.eqb_spec x y) as [<-|XY].
        -- destruct (Nat.eqb_spec (t_a h x) c) as [A|A]; simpl; [unfold endp; intuition|]. destruct (Nat.eqb_spec (t_b h x) c) as [A'|A']; simpl; [unfold endp; intuition|].
           split; [intros H; destruct (NI _ H)|]. intros [_ [H|H]]; congruence.
        -- rewrite <- M. destruct (_ || _); simpl; tauto.
      * intros y. destruct S1 as [A1 A2]. rewrite BN, B, A1, A2. reflexivity.
    + destruct (unthread_rep x h L R) as [R1 S1]. eexists. split; [exact R1|]. split.
      * intros c y. rewrite PN. rewrite (Nat.eqb_sym y x).
        assert (EE : endp (unthread_ptr x h) c y <-> endp h c y) by (split; intros; [eapply endp_back|eapply endp_same]; eauto). rewrite EE.
        rewrite remove1_spec by apply (r_nd _ _ R). rewrite M. destruct (Nat.eqb_spec x y); subst; intuition congruence.
      * intros y. destruct S1 as [A1 A2]. rewrite BN, B, A1, A2. reflexivity.
Qed.
Lemma each_rep h L b : rep h L -> forall l1 l2 n, L b = l1 ++ l2 -> length l2 <= n -> each_from n h b (hd_error l2) = Some l2.
Proof.
  intros R l1 l2. revert l1. induction l2 as [|x l2 IH]; intros l1 n E LE; [destruct n; reflexivity|].
  destruct n as [|n]; [simpl in LE; lia|]. simpl. destruct (r_link _ _ R _ _ _ _ E) as [-> _].
  rewrite (IH (l1 ++ [x]) n); auto; [rewrite <- app_assoc; auto|simpl in LE; lia].
Qed.
Lemma run_each os b : tok os -> exists l, (forall fuel, length l <= fuel -> each_arbiter fuel (trun os theap0) b = Some l) /\ NoDup l /\
  (forall x, In x l <-> pushed_now x os = true /\ (fst (bodies_now x os) = b \/ snd (bodies_now x os) = b)) /\ mirrored (trun os theap0) b l.
Proof.
  intros T. destruct (run_lists os T) as [L [R [M B]]]. exists (L b). split; [|split; [apply (r_nd _ _ R)|split]].
  - intros n LE. unfold each_arbiter. rewrite (r_head _ _ R). apply (each_rep _ _ _ R []); auto.
  - intros x. rewrite M, B. unfold endp. simpl. tauto.
  - intros l1 x y l2 E. split; [apply (r_link _ _ R _ _ _ _ E)|]. assert (E2 : L b = (l1 ++ [x]) ++ y :: l2) by (rewrite <- app_assoc; auto).
    destruct (r_link _ _ R _ _ _ _ E2) as [_ ->]. rewrite rev_app_distr. reflexivity.
Qed.
(* unthreading takes an arbiter out of exactly the two lists of its bodies, in place *)
Lemma run_unthread os x b : tok os -> exists l, (forall fuel, length l <= fuel -> each_arbiter fuel (trun os theap0) b = Some l) /\
  (forall fuel, length l <= fuel -> each_arbiter fuel (trun (os ++ [TUnthread x]) theap0) b = Some (remove1 x l)) /\
  (~ (fst (bodies_now x os) = b \/ snd (bodies_now x os) = b) -> remove1 x l = l).
Proof.
  intros T. destruct (run_lists os T) as [L [R [M B]]]. exists (L b). unfold trun at 2. rewrite fold_left_app. simpl. fold (trun os theap0).
  destruct (unthread_rep x _ L R) as [R1 S1]. split; [|split].
  - intros n LE. unfold each_arbiter. rewrite (r_head _ _ R). apply (each_rep _ _ _ R []); auto.
  - intros n LE. unfold each_arbiter. rewrite (r_head _ _ R1). apply (each_rep _ _ _ R1 []); auto.
    assert (LR : forall l, length (remove1 x l) <= length l). { induction l as [|y l IHl]; simpl; auto. destruct (x =? y); simpl; lia. } specialize (LR (L b)). lia.
  - intros H. apply remove1_notin. intros I. apply M in I. rewrite B in H. simpl in H. unfold endp in I. tauto.
Qed.
(* pushing an arbiter that is in the list makes the walk run in circles *)
Lemma double_push : exists x b, forall fuel, each_arbiter fuel (trun [TInit x b (S b); TPush x; TPush x] theap0) b = None.
Proof.
  exists 0, 0. intros n. assert (H : forall h, next_of h 0 0 = Some 0 -> each_from n h 0 (Some 0) = None).
  { intros h E. induction n as [|n IH]; auto. simpl. rewrite E, IH. auto. }
  apply H. reflexivity.
Qed.

(** ** Constraints *)
Definition cendp (h : cheap) (b c : nat) : Prop := c_a h c = b \/ c_b h c = b.
Record crep (h : cheap) (L : nat -> list nat) : Prop := {
  q_nd : forall b, NoDup (L b);
  q_end : forall b c, In c (L b) -> cendp h b c;
  q_head : forall b, c_head h b = hd_error (L b);
  q_link : forall b l1 c l2, L b = l1 ++ c :: l2 -> cnext h b c = hd_error l2 }.
Lemma add_rep c h L : crep h L -> c_a h c <> c_b h c -> (forall b, ~ In c (L b)) ->
  crep (add_ptr c h) (fun b => if (c_a h c =? b) || (c_b h c =? b) then c :: L b else L b).
Proof.
  intros [ND EN HD LK] D NI.
  assert (HN : forall b z, cnext (add_ptr c h) b z = if c =? z then (if c_a h c =? b then c_head h (c_a h c) else c_head h (c_b h c)) else cnext h b z).
  { intros b z. unfold cnext, add_ptr. simpl. rewrite !upd_eq. rewrite (proj2 (Nat.eqb_neq (c_a h c) (c_b h c)) D). destruct (Nat.eqb_spec c z) as [->|]; auto. }
  assert (HH : forall b, c_head (add_ptr c h) b = if (c_a h c =? b) || (c_b h c =? b) then Some c else c_head h b).
  { intros b. unfold add_ptr. simpl. rewrite !upd_eq. destruct (c_b h c =? b); [rewrite orb_true_r; auto|]. rewrite orb_false_r. auto. }
  split; intros b.
  - destruct (_ || _); auto. constructor; auto.
  - intros z. unfold cendp. simpl. destruct (_ || _) eqn:E; [|apply EN]. intros [<-|H]; [|apply EN; auto].
    apply orb_true_iff in E. rewrite !Nat.eqb_eq in E. auto.
  - rewrite HH. destruct (_ || _); auto.
  - intros l1 z l2 E. rewrite HN. destruct (_ || _) eqn:EE in E.
    + destruct l1 as [|w l1]; simpl in E; inversion E; subst.
      * rewrite Nat.eqb_refl. apply orb_true_iff in EE. rewrite !Nat.eqb_eq in EE. destruct (Nat.eqb_spec (c_a h z) b) as [A|A]; [rewrite HD, A; auto|].
        destruct EE as [EE|EE]; [congruence|]. rewrite HD, EE. auto.
      * destruct (Nat.eqb_spec w z) as [->|]; [exfalso; apply (NI b); rewrite H1; apply in_app_iff; simpl; auto|]. eapply LK; eauto.
    + destruct (Nat.eqb_spec c z) as [->|]; [exfalso; apply (NI b); rewrite E; apply in_app_iff; simpl; auto|]. eapply LK; eauto.
Qed.
Lemma filter_ok c b p : forall n q h,
  (forall z, In z p -> cendp h b z) -> NoDup (p ++ c :: q) -> (forall l1 z l2, p ++ c :: q = l1 ++ z :: l2 -> cnext h b z = hd_error l2) -> length p < n ->
  exists h', filter_ptr n (hd_error (p ++ [c])) b c h = Some (hd_error (p ++ q), h') /\ c_a h' = c_a h /\ c_b h' = c_b h /\ c_head h' = c_head h /\
    (forall b' z, b' <> b -> cendp h b' z -> cnext h' b' z = cnext h b' z) /\ (forall z, ~ In z p -> cnext h' b z = cnext h b z) /\
    (forall p1 z p2, p = p1 ++ z :: p2 -> cnext h' b z = hd_error (p2 ++ q)).
Proof.
  induction p as [|d p IH]; intros n q h EN ND LK LN.
  - destruct n as [|n]; [simpl in LN; lia|]. simpl. rewrite Nat.eqb_refl. exists h. rewrite (LK [] c q eq_refl).
    do 6 (split; auto). intros p1 z p2 E. destruct p1; discriminate.
  - destruct n as [|n]; [simpl in LN; lia|]. simpl. simpl in ND. inversion ND as [|? ? N1 N2]; subst.
    destruct (Nat.eqb_spec d c) as [->|DC]; [exfalso; apply N1, in_app_iff; simpl; auto|].
    destruct (IH n q h) as [h' [E [A [B [H [O [U V]]]]]]]; auto.
    + intros z Z. apply EN. simpl. auto.
    + intros l1 z l2 E. apply (LK (d :: l1)). simpl. rewrite E. auto.
    + simpl in LN. lia.
    + assert (DN : cnext h b d = hd_error (p ++ [c])).
      { rewrite (LK [] d (p ++ c :: q) eq_refl). destruct p; reflexivity. }
      assert (DP : ~ In d p) by (intros X; apply N1, in_app_iff; auto).
      unfold cnext in DN. destruct (Nat.eqb_spec (c_a h d) b) as [DA|DA].
      * rewrite DN, E. eexists. split; [reflexivity|]. simpl. split; auto. split; auto. split; auto.
        split; [|split].
        -- intros b' z B' E'. rewrite <- (O b' z B' E'). unfold cnext. simpl. rewrite upd_eq. destruct (Nat.eqb_spec d z) as [->|]; auto. rewrite A, DA.
           destruct (Nat.eqb_spec b b'); congruence.
        -- intros z Z. rewrite <- (U z) by tauto. unfold cnext. simpl. rewrite upd_eq. destruct (Nat.eqb_spec d z) as [->|]; tauto.
        -- intros p1 z p2 EP. destruct p1 as [|w p1]; simpl in EP; inversion EP; subst.
           ++ unfold cnext. simpl. rewrite upd_eq, A, !Nat.eqb_refl. auto.
           ++ rewrite <- (V p1 z p2 eq_refl). unfold cnext. simpl. rewrite upd_eq. destruct (Nat.eqb_spec w z) as [->|]; auto. exfalso. apply DP, in_app_iff. simpl. auto.
      * assert (DB : c_b h d = b) by (destruct (EN d); simpl; auto; congruence).
        rewrite DN, E. eexists. split; [reflexivity|]. simpl. split; auto. split; auto. split; auto.
        split; [|split].
        -- intros b' z B' E'. rewrite <- (O b' z B' E'). unfold cnext. simpl. rewrite upd_eq. destruct (Nat.eqb_spec d z) as [->|]; auto. rewrite A.
           destruct (Nat.eqb_spec (c_a h z) b'); auto. destruct E'; congruence.
        -- intros z Z. rewrite <- (U z) by tauto. unfold cnext. simpl. rewrite upd_eq. destruct (Nat.eqb_spec d z) as [->|]; tauto.
        -- intros p1 z p2 EP. destruct p1 as [|w p1]; simpl in EP; inversion EP; subst.
           ++ unfold cnext. simpl. rewrite upd_eq, A, Nat.eqb_refl. destruct (Nat.eqb_spec (c_a h z) (c_b h z)); auto. congruence.
           ++ rewrite <- (V p1 z p2 eq_refl). unfold cnext. simpl. rewrite upd_eq. destruct (Nat.eqb_spec w z) as [->|]; auto. exfalso. apply DP, in_app_iff. simpl. auto.
Qed.
Lemma remove1_rep n c b h L : crep h L -> In c (L b) -> length (L b) <= n -> exists h', remove_ptr1 n b c h = Some h' /\ c_a h' = c_a h /\ c_b h' = c_b h /\
  crep h' (upd L b (remove1 c (L b))).
Proof.
  intros [ND EN HD LK] I LE. destruct (in_split _ _ I) as [p [q S]]. assert (NDb := ND b). rewrite S in NDb. assert (CN := NoDup_remove_2 _ _ _ NDb). rewrite in_app_iff in CN.
  destruct (filter_ok c b p n q h) as [h' [E [A [B [H [O [U V]]]]]]]; auto.
  - intros z Z. apply EN. rewrite S. apply in_app_iff. auto.
  - intros l1 z l2 E. apply (LK b l1 z l2). congruence.
  - rewrite S, app_length in LE. simpl in LE. lia.
  - unfold remove_ptr1. rewrite HD, S. replace (hd_error (p ++ c :: q)) with (hd_error (p ++ [c])) by (destruct p; auto). rewrite E.
    rewrite remove1_mid by tauto. eexists. split; [reflexivity|]. simpl. split; auto. split; auto.
    assert (RM : forall z, In z (p ++ q) -> In z (L b)) by (intros z; rewrite S, !in_app_iff; simpl; tauto).
    split; intros b'; rewrite ?upd_eq.
    + destruct (b =? b'); auto. apply NoDup_remove_1 in NDb. auto.
    + intros z. unfold cendp. simpl. rewrite A, B. destruct (Nat.eqb_spec b b') as [<-|]; intros Z; apply EN; auto.
    + simpl. rewrite upd_eq, H. destruct (b =? b'); auto.
    + intros l1 z l2 EL. change (cnext _ b' z) with (cnext h' b' z). destruct (Nat.eqb_spec b b') as [<-|D].
      * destruct (app_split _ _ _ _ _ EL) as [[a2 [P Q]]|[c1 [P Q]]].
        -- rewrite (V _ _ _ P), Q. auto.
        -- subst q. rewrite U; [apply (LK b (p ++ c :: c1)); rewrite S, <- app_assoc; auto|].
           intros Z. apply NoDup_remove_1 in NDb. rewrite app_assoc in NDb. apply NoDup_remove_2 in NDb. apply NDb. rewrite !in_app_iff. auto.
      * rewrite O; auto; [apply (LK _ _ _ _ EL)|]. apply EN. rewrite EL. apply in_app_iff. simpl. auto.
Qed.
Lemma crep_ext h L L' : (forall b, L b = L' b) -> crep h L -> crep h L'.
Proof. intros E [A B C D]. split; intros; rewrite <- ?E in *; eauto. Qed.
Lemma remove_rep n c h L : crep h L -> c_a h c <> c_b h c -> In c (L (c_a h c)) -> In c (L (c_b h c)) -> (forall b, length (L b) <= n) ->
  exists h', remove_ptr n c h = Some h' /\ c_a h' = c_a h /\ c_b h' = c_b h /\ crep h' (fun b => remove1 c (L b)).
Proof.
  intros R D IA IB LE. unfold remove_ptr. destruct (remove1_rep n c (c_a h c) h L R IA (LE _)) as [h1 [E1 [A1 [B1 R1]]]]. rewrite E1.
  assert (IB1 : In c (upd L (c_a h c) (remove1 c (L (c_a h c))) (c_b h1 c))) by (rewrite B1, upd_eq, (proj2 (Nat.eqb_neq _ _) D); auto).
  destruct (remove1_rep n c (c_b h1 c) h1 _ R1 IB1) as [h2 [E2 [A2 [B2 R2]]]].
  { rewrite B1, upd_eq, (proj2 (Nat.eqb_neq _ _) D). auto. }
  exists h2. split; auto. split; [congruence|]. split; [congruence|]. eapply crep_ext; [|exact R2]. intros b. rewrite !upd_eq, B1.
  destruct (Nat.eqb_spec (c_b h c) b) as [<-|NB]; [rewrite (proj2 (Nat.eqb_neq _ _) D); auto|].
  destruct (Nat.eqb_spec (c_a h c) b) as [<-|NA]; auto. symmetry. apply remove1_notin. intros I. apply (q_end _ _ R) in I. destruct I; congruence.
Qed.
Lemma cok_app a b os o : cok a b (os ++ [o]) -> cok a b os /\ match o with CAdd c => added_now c os = false /\ a c <> b c | CRemove c => added_now c os = true end.
Proof.
  intros T. split; [|exact (T os o [] eq_refl)]. intros be p af E. apply (T be p (af ++ [o])). rewrite E, <- app_assoc. reflexivity.
Qed.
Lemma crun_app n os os' h : crun n (os ++ os') h = match crun n os h with Some h => crun n os' h | None => None end.
Proof. revert h. induction os as [|o os IH]; intros h; simpl; auto. destruct (cstep n o h); auto. Qed.
Lemma crun_lists n a b os : length os <= n -> cok a b os -> exists h L, crun n os (cheap0 a b) = Some h /\ crep h L /\ c_a h = a /\ c_b h = b /\
  (forall y, length (L y) <= length os) /\ (forall y c, In c (L y) <-> added_now c os = true /\ (a c = y \/ b c = y)) /\ (forall c, added_now c os = true -> a c <> b c).
Proof.
  induction os as [|o os IH] using rev_ind; intros LE T.
  - exists (cheap0 a b), (fun _ => []). split; auto. split.
    { split; intros; simpl; auto; try solve [constructor]; try contradiction. destruct l1; discriminate. }
    do 3 (split; auto). split; [|unfold added_now; simpl; discriminate]. intros. unfold added_now. simpl. intuition discriminate.
  - rewrite app_length in LE. simpl in LE. destruct (cok_app _ _ _ _ T) as [T1 T2]. destruct (IH ltac:(lia) T1) as [h [L [E [R [A [B [LN [M AD]]]]]]]].
    rewrite crun_app, E. simpl.
    assert (PN : forall x p, added_now x (os ++ [p]) = match p with CAdd y => if x =? y then true else added_now x os | CRemove y => if x =? y then false else added_now x os end).
    { intros x p. unfold added_now. rewrite fold_left_app. reflexivity. }
    destruct o as [c|c]; simpl.
    + destruct T2 as [P D]. assert (NI : forall y, ~ In c (L y)) by (intros y Y; apply M in Y; destruct Y; congruence).
      eexists. eexists. split; [reflexivity|]. split; [apply add_rep; eauto; congruence|]. simpl. split; auto. split; auto. split; [|split].
      * intros y. rewrite app_length. simpl. specialize (LN y). destruct (_ || _); simpl; lia.
      * intros y d. rewrite PN, (Nat.eqb_sym d c). rewrite A, B. destruct (Nat.eqb_spec c d) as [<-|].
        -- destruct (Nat.eqb_spec (a c) y); simpl; [tauto|]. destruct (Nat.eqb_spec (b c) y); simpl; [tauto|]. split; [intros H; destruct (NI _ H)|tauto].
        -- rewrite <- M. destruct (_ || _); simpl; tauto.
      * intros d. rewrite PN. destruct (Nat.eqb_spec d c) as [->|]; auto.
    + assert (D := AD c T2).
      destruct (remove_rep n c h L R) as [h' [E' [A' [B' R']]]].
      * congruence.
      * apply M. rewrite A. auto.
      * apply M. rewrite B. auto.
      * intros y. specialize (LN y). lia.
      * rewrite E'. exists h', (fun b => remove1 c (L b)). split; auto. split; auto. split; [congruence|]. split; [congruence|]. split; [|split].
        -- intros y. rewrite app_length. simpl. specialize (LN y). assert (LR : forall l, length (remove1 c l) <= length l). { induction l as [|z l IHl]; simpl; auto. destruct (c =? z); simpl; lia. } specialize (LR (L y)). lia.
        -- intros y d. rewrite PN. rewrite (Nat.eqb_sym d c). rewrite remove1_spec by apply (q_nd _ _ R). rewrite M. destruct (Nat.eqb_spec c d); subst; intuition congruence.
        -- intros d. rewrite PN. destruct (Nat.eqb_spec d c); auto. discriminate.
Qed.
Lemma ceach_rep h L b : crep h L -> forall l1 l2 n, L b = l1 ++ l2 -> length l2 <= n -> ceach_from n h b (hd_error l2) = Some l2.
Proof.
  intros R l1 l2. revert l1. induction l2 as [|x l2 IH]; intros l1 n E LE; [destruct n; reflexivity|].
  destruct n as [|n]; [simpl in LE; lia|]. simpl. rewrite (q_link _ _ R _ _ _ _ E).
  rewrite (IH (l1 ++ [x]) n); auto; [rewrite <- app_assoc; auto|simpl in LE; lia].
Qed.
Lemma crun_each n a b os : length os <= n -> cok a b os -> exists h, crun n os (cheap0 a b) = Some h /\
  forall y, exists l, (forall fuel, length l <= fuel -> each_constraint fuel h y = Some l) /\ NoDup l /\ forall c, In c l <-> added_now c os = true /\ (a c = y \/ b c = y).
Proof.
  intros LE T. destruct (crun_lists n a b os LE T) as [h [L [E [R [A [B [LN [M _]]]]]]]]. exists h. split; auto. intros y. exists (L y).
  split; [|split; [apply (q_nd _ _ R)|apply M]]. intros m LM. unfold each_constraint. rewrite (q_head _ _ R). apply (ceach_rep _ _ _ R []); auto.
Qed.
(* a constraint between a body and itself cannot be removed *)
Lemma self_joint : exists a b c, a c = b c /\ forall fuel, crun fuel [CAdd c; CRemove c] (cheap0 a b) = None.
Proof. exists (fun _ => 0), (fun _ => 0), 0. split; auto. intros [|n]; reflexivity. Qed.

(** ** Examples *)
Definition ex_threads : list top := [TInit 5 0 1; TPush 5; TInit 6 1 2; TPush 6; TInit 7 1 0; TPush 7; TUnthread 6; TUnthread 8; TPush 6].
Fixpoint tokb (before os : list top) : bool :=
  match os with
  | [] => true
  | o :: os => match o with
               | TInit x _ _ => negb (pushed_now x before)
               | TPush x => negb (pushed_now x before) && negb (Nat.eqb (fst (bodies_now x before)) (snd (bodies_now x before)))
               | TUnthread _ => true
               end && tokb (before ++ [o]) os
  end.
Lemma tokb_ok : forall os before, tokb before os = true -> forall be o af, os = be ++ o :: af ->
    match o with
    | TInit x _ _ => pushed_now x (before ++ be) = false
    | TPush x => pushed_now x (before ++ be) = false /\ fst (bodies_now x (before ++ be)) <> snd (bodies_now x (before ++ be))
    | TUnthread _ => True
    end.
Proof.
  induction os as [|p os IH]; intros before T be o af E; [destruct be; discriminate|]. simpl in T. apply andb_true_iff in T. destruct T as [T1 T2].
  destruct be as [|q be]; simpl in E; inversion E; subst.
  - rewrite app_nil_r. destruct o; auto; [apply negb_true_iff; auto|]. apply andb_true_iff in T1. destruct T1 as [T1 T3]. split; [apply negb_true_iff; auto|]. apply negb_true_iff, Nat.eqb_neq in T3. auto.
  - specialize (IH (before ++ [q]) T2 be o af eq_refl). rewrite <- app_assoc in IH. exact IH.
Qed.
Lemma ex_threads_ok : tok ex_threads /\ each_arbiter 5 (trun ex_threads theap0) 1 = Some [6; 7; 5] /\ each_arbiter 5 (trun ex_threads theap0) 0 = Some [7; 5].
Proof. split; [exact (tokb_ok ex_threads [] eq_refl)|]. split; reflexivity. Qed.
Definition ex_a (c : nat) : nat := if c <? 2 then 0 else 1.
Definition ex_b (c : nat) : nat := if c =? 0 then 1 else 2.
Definition ex_joints : list cop := [CAdd 0; CAdd 1; CAdd 2; CRemove 1; CAdd 1; CRemove 0].
Fixpoint cokb (before os : list cop) : bool :=
  match os with
  | [] => true
  | o :: os => match o with CAdd c => negb (added_now c before) && negb (Nat.eqb (ex_a c) (ex_b c)) | CRemove c => added_now c before end && cokb (before ++ [o]) os
  end.
Lemma cokb_ok : forall os before, cokb before os = true -> forall be o af, os = be ++ o :: af ->
    match o with CAdd c => added_now c (before ++ be) = false /\ ex_a c <> ex_b c | CRemove c => added_now c (before ++ be) = true end.
Proof.
  induction os as [|p os IH]; intros before T be o af E; [destruct be; discriminate|]. simpl in T. apply andb_true_iff in T. destruct T as [T1 T2].
  destruct be as [|q be]; simpl in E; inversion E; subst.
  - rewrite app_nil_r. destruct o; auto. apply andb_true_iff in T1. destruct T1 as [T1 T3]. split; [apply negb_true_iff; auto|]. apply negb_true_iff, Nat.eqb_neq in T3. auto.
  - specialize (IH (before ++ [q]) T2 be o af eq_refl). rewrite <- app_assoc in IH. exact IH.
Qed.
Lemma ex_joints_ok : cok ex_a ex_b ex_joints /\ match crun 9 ex_joints (cheap0 ex_a ex_b) with Some h => each_constraint 5 h 2 | None => None end = Some [1; 2].
Proof. split; [exact (cokb_ok ex_joints [] eq_refl)|reflexivity]. Qed.
