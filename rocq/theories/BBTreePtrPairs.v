(** Proofs for C15: the threaded pair lists and the pool of pairs. *)
From Coq Require Import Bool List Arith Lia.
From Verif Require Import BBTreePtr.
Import ListNotations.
Local Open Scope nat_scope.

(** ** Counting *)
Definition cnt (x : nat) (l : list nat) : nat := count_occ Nat.eq_dec l x.
Lemma cnt_nil x : cnt x [] = 0. Proof. reflexivity. Qed.
Lemma cnt_app x l m : cnt x (l ++ m) = cnt x l + cnt x m. Proof. apply count_occ_app. Qed.
Lemma cnt_cons x y l : cnt x (y :: l) = (if Nat.eqb x y then 1 else 0) + cnt x l.
Proof. unfold cnt. cbn. destruct (Nat.eq_dec y x), (Nat.eqb_spec x y); subst; try congruence; reflexivity. Qed.
Lemma cnt_in x l : In x l <-> 0 < cnt x l. Proof. unfold cnt. apply count_occ_In. Qed.
Lemma cnt_nodup l : NoDup l <-> forall x, cnt x l <= 1. Proof. apply NoDup_count_occ. Qed.
Lemma cnt_out x l : ~ In x l <-> cnt x l = 0. Proof. rewrite cnt_in. lia. Qed.
Lemma cnt_seq x n k : cnt x (seq n k) = if Nat.leb n x && Nat.ltb x (n + k) then 1 else 0.
Proof.
  assert (N : NoDup (seq n k)) by apply seq_NoDup. destruct (Nat.leb_spec n x); cbn [andb]; [destruct (Nat.ltb_spec x (n + k)); cbn|].
  - assert (In x (seq n k)) as I by (apply in_seq; lia). apply cnt_in in I. pose proof (proj1 (cnt_nodup _) N x). lia.
  - apply cnt_out. rewrite in_seq. lia.
  - apply cnt_out. rewrite in_seq. lia.
Qed.
Global Opaque cnt.

Lemma put_eq {A} (f : nat -> A) x v : put f x v x = v. Proof. unfold put. now rewrite Nat.eqb_refl. Qed.
Lemma put_ne {A} (f : nat -> A) x y v : x <> y -> put f x v y = f y. Proof. intros H. unfold put. destruct (Nat.eqb_spec x y); congruence. Qed.
Lemma putb_eq {A} (f : bool -> A) x v : putb f x v x = v. Proof. unfold putb. now rewrite eqb_reflx. Qed.
Lemma putb_ne {A} (f : bool -> A) x y v : x <> y -> putb f x v y = f y. Proof. intros H. unfold putb. destruct x, y; cbn; congruence. Qed.
Lemma same_eq p q : same p q = true <-> p = q.
Proof. destruct p, q; cbn; split; intros H; try discriminate; auto. - apply Nat.eqb_eq in H. congruence. - injection H as ->. apply Nat.eqb_refl. Qed.
Lemma same_refl p : same p p = true. Proof. now apply same_eq. Qed.
Lemma same_ne p q : p <> q -> same p q = false. Proof. intros H. destruct (same p q) eqn:E; auto. apply same_eq in E. contradiction. Qed.

(** ** Lists *)
Definition hdo {A} (l : list A) (t : option A) : option A := match l with x :: _ => Some x | [] => t end.
Definition lasto {A} (p : option A) (l : list A) : option A := fold_left (fun _ x => Some x) l p.
Lemma hdo_app {A} (l m : list A) t : hdo (l ++ m) t = hdo l (hdo m t). Proof. destruct l; reflexivity. Qed.
Lemma lasto_in {A} (l : list A) x p : lasto p l = Some x -> p = Some x \/ In x l.
Proof. revert p. induction l as [|y l IH]; intros p; cbn; auto. intros H. apply IH in H as [[= ->]|H]; auto. Qed.
Lemma lasto_none {A} (l : list A) : lasto None l = None -> l = [].
Proof. destruct l as [|x l]; auto. cbn. intros H. exfalso. revert x H. induction l as [|y l IH]; cbn; [discriminate|]. intros x. apply IH. Qed.
Lemma hdo_in {A} (l : list A) x : hdo l None = Some x -> In x l. Proof. destruct l; cbn; [discriminate|]. intros [= ->]. auto. Qed.
Lemma lasto_snoc {A} (l : list A) p x : lasto p (l ++ [x]) = Some x. Proof. unfold lasto. now rewrite fold_left_app. Qed.

(** ** Threads *)
Definition live (h : pheap) (x l : nat) : Prop := t_leaf (pth h x (side h x (Some l))) = Some l.
Definition nxt (h : pheap) (l x : nat) : option nat := t_next (pth h x (side h x (Some l))).
Definition prv (h : pheap) (l x : nat) : option nat := t_prev (pth h x (side h x (Some l))).
Definition same_leaves (h h' : pheap) : Prop := forall x s, t_leaf (pth h' x s) = t_leaf (pth h x s).
Lemma side_same h h' x l : same_leaves h h' -> side h' x l = side h x l. Proof. intros H. unfold side. now rewrite H. Qed.
Lemma live_same h h' x l : same_leaves h h' -> live h x l -> live h' x l. Proof. intros H. unfold live. rewrite (side_same _ _ _ _ H), H. auto. Qed.
Lemma leaves_trans h1 h2 h3 : same_leaves h1 h2 -> same_leaves h2 h3 -> same_leaves h1 h3. Proof. intros A B x s. now rewrite B, A. Qed.
Lemma set_thread_eq h p s t : pth (set_thread h p s t) p s = t. Proof. cbn. now rewrite put_eq, putb_eq. Qed.
Lemma set_thread_ne h p s t q : p <> q -> pth (set_thread h p s t) q = pth h q. Proof. intros H. cbn. now rewrite put_ne. Qed.
Lemma set_thread_side h p s t s' : s <> s' -> pth (set_thread h p s t) p s' = pth h p s'. Proof. intros H. cbn. rewrite put_eq. now apply putb_ne. Qed.
Lemma leaves_put_prev h x l v : same_leaves h (put_prev h x l v).
Proof. intros y s. unfold put_prev. set (s0 := side h x l). destruct (Nat.eq_dec x y) as [<-|D]; [|now rewrite set_thread_ne]. destruct (bool_dec s0 s) as [<-|D]; [now rewrite set_thread_eq|now rewrite set_thread_side]. Qed.
Lemma leaves_put_next h x l v : same_leaves h (put_next h x l v).
Proof. intros y s. unfold put_next. set (s0 := side h x l). destruct (Nat.eq_dec x y) as [<-|D]; [|now rewrite set_thread_ne]. destruct (bool_dec s0 s) as [<-|D]; [now rewrite set_thread_eq|now rewrite set_thread_side]. Qed.
Lemma pth_put_prev h x l v y : x <> y -> pth (put_prev h x l v) y = pth h y. Proof. apply set_thread_ne. Qed.
Lemma pth_put_next h x l v y : x <> y -> pth (put_next h x l v) y = pth h y. Proof. apply set_thread_ne. Qed.
Lemma nxt_put_prev h x m v l y : nxt (put_prev h x (Some m) v) l y = nxt h l y.
Proof.
  unfold nxt. rewrite (side_same _ _ _ _ (leaves_put_prev h x (Some m) v)). unfold put_prev. set (s0 := side h x (Some m)). destruct (Nat.eq_dec x y) as [<-|D]; [|now rewrite set_thread_ne].
  destruct (bool_dec s0 (side h x (Some l))) as [<-|D]; [now rewrite set_thread_eq|now rewrite set_thread_side].
Qed.
Lemma prv_put_next h x m v l y : prv (put_next h x (Some m) v) l y = prv h l y.
Proof.
  unfold prv. rewrite (side_same _ _ _ _ (leaves_put_next h x (Some m) v)). unfold put_next. set (s0 := side h x (Some m)). destruct (Nat.eq_dec x y) as [<-|D]; [|now rewrite set_thread_ne].
  destruct (bool_dec s0 (side h x (Some l))) as [<-|D]; [now rewrite set_thread_eq|now rewrite set_thread_side].
Qed.
Lemma prv_put_prev h x m v l y : live h x m -> live h y l -> prv (put_prev h x (Some m) v) l y = if Nat.eqb x y && Nat.eqb m l then v else prv h l y.
Proof.
  intros Lx Ly. unfold prv. rewrite (side_same _ _ _ _ (leaves_put_prev h x (Some m) v)). unfold put_prev. destruct (Nat.eqb_spec x y) as [<-|D]; cbn [andb]; [|now rewrite set_thread_ne].
  destruct (Nat.eqb_spec m l) as [<-|D]; [now rewrite set_thread_eq|]. rewrite set_thread_side; auto. intros E. unfold live in *. rewrite E in Lx. congruence.
Qed.
Lemma nxt_put_next h x m v l y : live h x m -> live h y l -> nxt (put_next h x (Some m) v) l y = if Nat.eqb x y && Nat.eqb m l then v else nxt h l y.
Proof.
  intros Lx Ly. unfold nxt. rewrite (side_same _ _ _ _ (leaves_put_next h x (Some m) v)). unfold put_next. destruct (Nat.eqb_spec x y) as [<-|D]; cbn [andb]; [|now rewrite set_thread_ne].
  destruct (Nat.eqb_spec m l) as [<-|D]; [now rewrite set_thread_eq|]. rewrite set_thread_side; auto. intros E. unfold live in *. rewrite E in Lx. congruence.
Qed.

(** ** Linked segments *)
Fixpoint seg (h : pheap) (l : nat) (prev : option nat) (xs : list nat) (tail : option nat) : Prop :=
  match xs with [] => True | x :: r => prv h l x = prev /\ nxt h l x = hdo r tail /\ seg h l (Some x) r tail end.
Lemma seg_app h l xs : forall prev ys tail, seg h l prev (xs ++ ys) tail <-> seg h l prev xs (hdo ys tail) /\ seg h l (lasto prev xs) ys tail.
Proof. induction xs as [|x xs IH]; intros prev ys tail; cbn [seg app]; [cbn; tauto|]. rewrite IH, hdo_app. cbn [lasto fold_left]. tauto. Qed.
Lemma seg_ext h h' l xs : forall prev tail, (forall x, In x xs -> prv h' l x = prv h l x /\ nxt h' l x = nxt h l x) -> seg h l prev xs tail -> seg h' l prev xs tail.
Proof. induction xs as [|x xs IH]; intros prev tail E S; cbn in *; auto. destruct S as (P & Nx & S). destruct (E x) as [E1 E2]; auto. rewrite E1, E2. repeat split; auto. Qed.

(** ** What the heap represents: the live pairs, newest first, and the pool *)
Definition pr := (nat * (nat * nat))%type.
Definition touch (l : nat) (q : pr) : bool := Nat.eqb (fst (snd q)) l || Nat.eqb (snd (snd q)) l.
Definition lst (l : nat) (ps : list pr) : list nat := map fst (filter (touch l) ps).
Fixpoint pchain (h : pheap) (p : option nat) (l : list nat) : Prop := match l with [] => p = None | x :: r => p = Some x /\ pchain h (t_next (pth h x true)) r end.
Record prep (ok : nat -> Prop) (h : pheap) (ps : list pr) (pool : list nat) : Prop := Prep {
  e_leaf : forall p a b, In (p, (a, b)) ps -> t_leaf (pth h p true) = Some a /\ t_leaf (pth h p false) = Some b /\ a <> b;
  e_list : forall l, ok l -> p_head h l = hdo (lst l ps) None /\ seg h l None (lst l ps) None;
  e_cnt : forall x, cnt x (map fst ps ++ pool) <= 1;
  e_new : forall x, In x (map fst ps ++ pool) -> x < p_new h;
  e_pool : pchain h (p_pool h) pool }.
Lemma in_lst x l ps : In x (lst l ps) -> exists a b, In (x, (a, b)) ps /\ (a = l \/ b = l).
Proof. unfold lst. rewrite in_map_iff. intros ([p [a b]] & <- & H). apply filter_In in H as [H T]. unfold touch in T. cbn in *. apply orb_true_iff in T. rewrite !Nat.eqb_eq in T. eauto. Qed.
Lemma lst_in x l a b ps : In (x, (a, b)) ps -> a = l \/ b = l -> In x (lst l ps).
Proof. intros H T. unfold lst. apply in_map_iff. exists (x, (a, b)). split; auto. apply filter_In. split; auto. unfold touch. cbn. apply orb_true_iff. rewrite !Nat.eqb_eq. auto. Qed.
Lemma lst_ids x l ps : In x (lst l ps) -> In x (map fst ps).
Proof. intros H. apply in_lst in H as (a & b & H & _). apply in_map_iff. exists (x, (a, b)). auto. Qed.
Lemma pair_live ok h ps pool p a b : prep ok h ps pool -> In (p, (a, b)) ps -> live h p a /\ live h p b /\ side h p (Some a) = true /\ side h p (Some b) = false.
Proof.
  intros R H. apply (e_leaf _ _ _ _ R) in H as (A & B & D). unfold live. assert (S1 : side h p (Some a) = true) by (unfold side; rewrite A; apply same_refl). assert (S2 : side h p (Some b) = false) by (unfold side; rewrite A; apply same_ne; congruence). rewrite S1, S2. auto.
Qed.
Lemma lst_live ok h ps pool x l : prep ok h ps pool -> In x (lst l ps) -> live h x l.
Proof. intros R H. apply in_lst in H as (a & b & H & [<-|<-]); apply (pair_live _ _ _ _ _ _ _ R) in H; tauto. Qed.
Lemma lst_nodup ok h ps pool l : prep ok h ps pool -> NoDup (lst l ps).
Proof.
  intros R. assert (N : NoDup (map fst ps)). { apply cnt_nodup. intros x. pose proof (e_cnt _ _ _ _ R x) as H. rewrite cnt_app in H. lia. } clear R. unfold lst. induction ps as [|q ps IH]; cbn; [constructor|]. inversion N as [|? ? N1 N2]; subst.
  destruct (touch l q); cbn; auto. constructor; auto. intros H. apply N1. apply in_map_iff in H as (z & E & H). apply filter_In in H as [H _]. apply in_map_iff. eauto.
Qed.
Lemma pchain_ext h h' l : forall p, (forall x, In x l -> t_next (pth h' x true) = t_next (pth h x true)) -> pchain h p l -> pchain h' p l.
Proof. induction l as [|x l IH]; intros p E C; cbn in *; auto. destruct C as [-> C]. split; auto. rewrite E by auto. apply IH; auto. Qed.

(** ** Unlink *)
Lemma unlink_ok ok h ps pool p m : prep ok h ps pool -> ok m -> In p (lst m ps) -> exists h', unlink (pth h p (side h p (Some m))) h = Some h' /\
  same_leaves h h' /\ p_new h' = p_new h /\ p_pool h' = p_pool h /\ (forall x, ~ In x (map fst ps) -> pth h' x = pth h x) /\
  (forall l, l <> m -> p_head h' l = p_head h l /\ forall x, live h x l -> prv h' l x = prv h l x /\ nxt h' l x = nxt h l x) /\
  (forall l1 l2, lst m ps = l1 ++ p :: l2 -> p_head h' m = hdo (l1 ++ l2) None /\ seg h' m None (l1 ++ l2) None).
Proof.
  intros R Om Hp. destruct (e_list _ _ _ _ R m Om) as [Hh Sg]. pose proof (lst_live _ _ _ _ _ _ R Hp) as Lp. pose proof (lst_nodup _ _ _ _ m R) as Nd.
  destruct (in_split _ _ Hp) as (k1 & k2 & Ek). rewrite Ek in Hh, Sg, Nd. assert (Liv : forall x, In x (k1 ++ p :: k2) -> live h x m) by (intros x Hx; apply (lst_live _ _ _ _ _ _ R); now rewrite Ek).
  assert (Ids : forall x, In x (k1 ++ p :: k2) -> In x (map fst ps)) by (intros x Hx; eapply lst_ids; rewrite Ek; exact Hx).
  apply seg_app in Sg as [S1 S2]. cbn [seg hdo] in S1, S2. destruct S2 as (Pv & Nx & S2). set (t := pth h p (side h p (Some m))).
  change (t_prev t = lasto None k1) in Pv. change (t_next t = hdo k2 None) in Nx. assert (Tl : t_leaf t = Some m) by exact Lp.
  unfold unlink. rewrite Tl, Pv, Nx. set (h1 := match hdo k2 None with Some n => put_prev h n (Some m) (lasto None k1) | None => h end).
  assert (L1 : same_leaves h h1) by (unfold h1; destruct (hdo k2 None); [apply leaves_put_prev|intros ? ?; reflexivity]).
  assert (N1 : p_new h1 = p_new h /\ p_pool h1 = p_pool h /\ p_head h1 = p_head h) by (unfold h1; destruct (hdo k2 None); auto).
  assert (F1 : forall x, ~ In x (map fst ps) -> pth h1 x = pth h x). { unfold h1. destruct k2 as [|q k2]; cbn; auto. intros x Hx. apply pth_put_prev. intros <-. apply Hx, Ids, in_or_app. right. right. now left. }
  assert (X1 : forall l x, nxt h1 l x = nxt h l x) by (intros; unfold h1; destruct (hdo k2 None); auto using nxt_put_prev).
  assert (P1 : forall l x, live h x l -> prv h1 l x = if match hdo k2 None with Some q => Nat.eqb q x | None => false end && Nat.eqb m l then lasto None k1 else prv h l x).
  { intros l x Lx. unfold h1. destruct k2 as [|q k2]; cbn [hdo]; auto. apply prv_put_prev; auto. apply Liv, in_or_app. right. right. now left. }
  assert (Sq : seg h1 m (lasto None k1) k2 None).
  { destruct k2 as [|q k2]; [exact I|]. cbn [seg hdo] in *. destruct S2 as (A & B & C). rewrite P1, Nat.eqb_refl by (apply Liv, in_or_app; right; right; now left). rewrite Nat.eqb_refl. cbn. split; auto. rewrite X1. split; auto.
    revert C. apply seg_ext. intros x Hx. rewrite X1. split; auto. rewrite P1 by (apply Liv, in_or_app; right; right; now right). destruct (Nat.eqb_spec q x) as [<-|]; auto. exfalso. pose proof (proj1 (cnt_nodup _) Nd q) as K. apply cnt_in in Hx. rewrite cnt_app, !cnt_cons, Nat.eqb_refl in K. lia. }
  assert (S1' : seg h1 m None k1 (Some p)). { revert S1. apply seg_ext. intros x Hx. rewrite X1. split; auto. rewrite P1 by (apply Liv, in_or_app; now left). destruct k2 as [|q k2]; cbn; auto. destruct (Nat.eqb_spec q x) as [<-|]; auto. exfalso. pose proof (proj1 (cnt_nodup _) Nd q) as K. apply cnt_in in Hx. rewrite cnt_app, !cnt_cons, Nat.eqb_refl in K. lia. }
  assert (U : forall l1 l2, lst m ps = l1 ++ p :: l2 -> l1 = k1 /\ l2 = k2).
  { intros l1 l2 E. rewrite Ek in E. clear - E Nd. revert k1 E Nd. induction l1 as [|x l1 IH]; intros [|y k1] E Nd; cbn in *.
    - injection E as E. auto.
    - injection E as E1 E2. subst. exfalso. inversion Nd as [|? ? N1 _]. apply N1, in_elt.
    - injection E as E1 E2. subst. exfalso. inversion Nd as [|? ? N1 _]. apply N1, in_elt.
    - injection E as E1 E2. subst. inversion Nd. destruct (IH k1); auto. now subst. }
  destruct (lasto None k1) as [q|] eqn:La.
  - eexists. split; [reflexivity|]. assert (Hq : In q k1) by (apply lasto_in in La as [|]; [discriminate|auto]). assert (Lq : live h1 q m) by (apply (live_same h); auto; apply Liv, in_or_app; auto).
    split; [eapply leaves_trans; [exact L1|apply leaves_put_next]|]. split; [apply N1|]. split; [apply N1|]. split; [|split].
    + intros x Hx. rewrite pth_put_next; auto. intros <-. apply Hx, Ids, in_or_app. now left.
    + intros l Dl. split; [cbn; destruct N1 as (_ & _ & ->); reflexivity|]. intros x Lx. rewrite prv_put_next, nxt_put_next, P1, X1; auto; [|eapply live_same; eauto]. destruct (Nat.eqb_spec m l); [congruence|]. now rewrite !andb_false_r.
    + intros l1 l2 E. apply U in E as [-> ->]. split.
      * cbn. destruct N1 as (_ & _ & ->). rewrite Hh, !hdo_app. destruct k1; [discriminate La|reflexivity].
      * apply seg_app. rewrite La. apply in_split in Hq as Hq'. assert (Last : exists u, k1 = u ++ [q]). { destruct (exists_last (l := k1)) as (u & z & ->); [intros ->; discriminate|]. rewrite lasto_snoc in La. injection La as ->. eauto. } destruct Last as [u ->].
        assert (Nu : ~ In q u /\ ~ In q k2). { rewrite <- app_assoc in Nd. cbn in Nd. apply NoDup_remove_2 in Nd. split; intros K; apply Nd, in_or_app; [left|right; right]; auto. }
        assert (Q : forall x, live h x m -> nxt (put_next h1 q (Some m) (hdo k2 None)) m x = if Nat.eqb q x then hdo k2 None else nxt h1 m x). { intros x Lx. rewrite nxt_put_next; auto; [|eapply live_same; eauto]. now rewrite Nat.eqb_refl, andb_true_r. }
        split.
        -- apply seg_app in S1' as [S3 S4]. cbn [seg hdo] in S4. apply seg_app. cbn [seg hdo]. split.
           ++ revert S3. apply seg_ext. intros x Hx. rewrite prv_put_next. split; auto. rewrite Q by (apply Liv, in_or_app; left; apply in_or_app; now left). destruct (Nat.eqb_spec q x); [subst; tauto|auto].
           ++ rewrite prv_put_next, Q, Nat.eqb_refl by (apply Liv, in_or_app; left; apply in_or_app; right; now left). tauto.
        -- revert Sq. apply seg_ext. intros x Hx. rewrite prv_put_next. split; auto. rewrite Q by (apply Liv, in_or_app; right; now right). destruct (Nat.eqb_spec q x); [subst; tauto|auto].
  - apply lasto_none in La. subst k1. eexists. split; [reflexivity|]. split; [exact L1|]. split; [apply N1|]. split; [apply N1|]. split; [exact F1|]. split.
    + intros l Dl. cbn. rewrite put_ne by auto. destruct N1 as (_ & _ & ->). split; auto. intros x Lx. change (prv h1 l x = prv h l x /\ nxt h1 l x = nxt h l x). rewrite X1, P1 by auto. destruct (Nat.eqb_spec m l); [congruence|]. now rewrite andb_false_r.
    + intros l1 l2 E. apply U in E as [-> ->]. cbn [app]. split; [cbn; now rewrite put_eq|]. revert Sq. apply seg_ext. split; reflexivity.
Qed.

(** ** PairsClear *)
Definition drop (p : nat) (ps : list pr) : list pr := filter (fun q => negb (Nat.eqb (fst q) p)) ps.
Lemma drop_lst l p ps : lst l (drop p ps) = filter (fun x => negb (Nat.eqb x p)) (lst l ps).
Proof. unfold lst, drop. induction ps as [|q ps IH]; cbn; auto. destruct (Nat.eqb (fst q) p) eqn:E, (touch l q) eqn:T; cbn; rewrite ?T, ?E; cbn; rewrite ?E; cbn; rewrite IH; auto. Qed.
Lemma filter_out (p : nat) l : ~ In p l -> filter (fun x => negb (Nat.eqb x p)) l = l.
Proof. induction l as [|x l IH]; intros H; cbn; auto. destruct (Nat.eqb_spec x p); [subst; exfalso; apply H; now left|]. cbn. f_equal. apply IH. intros K. apply H. now right. Qed.
Lemma drop_cnt x p ps : cnt x (map fst (drop p ps)) = if Nat.eqb x p then 0 else cnt x (map fst ps).
Proof.
  unfold drop. induction ps as [|q ps IH]; cbn; [now destruct (Nat.eqb x p)|]. destruct (Nat.eqb_spec (fst q) p) as [E|E]; cbn; rewrite ?cnt_cons, IH; destruct (Nat.eqb_spec x p); auto.
  - subst. destruct (Nat.eqb_spec x (fst q)); [congruence|auto]. - subst. destruct (Nat.eqb_spec p (fst q)); [congruence|auto].
Qed.
Lemma nodup_fst (ps : list pr) p v w : (forall x, cnt x (map fst ps) <= 1) -> In (p, v) ps -> In (p, w) ps -> v = w.
Proof.
  induction ps as [|[q u] ps IH]; intros C H1 H2; [contradiction|]. assert (Q : forall y, In (q, y) ps -> False). { intros y Hy. specialize (C q). cbn in C. rewrite cnt_cons, Nat.eqb_refl in C. apply (in_map fst) in Hy. apply cnt_in in Hy. cbn in Hy. lia. }
  destruct H1 as [H1|H1], H2 as [H2|H2].
  - congruence. - injection H1 as -> ->. exfalso; eauto. - injection H2 as -> ->. exfalso; eauto. - apply IH; auto. intros x. specialize (C x). cbn in C. rewrite cnt_cons in C. lia.
Qed.
Lemma recycle_ok ok h ps pool p : prep ok h ps pool -> ~ In p (map fst ps ++ pool) -> p < p_new h -> prep ok (recycle_pair h p) ps (p :: pool).
Proof.
  intros R Hp Lt. assert (Hp1 : ~ In p (map fst ps)) by (intros K; apply Hp, in_or_app; auto). assert (Hp2 : ~ In p pool) by (intros K; apply Hp, in_or_app; auto). assert (F : forall x, x <> p -> pth (recycle_pair h p) x = pth h x) by (intros x D; unfold recycle_pair; cbn; now rewrite put_ne by auto).
  split.
  - intros q a b H. rewrite F; [apply (e_leaf _ _ _ _ R); auto|]. intros ->. apply Hp1. apply in_map_iff. exists (p, (a, b)). auto.
  - intros l Ol. destruct (e_list _ _ _ _ R l Ol) as [A B]. split; [exact A|]. revert B. apply seg_ext. intros x Hx. assert (x <> p) by (intros ->; apply Hp1; now apply lst_ids in Hx). unfold prv, nxt, side. rewrite F by auto. auto.
  - intros x. pose proof (e_cnt _ _ _ _ R x) as C. apply cnt_out in Hp. rewrite cnt_app, cnt_cons in *. destruct (Nat.eqb_spec x p); subst; lia.
  - intros x Hx. apply in_app_or in Hx as [Hx|[<-|Hx]]; auto; apply (e_new _ _ _ _ R); apply in_or_app; auto.
  - cbn [pchain recycle_pair p_pool set_ppool]. split; auto. unfold recycle_pair. cbn [pth set_ppool]. rewrite set_thread_eq. cbn [t_next]. eapply pchain_ext; [|exact (e_pool _ _ _ _ R)]. intros x Hx. cbn. rewrite put_ne; auto. intros <-. contradiction.
Qed.
Lemma clear_ok leaf h0 : forall todo fuel h ps pool, prep (fun l => l <> leaf) h ps pool -> todo = lst leaf ps -> length todo <= fuel -> (forall x l1 l2, todo = l1 ++ x :: l2 -> nxt h leaf x = hdo l2 None) -> p_head h leaf = h0 -> p_new h <= p_new h ->
  exists h' pool', clear_loop fuel leaf (hdo todo None) h = Some h' /\ prep (fun l => l <> leaf) h' (filter (fun q => negb (touch leaf q)) ps) pool' /\ p_head h' leaf = h0 /\ p_new h' = p_new h.
Proof.
  induction todo as [|p todo IH]; intros fuel h ps pool R E Lf Nx Hd _.
  - assert (Z : filter (fun q => negb (touch leaf q)) ps = ps). { unfold lst in E. symmetry in E. apply map_eq_nil in E. clear - E. induction ps as [|q ps IH]; cbn in *; auto. destruct (touch leaf q); cbn; [discriminate|f_equal; auto]. }
    rewrite Z. exists h, pool. split; [destruct fuel; reflexivity|]. auto.
  - destruct fuel as [|fuel]; [cbn in Lf; lia|]. cbn [hdo clear_loop]. assert (Hp : In p (lst leaf ps)) by (rewrite <- E; now left). destruct (in_lst _ _ _ Hp) as (a & b & Hi & Hl). destruct (pair_live _ _ _ _ _ _ _ R Hi) as (La & Lb & Sa & Sb). destruct (e_leaf _ _ _ _ R _ _ _ Hi) as (_ & _ & Dab).
    assert (Cn : forall x, cnt x (map fst ps) <= 1) by (intros x; pose proof (e_cnt _ _ _ _ R x) as C; rewrite cnt_app in C; lia).
    assert (Hnx : t_next (pth h p (side h p (Some leaf))) = hdo todo None) by (apply (Nx p [] todo eq_refl)). rewrite Hnx.
    set (m := if Nat.eqb a leaf then b else a). assert (Dm : m <> leaf) by (unfold m; destruct (Nat.eqb_spec a leaf); [subst; auto|auto]). assert (Sm : negb (side h p (Some leaf)) = side h p (Some m)). { unfold m. destruct (Nat.eqb_spec a leaf) as [<-|Da]; [now rewrite Sa, Sb|]. destruct Hl as [|<-]; [contradiction|]. now rewrite Sa, Sb. }
    assert (Hpm : In p (lst m ps)) by (apply (lst_in _ _ _ _ _ Hi); unfold m; destruct (Nat.eqb a leaf); auto). rewrite Sm.
    destruct (unlink_ok _ _ _ _ p m R Dm Hpm) as (h1 & U & L1 & N1 & P1 & F1 & O1 & M1). rewrite U.
    assert (Ids : In p (map fst ps)) by (now apply lst_ids in Hp). assert (Pp : ~ In p pool). { intros K. pose proof (e_cnt _ _ _ _ R p) as C. rewrite cnt_app in C. apply cnt_in in K. apply cnt_in in Ids. lia. }
    assert (R1 : prep (fun l => l <> leaf) h1 (drop p ps) pool).
    { split.
      - intros q c d H. apply filter_In in H as [H _]. rewrite !L1. apply (e_leaf _ _ _ _ R _ _ _ H).
      - intros l Dl. rewrite drop_lst. destruct (e_list _ _ _ _ R l Dl) as [A B]. destruct (Nat.eq_dec l m) as [->|Dlm].
        + destruct (in_split _ _ Hpm) as (l1 & l2 & El). destruct (M1 l1 l2 El) as [A' B']. replace (filter _ (lst m ps)) with (l1 ++ l2); [auto|]. pose proof (lst_nodup _ _ _ _ m R) as Nd. rewrite El in *. rewrite filter_app. cbn. rewrite Nat.eqb_refl. cbn. apply NoDup_remove_2 in Nd. rewrite !filter_out; auto; intros K; apply Nd, in_or_app; auto.
        + rewrite filter_out. * destruct (O1 l Dlm) as [A' B']. rewrite A'. split; auto. revert B. apply seg_ext. intros x Hx. apply B'. eapply lst_live; eauto.
          * intros K. apply in_lst in K as (c & d & Hc & Hcl). pose proof (nodup_fst ps p _ _ Cn Hi Hc) as [= <- <-]. unfold m in *. destruct (Nat.eqb_spec a leaf); destruct Hl, Hcl; subst; congruence.
      - intros x. pose proof (e_cnt _ _ _ _ R x) as C. rewrite cnt_app, drop_cnt in *. destruct (Nat.eqb x p); lia.
      - intros x Hx. rewrite N1. apply (e_new _ _ _ _ R). apply cnt_in in Hx. apply cnt_in. rewrite cnt_app, drop_cnt in *. destruct (Nat.eqb x p); lia.
      - rewrite P1. eapply pchain_ext; [|exact (e_pool _ _ _ _ R)]. intros x Hx. rewrite F1; auto. intros K. pose proof (e_cnt _ _ _ _ R x) as C. rewrite cnt_app in C. apply cnt_in in K. apply cnt_in in Hx. lia. }
    assert (R2 : prep (fun l => l <> leaf) (recycle_pair h1 p) (drop p ps) (p :: pool)). { apply recycle_ok; auto. - intros K. apply cnt_in in K. rewrite cnt_app, drop_cnt, Nat.eqb_refl in K. apply cnt_out in Pp. lia. - rewrite N1. apply (e_new _ _ _ _ R). apply in_or_app. auto. }
    assert (Nd : NoDup (p :: todo)) by (rewrite E; eapply lst_nodup; eauto). inversion Nd as [|? ? Np _]; subst.
    assert (E' : todo = lst leaf (drop p ps)) by (rewrite drop_lst, <- E; cbn; rewrite Nat.eqb_refl; cbn; symmetry; now apply filter_out).
    destruct (IH fuel (recycle_pair h1 p) (drop p ps) (p :: pool) R2 E') as (h2 & pool2 & C2 & R3 & H3 & N3); auto.
    + cbn in Lf. lia.
    + intros x l1 l2 El. assert (Hx : In x todo) by (rewrite El; apply in_elt). assert (x <> p) by (intros ->; contradiction). assert (Q : nxt (recycle_pair h1 p) leaf x = nxt h1 leaf x). { unfold nxt, side, recycle_pair. cbn. now rewrite put_ne by auto. } rewrite Q. destruct (O1 leaf) as [_ O]; auto. rewrite (proj2 (O x (lst_live _ _ _ _ x leaf R ltac:(rewrite <- E; now right)))). apply (Nx x (p :: l1) l2). cbn. now rewrite El.
    + cbn. destruct (O1 leaf) as [-> _]; auto.
    + exists h2, pool2. split; [exact C2|]. replace (filter (fun q => negb (touch leaf q)) ps) with (filter (fun q => negb (touch leaf q)) (drop p ps)).
      * split; [exact R3|]. split; [exact H3|]. now rewrite N3.
      * unfold drop. clear - Hi Hl Cn. assert (G : forall q, In q ps -> fst q = p -> touch leaf q = true). { intros [q [c d]] Hq Eq. cbn in Eq. subst. pose proof (nodup_fst ps p _ _ Cn Hi Hq) as [= <- <-]. unfold touch. cbn. destruct Hl as [<-|<-]; rewrite Nat.eqb_refl; auto using orb_true_r. }
        clear Hi Cn. induction ps as [|q ps IH]; cbn; auto. destruct (Nat.eqb_spec (fst q) p) as [Eq|Eq]; cbn; [rewrite (G q) by (auto; now left); cbn|destruct (touch leaf q); cbn; [|f_equal]]; apply IH; intros; apply G; auto; now right.
Qed.
Lemma seg_next h l xs : forall prev tail x l1 l2, seg h l prev xs tail -> xs = l1 ++ x :: l2 -> nxt h l x = hdo l2 tail.
Proof. intros prev tail x l1 l2 S ->. apply seg_app in S as [_ S]. cbn in S. tauto. Qed.
Lemma lst_cleared leaf ps : lst leaf (filter (fun q => negb (touch leaf q)) ps) = [].
Proof. unfold lst. induction ps as [|q ps IH]; cbn; auto. destruct (touch leaf q) eqn:T; cbn; rewrite ?T; auto. Qed.
Lemma pairs_clear_ok h ps pool leaf fuel : prep (fun _ => True) h ps pool -> length (lst leaf ps) <= fuel -> exists h' pool', ptr_pairs_clear fuel leaf h = Some h' /\ prep (fun _ => True) h' (filter (fun q => negb (touch leaf q)) ps) pool'.
Proof.
  intros R Lf. unfold ptr_pairs_clear. destruct (e_list _ _ _ _ R leaf I) as [Hh Sg]. rewrite Hh.
  assert (R1 : prep (fun l => l <> leaf) (set_phead h leaf None) ps pool).
  { split; try apply R. - intros l Dl. destruct (e_list _ _ _ _ R l I) as [A B]. split; [cbn; now rewrite put_ne by auto|]. revert B. apply seg_ext. auto. - eapply pchain_ext; [|apply (e_pool _ _ _ _ R)]. auto. }
  destruct (clear_ok leaf None (lst leaf ps) fuel _ ps pool R1 eq_refl Lf) as (h' & pool' & C & R' & H' & _); auto.
  - intros x l1 l2 E. exact (seg_next _ _ _ _ _ _ _ _ Sg E).
  - cbn. now rewrite put_eq.
  - exists h', pool'. split; auto. split; try apply R'. intros l _. destruct (Nat.eq_dec l leaf) as [->|D]; [|now apply (e_list _ _ _ _ R')]. rewrite lst_cleared. cbn. auto.
Qed.

(** ** PairInsert *)
Lemma alloc_ok h ps pool : prep (fun _ => True) h ps pool -> let '(p, h') := alloc_pair h in prep (fun _ => True) h' ps pool /\ ~ In p (map fst ps ++ pool) /\ p < p_new h' /\ p_head h' = p_head h.
Proof.
  intros R. unfold alloc_pair. assert (Np : ~ In (p_new h) (map fst ps ++ pool)) by (intros K; apply (e_new _ _ _ _ R) in K; lia). assert (F : forall x, In x (map fst ps ++ pool) -> put (pth h) (p_new h) (fun _ => no_thread) x = pth h x) by (intros x Hx; apply put_ne; intros <-; contradiction).
  split; [|cbn; split; [auto|split; [lia|auto]]]. split; cbn.
  - intros q a b H. rewrite F; [apply (e_leaf _ _ _ _ R); auto|]. apply in_or_app. left. apply in_map_iff. exists (q, (a, b)). auto.
  - intros l _. destruct (e_list _ _ _ _ R l I) as [A B]. split; auto. revert B. apply seg_ext. intros x Hx. unfold prv, nxt, side. cbn. rewrite F; auto. apply in_or_app. left. now apply lst_ids in Hx.
  - apply (e_cnt _ _ _ _ R).
  - intros x Hx. apply (e_new _ _ _ _ R) in Hx. lia.
  - eapply pchain_ext; [|apply (e_pool _ _ _ _ R)]. intros x Hx. cbn. rewrite F; auto. apply in_or_app. auto.
Qed.
Lemma more_ok n : forall h ps pool, prep (fun _ => True) h ps pool -> exists pool', prep (fun _ => True) (more_pairs n h) ps pool' /\ p_head (more_pairs n h) = p_head h.
Proof.
  induction n as [|n IH]; intros h ps pool R; cbn [more_pairs]; [eauto|]. pose proof (alloc_ok h ps pool R) as A. destruct (alloc_pair h) as [p h1]. destruct A as (R1 & Np & Lt & Hh). destruct (IH (recycle_pair h1 p) ps (p :: pool)) as (pool' & R2 & H2); [now apply recycle_ok|]. exists pool'. split; auto. rewrite H2. exact Hh.
Qed.
Lemma from_pool_ok buf h ps pool : prep (fun _ => True) h ps pool -> let '(p, h') := pair_from_pool buf h in exists pool', prep (fun _ => True) h' ps pool' /\ ~ In p (map fst ps ++ pool') /\ p < p_new h' /\ p_head h' = p_head h.
Proof.
  intros R. unfold pair_from_pool. pose proof (e_pool _ _ _ _ R) as C. destruct pool as [|p pool]; cbn in C.
  - rewrite C. destruct (more_ok buf h ps [] R) as (pool' & R1 & H1). pose proof (alloc_ok _ _ _ R1) as A. destruct (alloc_pair _) as [p h2]. destruct A as (R2 & Np & Lt & Hh). exists pool'. split; auto. split; auto. split; auto. congruence.
  - destruct C as [-> C]. exists pool. assert (Cp : forall x, cnt x (map fst ps) + ((if Nat.eqb x p then 1 else 0) + cnt x pool) <= 1) by (intros x; pose proof (e_cnt _ _ _ _ R x) as K; now rewrite cnt_app, cnt_cons in K).
    split; [|split; [|split; [|reflexivity]]].
    + split; try apply R. * intros l _. destruct (e_list _ _ _ _ R l I) as [A B]. split; auto. revert B. apply seg_ext. auto. * intros x. rewrite cnt_app. specialize (Cp x). lia. * intros x Hx. apply (e_new _ _ _ _ R). apply in_app_or in Hx as [|]; apply in_or_app; auto. right. now right. * eapply pchain_ext; [|exact C]. auto.
    + apply cnt_out. rewrite cnt_app. specialize (Cp p). rewrite Nat.eqb_refl in Cp. lia.
    + apply (e_new _ _ _ _ R). apply in_or_app. right. now left.
Qed.
Lemma pair_insert_ok buf h ps pool a b : prep (fun _ => True) h ps pool -> a <> b -> exists p pool', prep (fun _ => True) (ptr_pair_insert buf a b h) ((p, (a, b)) :: ps) pool'.
Proof.
  intros R D. unfold ptr_pair_insert. pose proof (from_pool_ok buf h ps pool R) as A. destruct (pair_from_pool buf h) as [p h1]. destruct A as (pool' & R1 & Np & Lt & Hh). exists p, pool'. rewrite <- Hh. clear R pool Hh h.
  set (na := p_head h1 a). set (nb := p_head h1 b). set (h2 := set_phead (set_phead (set_thread (set_thread h1 p true (Thread None na (Some a))) p false (Thread None nb (Some b))) a (Some p)) b (Some p)).
  assert (Np1 : ~ In p (map fst ps)) by (intros K; apply Np, in_or_app; auto). assert (Np2 : ~ In p pool') by (intros K; apply Np, in_or_app; auto).
  assert (Pa : pth h2 p true = Thread None na (Some a)) by (unfold h2; cbn; rewrite put_eq, putb_ne by discriminate; now rewrite put_eq, putb_eq).
  assert (Pb : pth h2 p false = Thread None nb (Some b)) by (unfold h2; cbn; now rewrite put_eq, putb_eq).
  assert (F2 : forall x, x <> p -> pth h2 x = pth h1 x) by (intros x Dx; unfold h2; cbn; now rewrite !put_ne by auto).
  assert (H2 : forall l, p_head h2 l = if Nat.eqb l a || Nat.eqb l b then Some p else p_head h1 l). { intros l. unfold h2. cbn. unfold put. rewrite (Nat.eqb_sym b l), (Nat.eqb_sym a l). destruct (Nat.eqb l b), (Nat.eqb l a); auto. }
  assert (Lb : forall l x, In x (lst l ps) -> live h2 x l). { intros l x Hx. unfold live, side. rewrite F2 by (intros ->; apply Np1; now apply lst_ids in Hx). exact (lst_live _ _ _ _ _ _ R1 Hx). }
  assert (N2 : p_new h2 = p_new h1 /\ p_pool h2 = p_pool h1) by (split; reflexivity). clearbody h2.
  assert (La1 : live h2 p a) by (unfold live, side; rewrite Pa; cbn [t_leaf same]; now rewrite Nat.eqb_refl, Pa). assert (La2 : live h2 p b) by (unfold live, side; rewrite Pa; cbn [t_leaf same]; destruct (Nat.eqb_spec a b); [contradiction|now rewrite Pb]).
  destruct (e_list _ _ _ _ R1 a I) as [Ha Sga]. destruct (e_list _ _ _ _ R1 b I) as [Hb Sgb].
  set (h3 := match na with Some q => put_prev h2 q (Some a) (Some p) | None => h2 end). set (h4 := match nb with Some q => put_prev h3 q (Some b) (Some p) | None => h3 end).
  assert (Ina : forall q, na = Some q -> In q (lst a ps)) by (intros q; unfold na; rewrite Ha; apply hdo_in). assert (Inb : forall q, nb = Some q -> In q (lst b ps)) by (intros q; unfold nb; rewrite Hb; apply hdo_in).
  assert (L3 : same_leaves h2 h3) by (unfold h3; destruct na; [apply leaves_put_prev|intros ? ?; reflexivity]). assert (L4 : same_leaves h2 h4) by (apply (leaves_trans _ h3); auto; unfold h4; destruct nb; [apply leaves_put_prev|intros ? ?; reflexivity]).
  assert (X4 : forall l x, nxt h4 l x = nxt h2 l x). { intros l x. unfold h4. destruct nb; rewrite ?nxt_put_prev; unfold h3; destruct na; rewrite ?nxt_put_prev; auto. }
  assert (V4 : forall l x, live h2 x l -> prv h4 l x = if match na with Some q => Nat.eqb q x && Nat.eqb a l | None => false end || match nb with Some q => Nat.eqb q x && Nat.eqb b l | None => false end then Some p else prv h2 l x).
  { intros l x Lx. assert (V3 : prv h3 l x = if match na with Some q => Nat.eqb q x && Nat.eqb a l | None => false end then Some p else prv h2 l x) by (unfold h3; destruct na as [q|] eqn:Eq; auto; apply prv_put_prev; auto).
    unfold h4. destruct nb as [q|] eqn:Eq; [|rewrite orb_false_r; exact V3]. rewrite prv_put_prev, V3; [|eapply live_same; eauto|eapply live_same; eauto]. destruct (Nat.eqb q x && Nat.eqb b l); [now rewrite orb_true_r|now rewrite orb_false_r]. }
  assert (Hd4 : p_head h4 = p_head h2 /\ p_new h4 = p_new h1 /\ p_pool h4 = p_pool h1) by (unfold h4, h3; destruct nb, na; auto).
  assert (Fp : forall x, ~ In x (p :: map fst ps) -> pth h4 x = pth h1 x).
  { intros x Hx. unfold h4, h3. assert (x <> p) by (intros ->; apply Hx; now left). destruct nb as [q|] eqn:E1; [rewrite pth_put_prev by (intros <-; apply Hx; right; eapply lst_ids; eauto)|]; (destruct na as [q'|] eqn:E2; [rewrite pth_put_prev by (intros <-; apply Hx; right; eapply lst_ids; eauto)|]); auto. }
  destruct Hd4 as (Hd4 & Nw4 & Pl4). change (prep (fun _ => True) h4 ((p, (a, b)) :: ps) pool'). split.
  - intros q c d [[= <- <- <-]|H]; rewrite !L4; [rewrite Pa, Pb; auto|]. rewrite !F2; [apply (e_leaf _ _ _ _ R1 _ _ _ H)|]. intros ->. apply Np1, in_map_iff. exists (p, (c, d)). auto.
  - intros l _. rewrite Hd4, H2. destruct (e_list _ _ _ _ R1 l I) as [A B]. assert (Ln : lst l ((p, (a, b)) :: ps) = if Nat.eqb l a || Nat.eqb l b then p :: lst l ps else lst l ps) by (unfold lst; cbn [filter]; unfold touch at 1; cbn [fst snd]; rewrite (Nat.eqb_sym a l), (Nat.eqb_sym b l); destruct (Nat.eqb l a || Nat.eqb l b); reflexivity). rewrite Ln. clear Ln. destruct (Nat.eqb l a || Nat.eqb l b) eqn:El.
    + cbn [hdo]. split; auto. cbn [seg]. assert (Lpl : live h2 p l) by (apply orb_true_iff in El as [El|El]; apply Nat.eqb_eq in El; subst; auto).
      assert (Q : forall x, In x (lst l ps) -> x <> p) by (intros x Hx ->; apply Np1; now apply lst_ids in Hx).
      split; [|split].
      * rewrite V4 by auto. assert (Z : match na with Some q => Nat.eqb q p && Nat.eqb a l | None => false end || match nb with Some q => Nat.eqb q p && Nat.eqb b l | None => false end = false). { apply orb_false_iff. split; [destruct na as [q|] eqn:E|destruct nb as [q|] eqn:E]; auto; destruct (Nat.eqb_spec q p); auto; subst; exfalso; apply Np1; eapply lst_ids; eauto. }
        rewrite Z. unfold prv, side. rewrite Pa. cbn [t_leaf]. destruct (same (Some a) (Some l)); [now rewrite Pa|now rewrite Pb].
      * rewrite X4. unfold nxt, side. rewrite Pa. cbn [t_leaf]. destruct (same (Some a) (Some l)) eqn:Sal; [rewrite Pa|rewrite Pb]; cbn [t_next].
        -- apply same_eq in Sal as [= <-]. exact Ha.
        -- apply orb_true_iff in El as [El|El]; apply Nat.eqb_eq in El; subst l; [rewrite same_refl in Sal; discriminate|exact Hb].
      * assert (Hl : (if Nat.eqb l a then na else nb) = hdo (lst l ps) None). { apply orb_true_iff in El as [El|El]; apply Nat.eqb_eq in El; subst l; [rewrite Nat.eqb_refl; exact Ha|]. destruct (Nat.eqb_spec b a); [congruence|exact Hb]. }
        assert (P' : forall x, In x (lst l ps) -> prv h4 l x = if match hdo (lst l ps) None with Some q => Nat.eqb q x | None => false end then Some p else prv h1 l x).
        { intros x Hx. rewrite V4 by auto. assert (Z : prv h2 l x = prv h1 l x) by (unfold prv, side; rewrite F2 by auto; reflexivity). rewrite Z, <- Hl. destruct (Nat.eqb_spec l a) as [->|Dla].
          - rewrite Nat.eqb_refl. destruct (Nat.eqb_spec b a); [congruence|]. replace (match nb with Some q => Nat.eqb q x && false | None => false end) with false by (destruct nb; auto using andb_false_r). rewrite orb_false_r. destruct na; auto. now rewrite andb_true_r.
          - destruct (Nat.eqb_spec a l); [congruence|]. cbn [orb] in El. apply Nat.eqb_eq in El; subst l. rewrite Nat.eqb_refl. replace (match na with Some q => Nat.eqb q x && false | None => false end) with false by (destruct na; auto using andb_false_r). destruct nb; auto. cbn. now rewrite andb_true_r. }
        assert (X' : forall x, In x (lst l ps) -> nxt h4 l x = nxt h1 l x) by (intros x Hx; rewrite X4; unfold nxt, side; rewrite F2 by auto; reflexivity).
        pose proof (lst_nodup _ _ _ _ l R1) as Nd. destruct (lst l ps) as [|q r]; [exact I|]. cbn [seg hdo] in *. destruct B as (_ & B2 & B3). rewrite P', Nat.eqb_refl, X' by (now left). split; auto. split; auto. revert B3. apply seg_ext. intros x Hx. rewrite X', P' by (now right). split; auto. inversion Nd; subst. destruct (Nat.eqb_spec q x); [subst; contradiction|auto].
    + split; auto. apply orb_false_iff in El as [E1 E2]. revert B. apply seg_ext. intros x Hx. assert (x <> p) by (intros ->; apply Np1; now apply lst_ids in Hx). rewrite X4, V4 by auto. rewrite (Nat.eqb_sym a l), (Nat.eqb_sym b l), E1, E2.
      replace (match na with Some q => Nat.eqb q x && false | None => false end || match nb with Some q => Nat.eqb q x && false | None => false end) with false by (destruct na, nb; rewrite ?andb_false_r; reflexivity). unfold prv, nxt, side. rewrite F2 by auto. auto.
  - intros x. pose proof (e_cnt _ _ _ _ R1 x) as C. cbn. rewrite cnt_cons. apply cnt_out in Np. destruct (Nat.eqb_spec x p); subst; lia.
  - intros x [<-|Hx]; rewrite Nw4; auto. now apply (e_new _ _ _ _ R1).
  - rewrite Pl4. eapply pchain_ext; [|exact (e_pool _ _ _ _ R1)]. intros x Hx. rewrite Fp; auto. intros [<-|K]; [contradiction|]. pose proof (e_cnt _ _ _ _ R1 x) as C. rewrite cnt_app in C. apply cnt_in in K. apply cnt_in in Hx. lia.
Qed.
Lemma prep0 : prep (fun _ => True) pheap0 [] [].
Proof. split; cbn; auto; try contradiction. Qed.
