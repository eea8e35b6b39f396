(** Proofs for C15, from the representation of BBTreePtrMain.v to the vocabulary of BBTreePtrSpec.v. *)
From Coq Require Import Bool List Arith Lia.
From Verif Require Import Num Vec BB BBTree BBTreePtr BBTreePtrSpec BBTreePtrPairs BBTreePtrNodes BBTreePtrForest BBTreePtrFuel BBTreePtrMain.
Import ListNotations.
Local Open Scope nat_scope.

Lemma filter_none {A} (f : A -> bool) l : (forall y, In y l -> f y = false) -> filter f l = [].
Proof. induction l as [|y l IH]; intros H; cbn; auto. rewrite (H y) by (now left). apply IH. intros z Hz. apply H. now right. Qed.
Section Top.
Context {N : Num}.
Variable buf : nat.
Lemma at_shows f t : forall par, at_ f t par -> shows f par (addr t) (erase t).
Proof. induction t as [a i b|a b l IHl r IHr]; intros par; cbn [at_ shows erase addr]; [tauto|]. intros (A1 & A2 & A3 & A4 & A5 & A6 & A7). split; auto. split; auto. split; auto. exists (addr l), (addr r). auto. Qed.
Lemma at_below f t : forall par x, at_ f t par -> (below f (addr t) x <-> In x (addrs t)).
Proof.
  induction t as [a i b|a b l IHl r IHr]; intros par x; cbn [at_ addr addrs].
  - intros (A1 & _). split; [intros B; inversion B; subst; cbn; auto; congruence|intros [->|[]]; constructor].
  - intros (A1 & A2 & A3 & A4 & A5 & A6 & A7). cbn [In]. rewrite in_app_iff, <- (IHl _ x A6), <- (IHr _ x A7). split.
    + intros B. inversion B as [|a' y O E B' |b' y O E B']; subst; auto. * rewrite A4 in E. inversion E; subst. auto. * rewrite A5 in E. inversion E; subst. auto.
    + intros [->|[B|B]]; [constructor|eapply below_a; eauto|eapply below_b; eauto].
Qed.
Lemma at_leafs f t : forall par x i, at_ f t par -> In x (addrs t) -> n_obj (f x) = Some i -> In (i, x) (pleaves t).
Proof.
  induction t as [a j b|a b l IHl r IHr]; intros par x i; cbn [at_ addrs pleaves].
  - intros (A1 & _) [->|[]] E. left. congruence.
  - intros (A1 & A2 & A3 & A4 & A5 & A6 & A7) [->|K] E; [congruence|]. apply in_app_or in K. apply in_or_app. destruct K; [left; eapply IHl; eauto|right; eapply IHr; eauto].
Qed.
Section State.
Variables (s : pindex) (x : index) (T : bool -> option pt) (np : bool -> list nat) (ps : list pr) (pp : list nat).
Hypothesis F : refines s x T np ps pp.
Lemma tree_nodes d y : tree_node s d y <-> In y (oaddrs (T d)).
Proof.
  unfold tree_node. rewrite (r_root _ _ _ _ _ _ F d). destruct (T d) as [t|] eqn:E; cbn [option_map oaddrs].
  - rewrite <- (at_below _ _ _ y (f_at _ _ _ _ (r_node _ _ _ _ _ _ F) d t E)). split; [intros (r & Er & B); inversion Er; subst; auto|intros B; eauto].
  - split; [intros (r & Er & _); discriminate|contradiction].
Qed.
Lemma leaf_keys k a : leaf_node s k a <-> is_key T k a.
Proof.
  unfold leaf_node. rewrite tree_nodes. split.
  - intros [K O]. unfold is_key. destruct (T (fst k)) as [t|] eqn:E; [|contradiction]. eapply at_leafs; eauto. exact (f_at _ _ _ _ (r_node _ _ _ _ _ _ F) _ t E).
  - intros K. split; [apply key_addr; exact K|]. eapply key_obj; [exact (r_node _ _ _ _ _ _ F)|exact K].
Qed.
End State.

(** ** Pair lists *)
Lemma lst_in l ps y : In y (lst l ps) <-> exists a b, In (y, (a, b)) ps /\ (a = l \/ b = l).
Proof.
  unfold lst. rewrite in_map_iff. split.
  - intros ([z [a b]] & E & K). cbn in E. subst z. apply filter_In in K. destruct K as [K Tq]. exists a, b. split; auto. unfold touch in Tq. cbn in Tq. apply orb_true_iff in Tq. rewrite !Nat.eqb_eq in Tq. exact Tq.
  - intros (a & b & K & D). exists (y, (a, b)). split; auto. apply filter_In. split; auto. unfold touch. cbn. apply orb_true_iff. rewrite !Nat.eqb_eq. exact D.
Qed.
Section Lists.
Variables (h : pheap) (ps : list pr) (pp : list nat).
Hypothesis P : prep (fun _ => True) h ps pp.
Lemma side_is y a b l sd : In (y, (a, b)) ps -> t_leaf (pth h y sd) = Some l -> sd = side h y (Some l).
Proof. intros K E. destruct (e_leaf _ _ _ _ P _ _ _ K) as (A & B & D). unfold side. rewrite A. destruct sd; [rewrite A in E; inversion E; subst; now rewrite same_refl|]. rewrite B in E. inversion E; subst. now rewrite same_some. Qed.
Lemma seg_walk l L : forall prev, (forall y, In y L -> live h y l) -> seg h l prev L None -> list_walk h l (hdo L None) prev L.
Proof. clear. induction L as [|y L IH]; intros prev Lv; cbn [seg hdo list_walk]; auto. intros (A & B & C). split; auto. exists (side h y (Some l)). unfold prv, nxt in *. split; [apply Lv; now left|]. split; auto. rewrite B. apply IH; auto. intros z Hz. apply Lv. now right. Qed.
Lemma walk_uniq l L : forall prev prev' l', (forall y, In y L -> In y (lst l ps)) -> seg h l prev L None -> list_walk h l (hdo L None) prev' l' -> l' = L.
Proof.
  induction L as [|y L IH]; intros prev prev' l' Sub; cbn [seg hdo]; intros S W.
  - destruct l' as [|z l']; auto. cbn in W. destruct W as [W _]. discriminate.
  - destruct l' as [|z l']; cbn [list_walk] in W; [discriminate|]. destruct W as [E (sd & W1 & W2 & W3)]. inversion E; subst z. f_equal. destruct S as (A & B & C). assert (K : In y (lst l ps)) by (apply Sub; now left). apply lst_in in K. destruct K as (a & b & K & _). rewrite (side_is _ _ _ _ _ K W1) in W3. unfold nxt in B. rewrite B in W3. eapply IH; eauto. intros v Hv. apply Sub. now right.
Qed.
Lemma pair_list_is l L : pair_list h l L <-> L = lst l ps.
Proof.
  destruct (e_list _ _ _ _ P l I) as [H S]. unfold pair_list. rewrite H. split; [intros W; eapply walk_uniq; eauto|]. intros ->. apply seg_walk; auto. intros y Hy. eapply lst_live; eauto.
Qed.
Lemma pair_of_iff y a b l : In (y, (a, b)) ps -> (pair_of h y l <-> a = l \/ b = l).
Proof. intros K. destruct (e_leaf _ _ _ _ P _ _ _ K) as (A & B & D). unfold pair_of. split; [intros ([] & E); [left|right]; congruence|intros [->| ->]; [exists true|exists false]; auto]. Qed.
Lemma pair_ofb_touch y a b l : In (y, (a, b)) ps -> pair_ofb h l y = touch l (y, (a, b)).
Proof. intros K. destruct (e_leaf _ _ _ _ P _ _ _ K) as (A & B & D). unfold pair_ofb, touch. rewrite A, B. reflexivity. Qed.
Lemma pool_walk_pairs : exists lf, pair_pool_walk h (p_pool h) lf /\ NoDup lf /\ forall y l L, pair_list h l L -> In y L -> ~ In y lf.
Proof.
  exists pp. split; [|split].
  - exact (e_pool _ _ _ _ P).
  - apply cnt_nodup. intros y. pose proof (e_cnt _ _ _ _ P y) as C. rewrite cnt_app in C. lia.
  - intros y l L W K. apply pair_list_is in W. subst L. apply lst_in in K. destruct K as (a & b & K & _). pose proof (e_cnt _ _ _ _ P y) as C. rewrite cnt_app in C. assert (0 < cnt y (map fst ps)) by (apply cnt_in; apply in_map_iff; exists (y, (a, b)); auto). rewrite cnt_in. lia.
Qed.
End Lists.
Lemma pool_walk_is f p l : pool_walk f p l <-> nchain f p l. Proof. revert p. induction l as [|y l IH]; intros p; cbn; [tauto|]. now rewrite IH. Qed.
Lemma tree_size_is t : tree_size t = tsize t. Proof. induction t; cbn; auto. Qed.

Lemma query_shows h t : forall par a q fuel, shows (nodes h) par a t -> tree_size t <= fuel -> ptr_subtree_query fuel h a q = Some (map Some (tquery t q)).
Proof.
  induction t as [i b|b l IHl r IHr]; intros par a q fuel; cbn [shows tree_size]; intros (_ & S) L; (destruct fuel as [|fuel]; [lia|]); cbn [ptr_subtree_query tquery tbb]; unfold ptr_is_leaf.
  - destruct S as [-> ->]. now destruct (bb_intersects b q).
  - destruct S as (-> & -> & p & p' & -> & -> & Sl & Sr). destruct (bb_intersects b q); auto. rewrite (IHl _ _ q fuel Sl), (IHr _ _ q fuel Sr) by lia. now rewrite map_app.
Qed.
Lemma shows_bb f par a t : shows f par a t -> n_bb (f a) = tbb t.
Proof. destruct t; cbn [shows]; tauto. Qed.
Lemma segment_shows {St} (f : nat -> St -> num * St) u v h t : forall par a e s fuel, shows (nodes h) par a t -> tree_size t <= fuel -> ptr_subtree_segment fuel f u v h a e s = Some (tsegment f u v t e s).
Proof.
  induction t as [i b|b l IHl r IHr]; intros par a e s fuel; cbn [shows tree_size]; intros (_ & S) L; (destruct fuel as [|fuel]; [lia|]); cbn [ptr_subtree_segment tsegment].
  - destruct S as [-> _]. reflexivity.
  - destruct S as (-> & _ & p & p' & -> & -> & Sl & Sr). rewrite (shows_bb _ _ _ _ Sl), (shows_bb _ _ _ _ Sr).
    assert (Gl : forall e s, ptr_subtree_segment fuel f u v h p e s = Some (tsegment f u v l e s)) by (intros; eapply IHl; eauto; lia).
    assert (Gr : forall e s, ptr_subtree_segment fuel f u v h p' e s = Some (tsegment f u v r e s)) by (intros; eapply IHr; eauto; lia).
    set (ta := bb_segment_query (tbb l) u v). set (tb := bb_segment_query (tbb r) u v). destruct (ta <? tb)%num; cbn [fst snd].
    + destruct (ta <? e)%num; [rewrite Gl; destruct (tsegment f u v l e s); cbn [fst snd]|cbn [fst snd]]; (match goal with |- context[(tb <? ?z)%num] => destruct (tb <? z)%num; auto; rewrite Gr end); (match goal with |- context[tsegment f u v r ?y ?z] => destruct (tsegment f u v r y z); reflexivity end).
    + destruct (tb <? e)%num; [rewrite Gr; destruct (tsegment f u v r e s); cbn [fst snd]|cbn [fst snd]]; (match goal with |- context[(ta <? ?z)%num] => destruct (ta <? z)%num; auto; rewrite Gl end); (match goal with |- context[tsegment f u v l ?y ?z] => destruct (tsegment f u v l y z); reflexivity end).
Qed.

(** ** Reached states *)
Lemma reached_represents box vel h s c : in_order_all (index0 box vel) h -> ptr_reached buf box vel h s c -> represents s (xrun (index0 box vel) h) /\ c = map (map objs) (xcalls_all (index0 box vel) h).
Proof.
  intros V (fuel & E). destruct (run_step buf h _ V) as (n & U). destruct (U (n + fuel) (pindex0 box vel) ltac:(lia) (start buf box vel)) as (s' & E' & R). rewrite (run_fuel buf fuel (n + fuel) h ltac:(lia) _ _ E) in E'. inversion E'; subst. auto.
Qed.
Lemma run_total box vel h : in_order_all (index0 box vel) h -> exists n s c, forall fuel, n <= fuel -> ptr_run buf fuel (pindex0 box vel) h = Some (s, c).
Proof.
  intros V. destruct (run_step buf h _ V) as (n & U). destruct (U n (pindex0 box vel) ltac:(lia) (start buf box vel)) as (s & E & R). exists n, s, (map (map objs) (xcalls_all (index0 box vel) h)). intros fuel L. exact (run_fuel buf n fuel h L _ _ E).
Qed.
Section Reached.
Variables (box : nat -> bb) (vel : nat -> vec) (h : list xop) (s : pindex) (c : list (list (option nat * option nat))).
Hypothesis V : in_order_all (index0 box vel) h.
Hypothesis R : ptr_reached buf box vel h s c.
Let x := xrun (index0 box vel) h.
Lemma tree_top : (forall d, root_shows s d (x_root x d)) /\ c = map (map objs) (xcalls_all (index0 box vel) h).
Proof.
  destruct (reached_represents _ _ _ _ _ V R) as ((T & np & ps & pp & F) & ->). fold x in F. split; auto. intros d. unfold root_shows. rewrite (r_root _ _ _ _ _ _ F d), <- (r_tree _ _ _ _ _ _ F d). destruct (T d) as [t|] eqn:E; cbn; auto. apply at_shows. exact (f_at _ _ _ _ (r_node _ _ _ _ _ _ F) d t E).
Qed.
Lemma nodes_top : exists lt lf : bool -> list nat, (forall d a, In a (lt d) <-> tree_node s d a) /\ (forall d, length (lt d) = match x_root x d with Some t => tree_size t | None => 0 end) /\
  (forall d, pool_walk (nodes (ix_n s)) (n_pool (ix_n s) d) (lf d)) /\ NoDup (lt true ++ lt false ++ lf true ++ lf false).
Proof.
  destruct (reached_represents _ _ _ _ _ V R) as ((T & np & ps & pp & F) & _). fold x in F. exists (fun d => oaddrs (T d)), np. split; [intros d a; symmetry; apply (tree_nodes _ _ _ _ _ _ F)|]. split; [|split].
  - intros d. rewrite <- (r_tree _ _ _ _ _ _ F d). destruct (T d); cbn; auto. now rewrite tree_size_is, tsize_addrs.
  - intros d. apply pool_walk_is. apply (f_pool _ _ _ _ (r_node _ _ _ _ _ _ F)).
  - apply cnt_nodup. intros a. pose proof (f_cnt _ _ _ _ (r_node _ _ _ _ _ _ F) true a) as C. cbn [negb] in C. rewrite !cnt_app. lia.
Qed.
Lemma lists_top k a : leaf_node s k a -> exists l, pair_list (ix_p s) a l /\ NoDup l /\
  Forall2 (fun p q => exists b b', t_leaf (pth (ix_p s) q true) = Some b /\ t_leaf (pth (ix_p s) q false) = Some b' /\ leaf_node s (fst p) b /\ leaf_node s (snd p) b') (filter (touches k) (x_pairs x)) l.
Proof.
  destruct (reached_represents _ _ _ _ _ V R) as ((T & np & ps & pp & F) & _). fold x in F. intros K. apply (leaf_keys _ _ _ _ _ _ F) in K. pose proof (r_prep _ _ _ _ _ _ F) as P. exists (lst a ps). split; [now apply (pair_list_is _ _ _ P)|]. split; [eapply lst_nodup; eauto|].
  destruct (filter_rel _ _ _ _ (r_node _ _ _ _ _ _ F) (r_shapes _ _ _ _ _ _ F) k a _ _ K (r_pairs _ _ _ _ _ _ F)) as [G _]. unfold lst. assert (Sub : forall q, In q (filter (touch a) ps) -> In q ps) by (intros q Hq; apply filter_In in Hq; tauto). revert G Sub. generalize (filter (touch a) ps) (filter (touches k) (x_pairs x)). intros L M G. induction G as [|p q M L [B1 B2] G IH]; intros Sub; cbn [map]; constructor.
  - destruct q as [y [b b']]. cbn [fst snd] in *. destruct (e_leaf _ _ _ _ P y b b') as (A1 & A2 & _); [apply Sub; now left|]. exists b, b'. split; auto. split; auto. split; apply (leaf_keys _ _ _ _ _ _ F); auto.
  - apply IH. intros q' Hq. apply Sub. now right.
Qed.
Lemma two_lists_top a l p : pair_list (ix_p s) a l -> In p l -> exists b, b <> a /\ pair_of (ix_p s) p a /\ pair_of (ix_p s) p b /\ (exists ka kb, leaf_node s ka a /\ leaf_node s kb b) /\ forall e m, pair_list (ix_p s) e m -> (In p m <-> e = a \/ e = b).
Proof.
  destruct (reached_represents _ _ _ _ _ V R) as ((T & np & ps & pp & F) & _). fold x in F. pose proof (r_prep _ _ _ _ _ _ F) as P. intros W K. apply (pair_list_is _ _ _ P) in W. subst l. apply lst_in in K. destruct K as (u & v & K & D). destruct (e_leaf _ _ _ _ P _ _ _ K) as (A1 & A2 & A3).
  assert (Ku : forall a b, In (p, (a, b)) ps -> a = u /\ b = v). { intros a' b' K'. destruct (e_leaf _ _ _ _ P _ _ _ K') as (B1 & B2 & _). split; congruence. }
  assert (Kk : exists ku kv, is_key T ku u /\ is_key T kv v). { pose proof (r_pairs _ _ _ _ _ _ F) as G. revert G K. clear. intros G K. induction G as [|q r M L [B1 B2] G IH]; [contradiction|]. destruct K as [->|K]; [|apply IH; auto]. cbn [fst snd] in *. eauto. }
  destruct Kk as (ku & kv & Ku1 & Kv1). apply (leaf_keys _ _ _ _ _ _ F) in Ku1. apply (leaf_keys _ _ _ _ _ _ F) in Kv1.
  exists (if Nat.eqb u a then v else u). destruct (Nat.eqb_spec u a) as [->|Du].
  - split; auto. split; [exists true; auto|]. split; [exists false; auto|]. split; [eauto|]. intros e m W. apply (pair_list_is _ _ _ P) in W. subst m. rewrite lst_in. split; [intros (a' & b' & K' & D'); destruct (Ku _ _ K'); subst; intuition|intros [->| ->]; exists a, v; auto].
  - assert (v = a) as -> by tauto. split; auto. split; [exists false; auto|]. split; [exists true; auto|]. split; [eauto|]. intros e m W. apply (pair_list_is _ _ _ P) in W. subst m. rewrite lst_in. split; [intros (a' & b' & K' & D'); destruct (Ku _ _ K'); subst; intuition|intros [->| ->]; exists u, a; auto].
Qed.
Lemma pair_pool_top : exists lf, pair_pool_walk (ix_p s) (p_pool (ix_p s)) lf /\ NoDup lf /\ forall p a l, pair_list (ix_p s) a l -> In p l -> ~ In p lf.
Proof. destruct (reached_represents _ _ _ _ _ V R) as ((T & np & ps & pp & F) & _). exact (pool_walk_pairs _ _ _ (r_prep _ _ _ _ _ _ F)). Qed.
Lemma clear_top a : exists n h', (forall fuel, n <= fuel -> ptr_pairs_clear fuel a (ix_p s) = Some h') /\ pair_list h' a [] /\ (forall b l, pair_list (ix_p s) b l -> pair_list h' b (filter (fun p => negb (pair_ofb (ix_p s) a p)) l)) /\
  exists lf, pair_pool_walk h' (p_pool h') lf /\ NoDup lf /\ (forall p b l, pair_list h' b l -> In p l -> ~ In p lf).
Proof.
  destruct (reached_represents _ _ _ _ _ V R) as ((T & np & ps & pp & F) & _). pose proof (r_prep _ _ _ _ _ _ F) as P. destruct (pairs_clear_ok _ _ _ a (length (lst a ps)) P ltac:(lia)) as (h' & pp' & E & P'). exists (length (lst a ps)), h'. split; [intros fuel L; exact (pclear_fuel a _ fuel _ _ E L)|].
  assert (G : forall b, lst b (filter (fun q => negb (touch a q)) ps) = filter (fun p => negb (pair_ofb (ix_p s) a p)) (lst b ps)).
  { intros b. unfold lst. assert (Sub : forall q, In q ps -> In q ps) by auto. revert Sub. generalize ps at 1 3 4. intros L. induction L as [|[y [u v]] L IH]; intros Sub; cbn [filter map]; auto. assert (Ky : In (y, (u, v)) ps) by (apply Sub; now left). rewrite <- (pair_ofb_touch _ _ _ P y u v a Ky). specialize (IH (fun q Hq => Sub q (or_intror Hq))). destruct (pair_ofb (ix_p s) a y) eqn:Ea; cbn [negb filter]; destruct (touch b (y, (u, v))); cbn [map filter fst]; rewrite ?Ea; cbn [negb]; rewrite ?IH; auto. }
  split; [|split].
  - apply (pair_list_is _ _ _ P'). rewrite G. symmetry. apply filter_none. intros y Hy. apply lst_in in Hy. destruct Hy as (u & v & K & D). rewrite (pair_ofb_touch _ _ _ P y u v a K). unfold touch. cbn. apply negb_false_iff. apply orb_true_iff. now rewrite !Nat.eqb_eq.
  - intros b l W. apply (pair_list_is _ _ _ P) in W. subst l. apply (pair_list_is _ _ _ P'). symmetry. apply G.
  - exact (pool_walk_pairs _ _ _ P').
Qed.
Lemma insert_top a b : a <> b -> exists p h', ptr_pair_insert buf a b (ix_p s) = h' /\ t_leaf (pth h' p true) = Some a /\ t_leaf (pth h' p false) = Some b /\
  (forall e l, pair_list (ix_p s) e l -> ~ In p l /\ pair_list h' e (if Nat.eqb e a || Nat.eqb e b then p :: l else l)) /\
  exists lf, pair_pool_walk h' (p_pool h') lf /\ NoDup lf /\ (forall q e l, pair_list h' e l -> In q l -> ~ In q lf).
Proof.
  intros D. destruct (reached_represents _ _ _ _ _ V R) as ((T & np & ps & pp & F) & _). pose proof (r_prep _ _ _ _ _ _ F) as P. destruct (pair_insert_ok buf _ _ _ a b P D) as (p & pp' & P'). exists p, (ptr_pair_insert buf a b (ix_p s)). split; auto. destruct (e_leaf _ _ _ _ P' p a b) as (A1 & A2 & _); [now left|]. split; auto. split; auto. split.
  - intros e l W. apply (pair_list_is _ _ _ P) in W. subst l. split.
    + intros K. apply lst_in in K. destruct K as (u & v & K & _). pose proof (e_cnt _ _ _ _ P' p) as C. cbn [map fst app] in C. rewrite cnt_cons, Nat.eqb_refl, cnt_app in C. assert (0 < cnt p (map fst ps)) by (apply cnt_in; apply in_map_iff; exists (p, (u, v)); auto). lia.
    + apply (pair_list_is _ _ _ P'). unfold lst. cbn [filter]. change (touch e (p, (a, b))) with (Nat.eqb a e || Nat.eqb b e). rewrite (Nat.eqb_sym a e), (Nat.eqb_sym b e). destruct (Nat.eqb e a || Nat.eqb e b); reflexivity.
  - exact (pool_walk_pairs _ _ _ P').
Qed.
Lemma queries_top d : exists n, forall fuel, n <= fuel -> (forall q, ptr_query fuel s d q = Some (map Some (index_query x d q))) /\
  forall St (f : nat -> St -> num * St) a b e z, ptr_segment fuel f s d a b e z = Some (index_segment f x d a b e z).
Proof.
  destruct tree_top as [Sh _]. specialize (Sh d). unfold root_shows, ptr_query, ptr_segment, index_query, index_segment in *. destruct (n_root (ix_n s) d) as [a|], (x_root x d) as [t|]; try contradiction.
  - exists (tree_size t). intros fuel L. split; [intros q; eapply query_shows; eauto|]. intros St f u v e z. erewrite segment_shows by eauto. reflexivity.
  - exists 0. auto.
Qed.
End Reached.
End Top.
