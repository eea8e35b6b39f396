(** Proofs for C15: every operation of BBTreePtr.v does what BBTree.v says. *)
From Coq Require Import Bool List Arith Lia Permutation.
From Verif Require Import Num Vec BB BBTree BBTreePtr BBTreePtrSpec BBTreePtrPairs BBTreePtrNodes BBTreePtrForest.
Import ListNotations.
Local Open Scope nat_scope.

Section Refine.
Context {N : Num}.
Variable buf : nat.

(** the leaf node a is that of key k *)
Definition is_key (T : bool -> option pt) (k : key) (a : nat) : Prop := In (snd k, a) (oleaves (T (fst k))).
Definition prel (T : bool -> option pt) (p : pair) (q : pr) : Prop := is_key T (fst p) (fst (snd q)) /\ is_key T (snd p) (snd (snd q)).
Record refines (s : pindex) (x : index) (T : bool -> option pt) (np : bool -> list nat) (ps : list pr) (pp : list nat) : Prop := {
  r_tree : forall d, option_map erase (T d) = x_root x d;
  r_node : nrep (ix_n s) T np [];
  r_root : forall d, n_root (ix_n s) d = option_map addr (T d);
  r_fst : forall d, map fst (ix_leaves s d) = x_leaves x d;
  r_leaf : forall d q, In q (ix_leaves s d) <-> In q (oleaves (T d));
  r_nodup : forall d, NoDup (x_leaves x d);
  r_shapes : forall d i, cnt i (map fst (oleaves (T d))) <= 1;
  r_prep : prep (fun _ => True) (ix_p s) ps pp;
  r_pairs : Forall2 (prel T) (x_pairs x) ps;
  r_stamp : ix_stamp s = x_stamp x;
  r_lstamp : forall k a, is_key T k a -> ix_lstamp s a = x_lstamp x k;
  r_box : ix_box s = x_box x;
  r_vel : ix_vel s = x_vel x }.

Lemma leaf_addr t i a : In (i, a) (pleaves t) -> In a (addrs t).
Proof. induction t as [b j bx|b bx l IHl r IHr]; cbn; [intros [E|[]]; inversion E; auto|]. rewrite !in_app_iff. tauto. Qed.
Lemma leaf_obj f t i a : forall par, at_ f t par -> In (i, a) (pleaves t) -> n_obj (f a) = Some i.
Proof. induction t as [b j bx|b bx l IHl r IHr]; intros par; cbn [at_ pleaves]; [intros A [E|[]]; inversion E; subst; tauto|]. intros (_ & _ & _ & _ & _ & A & B) K. apply in_app_or in K. destruct K; eauto. Qed.
Lemma assoc_fun (l : list (nat * nat)) i a b : cnt i (map fst l) <= 1 -> In (i, a) l -> In (i, b) l -> a = b.
Proof.
  induction l as [|[j c] l IH]; cbn [In map fst]; [contradiction|]. rewrite cnt_cons. intros C A B. assert (Z : forall v, In (i, v) l -> 0 < cnt i (map fst l)) by (intros v K; apply cnt_in; apply in_map_iff; exists (i, v); auto).
  destruct A as [A|A], B as [B|B]; [congruence| | |apply IH; auto; lia].
  - inversion A; subst. rewrite Nat.eqb_refl in C. apply Z in B. lia. - inversion B; subst. rewrite Nat.eqb_refl in C. apply Z in A. lia.
Qed.
Lemma F2_len {A B} (P : A -> B -> Prop) l m : Forall2 P l m -> length l = length m. Proof. induction 1; cbn; auto. Qed.
Lemma lst_len la ps : length (lst la ps) <= length ps. Proof. unfold lst. rewrite map_length. induction ps as [|q ps IH]; cbn; [lia|]. destruct (touch la q); cbn; lia. Qed.
Lemma key_dec (a b : key) : key_eqb a b = true <-> a = b.
Proof. destruct a as [d i], b as [e j]. unfold key_eqb. cbn. rewrite andb_true_iff, Bool.eqb_true_iff, Nat.eqb_eq. split; [intros [-> ->]; auto|intros E; inversion E; auto]. Qed.

Section State.
Variables (h : nheap) (T : bool -> option pt) (np : bool -> list nat) (lo : list nat).
Hypothesis R : nrep h T np lo.
Hypothesis S1 : forall d i, cnt i (map fst (oleaves (T d))) <= 1.
Lemma key_obj k a : is_key T k a -> n_obj (nodes h a) = Some (snd k).
Proof. unfold is_key. destruct (T (fst k)) as [t|] eqn:E; [|contradiction]. intros K. eapply leaf_obj; [apply (f_at _ _ _ _ R _ _ E)|exact K]. Qed.
Lemma key_addr k a : is_key T k a -> In a (oaddrs (T (fst k))).
Proof. unfold is_key. destruct (T (fst k)) as [t|] eqn:E; [|contradiction]. apply leaf_addr. Qed.
Lemma key_inj k k' a : is_key T k a -> is_key T k' a -> k = k'.
Proof.
  intros A B. pose proof (key_obj _ _ A) as Oa. rewrite (key_obj _ _ B) in Oa. apply key_addr in A. apply key_addr in B. destruct k as [d i], k' as [e j]. cbn in *. inversion Oa; subst. f_equal. destruct (Bool.bool_dec d e) as [|D]; auto. assert (e = negb d) as -> by (destruct d, e; cbn; congruence). pose proof (f_cnt _ _ _ _ R d a). apply cnt_in in A. apply cnt_in in B. lia.
Qed.
Lemma key_fun k a b : is_key T k a -> is_key T k b -> a = b.
Proof. unfold is_key. apply assoc_fun. apply S1. Qed.
Lemma key_test k a p q : is_key T k a -> prel T p q -> key_eqb k (fst p) = Nat.eqb (fst (snd q)) a /\ key_eqb k (snd p) = Nat.eqb (snd (snd q)) a.
Proof.
  intros A [B C]. split; [destruct (key_eqb k (fst p)) eqn:E, (Nat.eqb_spec (fst (snd q)) a) as [F|F]|destruct (key_eqb k (snd p)) eqn:E, (Nat.eqb_spec (snd (snd q)) a) as [F|F]]; auto.
  - exfalso. apply key_dec in E. rewrite <- E in B. apply F. eapply key_fun; eauto.
  - exfalso. rewrite F in B. assert (k = fst p) as G by (eapply key_inj; eauto). apply key_dec in G. congruence.
  - exfalso. apply key_dec in E. rewrite <- E in C. apply F. eapply key_fun; eauto.
  - exfalso. rewrite F in C. assert (k = snd p) as G by (eapply key_inj; eauto). apply key_dec in G. congruence.
Qed.
Lemma touch_test k a p q : is_key T k a -> prel T p q -> touches k p = touch a q.
Proof. intros A B. destruct (key_test k a p q A B) as [E F]. unfold touches, touch. now rewrite E, F. Qed.
Lemma filter_rel k a xs ps : is_key T k a -> Forall2 (prel T) xs ps -> Forall2 (prel T) (filter (touches k) xs) (filter (touch a) ps) /\ Forall2 (prel T) (filter (fun p => negb (touches k p)) xs) (filter (fun q => negb (touch a q)) ps).
Proof. intros A F. induction F as [|p q xs ps B F [IH1 IH2]]; cbn; auto. rewrite (touch_test k a p q A B). destruct (touch a q); cbn; auto. Qed.
End State.

(** ** Marking *)
Definition macc_rel (T : bool -> option pt) (m : pacc) (xm : macc) (ps : list pr) (pp : list nat) : Prop :=
  prep (fun _ => True) (fst m) ps pp /\ Forall2 (prel T) (fst xm) ps /\ snd m = map objs (snd xm).
Section Mark.
Variables (s : pindex) (x : index) (T : bool -> option pt) (np : bool -> list nat) (lo : list nat).
Hypothesis R : nrep (ix_n s) T np lo.
Hypothesis S1 : forall d i, cnt i (map fst (oleaves (T d))) <= 1.
Hypothesis St : ix_stamp s = x_stamp x.
Hypothesis Ls : forall k a, is_key T k a -> ix_lstamp s a = x_lstamp x k.
Hypothesis Tr : forall d, option_map erase (T d) = x_root x d.
Hypothesis Rt : forall d, n_root (ix_n s) d = option_map addr (T d).

Lemma mark_query_ok d k la lb left : is_key T k la -> n_bb (nodes (ix_n s) la) = lb -> forall t par fuel m xm ps pp, at_ (nodes (ix_n s)) t par -> (forall q, In q (pleaves t) -> In q (oleaves (T d)) /\ snd q <> la) -> tsize (erase t) <= fuel -> macc_rel T m xm ps pp ->
  exists m' ps' pp', ptr_mark_query buf fuel s (addr t) la left m = Some m' /\ macc_rel T m' (mark_query x d (erase t) k lb left xm) ps' pp'.
Proof.
  intros Kl Eb. induction t as [a j b|a b l IHl r IHr]; intros par fuel m xm ps pp A Sub Lf M; cbn [erase] in *; (destruct fuel as [|fuel]; [cbn in Lf; lia|]); cbn [ptr_mark_query mark_query addr]; rewrite Eb; cbn [tbb].
  - cbn [at_] in A. destruct A as (A1 & A2 & A3). rewrite A2. destruct (bb_intersects lb b); [|exists m, ps, pp; auto]. unfold ptr_is_leaf. rewrite A1. assert (Ka : is_key T (d, j) a /\ a <> la) by (apply (Sub (j, a)); now left). destruct Ka as [Ka Da]. destruct M as (M1 & M2 & M3).
    destruct left.
    + destruct (pair_insert_ok buf (fst m) ps pp la a M1) as (p & pp' & P); auto. eexists _, _, pp'. split; [reflexivity|]. split; [exact P|]. cbn [fst snd]. split; [|exact M3]. constructor; auto. split; cbn; auto.
    + rewrite (Ls _ _ Ka), (Ls _ _ Kl). cbn [fst snd]. destruct (Nat.ltb (x_lstamp x (d, j)) (x_lstamp x k)).
      * destruct (pair_insert_ok buf (fst m) ps pp a la M1) as (p & pp' & P); auto. eexists _, _, pp'. split; [reflexivity|]. split; [exact P|]. cbn [fst snd]. split; [constructor; auto; split; cbn; auto|]. cbn [map]. unfold objs at 1. cbn. now rewrite M3, (key_obj _ _ _ _ R _ _ Kl).
      * eexists _, ps, pp. split; [reflexivity|]. split; [exact M1|]. cbn [fst snd]. split; [exact M2|]. cbn [map]. unfold objs at 1. cbn. now rewrite M3, (key_obj _ _ _ _ R _ _ Kl).
  - cbn [at_] in A. destruct A as (A1 & A2 & A3 & A4 & A5 & A6 & A7). rewrite A2. destruct (bb_intersects lb b); [|exists m, ps, pp; auto]. unfold ptr_is_leaf. rewrite A1, A4, A5. cbn [tsize] in Lf.
    destruct (IHl (Some a) fuel m xm ps pp A6) as (m1 & ps1 & pp1 & E1 & M1); auto; [intros q Hq; apply Sub; cbn; apply in_or_app; auto|lia|]. rewrite E1.
    destruct (IHr (Some a) fuel m1 (mark_query x d (erase l) k lb left xm) ps1 pp1 A7) as (m2 & ps2 & pp2 & E2 & M2); auto; [intros q Hq; apply Sub; cbn; apply in_or_app; auto|lia|]. rewrite E2. eauto.
Qed.
Lemma mark_root_ok d k la lb left fuel m xm ps pp : is_key T k la -> fst k <> d -> n_bb (nodes (ix_n s) la) = lb -> osize (x_root x d) <= fuel -> macc_rel T m xm ps pp ->
  exists m' ps' pp', (match n_root (ix_n s) d with Some r => ptr_mark_query buf fuel s r la left m | None => Some m end) = Some m' /\ macc_rel T m' (mark_query_root x d k lb left xm) ps' pp'.
Proof.
  intros Kl Dd Eb Lf M. unfold mark_query_root. rewrite <- Tr in *. rewrite Rt. destruct (T d) as [t|] eqn:Et; cbn [option_map osize] in *; [|eauto]. eapply mark_query_ok; eauto; [apply (f_at _ _ _ _ R d t Et)|].
  intros [i a] Hq. rewrite Et. split; [exact Hq|]. cbn. intros ->. apply key_addr in Kl. assert (In la (oaddrs (T d))) as K by (rewrite Et; eapply leaf_addr; eauto). assert (fst k = negb d) as E by (destruct (fst k), d; cbn; congruence). rewrite E in Kl. pose proof (f_cnt _ _ _ _ R d la). apply cnt_in in K. apply cnt_in in Kl. lia.
Qed.
Lemma mark_up_ok k la lb : is_key T k la -> n_bb (nodes (ix_n s) la) = lb -> forall c cur fuel m xm ps pp, at_ctx (nodes (ix_n s)) c cur -> n_parent (nodes (ix_n s) cur) = par_of c -> apart (cur :: caddrs c) -> (forall q, In q (cleaves c) -> In q (oleaves (T true)) /\ snd q <> la) -> length (caddrs c) <= fuel -> macc_rel T m xm ps pp ->
  exists m' ps' pp', ptr_mark_up buf fuel s cur la m = Some m' /\ macc_rel T m' (fold_left (fun m u => mark_query x true (fst u) k lb (snd u) m) (map (fun f : frame => let '(_, _, dir, v) := f in (erase v, dir)) c) xm) ps' pp'.
Proof.
  intros Kl Eb. induction c as [|[[[a b] dir] v] c IH]; intros cur fuel m xm ps pp A Pa Ap Sub Lf M.
  - cbn [par_of] in Pa. exists m, ps, pp. split; [|exact M]. destruct fuel; cbn [ptr_mark_up]; now rewrite Pa.
  - cbn [at_ctx par_of caddrs length cleaves] in *. rewrite app_length in Lf. destruct fuel as [|fuel]; [lia|]. destruct A as (A1 & A2 & A3 & A4 & A5 & A6 & A7).
    assert (Dv : cur <> addr v). { intros ->. specialize (Ap (addr v)). rewrite !cnt_cons, cnt_app, Nat.eqb_refl in Ap. pose proof (addr_in v) as K. apply cnt_in in K. lia. }
    assert (Q : exists m1 ps1 pp1, (if same (Some cur) (n_a (nodes (ix_n s) a)) then let* b := n_b (nodes (ix_n s) a) in ptr_mark_query buf fuel s b la true m else let* a0 := n_a (nodes (ix_n s) a) in ptr_mark_query buf fuel s a0 la false m) = Some m1 /\ macc_rel T m1 (mark_query x true (erase v) k lb dir xm) ps1 pp1).
    { rewrite A4, A5. destruct dir; [rewrite same_refl|rewrite same_some by auto]; (eapply mark_query_ok; [exact Kl|exact Eb|exact A6| | |exact M]; [intros q Hq; apply Sub; apply in_or_app; auto|rewrite tsize_addrs; lia]). }
    destruct Q as (m1 & ps1 & pp1 & E1 & M1). cbn [ptr_mark_up]. rewrite Pa, E1. cbn [map fold_left fst snd]. apply (IH a fuel m1 _ ps1 pp1); auto.
    + intros y. specialize (Ap y). rewrite !cnt_cons, cnt_app in Ap. rewrite cnt_cons. lia. + intros q Hq. apply Sub. apply in_or_app. auto. + lia.
Qed.
Lemma pairs_walk_ok k la hp ps0 pp0 : is_key T k la -> prep (fun _ => True) hp ps0 pp0 -> forall xs qs prev fuel c xc, Forall2 (prel T) xs qs -> (forall q, In q qs -> In q ps0 /\ touch la q = true) -> seg hp la prev (map fst qs) None -> length qs <= fuel -> c = map objs xc ->
  ptr_pairs_walk fuel s la (hdo (map fst qs) None) (hp, c) = Some (hp, map objs (fold_left (fun c p => if key_eqb k (snd p) then (fst p, k) :: c else c) xs xc)).
Proof.
  intros Kl P xs. induction xs as [|p xs IH]; intros qs prev fuel c xc F Sub Sg Lf Ec; inversion F; subst; clear F.
  - destruct fuel; reflexivity.
  - rename y into q, l' into qs. destruct fuel as [|fuel]; [cbn in Lf; lia|]. destruct q as [z [za zb]]. cbn [map hdo fst] in *. cbn [ptr_pairs_walk]. destruct (Sub (z, (za, zb)) (or_introl eq_refl)) as [In0 T0]. destruct (e_leaf _ _ _ _ P _ _ _ In0) as (L1 & L2 & Dz). cbn [fst]. rewrite L1, L2. destruct (key_test _ _ _ _ R S1 k la p (z, (za, zb)) Kl H1) as [Ka Kb]. cbn [fst snd] in Ka, Kb.
    cbn [seg] in Sg. destruct Sg as (G1 & G2 & G3). unfold nxt in G2. unfold side in G2. rewrite L1 in G2. assert (Sub' : forall q, In q qs -> In q ps0 /\ touch la q = true) by (intros q Hq; apply Sub; now right). cbn [length] in Lf. cbn [fold_left]. rewrite Kb. unfold touch in T0. cbn [fst snd] in T0.
    destruct (Nat.eqb_spec zb la) as [->|Db].
    + rewrite same_refl. rewrite same_some in G2 by auto. rewrite G2. apply (IH qs (Some z)); auto; [lia|]. cbn [map]. f_equal. destruct H1 as [B1 B2]. cbn [fst snd] in *. unfold objs. cbn [fst snd]. now rewrite (key_obj _ _ _ _ R _ _ B1), (key_obj _ _ _ _ R _ _ Kl).
    + rewrite same_some by auto. rewrite orb_false_r in T0. apply Nat.eqb_eq in T0. subst za. rewrite same_refl in G2. rewrite G2. apply (IH qs (Some z)); auto. lia.
Qed.
(** the dynamic leaf with its frames *)
Lemma mark_leaf_ok i la lb m xm ps pp fuel : In (i, la) (oleaves (T true)) -> n_bb (nodes (ix_n s) la) = lb -> macc_rel T m xm ps pp -> osize (x_root x true) + osize (x_root x false) + length (fst xm) <= fuel ->
  exists m' ps' pp', ptr_mark_leaf buf fuel s la m = Some m' /\ macc_rel T m' (mark_leaf x i lb xm) ps' pp'.
Proof.
  intros Il Eb M Lf. assert (Kl : is_key T (true, i) la) by exact Il. unfold ptr_mark_leaf, mark_leaf. rewrite (Ls _ _ Kl), St. destruct (Nat.eqb _ _).
  - destruct (mark_root_ok false (true, i) la lb false fuel m xm ps pp) as (m1 & ps1 & pp1 & E1 & M1); auto; [cbn; congruence|lia|]. rewrite E1. change (x_dyn x) with (x_root x true). rewrite <- (Tr true) in *. destruct (T true) as [t|] eqn:Et; [|contradiction]. cbn [option_map oleaves osize] in *.
    destruct (plug_find i la t Il) as (lb' & c & ->). pose proof (f_at _ _ _ _ R true _ Et) as A. apply plug_at in A. destruct A as [A1 A2]. cbn [addr] in A2.
    assert (Ap : apart (la :: caddrs c)). { intros y. pose proof (f_cnt _ _ _ _ R true y) as F. rewrite Et in F. cbn [oaddrs] in F. rewrite plug_cnt in F. cbn [addrs] in F. rewrite cnt_cons, cnt_nil in F. rewrite cnt_cons. lia. }
    assert (Ni : ~ In i (map fst (cleaves c))). { pose proof (S1 true i) as C. rewrite Et in C. cbn [oleaves] in C. rewrite plug_cnt_leaves in C. cbn [pleaves map fst] in C. rewrite cnt_cons, Nat.eqb_refl in C. rewrite cnt_in. lia. }
    rewrite ups_plug by auto. eapply mark_up_ok; eauto.
    + exact (at_parent _ _ _ A1).
    + intros [j a] Hq. split; [rewrite Et; cbn [oleaves]; apply plug_leaves; auto|]. cbn. intros ->. assert (In (j, la) (pleaves (plug (PL la i lb') c))) as K by (apply plug_leaves; auto). pose proof (leaf_obj _ _ _ _ _ (f_at _ _ _ _ R true _ Et) K) as Oj. rewrite (leaf_obj _ _ _ _ _ (f_at _ _ _ _ R true _ Et) Il) in Oj. inversion Oj; subst j. apply Ni. apply in_map_iff. exists (i, la). auto.
    + rewrite tsize_addrs in Lf. pose proof (ctx_size (PL la i lb') c). lia.
  - destruct M as (M1 & M2 & M3). destruct (filter_rel _ _ _ _ R S1 (true, i) la (fst xm) ps Kl M2) as [F _]. destruct (e_list _ _ _ _ M1 la I) as [H1 H2]. destruct m as [hp c]. cbn [fst snd] in *. rewrite H1. unfold lst in *.
    assert (Len : length (filter (touch la) ps) <= fuel). { pose proof (F2_len _ _ _ M2). assert (G : forall (A : Type) (f : A -> bool) (l : list A), length (filter f l) <= length l) by (intros A f l; induction l as [|u l IHl]; cbn; [lia|]; destruct (f u); cbn; lia). specialize (G _ (touch la) ps). lia. }
    rewrite (pairs_walk_ok (true, i) la hp ps pp Kl M1 (filter (touches (true, i)) (fst xm)) (filter (touch la) ps) None fuel c (snd xm)); auto.
    + eexists _, ps, pp. split; [reflexivity|]. split; [exact M1|]. split; [exact M2|reflexivity].
    + intros q Hq. apply filter_In in Hq. exact Hq.
Qed.
Lemma mark_subtree_ok : forall t par n fuel m xm ps pp, at_ (nodes (ix_n s)) t par -> (forall q, In q (pleaves t) -> In q (oleaves (T true))) -> tsize (erase t) <= n -> macc_rel T m xm ps pp ->
  (forall l1 l2, tleaves (erase t) = l1 ++ l2 -> osize (x_root x true) + osize (x_root x false) + length (fst (fold_left (fun m p => mark_leaf x (fst p) (snd p) m) l1 xm)) <= fuel) ->
  exists m' ps' pp', ptr_mark_subtree buf fuel n s (addr t) m = Some m' /\ macc_rel T m' (fold_left (fun m p => mark_leaf x (fst p) (snd p) m) (tleaves (erase t)) xm) ps' pp'.
Proof.
  induction t as [a j b|a b l IHl r IHr]; intros par n fuel m xm ps pp A Sub Ln M Lf; cbn [erase] in *; (destruct n as [|n]; [cbn in Ln; lia|]); cbn [ptr_mark_subtree addr tleaves]; cbn [at_] in A; unfold ptr_is_leaf.
  - destruct A as (A1 & A2 & A3). rewrite A1. cbn [fold_left fst snd]. eapply mark_leaf_ok; eauto; [apply Sub; now left|]. apply (Lf [] [(j, b)]). reflexivity.
  - destruct A as (A1 & A2 & A3 & A4 & A5 & A6 & A7). rewrite A1, A4, A5. cbn [tsize] in Ln.
    destruct (IHl (Some a) n fuel m xm ps pp) as (m1 & ps1 & pp1 & E1 & M1); auto; [intros q Hq; apply Sub; cbn; apply in_or_app; auto|lia| |].
    { intros l1 l2 E. apply (Lf l1 (l2 ++ tleaves (erase r))). cbn [tleaves]. now rewrite E, app_assoc. }
    rewrite E1, fold_left_app. eapply IHr; eauto; [intros q Hq; apply Sub; cbn; apply in_or_app; auto|lia|].
    intros l1 l2 E. rewrite <- fold_left_app. apply (Lf (tleaves (erase l) ++ l1) l2). cbn [tleaves]. now rewrite E, app_assoc.
Qed.
End Mark.

(** ** Operations *)
Lemma find_assoc (l : list (nat * nat)) i a : cnt i (map fst l) <= 1 -> In (i, a) l -> find (fun p => Nat.eqb i (fst p)) l = Some (i, a).
Proof.
  induction l as [|[j c] l IH]; cbn [In map fst find]; [contradiction|]. rewrite cnt_cons. intros C [E|K]; [inversion E; subst; now rewrite Nat.eqb_refl|]. assert (0 < cnt i (map fst l)) by (apply cnt_in; apply in_map_iff; exists (i, a); auto). destruct (Nat.eqb_spec i j); [lia|]. apply IH; auto.
Qed.
Lemma find_box {B} (l : list (nat * B)) i b : cnt i (map fst l) <= 1 -> In (i, b) l -> find (fun p => Nat.eqb i (fst p)) l = Some (i, b).
Proof.
  induction l as [|[j c] l IH]; cbn [In map fst find]; [contradiction|]. rewrite cnt_cons. intros C [E|K]; [inversion E; subst; now rewrite Nat.eqb_refl|]. assert (0 < cnt i (map fst l)) by (apply cnt_in; apply in_map_iff; exists (i, b); auto). destruct (Nat.eqb_spec i j); [lia|]. apply IH; auto.
Qed.
Lemma plug_tleaves p c : forall t, In p (tleaves (erase t)) -> In p (tleaves (erase (plug t c))).
Proof. induction c as [|[[[a b] dir] v] c IH]; intros t K; cbn [plug]; auto. apply IH. destruct dir; cbn; apply in_or_app; auto. Qed.
Lemma leaf_bb_plug i la lb c : cnt i (map fst (pleaves (plug (PL la i lb) c))) <= 1 -> leaf_bb (Some (erase (plug (PL la i lb) c))) i = Some lb.
Proof. intros C. unfold leaf_bb. rewrite (find_box _ i lb); auto; [now rewrite tleaves_erase|]. apply plug_tleaves. now left. Qed.
Lemma nodup_cnt l x : NoDup l -> cnt x l <= 1. Proof. intros H. now apply cnt_nodup. Qed.

Section Ops.
Variables (s : pindex) (x : index) (T : bool -> option pt) (np : bool -> list nat) (ps : list pr) (pp : list nat).
Hypothesis F : refines s x T np ps pp.
Lemma find_leaf_in d i la : In (i, la) (oleaves (T d)) -> find_leaf s d i = Some la.
Proof. intros K. unfold find_leaf. rewrite (find_assoc _ i la); auto. - rewrite (r_fst _ _ _ _ _ _ F). apply nodup_cnt. apply F. - apply (r_leaf _ _ _ _ _ _ F). exact K. Qed.
Lemma leaf_exists d i : In i (x_leaves x d) -> exists la, In (i, la) (oleaves (T d)).
Proof. rewrite <- (r_fst _ _ _ _ _ _ F). rewrite in_map_iff. intros ([j a] & <- & K). exists a. apply (r_leaf _ _ _ _ _ _ F). exact K. Qed.
Lemma key_leaves d i la : In (i, la) (oleaves (T d)) -> In i (x_leaves x d).
Proof. intros K. rewrite <- (r_fst _ _ _ _ _ _ F). apply in_map_iff. exists (i, la). split; auto. apply (r_leaf _ _ _ _ _ _ F). exact K. Qed.
Lemma find_leaf_out d i : ~ In i (x_leaves x d) -> find_leaf s d i = None.
Proof. intros K. unfold find_leaf. destruct (find _ _) as [[j a]|] eqn:E; auto. apply find_some in E. destruct E as [E1 E2]. cbn in E2. apply Nat.eqb_eq in E2. subst. exfalso. apply K. rewrite <- (r_fst _ _ _ _ _ _ F). apply in_map_iff. exists (j, a). auto. Qed.
Lemma leaf_plug d i la : In (i, la) (oleaves (T d)) -> exists lb c, T d = Some (plug (PL la i lb) c) /\ n_bb (nodes (ix_n s) la) = lb /\ leaf_bb (x_root x d) i = Some lb /\ ~ In i (map fst (cleaves c)).
Proof.
  intros K. destruct (T d) as [t|] eqn:Et; [|contradiction]. cbn [oleaves] in K. destruct (plug_find i la t K) as (lb & c & ->). exists lb, c. split; auto.
  pose proof (f_at _ _ _ _ (r_node _ _ _ _ _ _ F) d _ Et) as A. apply plug_at in A. destruct A as [A _]. split; [apply A|]. pose proof (r_shapes _ _ _ _ _ _ F d i) as C. rewrite Et in C. cbn [oleaves] in C. split.
  - rewrite <- (r_tree _ _ _ _ _ _ F), Et. cbn [option_map]. apply leaf_bb_plug. exact C.
  - rewrite plug_cnt_leaves in C. cbn [pleaves map fst] in C. rewrite cnt_cons, Nat.eqb_refl in C. rewrite cnt_in. lia.
Qed.
Lemma acc_ok : macc_rel T (ix_p s, []) (x_pairs x, []) ps pp. Proof. split; [apply F|]. split; [apply F|reflexivity]. Qed.
Lemma set_p_ok hp ps' pp' xp : prep (fun _ => True) hp ps' pp' -> Forall2 (prel T) xp ps' -> refines (set_p s hp) (set_pairs x xp) T np ps' pp'.
Proof. intros A B. destruct F. split; auto. Qed.
Lemma next_stamp_ok : refines (next_stamp s) (increment_stamp x) T np ps pp.
Proof. destruct F. split; auto. cbn. now f_equal. Qed.

Lemma add_pairs_ok d i la fuel : In (i, la) (oleaves (T d)) -> osize (x_root x true) + osize (x_root x false) + length (x_pairs x) <= fuel ->
  exists s' ps' pp', ptr_add_pairs buf fuel s d la = Some s' /\ refines s' (leaf_add_pairs x d i) T np ps' pp'.
Proof.
  intros K Lf. destruct (leaf_plug d i la K) as (lb & c & Et & Eb & El & Ni). unfold ptr_add_pairs, leaf_add_pairs. rewrite El. pose proof F as F0. destruct F0. destruct d.
  - destruct (mark_leaf_ok s x T np [] r_node0 r_shapes0 r_stamp0 r_lstamp0 r_tree0 r_root0 i la lb (ix_p s, []) (x_pairs x, []) ps pp fuel K Eb acc_ok Lf) as (m & ps' & pp' & E & M1 & M2 & M3). rewrite E. eexists _, ps', pp'. split; [reflexivity|]. apply set_p_ok; auto.
  - destruct (mark_root_ok s x T np [] r_node0 r_stamp0 r_lstamp0 r_tree0 r_root0 true (false, i) la lb true fuel (ix_p s, []) (x_pairs x, []) ps pp) as (m & ps' & pp' & E & M1 & M2 & M3); auto; [cbn; congruence|lia|apply acc_ok|].
    destruct (n_root (ix_n s) true) as [r|]; [rewrite E; eexists _, ps', pp'; split; [reflexivity|]; apply set_p_ok; auto|]. inversion E; subst m. cbn [fst] in *. exists s, ps', pp'. split; [reflexivity|]. generalize (set_p_ok _ _ _ _ M1 M2). destruct s; exact (fun h => h).
Qed.
End Ops.

Lemma lst_none T ps xp la : Forall2 (prel T) xp ps -> (forall d, ~ In la (oaddrs (T d))) -> filter (touch la) ps = [].
Proof.
  intros G No. induction G as [|p q xp ps [B C] G IH]; cbn; auto. unfold is_key in *. assert (Z : forall k a, In (snd k, a) (oleaves (T (fst k))) -> Nat.eqb a la = false). { intros k a K. apply Nat.eqb_neq. intros ->. destruct (T (fst k)) as [t|] eqn:E; [|contradiction]. apply (No (fst k)). rewrite E. eapply leaf_addr. exact K. }
  unfold touch at 1. rewrite (Z _ _ B), (Z _ _ C). cbn. exact IH.
Qed.
Lemma prep_phead h ps pp l : prep (fun _ => True) h ps pp -> p_head h l = None -> prep (fun _ => True) (set_phead h l None) ps pp.
Proof.
  intros P E. destruct P as [P1 P2 P3 P4 P5]. split; auto.
  - intros m _. destruct (P2 m I) as [A B]. split.
    + cbn. destruct (Nat.eq_dec l m) as [<-|D]; [rewrite put_eq; congruence|rewrite put_ne; auto].
    + revert B. apply seg_ext. all: auto.
  - revert P5. cbn. generalize (p_pool h). induction pp as [|y pp IH]; intros p; cbn; auto. intros [-> B]. split; auto. apply IH; auto. + intros z. specialize (P3 z). rewrite cnt_app, cnt_cons in P3. rewrite cnt_app. lia. + intros z Hz. apply P4. apply in_app_iff. apply in_app_iff in Hz. cbn. tauto.
Qed.

Definition represents (s : pindex) (x : index) : Prop := exists T np ps pp, refines s x T np ps pp.
Lemma x_root_set x d t e : x_root (set_root x d t) e = if Bool.eqb d e then t else x_root x e. Proof. destruct d, e; reflexivity. Qed.
Lemma x_leaves_set x d l e : x_leaves (set_leaves x d l) e = if Bool.eqb d e then l else x_leaves x e. Proof. destruct d, e; reflexivity. Qed.
Lemma x_root_leaves x d l e : x_root (set_leaves x d l) e = x_root x e. Proof. destruct d, e; reflexivity. Qed.
Lemma x_leaves_root x d t e : x_leaves (set_root x d t) e = x_leaves x e. Proof. destruct d, e; reflexivity. Qed.
Lemma set_fields x d l t : x_pairs (set_root (set_leaves x d l) d t) = x_pairs x /\ x_stamp (set_root (set_leaves x d l) d t) = x_stamp x /\ x_lstamp (set_root (set_leaves x d l) d t) = x_lstamp x /\ x_box (set_root (set_leaves x d l) d t) = x_box x /\ x_vel (set_root (set_leaves x d l) d t) = x_vel x.
Proof. destruct d; repeat split. Qed.
Lemma root_fields x d t : x_pairs (set_root x d t) = x_pairs x /\ x_stamp (set_root x d t) = x_stamp x /\ x_lstamp (set_root x d t) = x_lstamp x /\ x_box (set_root x d t) = x_box x /\ x_vel (set_root x d t) = x_vel x.
Proof. destruct d; repeat split. Qed.
Lemma f2_mono {A B} (P Q : A -> B -> Prop) l m : (forall a b, In a l -> P a b -> Q a b) -> Forall2 P l m -> Forall2 Q l m.
Proof. intros H G. induction G; constructor; auto. - apply H; auto. now left. - apply IHG. intros a b K. apply H. now right. Qed.
Lemma key_eqb_refl (k : key) : key_eqb k k = true. Proof. now apply key_dec. Qed.

Lemma insert_step x d i : ~ In i (x_leaves x d) -> exists n, forall fuel s, n <= fuel -> represents s x -> exists s', ptr_do_insert buf fuel s d i = Some s' /\ represents s' (do_insert x d i).
Proof.
  intros Ni. set (x1 := set_lstamp (set_root (set_leaves x d (i :: x_leaves x d)) d (Some (subtree_insert (x_root (set_leaves x d (i :: x_leaves x d)) d) i (get_bb x d i)))) (d, i) (x_stamp x)).
  exists (osize (x_root x d) + (osize (x_root x1 true) + osize (x_root x1 false) + length (x_pairs x1))). intros fuel s Lf (T & np & ps & pp & F). unfold ptr_do_insert. rewrite (find_leaf_out _ _ _ _ _ _ F d i Ni).
  pose proof (new_leaf_ok buf d i (ptr_get_bb s d i) (ix_n s) T np [] (r_node _ _ _ _ _ _ F)) as Nl. destruct (ptr_new_leaf buf d i (ptr_get_bb s d i) (ix_n s)) as [la h1]. destruct Nl as (l' & O1 & O2 & O3 & R1 & Rr & Fresh).
  assert (Fr : forall e, ~ In la (oaddrs (T e))) by (intros e K; apply (Fresh la); auto; destruct e; auto).
  assert (Gb : ptr_get_bb s d i = get_bb x d i) by (unfold ptr_get_bb, get_bb; now rewrite (r_box _ _ _ _ _ _ F), (r_vel _ _ _ _ _ _ F)).
  cbn [ix_n set_ls set_p set_st set_n]. replace (n_root h1 d) with (option_map addr (T d)) by (rewrite Rr; symmetry; apply F).
  destruct (tree_insert_ok buf d i (get_bb x d i) la h1 T (putb np d l') fuel R1 O1) as (t' & h2 & l2 & E2 & R2 & Rr2 & Er2 & Lv & Cl); [congruence|auto|rewrite (r_tree _ _ _ _ _ _ F); lia|]. rewrite E2.
  set (T' := putb T d (Some t')) in *. set (x0 := set_ls _ _ _). set (s1 := set_st (set_n x0 (set_nroot h2 d (Some (addr t')))) la (ix_stamp (set_n x0 (set_nroot h2 d (Some (addr t')))))).
  assert (Nk : forall k a, is_key T' k a <-> (k = (d, i) /\ a = la) \/ is_key T k a).
  { intros [e j] a. unfold is_key, T'. cbn [fst snd]. rewrite putb_cases. destruct (Bool.eqb_spec d e) as [<-|D].
    - cbn [oleaves]. rewrite Lv. split; [intros [E|E]; [inversion E; auto|auto]|intros [[E ->]|E]; [inversion E; auto|auto]].
    - split; auto. intros [[E _]|E]; auto. inversion E. congruence. }
  assert (Xf : x_pairs x1 = x_pairs x /\ x_stamp x1 = x_stamp x /\ x_box x1 = x_box x /\ x_vel x1 = x_vel x) by (unfold x1; destruct d; repeat split). destruct Xf as (Xf1 & Xf2 & Xf3 & Xf4).
  assert (Xl : forall k, x_lstamp x1 k = if key_eqb (d, i) k then x_stamp x else x_lstamp x k) by (intros k; unfold x1; destruct d; reflexivity).
  assert (F1 : refines s1 x1 T' (putb (putb np d l') d l2) ps pp).
  { split.
    - intros e. unfold x1. replace (x_root (set_lstamp _ _ _) e) with (x_root (set_root (set_leaves x d (i :: x_leaves x d)) d (Some (subtree_insert (x_root (set_leaves x d (i :: x_leaves x d)) d) i (get_bb x d i)))) e) by (destruct d, e; reflexivity). rewrite x_root_set, !x_root_leaves. unfold T'. rewrite putb_cases. destruct (Bool.eqb_spec d e) as [<-|D]; [|apply F]. cbn [option_map]. rewrite Er2. now rewrite (r_tree _ _ _ _ _ _ F).
    - eapply nrep_ext; [exact R2|reflexivity ..].
    - intros e. unfold s1, x0, T'. cbn. rewrite !putb_cases. destruct (Bool.eqb_spec d e) as [<-|D]; [reflexivity|]. rewrite Rr2, Rr. apply F.
    - intros e. unfold s1, x0. cbn. rewrite putb_cases. replace (x_leaves x1 e) with (if Bool.eqb d e then i :: x_leaves x d else x_leaves x e) by (unfold x1; destruct d, e; reflexivity). destruct (Bool.eqb_spec d e) as [<-|D]; [cbn; f_equal|]; apply F.
    - intros e q. unfold s1, x0, T'. cbn. rewrite !putb_cases. destruct (Bool.eqb_spec d e) as [<-|D]; [cbn [oleaves In]; rewrite Lv, (r_leaf _ _ _ _ _ _ F); split; (intros [E|E]; [left; congruence|auto])|apply F].
    - intros e. replace (x_leaves x1 e) with (if Bool.eqb d e then i :: x_leaves x d else x_leaves x e) by (unfold x1; destruct d, e; reflexivity). destruct (Bool.eqb_spec d e) as [<-|D]; [constructor; auto|]; apply F.
    - intros e j. unfold T'. rewrite putb_cases. destruct (Bool.eqb_spec d e) as [<-|D]; [|apply F]. cbn [oleaves]. rewrite Cl. pose proof (r_shapes _ _ _ _ _ _ F d j) as C. destruct (Nat.eqb_spec j i) as [->|]; [|lia]. assert (cnt i (map fst (oleaves (T d))) = 0); [|lia]. apply cnt_out. rewrite in_map_iff. intros ([j a] & E & K). cbn in E. subst j. apply Ni. eapply key_leaves; eauto.
    - unfold s1, x0. cbn. apply prep_phead; [apply F|]. destruct (e_list _ _ _ _ (r_prep _ _ _ _ _ _ F) la I) as [H _]. rewrite H. unfold lst. rewrite (lst_none T ps (x_pairs x) la); auto. apply F.
    - rewrite Xf1. eapply f2_mono; [|apply F]. intros p q _ [A B]. split; apply Nk; auto.
    - rewrite Xf2. unfold s1, x0. cbn. apply F.
    - intros k a K. apply Nk in K. rewrite Xl. unfold s1, x0. cbn. destruct K as [[-> ->]|K].
      + rewrite key_eqb_refl, put_eq. apply F.
      + assert (D : a <> la). { intros ->. apply (key_addr T) in K. exact (Fr _ K). } rewrite !put_ne by auto. destruct (key_eqb (d, i) k) eqn:E; [|apply F; auto]. exfalso. apply key_dec in E. subst k. apply Ni. exact (key_leaves _ _ _ _ _ _ F d i a K).
    - rewrite Xf3. unfold s1, x0. cbn. apply F.
    - rewrite Xf4. unfold s1, x0. cbn. apply F. }
  destruct (add_pairs_ok s1 x1 T' _ ps pp F1 d i la fuel) as (s2 & ps2 & pp2 & E3 & F2).
  - unfold T'. rewrite putb_eq. cbn [oleaves]. apply Lv. auto.
  - lia.
  - fold s1. rewrite E3. eexists. split; [reflexivity|]. eexists _, _, _, _. unfold do_insert. cbv zeta.
    replace (x_stamp (set_root (set_leaves x d (i :: x_leaves x d)) d _)) with (x_stamp x) by (destruct d; reflexivity). fold x1. apply next_stamp_ok. exact F2.
Qed.

(** taking a leaf out of its tree *)
Lemma removed_keys x s T np ps pp d i la lb c : refines s x T np ps pp -> T d = Some (plug (PL la i lb) c) -> ~ In i (map fst (cleaves c)) ->
  (forall q, In q (oleaves (premove c)) <-> In q (cleaves c)) /\ (forall j, cnt j (map fst (oleaves (premove c))) = cnt j (map fst (cleaves c))) /\
  forall k a, is_key (putb T d (premove c)) k a <-> is_key T k a /\ k <> (d, i).
Proof.
  intros F Et Ni. assert (A : forall q, In q (oleaves (premove c)) <-> In q (cleaves c)) by (intros q; destruct c as [|[[[a b] dir] v] c]; cbn [premove oleaves cleaves]; [tauto|]; rewrite plug_leaves, refitc_leaves, in_app_iff; tauto). split; auto. split.
  - intros j. destruct c as [|[[[a b] dir] v] c]; cbn [premove oleaves cleaves]; auto. rewrite plug_cnt_leaves, refitc_leaves, map_app, cnt_app. reflexivity.
  - intros [e j] a. unfold is_key. cbn [fst snd]. rewrite putb_cases. destruct (Bool.eqb_spec d e) as [<-|D].
    + rewrite A, Et. cbn [oleaves]. rewrite plug_leaves. cbn [pleaves In]. split; [intros K; split; auto; intros E; inversion E; subst; apply Ni; apply in_map_iff; exists (i, a); auto|]. intros [[[E|[]]|K] Dk]; auto. inversion E; subst. congruence.
    + split; [intros K; split; auto; congruence|tauto].
Qed.
Lemma pair_keys T d i p q : prel T p q -> touches (d, i) p = false -> fst p <> (d, i) /\ snd p <> (d, i).
Proof. intros _ H. unfold touches in H. apply orb_false_iff in H. destruct H as [A B]. split; intros E; rewrite E, key_eqb_refl in *; discriminate. Qed.
Lemma remove_step x d i : In i (x_leaves x d) -> exists n, forall fuel s, n <= fuel -> represents s x -> exists s', ptr_do_remove fuel s d i = Some s' /\ represents s' (do_remove x d i).
Proof.
  intros Hi. exists (osize (x_root x d) + length (x_pairs x)). intros fuel s Lf (T & np & ps & pp & F). destruct (leaf_exists _ _ _ _ _ _ F d i Hi) as (la & K). destruct (leaf_plug _ _ _ _ _ _ F d i la K) as (lb & c & Et & Eb & El & Ni). unfold ptr_do_remove. rewrite (find_leaf_in _ _ _ _ _ _ F d i la K). cbn [ix_n ix_p set_ls]. rewrite (r_root _ _ _ _ _ _ F d).
  destruct (tree_remove_ok d i la lb c (ix_n s) T np [] fuel) as (h1 & l1 & E1 & R1 & Rr1 & _); auto; [apply F|rewrite (r_tree _ _ _ _ _ _ F); lia|]. rewrite E1.
  assert (Kl : is_key T (d, i) la) by exact K. pose proof (r_node _ _ _ _ _ _ F) as R0. pose proof (r_shapes _ _ _ _ _ _ F) as S0. destruct (filter_rel _ _ _ _ R0 S0 (d, i) la (x_pairs x) ps Kl (r_pairs _ _ _ _ _ _ F)) as [_ G2].
  destruct (pairs_clear_ok (ix_p s) ps pp la fuel) as (p' & pp' & E2 & P2); [apply F| |].
  { eapply Nat.le_trans; [apply lst_len|]. rewrite <- (F2_len _ _ _ (r_pairs _ _ _ _ _ _ F)). lia. }
  rewrite E2. eexists. split; [reflexivity|]. destruct (removed_keys x s T np ps pp d i la lb c F Et Ni) as (A1 & A2 & A3). eexists (putb T d (premove c)), _, _, pp'. unfold do_remove. cbv zeta.
  set (x1 := set_pairs _ _). assert (Xr : forall e, x_root x1 e = if Bool.eqb d e then subtree_remove (x_root x d) i else x_root x e) by (intros e; unfold x1; destruct d, e; reflexivity). assert (Xl : forall e, x_leaves x1 e = if Bool.eqb d e then filter (fun j => negb (Nat.eqb i j)) (x_leaves x d) else x_leaves x e) by (intros e; unfold x1; destruct d, e; reflexivity).
  assert (Xf : x_stamp x1 = x_stamp x /\ x_lstamp x1 = x_lstamp x /\ x_box x1 = x_box x /\ x_vel x1 = x_vel x /\ x_pairs x1 = pairs_clear (d, i) (x_pairs x)) by (unfold x1; destruct d; repeat split). destruct Xf as (Xf1 & Xf2 & Xf3 & Xf4 & Xf5). clearbody x1.
  split.
  - intros e. rewrite Xr, putb_cases. destruct (Bool.eqb_spec d e) as [<-|D]; [|apply F]. rewrite <- (r_tree _ _ _ _ _ _ F d), Et. cbn [option_map subtree_remove]. symmetry. apply premove_erase. exact Ni.
  - eapply nrep_ext; [eapply (tree_recycle_ok d la (set_nroot h1 d (option_map addr (premove c)))); eapply nrep_ext; [exact R1|reflexivity ..]|reflexivity ..].
  - intros e. cbn. rewrite !putb_cases. destruct (Bool.eqb_spec d e) as [<-|D]; [reflexivity|]. rewrite Rr1. apply F.
  - intros e. cbn. rewrite putb_cases, Xl. destruct (Bool.eqb_spec d e) as [<-|D]; [|apply F]. rewrite <- (r_fst _ _ _ _ _ _ F). clear. induction (ix_leaves s d) as [|[j a] l IH]; cbn; auto. destruct (negb (Nat.eqb i j)); cbn; now rewrite IH.
  - intros e q. cbn. rewrite !putb_cases. destruct (Bool.eqb_spec d e) as [<-|D]; [|apply F]. rewrite A1, filter_In, (r_leaf _ _ _ _ _ _ F), Et. cbn [oleaves]. rewrite plug_leaves. cbn [pleaves In]. destruct q as [j a]. cbn [fst]. split.
    + intros [[[E|[]]|Q] E2']; auto. inversion E; subst. now rewrite Nat.eqb_refl in E2'.
    + intros Q. split; auto. destruct (Nat.eqb_spec i j); auto. subst. exfalso. apply Ni. apply in_map_iff. exists (j, a). auto.
  - intros e. rewrite Xl. destruct (Bool.eqb_spec d e) as [<-|D]; [apply NoDup_filter|]; apply F.
  - intros e j. rewrite putb_cases. destruct (Bool.eqb_spec d e) as [<-|D]; [|apply F]. rewrite A2. pose proof (S0 d j) as C. rewrite Et in C. cbn [oleaves] in C. rewrite plug_cnt_leaves in C. lia.
  - exact P2.
  - rewrite Xf5. unfold pairs_clear. eapply f2_mono; [|exact G2]. intros p q Hp PR. apply filter_In in Hp. destruct Hp as [_ Hp]. apply negb_true_iff in Hp. destruct (pair_keys T d i p q PR Hp) as [D1 D2]. destruct PR as [B1 B2]. split; apply A3; auto.
  - rewrite Xf1. cbn. apply F.
  - intros k a Kk. apply A3 in Kk. rewrite Xf2. cbn. apply F. tauto.
  - rewrite Xf3. cbn. apply F.
  - rewrite Xf4. cbn. apply F.
Qed.

Lemma update_step x d i : exists n, forall fuel s T np ps pp la, n <= fuel -> refines s x T np ps pp -> In (i, la) (oleaves (T d)) ->
  exists s' T' np' ps' pp', ptr_leaf_update buf fuel s d la = Some (s', snd (leaf_update x d i)) /\ refines s' (fst (leaf_update x d i)) T' np' ps' pp' /\ In (i, la) (oleaves (T' d)).
Proof.
  exists (osize (x_root x d) + osize (subtree_remove (x_root x d) i) + length (x_pairs x)). intros fuel s T np ps pp la Lf F K. destruct (leaf_plug _ _ _ _ _ _ F d i la K) as (lb & c & Et & Eb & El & Ni). assert (Kl : is_key T (d, i) la) by exact K.
  pose proof (r_node _ _ _ _ _ _ F) as R0. pose proof (r_shapes _ _ _ _ _ _ F) as S0. unfold ptr_leaf_update, leaf_update. rewrite (key_obj _ _ _ _ R0 _ _ Kl), El, Eb. cbn [snd]. rewrite (r_box _ _ _ _ _ _ F). destruct (bb_contains lb (x_box x i)); cbn [fst snd]; [exists s, T, np, ps, pp; auto|].
  assert (Gb : ptr_get_bb s d i = get_bb x d i) by (unfold ptr_get_bb, get_bb; now rewrite (r_box _ _ _ _ _ _ F), (r_vel _ _ _ _ _ _ F)). rewrite Gb. set (b' := get_bb x d i).
  pose proof (tree_set_bb d i la lb b' c (ix_n s) T np [] R0 Et) as R1. set (T1 := putb T d (Some (plug (PL la i b') c))) in *. assert (Et1 : T1 d = Some (plug (PL la i b') c)) by apply putb_eq.
  assert (Ad : option_map addr (T1 d) = option_map addr (T d)) by (rewrite Et1, Et; cbn [option_map]; now rewrite !top_addr). assert (Sz : osize (option_map erase (T1 d)) = osize (x_root x d)) by (rewrite <- (r_tree _ _ _ _ _ _ F d), Et1, Et; cbn [option_map osize]; rewrite !tsize_addrs; clear; generalize (PL la i b') (PL la i lb) (eq_refl : length (addrs (PL la i b')) = length (addrs (PL la i lb))); induction c as [|[[[a b] dir] v] c IH]; intros t u E; cbn [plug]; auto; apply IH; destruct dir; cbn; rewrite !app_length; lia).
  destruct (tree_remove_ok d i la b' c (set_bb (ix_n s) la b') T1 np [] fuel R1 Et1) as (h1 & l1 & E1 & R2 & Rr2 & Nl); [lia|]. rewrite (r_root _ _ _ _ _ _ F d), <- Ad, E1. set (T2 := putb T1 d (premove c)) in *.
  assert (Et2 : T2 d = premove c) by apply putb_eq. rewrite <- Et2.
  assert (Z : nodes (set_bb (ix_n s) la b') la = MkNode (n_obj (nodes (ix_n s) la)) b' (n_parent (nodes (ix_n s) la)) (n_a (nodes (ix_n s) la)) (n_b (nodes (ix_n s) la))) by (rewrite set_bb_nodes, Nat.eqb_refl; reflexivity).
  assert (Er : option_map erase (T2 d) = subtree_remove (x_root x d) i) by (rewrite Et2, <- (r_tree _ _ _ _ _ _ F d), Et; cbn [option_map subtree_remove]; symmetry; apply premove_erase; exact Ni).
  destruct (tree_insert_ok buf d i b' la h1 T2 (putb np d l1) fuel R2) as (t' & h2 & l2 & E2 & R3 & Rr3 & Er3 & Lv & Cl).
  - rewrite Nl, Z. cbn. apply (key_obj _ _ _ _ R0 _ _ Kl).
  - rewrite Nl, Z. reflexivity.
  - intros E. rewrite Nl, Z. cbn. rewrite Et2 in E. destruct c as [|[[[a b] dir] v] c]; [|discriminate]. exact (at_parent _ _ _ (f_at _ _ _ _ R0 d _ Et)).
  - rewrite Er. lia.
  - rewrite E2. destruct (pairs_clear_ok (ix_p s) ps pp la fuel) as (p' & pp' & E4 & P4); [apply F|eapply Nat.le_trans; [apply lst_len|]; rewrite <- (F2_len _ _ _ (r_pairs _ _ _ _ _ _ F)); lia|]. rewrite E4.
    destruct (filter_rel _ _ _ _ R0 S0 (d, i) la (x_pairs x) ps Kl (r_pairs _ _ _ _ _ _ F)) as [_ G2]. destruct (removed_keys x s T np ps pp d i la lb c F Et Ni) as (A1 & A2 & A3). rewrite Et2 in Lv, Cl.
    set (T3 := putb T2 d (Some t')). assert (T3e : forall e, T3 e = if Bool.eqb d e then Some t' else T e) by (intros e; unfold T3, T2, T1; rewrite !putb_cases; destruct (Bool.eqb d e); reflexivity).
    assert (Nk : forall k a, is_key T3 k a <-> is_key T k a).
    { intros [e j] a. unfold is_key. cbn [fst snd]. rewrite T3e. destruct (Bool.eqb_spec d e) as [<-|D]; [|tauto]. cbn [oleaves]. rewrite Lv, A1, Et. cbn [oleaves]. rewrite plug_leaves. cbn [pleaves In]. split; [intros [E|E]; [left; left; congruence|auto]|intros [[E|[]]|E]; [left; congruence|auto]]. }
    set (x1 := set_lstamp _ _ _). assert (Xr : forall e, x_root x1 e = if Bool.eqb d e then Some (subtree_insert (subtree_remove (x_root x d) i) i b') else x_root x e) by (intros e; unfold x1; destruct d, e; reflexivity). assert (Xl : forall e, x_leaves x1 e = x_leaves x e) by (intros e; unfold x1; destruct d, e; reflexivity).
    assert (Xf : x_stamp x1 = x_stamp x /\ x_box x1 = x_box x /\ x_vel x1 = x_vel x /\ x_pairs x1 = pairs_clear (d, i) (x_pairs x)) by (unfold x1; destruct d; repeat split). destruct Xf as (Xf1 & Xf3 & Xf4 & Xf5).
    assert (Xs : forall k, x_lstamp x1 k = if key_eqb (d, i) k then x_stamp x else x_lstamp x k) by (intros k; unfold x1; destruct d; reflexivity). clearbody x1.
    eexists _, T3, _, _, pp'. split; [reflexivity|]. split; [|rewrite T3e, Bool.eqb_reflx; cbn [oleaves]; apply Lv; auto]. split.
    + intros e. rewrite Xr, T3e. destruct (Bool.eqb_spec d e) as [<-|D]; [|apply F]. cbn [option_map]. now rewrite Er3, Er.
    + eapply nrep_ext; [exact R3|reflexivity ..].
    + intros e. cbn. rewrite putb_cases, T3e. destruct (Bool.eqb_spec d e) as [<-|D]; [reflexivity|]. rewrite Rr3, Rr2. apply F.
    + intros e. rewrite Xl. cbn. apply F.
    + intros e q. cbn. rewrite (r_leaf _ _ _ _ _ _ F). destruct q as [j a]. symmetry. exact (Nk (e, j) a).
    + intros e. rewrite Xl. apply F.
    + intros e j. rewrite T3e. destruct (Bool.eqb_spec d e) as [<-|D]; [|apply F]. cbn [oleaves]. rewrite Cl, A2. pose proof (S0 d j) as C. rewrite Et in C. cbn [oleaves] in C. rewrite plug_cnt_leaves in C. cbn [pleaves map fst] in C. rewrite cnt_cons, cnt_nil in C. lia.
    + exact P4.
    + rewrite Xf5. unfold pairs_clear. eapply f2_mono; [|exact G2]. intros p q _ [B1 B2]. split; apply Nk; auto.
    + rewrite Xf1. cbn. apply F.
    + intros k a Kk. apply Nk in Kk. rewrite Xs. cbn. destruct (key_eqb (d, i) k) eqn:E.
      * apply key_dec in E. subst k. assert (a = la) as -> by (eapply (key_fun T S0); eauto). rewrite put_eq. apply F.
      * assert (D : la <> a). { intros <-. assert ((d, i) = k) as G by (exact (key_inj _ _ _ _ R0 _ _ _ Kl Kk)). apply key_dec in G. congruence. } rewrite put_ne by auto. apply F. auto.
    + rewrite Xf3. cbn. apply F.
    + rewrite Xf4. cbn. apply F.
Qed.
Lemma reindex_step x d i : exists n, forall fuel s, n <= fuel -> represents s x -> exists s', ptr_do_reindex buf fuel s d i = Some s' /\ represents s' (do_reindex x d i).
Proof.
  destruct (update_step x d i) as (n & U). set (y := fst (leaf_update x d i)). exists (n + (osize (x_root y true) + osize (x_root y false) + length (x_pairs y))). intros fuel s Lf (T & np & ps & pp & F). unfold ptr_do_reindex, do_reindex. destruct (existsb (Nat.eqb i) (x_leaves x d)) eqn:E.
  - apply existsb_exists in E. destruct E as (j & Hj & E). apply Nat.eqb_eq in E. subst j. destruct (leaf_exists _ _ _ _ _ _ F d i Hj) as (la & K). rewrite (find_leaf_in _ _ _ _ _ _ F d i la K). destruct (U fuel s T np ps pp la ltac:(lia) F K) as (s' & T' & np' & ps' & pp' & E1 & F1 & K1). rewrite E1. fold y in F1. rewrite (surjective_pairing (leaf_update x d i)). fold y.
    destruct (snd (leaf_update x d i)).
    + destruct (add_pairs_ok s' y T' np' ps' pp' F1 d i la fuel K1) as (s2 & ps2 & pp2 & E2 & F2); [lia|]. rewrite E2. eexists. split; [reflexivity|]. eexists _, _, _, _. apply next_stamp_ok. exact F2.
    + eexists. split; [reflexivity|]. eexists _, _, _, _. apply next_stamp_ok. exact F1.
  - rewrite (find_leaf_out _ _ _ _ _ _ F d i). + exists s. split; auto. exists T, np, ps, pp. auto. + intros K. assert (existsb (Nat.eqb i) (x_leaves x d) = true) by (apply existsb_exists; exists i; split; auto; apply Nat.eqb_refl). congruence.
Qed.
Lemma leaf_update_leaves x d i e : x_leaves (fst (leaf_update x d i)) e = x_leaves x e.
Proof. unfold leaf_update. destruct (leaf_bb _ _); auto. destruct (bb_contains _ _); auto. destruct d, e; reflexivity. Qed.
Lemma update_all_step order : forall x, (forall i, In i order -> In i (x_leaves x true)) -> exists n, forall fuel s, n <= fuel -> represents s x -> exists s', ptr_update_all buf fuel s order = Some s' /\ represents s' (fold_left (fun x i => fst (leaf_update x true i)) order x).
Proof.
  induction order as [|i order IH]; intros x Sub.
  - exists 0. intros fuel s _ H. exists s. auto.
  - destruct (update_step x true i) as (n & U). destruct (IH (fst (leaf_update x true i))) as (n' & V); [intros j Hj; rewrite leaf_update_leaves; apply Sub; now right|]. exists (n + n'). intros fuel s Lf (T & np & ps & pp & F). cbn [ptr_update_all fold_left].
    destruct (leaf_exists _ _ _ _ _ _ F true i (Sub i (or_introl eq_refl))) as (la & K). rewrite (find_leaf_in _ _ _ _ _ _ F true i la K). destruct (U fuel s T np ps pp la ltac:(lia) F K) as (s' & T' & np' & ps' & pp' & E1 & F1 & _). rewrite E1. apply V; [lia|]. exists T', np', ps', pp'. exact F1.
Qed.
Lemma update_keeps x d i e : x_root x e <> None -> x_root (fst (leaf_update x d i)) e <> None.
Proof. intros H. unfold leaf_update. destruct (leaf_bb _ _); auto. destruct (bb_contains _ _); auto. cbn [fst]. destruct d, e; cbn; auto; congruence. Qed.
Lemma query_step x order : Permutation order (x_leaves x true) -> exists n, forall fuel s, n <= fuel -> represents s x -> exists s', ptr_do_query buf fuel s order = Some (s', map objs (snd (do_query x order))) /\ represents s' (fst (do_query x order)).
Proof.
  intros Pm. destruct (update_all_step order x) as (n & U); [intros i Hi; eapply Permutation_in; eauto|]. set (y := fold_left (fun x i => fst (leaf_update x true i)) order x) in *.
  set (bound := match x_dyn y with None => 0 | Some t => tsize t + fold_right (fun k b => osize (x_root y true) + osize (x_root y false) + length (fst (fold_left (fun m p => mark_leaf y (fst p) (snd p) m) (firstn k (tleaves t)) (x_pairs y, []))) + b) 0 (seq 0 (S (length (tleaves t)))) end).
  exists (n + bound). intros fuel s Lf H. unfold ptr_do_query, do_query. pose proof H as (T & np & ps & pp & F). rewrite (r_root _ _ _ _ _ _ F true). pose proof (r_tree _ _ _ _ _ _ F true) as Ert. change (x_root x true) with (x_dyn x) in Ert. rewrite <- Ert. destruct (T true) as [t0|] eqn:Et0; cbn [option_map] in *; [|exists s; split; auto].
  destruct (U fuel s ltac:(lia) H) as (s' & E1 & (T' & np' & ps' & pp' & F')). rewrite E1. fold y. rewrite (r_root _ _ _ _ _ _ F' true). pose proof (r_tree _ _ _ _ _ _ F' true) as Ert'. change (x_root y true) with (x_dyn y) in Ert'. unfold bound in Lf. rewrite <- Ert' in *.
  destruct (T' true) as [t|] eqn:Et; cbn [option_map] in *.
  2:{ exfalso. assert (K : forall o z, x_root z true <> None -> x_root (fold_left (fun x i => fst (leaf_update x true i)) o z) true <> None) by (induction o as [|j o IHo]; intros z Hz; cbn; auto; apply IHo; apply update_keeps; auto). apply (K order x); [cbn; congruence|]. fold y. now rewrite <- (r_tree _ _ _ _ _ _ F' true), Et. }
  pose proof F' as F0. destruct F0. destruct (mark_subtree_ok s' y T' np' [] r_node0 r_shapes0 r_stamp0 r_lstamp0 r_tree0 r_root0 t None fuel fuel (ix_p s', []) (x_pairs y, []) ps' pp') as (m & ps2 & pp2 & E2 & M1 & M2 & M3).
  - apply (f_at _ _ _ _ r_node0 true t Et).
  - intros q Hq. rewrite Et. exact Hq.
  - lia.
  - eapply acc_ok; eauto.
  - intros l1 l2 El. assert (Ef : l1 = firstn (length l1) (tleaves (erase t))) by (rewrite El, firstn_app, Nat.sub_diag, firstn_all, firstn_O, app_nil_r; reflexivity). assert (Ik : In (length l1) (seq 0 (S (length (tleaves (erase t)))))) by (apply in_seq; rewrite El, app_length; lia).
    revert Lf. rewrite Ef at 1. revert Ik. clear. generalize (length l1), (seq 0 (S (length (tleaves (erase t))))). clear. intros k L Ik Lf.
    match type of Lf with _ + (_ + fold_right (fun k b => @?g k + b) 0 _) <= _ => set (G := fun k => g k) in * end.
    assert (Q : forall L, In k L -> G k <= fold_right (fun k b => G k + b) 0 L) by (intros L'; induction L' as [|u L' IHL]; cbn; [contradiction|]; intros [->|K]; [lia|]; specialize (IHL K); lia). specialize (Q L Ik). change (G k <= fuel). assert (fold_right (fun k b => G k + b) 0 L <= fuel) by (unfold G at 1; lia). lia.
  - rewrite E2. eexists. split.
    + rewrite M3. cbn [fst snd]. rewrite <- map_rev. reflexivity.
    + eexists _, _, _, _. apply next_stamp_ok. exact (set_p_ok s' y T' np' ps' pp' F' _ _ _ _ M1 M2).
Qed.

(** ** Histories *)
Lemma step_step x o : in_order x o -> exists n, forall fuel s, n <= fuel -> represents s x -> exists s', ptr_step buf fuel s o = Some (s', map objs (xcalls x o)) /\ represents s' (xstep x o).
Proof.
  destruct o as [box vel|d i|d i|d i|order]; cbn [in_order ptr_step xcalls xstep map]; intros V.
  - exists 0. intros fuel s _ (T & np & ps & pp & F). eexists. split; [reflexivity|]. exists T, np, ps, pp. destruct F. split; auto.
  - destruct (insert_step x d i V) as (n & U). exists n. intros fuel s Lf H. destruct (U fuel s Lf H) as (s' & -> & H'). eauto.
  - destruct (remove_step x d i V) as (n & U). exists n. intros fuel s Lf H. destruct (U fuel s Lf H) as (s' & -> & H'). eauto.
  - destruct (reindex_step x d i) as (n & U). exists n. intros fuel s Lf H. destruct (U fuel s Lf H) as (s' & -> & H'). eauto.
  - exact (query_step x order V).
Qed.
Lemma run_step h : forall x, in_order_all x h -> exists n, forall fuel s, n <= fuel -> represents s x -> exists s', ptr_run buf fuel s h = Some (s', map (map objs) (xcalls_all x h)) /\ represents s' (xrun x h).
Proof.
  induction h as [|o h IH]; intros x V.
  - exists 0. intros fuel s _ H. exists s. auto.
  - destruct V as [V1 V2]. destruct (step_step x o V1) as (n & U). destruct (IH _ V2) as (n' & W). exists (n + n'). intros fuel s Lf H. cbn [ptr_run xcalls_all map]. destruct (U fuel s ltac:(lia) H) as (s' & -> & H'). destruct (W fuel s' ltac:(lia) H') as (s2 & -> & H2). eauto.
Qed.
Lemma start box vel : represents (pindex0 box vel) (index0 box vel).
Proof.
  exists (fun _ => None), (fun _ => []), [], []. split; try reflexivity.
  - intros []; reflexivity.
  - split; [discriminate|reflexivity|intros d x; change (0 <= 1); lia|intros d x; cbn; tauto].
  - intros []; reflexivity.
  - intros d. destruct d; constructor.
  - intros d i. change (0 <= 1). lia.
  - apply prep0.
  - constructor.
Qed.
End Refine.
