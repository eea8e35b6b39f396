(** Proofs for C15: the two trees, their node pools and the nodes not yet (or no longer) in a tree share one heap. *)
From Coq Require Import Bool List Arith Lia.
From Verif Require Import Num Vec BB BBTree BBTreePtr BBTreePtrPairs BBTreePtrNodes.
Import ListNotations.
Local Open Scope nat_scope.

Section Forest.
Context {N : Num}.
Variable buf : nat.

Definition oaddrs (t : option pt) : list nat := match t with Some t => addrs t | None => [] end.
Definition oleaves (t : option pt) : list (nat * nat) := match t with Some t => pleaves t | None => [] end.
Fixpoint tsize (t : tree) : nat := match t with Leaf _ _ => 1 | Node _ l r => S (tsize l + tsize r) end.
Definition osize (t : option tree) : nat := match t with Some t => tsize t | None => 0 end.
Lemma tsize_addrs t : tsize (erase t) = length (addrs t).
Proof. induction t as [|a b l IHl r IHr]; cbn; auto. rewrite app_length. lia. Qed.
Lemma ctx_size t c : length c <= length (addrs (plug t c)) /\ length (caddrs c) <= length (addrs (plug t c)).
Proof.
  revert t. induction c as [|[[[a b] dir] s] c IH]; intros t; cbn [length caddrs plug]; [lia|]. destruct (IH (fit (a, b, dir, s) t)) as [A B].
  assert (Q : length (addrs (plug t ((a, b, dir, s) :: c))) = length (addrs t) + S (length (addrs s) + length (caddrs c))).
  { clear A B. change (a :: addrs s ++ caddrs c) with (caddrs ((a, b, dir, s) :: c)). replace (S (length (addrs s) + length (caddrs c))) with (length (caddrs ((a, b, dir, s) :: c))) by (cbn; rewrite app_length; lia).
    generalize ((a, b, dir, s) :: c) as e. clear. intros e. revert t. induction e as [|[[[a b] dir] s] e IH]; intros t; cbn [plug caddrs length]; [lia|]. rewrite IH. destruct dir; cbn; rewrite !app_length; lia. }
  cbn [plug] in Q. rewrite Q. assert (1 <= length (addrs t)) by (destruct t; cbn; lia). rewrite app_length. split; [|lia].
  enough (length c <= length (caddrs c)) by lia. clear. induction c as [|[[[a b] dir] s] c IH]; cbn; [lia|]. rewrite app_length. lia.
Qed.

Record nrep (h : nheap) (T : bool -> option pt) (np : bool -> list nat) (lo : list nat) : Prop := {
  f_at : forall d t, T d = Some t -> at_ (nodes h) t None;
  f_pool : forall d, nchain (nodes h) (n_pool h d) (np d);
  f_cnt : forall d x, cnt x (oaddrs (T d)) + cnt x (oaddrs (T (negb d))) + cnt x (np d) + cnt x (np (negb d)) + cnt x lo <= 1;
  f_lt : forall d x, In x (oaddrs (T d)) \/ In x (np d) \/ In x lo -> x < n_new h }.

Lemma nrep_pooled h T np lo d : nrep h T np lo -> pooled d h (np d).
Proof. intros R. split; [apply R|]. split. - intros x. pose proof (f_cnt _ _ _ _ R d x). lia. - intros x Hx. apply (f_lt _ _ _ _ R d). auto. Qed.
Lemma putb_cases {A} (f : bool -> A) d v e : putb f d v e = if Bool.eqb d e then v else f e. Proof. reflexivity. Qed.

(** what an operation on tree d may change: the old nodes in [ch], which are of tree d, its pool or loose *)
Lemma nrep_step h T np lo h' d t' l' lo' (ch : nat -> Prop) : nrep h T np lo -> kept d ch h h' -> (forall x, ch x -> cnt x (oaddrs (T (negb d))) = 0 /\ cnt x (np (negb d)) = 0) ->
  (forall t, t' = Some t -> at_ (nodes h') t None) -> pooled d h' l' -> (forall x, cnt x (oaddrs t') + cnt x l' + cnt x lo' <= cnt x (oaddrs (T d)) + cnt x (np d) + cnt x lo + cnt x (grown h h')) ->
  nrep h' (putb T d t') (putb np d l') lo'.
Proof.
  intros R (K1 & K2 & K3 & K4) Hc At (P1 & P2 & P3) C.
  assert (Lt : forall e x, In x (oaddrs (T e)) \/ In x (np e) \/ In x lo -> x < n_new h') by (intros e x Hx; pose proof (f_lt _ _ _ _ R e x Hx); lia).
  assert (Lt' : forall x, In x (oaddrs t') \/ In x l' \/ In x lo' -> x < n_new h').
  { intros x Hx. assert (0 < cnt x (oaddrs t') + cnt x l' + cnt x lo') by (rewrite !cnt_in in Hx; lia). specialize (C x). destruct (Nat.eq_dec (cnt x (grown h h')) 0) as [E|E]; [|pose proof (grown_new h h' x); lia]. apply (Lt d). rewrite !cnt_in. lia. }
  assert (Bound : forall x, cnt x (oaddrs t') + cnt x l' + cnt x lo' + cnt x (oaddrs (T (negb d))) + cnt x (np (negb d)) <= 1).
  { intros x. pose proof (f_cnt _ _ _ _ R d x) as F. specialize (C x). pose proof (grown_one h h' x) as G. destruct (Nat.eq_dec (cnt x (grown h h')) 0) as [E|E]; [lia|]. pose proof (grown_new h h' x ltac:(lia)) as L.
    assert (Z : forall e, cnt x (oaddrs (T e)) = 0 /\ cnt x (np e) = 0 /\ cnt x lo = 0). { intros e. rewrite <- !cnt_out. repeat split; intros K; (assert (x < n_new h) by (apply (f_lt _ _ _ _ R e); auto)); lia. } destruct (Z d) as (Z1 & Z2 & Z3), (Z (negb d)) as (Z4 & Z5 & _). lia. }
  assert (Old : forall x, In x (oaddrs (T (negb d))) \/ In x (np (negb d)) -> nodes h' x = nodes h x). { intros x Hx. apply K4; [apply (f_lt _ _ _ _ R (negb d)); tauto|]. intros K. destruct (Hc x K) as [Z1 Z2]. destruct Hx as [Hx|Hx]; apply cnt_in in Hx; lia. }
  split.
  - intros e t. rewrite putb_cases. destruct (Bool.eqb_spec d e) as [<-|D]; [auto|]. intros E. assert (e = negb d) as -> by (destruct d, e; cbn; congruence). generalize (f_at _ _ _ _ R _ _ E). apply at_ext. intros x Hx. apply Old. left. rewrite E. exact Hx.
  - intros e. rewrite putb_cases. destruct (Bool.eqb_spec d e) as [<-|D]; [auto|]. assert (e = negb d) as -> by (destruct d, e; cbn; congruence). rewrite K1. generalize (f_pool _ _ _ _ R (negb d)). apply nchain_ext. intros x Hx. apply Old. auto.
  - intros e x. specialize (Bound x). rewrite !putb_cases. destruct d, e; cbn [negb Bool.eqb] in *; lia.
  - intros e x. rewrite !putb_cases. destruct (Bool.eqb_spec d e) as [<-|D]; [apply Lt'|]. intros [Hx|[Hx|Hx]]; [apply (Lt e); auto|apply (Lt e); auto|apply Lt'; auto].
Qed.
Lemma nrep_ext h T np lo h' T' np' lo' : nrep h T np lo -> n_pool h' = n_pool h -> nodes h' = nodes h -> n_new h' = n_new h -> (forall d, T' d = T d) -> (forall d, np' d = np d) -> lo' = lo -> nrep h' T' np' lo'.
Proof. intros R E1 E2 E3 E4 E5 ->. split; intros *; rewrite ?E1, ?E2, ?E3, ?E4, ?E5; apply R. Qed.

Lemma new_leaf_ok d i b h T np lo : nrep h T np lo -> let '(la, h') := ptr_new_leaf buf d i b h in
  exists l', n_obj (nodes h' la) = Some i /\ n_bb (nodes h' la) = b /\ n_parent (nodes h' la) = None /\ nrep h' T (putb np d l') (la :: lo) /\ n_root h' = n_root h /\ (forall x, In x (oaddrs (T true)) \/ In x (oaddrs (T false)) -> x <> la).
Proof.
  intros R. unfold ptr_new_leaf. pose proof (from_pool_ok buf d h (np d) (nrep_pooled _ _ _ _ d R)) as F. destruct (node_from_pool buf d h) as [la h1]. destruct F as (l' & P & K & L & C). pose proof (pool_apart _ _ _ _ _ (nrep_pooled _ _ _ _ d R) C) as Al.
  assert (Nl : ~ In la l') by (intros K1; specialize (Al la); rewrite cnt_cons, Nat.eqb_refl in Al; apply cnt_in in K1; lia). set (h2 := set_node h1 la _).
  assert (Z : nodes h2 la = MkNode (Some i) b None (n_a (nodes h1 la)) (n_b (nodes h1 la))) by (unfold h2; cbn; now rewrite put_eq). exists l'. rewrite Z. cbn [n_obj n_bb n_parent]. do 3 (split; [reflexivity|]).
  assert (Zc : forall x, x = la -> x < n_new h -> In x (np d)) by (intros x -> Lx; apply (pool_old _ _ _ _ la C Lx); now left).
  assert (Tz : forall e, cnt la (oaddrs (T e)) = 0). { intros e. destruct (Nat.lt_ge_cases la (n_new h)) as [Lx|Gx]. - specialize (Zc la eq_refl Lx). apply cnt_in in Zc. pose proof (f_cnt _ _ _ _ R d la). destruct d, e; cbn in *; lia. - apply cnt_out. intros Hx. assert (la < n_new h) by (apply (f_lt _ _ _ _ R e); auto). lia. }
  split; [|split; [apply K|]].
  2:{ intros x Hx ->. rewrite !cnt_in, !Tz in Hx. lia. }
  eapply nrep_ext; [eapply (nrep_step h T np lo h2 d (T d) l' (la :: lo) (fun x => x = la /\ x < n_new h)); [exact R| | | | |]|reflexivity ..| |reflexivity|reflexivity].
  - destruct K as (K1 & K2 & K3 & K4). split; [exact K1|]. split; [exact K2|]. split; [exact K3|]. intros x Lx Nx. unfold h2. rewrite set_node_same; [apply K4; auto|]. intros <-. auto.
  - intros x [E Lx]. specialize (Zc x E Lx). apply cnt_in in Zc. pose proof (f_cnt _ _ _ _ R d x). lia.
  - intros t Et. generalize (f_at _ _ _ _ R _ _ Et). apply at_ext. intros x Hx. assert (Ix : In x (oaddrs (T d))) by (now rewrite Et). unfold h2. rewrite set_node_same. + apply K; auto. apply (f_lt _ _ _ _ R d). auto. + intros <-. apply cnt_in in Ix. rewrite Tz in Ix. lia.
  - destruct P as (P1 & P2 & P3). split; [|split]; auto. change (n_pool h2 d) with (n_pool h1 d). revert P1. apply nchain_ext. intros x Hx. unfold h2. apply set_node_same. intros <-. contradiction.
  - intros x. change (grown h h2) with (grown h h1). specialize (C x). rewrite cnt_cons, cnt_app in C. rewrite cnt_cons. lia.
  - intros e. rewrite putb_cases. destruct (Bool.eqb_spec d e); subst; reflexivity.
Qed.

Lemma tree_insert_ok d i lb la h T np fuel : nrep h T np [la] -> n_obj (nodes h la) = Some i -> n_bb (nodes h la) = lb -> (T d = None -> n_parent (nodes h la) = None) -> osize (option_map erase (T d)) <= fuel ->
  exists t' h' l', ptr_insert buf fuel d (option_map addr (T d)) la h = Some (addr t', h') /\ nrep h' (putb T d (Some t')) (putb np d l') [] /\ n_root h' = n_root h /\
    erase t' = subtree_insert (option_map erase (T d)) i lb /\ (forall q, In q (pleaves t') <-> q = (i, la) \/ In q (oleaves (T d))) /\ (forall x, cnt x (map fst (pleaves t')) = (if Nat.eqb x i then 1 else 0) + cnt x (map fst (oleaves (T d)))).
Proof.
  intros R Oi Ob Np Lf. destruct (T d) as [t|] eqn:Et.
  - cbn [option_map osize] in *. rewrite tsize_addrs in Lf. pose proof (nrep_pooled _ _ _ _ d R) as P.
    destruct (insert_ok buf d i lb la t fuel h None (np d)) as (n & l' & h' & E & A & P' & K & Ln & _ & C); auto.
    + apply (f_at _ _ _ _ R d t Et). + intros x. pose proof (f_cnt _ _ _ _ R d x) as F. rewrite Et in F. cbn [oaddrs] in F. rewrite cnt_app, cnt_cons. rewrite cnt_cons, cnt_nil in F. lia.
    + intros x Hx. apply (f_lt _ _ _ _ R d). rewrite Et. cbn [oaddrs]. apply in_app_or in Hx. cbn [In] in *. tauto.
    + exists (pinsert t n la i lb), h', l'. split; [exact E|]. split; [|split; [apply K|split; [apply pinsert_erase|split; [apply pinsert_leaves|]]]].
      * eapply nrep_step; [exact R|exact K| | |exact P'|].
        -- intros x Hx. apply cnt_in in Hx. rewrite cnt_app, cnt_cons in Hx. pose proof (f_cnt _ _ _ _ R d x) as F. rewrite Et in F. cbn [oaddrs] in F. rewrite cnt_cons, cnt_nil in F. lia.
        -- intros t0 E0. inversion E0; subst t0. destruct (is_pl t); exact A.
        -- intros x. rewrite Et. cbn [oaddrs]. rewrite pinsert_cnt, !cnt_cons, !cnt_nil. specialize (C x). rewrite cnt_cons, cnt_app in C. lia.
      * intros x. clear. induction t as [a j b|a b l IHl r IHr]; cbn [pinsert pleaves map fst oleaves]; [cbn; rewrite !cnt_cons, cnt_nil; lia|]. cbn [oleaves] in *. destruct (to_b _ _ _); cbn [pleaves]; rewrite !map_app, !cnt_app, ?IHl, ?IHr; lia.
  - exists (PL la i lb), h, (np d). cbn [option_map subtree_insert erase addr]. split; [destruct fuel; reflexivity|]. split; [|split; [reflexivity|split; [reflexivity|split; [cbn; intuition congruence|]]]].
    + eapply nrep_step with (ch := fun _ => False); [exact R|apply kept_refl|contradiction| |apply (nrep_pooled _ _ _ _ d R)|].
      * intros t E. inversion E; subst t. cbn. auto. * intros x. rewrite Et. cbn. rewrite cnt_nil. lia.
    + intros x. cbn. rewrite cnt_cons. cbn. lia.
Qed.

Lemma tree_set_bb d i la lb b c h T np lo : nrep h T np lo -> T d = Some (plug (PL la i lb) c) -> nrep (set_bb h la b) (putb T d (Some (plug (PL la i b) c))) np lo.
Proof.
  intros R Et. assert (Ca : forall x, cnt x (addrs (plug (PL la i lb) c)) = cnt x (addrs (plug (PL la i b) c))) by (intros x; rewrite !plug_cnt; reflexivity). assert (Cd : forall x, cnt x (oaddrs (T d)) = cnt x (addrs (plug (PL la i b) c))) by (intros x; rewrite Et; apply Ca).
  assert (In1 : 0 < cnt la (oaddrs (T d))). { rewrite Et. cbn [oaddrs]. rewrite plug_cnt. cbn [addrs]. rewrite cnt_cons, Nat.eqb_refl. lia. }
  assert (E1 : forall x, x <> la -> nodes (set_bb h la b) x = nodes h x) by (intros x D; rewrite set_bb_nodes; destruct (Nat.eqb_spec la x); [congruence|reflexivity]).
  eapply nrep_ext; [eapply (nrep_step h T np lo (set_bb h la b) d (Some (plug (PL la i b) c)) (np d) lo (eq la)); [exact R| | | | |]|reflexivity ..| |reflexivity].
  - split; [reflexivity|]. split; [reflexivity|]. split; [apply Nat.le_refl|]. intros x _ D. apply E1. auto.
  - intros x <-. pose proof (f_cnt _ _ _ _ R d la). lia.
  - intros t E. inversion E; subst t. pose proof (f_at _ _ _ _ R d _ Et) as A. apply plug_at in A. destruct A as [A B]. apply plug_at. split.
    + cbn [at_ addr] in *. rewrite set_bb_nodes, Nat.eqb_refl. cbn. tauto.
    + revert B. cbn [addr]. apply at_ctx_ext. intros x Hx. apply E1. intros ->. pose proof (f_cnt _ _ _ _ R d la) as F. rewrite Et in F. cbn [oaddrs] in F. rewrite plug_cnt in F. cbn [addrs] in F. rewrite cnt_cons, Nat.eqb_refl in F. apply cnt_in in Hx. lia.
  - pose proof (nrep_pooled _ _ _ _ d R) as (P1 & P2 & P3). split; [|split]; auto. change (n_pool (set_bb h la b) d) with (n_pool h d). revert P1. apply nchain_ext. intros x Hx. apply E1. intros ->. pose proof (f_cnt _ _ _ _ R d la) as F. apply cnt_in in Hx. lia.
  - intros x. cbn [oaddrs]. rewrite Cd. lia.
  - intros e. rewrite putb_cases. destruct (Bool.eqb_spec d e); subst; reflexivity.
Qed.

Lemma tree_remove_ok d i la lb c h T np lo fuel : nrep h T np lo -> T d = Some (plug (PL la i lb) c) -> osize (option_map erase (T d)) <= fuel ->
  exists h' l', ptr_remove fuel d (option_map addr (T d)) la h = Some (option_map addr (premove c), h') /\ nrep h' (putb T d (premove c)) (putb np d l') (la :: lo) /\ n_root h' = n_root h /\ nodes h' la = nodes h la.
Proof.
  intros R Et Lf. pose proof (f_at _ _ _ _ R d _ Et) as A. apply plug_at in A. destruct A as [A B]. cbn [addr] in B. rewrite Et in *. cbn [option_map osize] in *. rewrite tsize_addrs in Lf. rewrite top_addr. cbn [addr].
  assert (Q : forall x, (if Nat.eqb x la then 1 else 0) + cnt x (caddrs c) + cnt x (np d) + cnt x lo + cnt x (oaddrs (T (negb d))) + cnt x (np (negb d)) <= 1). { intros x. pose proof (f_cnt _ _ _ _ R d x) as F. rewrite Et in F. cbn [oaddrs] in F. rewrite plug_cnt in F. cbn [addrs] in F. rewrite cnt_cons, cnt_nil in F. lia. }
  assert (Lt : forall x, In x (la :: caddrs c ++ np d) -> x < n_new h). { intros x Hx. apply (f_lt _ _ _ _ R d). rewrite Et. cbn [oaddrs]. rewrite cnt_in, plug_cnt. cbn [addrs]. apply cnt_in in Hx. rewrite cnt_cons, cnt_app in Hx. rewrite cnt_cons, cnt_nil, !cnt_in. lia. }
  destruct (remove_ok d la c fuel h (np d)) as (h' & E & At & P & K & Nw); auto.
  - exact (at_parent _ _ _ A). - intros x. specialize (Q x). rewrite cnt_cons, cnt_app. lia. - apply (nrep_pooled _ _ _ _ d R). - pose proof (ctx_size (PL la i lb) c). lia.
  - exists h', (removed c ++ np d). split; [exact E|]. split; [|split; [apply K|]].
    + eapply nrep_step; [exact R|exact K| |exact At|exact P|].
      * intros x Hx. apply cnt_in in Hx. specialize (Q x). lia.
      * intros x. rewrite Et. cbn [oaddrs]. rewrite plug_cnt. cbn [addrs]. rewrite cnt_app, !cnt_cons, cnt_nil. enough (cnt x (oaddrs (premove c)) + cnt x (removed c) <= cnt x (caddrs c)) by lia. destruct c as [|[[[a b] dir] s] c]; cbn [premove removed oaddrs caddrs]; [rewrite cnt_nil; lia|]. rewrite plug_cnt, refitc_addrs, !cnt_cons, cnt_app, cnt_nil. lia.
    + apply K; [apply Lt; now left|]. intros Hx. specialize (Q la). rewrite Nat.eqb_refl in Q. apply cnt_in in Hx. lia.
Qed.
Lemma tree_recycle_ok d la h T np lo : nrep h T np (la :: lo) -> nrep (recycle_node d h la) T (putb np d (la :: np d)) lo.
Proof.
  intros R. pose proof (nrep_pooled _ _ _ _ d R) as P. assert (Q : forall x, (if Nat.eqb x la then 1 else 0) + cnt x (np d) + cnt x lo + cnt x (oaddrs (T d)) + cnt x (oaddrs (T (negb d))) + cnt x (np (negb d)) <= 1). { intros x. pose proof (f_cnt _ _ _ _ R d x) as F. rewrite cnt_cons in F. lia. }
  destruct (recycle_node_ok d h (np d) la P) as [P' K]; [intros K; specialize (Q la); rewrite Nat.eqb_refl in Q; apply cnt_in in K; lia|apply (f_lt _ _ _ _ R d); cbn; auto|].
  eapply nrep_ext; [eapply (nrep_step h T np (la :: lo) (recycle_node d h la) d (T d) (la :: np d) lo (eq la)); [exact R|exact K| | |exact P'|]|reflexivity ..| |reflexivity|reflexivity].
  - intros x <-. specialize (Q la). rewrite Nat.eqb_refl in Q. lia.
  - intros t Et. generalize (f_at _ _ _ _ R d t Et). apply at_ext. intros x Hx. apply K; [apply (f_lt _ _ _ _ R d); rewrite Et; auto|]. intros <-. specialize (Q la). rewrite Nat.eqb_refl, Et in Q. cbn [oaddrs] in Q. apply cnt_in in Hx. lia.
  - intros x. rewrite !cnt_cons. lia.
  - intros e. rewrite putb_cases. destruct (Bool.eqb_spec d e); subst; reflexivity.
Qed.
End Forest.
