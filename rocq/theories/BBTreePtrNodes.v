(** Proofs for C15: the nodes with parent pointers are the tree of BBTree.v, and the pools of nodes are apart from it. *)
From Coq Require Import Bool List Arith Lia.
From Verif Require Import Num Vec BB BBTree BBTreePtr BBTreePtrPairs.
Import ListNotations.
Local Open Scope nat_scope.

Section Nodes.
Context {N : Num}.
Variable buf : nat.

(** A tree with the addresses of its nodes. *)
Inductive pt := PL (a i : nat) (b : bb) | PN (a : nat) (b : bb) (l r : pt).
Definition addr (t : pt) : nat := match t with PL a _ _ => a | PN a _ _ _ => a end.
Definition pbb (t : pt) : bb := match t with PL _ _ b => b | PN _ b _ _ => b end.
Fixpoint erase (t : pt) : tree := match t with PL _ i b => Leaf i b | PN _ b l r => Node b (erase l) (erase r) end.
Fixpoint addrs (t : pt) : list nat := match t with PL a _ _ => [a] | PN a _ l r => a :: addrs l ++ addrs r end.
Fixpoint pleaves (t : pt) : list (nat * nat) := match t with PL a i _ => [(i, a)] | PN _ _ l r => pleaves l ++ pleaves r end.
Lemma pbb_erase t : tbb (erase t) = pbb t. Proof. destruct t; reflexivity. Qed.
Lemma addr_in t : In (addr t) (addrs t). Proof. destruct t; cbn; auto. Qed.
Lemma tleaves_erase t : map fst (tleaves (erase t)) = map fst (pleaves t).
Proof. induction t as [|a b l IHl r IHr]; cbn; auto. now rewrite !map_app, IHl, IHr. Qed.

(** The nodes of the tree are in the heap; [par] is the parent of its root. *)
Fixpoint at_ (f : nat -> node) (t : pt) (par : option nat) : Prop :=
  match t with
  | PL a i b => n_obj (f a) = Some i /\ n_bb (f a) = b /\ n_parent (f a) = par
  | PN a b l r => n_obj (f a) = None /\ n_bb (f a) = b /\ n_parent (f a) = par /\ n_a (f a) = Some (addr l) /\ n_b (f a) = Some (addr r) /\ at_ f l (Some a) /\ at_ f r (Some a)
  end.
Definition apart (l : list nat) : Prop := forall x, cnt x l <= 1.
Lemma at_ext f g t : forall par, (forall x, In x (addrs t) -> g x = f x) -> at_ f t par -> at_ g t par.
Proof.
  induction t as [a i b|a b l IHl r IHr]; intros par E; cbn in *; rewrite E by auto; auto. intros (A & B & C & D & F & G & H). repeat (split; auto).
  - apply IHl; auto. intros x Hx. apply E. right. apply in_or_app. auto. - apply IHr; auto. intros x Hx. apply E. right. apply in_or_app. auto.
Qed.
Lemma at_parent f t par : at_ f t par -> n_parent (f (addr t)) = par. Proof. destruct t; cbn; tauto. Qed.
Lemma at_bb f t par : at_ f t par -> n_bb (f (addr t)) = pbb t. Proof. destruct t; cbn; tauto. Qed.
Lemma at_reparent f g t par par' : apart (addrs t) -> at_ f t par -> (forall x, In x (addrs t) -> x <> addr t -> g x = f x) ->
  n_obj (g (addr t)) = n_obj (f (addr t)) -> n_bb (g (addr t)) = n_bb (f (addr t)) -> n_a (g (addr t)) = n_a (f (addr t)) -> n_b (g (addr t)) = n_b (f (addr t)) -> n_parent (g (addr t)) = par' -> at_ g t par'.
Proof.
  intros Ap A E O B C D P. destruct t as [a i b|a b l r]; cbn in *; rewrite O, B, ?C, ?D, P; [tauto|]. destruct A as (A1 & A2 & A3 & A4 & A5 & A6 & A7). repeat (split; auto).
  - revert A6. apply at_ext. intros x Hx. apply E; [right; apply in_or_app; auto|]. intros ->. specialize (Ap a). rewrite cnt_cons, Nat.eqb_refl, cnt_app in Ap. apply cnt_in in Hx. lia.
  - revert A7. apply at_ext. intros x Hx. apply E; [right; apply in_or_app; auto|]. intros ->. specialize (Ap a). rewrite cnt_cons, Nat.eqb_refl, cnt_app in Ap. apply cnt_in in Hx. lia.
Qed.

(** ** Pools *)
Fixpoint nchain (f : nat -> node) (p : option nat) (l : list nat) : Prop := match l with [] => p = None | x :: r => p = Some x /\ nchain f (n_parent (f x)) r end.
Lemma nchain_ext f g l : forall p, (forall x, In x l -> g x = f x) -> nchain f p l -> nchain g p l.
Proof. induction l as [|x l IH]; intros p E; cbn; auto. intros [-> C]. split; auto. rewrite E by (now left). apply IH; auto. intros y Hy. apply E. now right. Qed.
Definition pooled (d : bool) (h : nheap) (l : list nat) : Prop := nchain (nodes h) (n_pool h d) l /\ apart l /\ forall x, In x l -> x < n_new h.
(** nothing but the pool of d changed, and of the nodes there were only those satisfying ch *)
Definition kept (d : bool) (ch : nat -> Prop) (h h' : nheap) : Prop := n_pool h' (negb d) = n_pool h (negb d) /\ n_root h' = n_root h /\ n_new h <= n_new h' /\ forall x, x < n_new h -> ~ ch x -> nodes h' x = nodes h x.
Lemma kept_refl d ch h : kept d ch h h. Proof. repeat split; auto. Qed.
Lemma kept_trans d (c1 c2 ch : nat -> Prop) h1 h2 h3 : (forall x, x < n_new h1 -> c1 x -> ch x) -> (forall x, x < n_new h1 -> c2 x -> ch x) -> kept d c1 h1 h2 -> kept d c2 h2 h3 -> kept d ch h1 h3.
Proof. intros I1 I2 (A & B & C & D) (A' & B' & C' & D'). split; [congruence|]. split; [congruence|]. split; [lia|]. intros x Lx H. rewrite D', D; auto; lia. Qed.
Lemma kept_weak d (c1 ch : nat -> Prop) h1 h2 : (forall x, x < n_new h1 -> c1 x -> ch x) -> kept d c1 h1 h2 -> kept d ch h1 h2.
Proof. intros I1 (A & B & C & D). repeat split; auto. Qed.
Lemma set_node_same h x v y : x <> y -> nodes (set_node h x v) y = nodes h y. Proof. intros D. cbn. now apply put_ne. Qed.
Lemma recycle_node_ok d h l x : pooled d h l -> ~ In x l -> x < n_new h -> pooled d (recycle_node d h x) (x :: l) /\ kept d (eq x) h (recycle_node d h x).
Proof.
  intros (C & A & B) Nx Lx. split; [split; [|split]|].
  - unfold recycle_node. cbn. rewrite putb_eq. split; auto. rewrite put_eq. cbn. revert C. apply nchain_ext. intros y Hy. apply put_ne. intros ->. contradiction.
  - intros y. rewrite cnt_cons. specialize (A y). apply cnt_out in Nx. destruct (Nat.eqb_spec y x); subst; lia.
  - intros y [<-|Hy]; cbn; auto.
  - split; [cbn; apply putb_ne; now destruct d|]. split; auto. split; [cbn; lia|]. intros y _ Dy. cbn. now apply put_ne.
Qed.
Lemma alloc_node_ok d h l : pooled d h l -> let '(x, h') := alloc_node h in x = n_new h /\ n_new h' = S (n_new h) /\ pooled d h' l /\ kept d (fun _ => False) h h' /\ n_pool h' d = n_pool h d.
Proof.
  intros (C & A & B). unfold alloc_node. split; auto. split; auto. split; [|split; [|auto]].
  - split; [|split]; auto; cbn. + revert C. apply nchain_ext. intros y Hy. apply put_ne. apply B in Hy. lia. + intros y Hy. apply B in Hy. lia.
  - split; auto. split; auto. split; [cbn; lia|]. intros y Ly _. cbn. apply put_ne. lia.
Qed.
Lemma more_nodes_ok d n : forall h l, pooled d h l -> let h' := more_nodes n d h in exists l', pooled d h' l' /\ n_new h' = n_new h + n /\ kept d (fun _ => False) h h' /\ forall y, cnt y l' = cnt y (l ++ seq (n_new h) n).
Proof.
  induction n as [|n IH]; intros h l P; cbn [more_nodes]; cbv zeta.
  - exists l. split; auto. split; [lia|]. split; [apply kept_refl|]. intros y. cbn [seq]. now rewrite app_nil_r.
  - pose proof (alloc_node_ok d h l P) as Al. destruct (alloc_node h) as [x h1]. destruct Al as (-> & N1 & P1 & K1 & _). destruct (recycle_node_ok d h1 l (n_new h) P1) as (P2 & K2); [intros K; apply P in K; lia|lia|].
    destruct (IH _ _ P2) as (l' & P3 & N3 & K3 & C3). exists l'. split; auto. assert (N2 : n_new (recycle_node d h1 (n_new h)) = S (n_new h)) by exact N1. split; [rewrite N3, N2; lia|]. split.
    + eapply kept_trans; [| |exact K1|]; [tauto| |eapply kept_trans; [| |exact K2|exact K3]]. 2: intros x _ E; exact E. * intros x Lx E. cbn in E. lia. * contradiction.
    + intros y. rewrite C3, N2. cbn [seq app]. rewrite cnt_cons, !cnt_app, cnt_cons. lia.
Qed.
(** the addresses that NodeFromPool makes available *)
Definition grown (h h' : nheap) : list nat := seq (n_new h) (n_new h' - n_new h).
Lemma grown_old h h' y : y < n_new h -> cnt y (grown h h') = 0. Proof. intros L. unfold grown. rewrite cnt_seq. destruct (Nat.leb_spec (n_new h) y); [lia|reflexivity]. Qed.
Lemma grown_one h h' y : cnt y (grown h h') <= 1. Proof. unfold grown. rewrite cnt_seq. destruct (_ && _); lia. Qed.
Lemma grown_new h h' y : 0 < cnt y (grown h h') -> n_new h <= y < n_new h'. Proof. unfold grown. rewrite cnt_seq. destruct (Nat.leb_spec (n_new h) y); cbn [andb]; [|lia]. destruct (Nat.ltb_spec y (n_new h + (n_new h' - n_new h))); lia. Qed.
Lemma grown_trans h1 h2 h3 y : n_new h1 <= n_new h2 <= n_new h3 -> cnt y (grown h1 h3) = cnt y (grown h1 h2) + cnt y (grown h2 h3).
Proof. intros L. unfold grown. rewrite <- cnt_app. replace (n_new h3 - n_new h1) with ((n_new h2 - n_new h1) + (n_new h3 - n_new h2)) by lia. rewrite seq_app. replace (n_new h1 + (n_new h2 - n_new h1)) with (n_new h2) by lia. reflexivity. Qed.
Lemma pool_apart d h l h' m : pooled d h l -> (forall y, cnt y m = cnt y (l ++ grown h h')) -> apart m.
Proof. intros (_ & A & B) C y. rewrite C, cnt_app. pose proof (grown_one h h' y). pose proof (grown_new h h' y). specialize (A y). destruct (Nat.lt_ge_cases y (n_new h)); [lia|]. assert (cnt y l = 0) by (apply cnt_out; intros K; apply B in K; lia). lia. Qed.
Lemma pool_old h l h' (m : list nat) y : (forall y, cnt y m = cnt y (l ++ grown h h')) -> y < n_new h -> In y m -> In y l.
Proof. intros C L H. apply cnt_in in H. rewrite C, cnt_app, grown_old in H by auto. apply cnt_in. lia. Qed.
Lemma from_pool_ok d h l : pooled d h l -> let '(x, h') := node_from_pool buf d h in exists l', pooled d h' l' /\ kept d (fun _ => False) h h' /\ x < n_new h' /\ forall y, cnt y (x :: l') = cnt y (l ++ grown h h').
Proof.
  intros P. unfold node_from_pool. destruct l as [|x l].
  - destruct P as (C & A & B). cbn in C. rewrite C. destruct (more_nodes_ok d buf h []) as (l1 & P1 & N1 & K1 & C1); [split; cbn; auto|]. set (h1 := more_nodes buf d h) in *. clearbody h1. pose proof (alloc_node_ok d h1 l1 P1) as Al. destruct (alloc_node h1) as [x h2]. destruct Al as (-> & N2 & P2 & K2 & _).
    assert (Nx : ~ In (n_new h1) l1) by (intros K; apply P1 in K; lia). exists l1. split; [|split; [|split]].
    + destruct P2 as (C2 & A2 & B2). split; [|split]; auto. cbn. revert C2. apply nchain_ext. intros y Hy. apply put_ne. intros <-. contradiction.
    + destruct K1 as (Q1 & Q2 & Q3 & Q4), K2 as (R1 & R2 & R3 & R4). split; [cbn; congruence|]. split; [cbn; congruence|]. split; [cbn; lia|]. intros y Ly _. cbn. rewrite put_ne by lia. rewrite R4, Q4; auto; lia.
    + cbn. lia.
    + intros y. unfold grown. cbn [n_new set_parent set_node]. rewrite cnt_cons, C1, N2, N1. cbn [app]. replace (S (n_new h + buf) - n_new h) with (S buf) by lia. rewrite seq_S, cnt_app, cnt_cons, cnt_nil. lia.
  - destruct P as (C & A & B). cbn in C. destruct C as [-> C]. exists l. split; [|split; [|split]].
    + split; [|split]. * cbn. rewrite putb_eq. exact C. * intros y. specialize (A y). rewrite cnt_cons in A. lia. * intros y Hy. cbn. apply B. now right.
    + split; [cbn; apply putb_ne; now destruct d|]. repeat split; auto.
    + cbn. apply B. now left.
    + intros y. unfold grown. cbn [n_new set_npool]. rewrite Nat.sub_diag, app_nil_r. reflexivity.
Qed.

(** ** Child pointers *)
Lemma set_a_nodes h x v y : x <> v -> nodes (set_a h x v) y = if Nat.eqb v y then (let n := nodes h v in MkNode (n_obj n) (n_bb n) (Some x) (n_a n) (n_b n)) else if Nat.eqb x y then (let n := nodes h x in MkNode (n_obj n) (n_bb n) (n_parent n) (Some v) (n_b n)) else nodes h y.
Proof. intros D. unfold set_a, set_parent. cbn. unfold put. destruct (Nat.eqb_spec v y); auto. subst. destruct (Nat.eqb_spec x y); [congruence|auto]. Qed.
Lemma set_b_nodes h x v y : x <> v -> nodes (set_b h x v) y = if Nat.eqb v y then (let n := nodes h v in MkNode (n_obj n) (n_bb n) (Some x) (n_a n) (n_b n)) else if Nat.eqb x y then (let n := nodes h x in MkNode (n_obj n) (n_bb n) (n_parent n) (n_a n) (Some v)) else nodes h y.
Proof. intros D. unfold set_b, set_parent. cbn. unfold put. destruct (Nat.eqb_spec v y); auto. subst. destruct (Nat.eqb_spec x y); [congruence|auto]. Qed.

Lemma set_bb_nodes h x b y : nodes (set_bb h x b) y = if Nat.eqb x y then (let n := nodes h x in MkNode (n_obj n) b (n_parent n) (n_a n) (n_b n)) else nodes h y.
Proof. reflexivity. Qed.

(** ** SubtreeInsert *)
Fixpoint pinsert (t : pt) (n la i : nat) (lb : bb) : pt :=
  match t with
  | PL _ _ b => PN n (bb_merge lb b) (PL la i lb) t
  | PN a b l r => if to_b (pbb l) (pbb r) lb then PN a (bb_merge b lb) l (pinsert r n la i lb) else PN a (bb_merge b lb) (pinsert l n la i lb) r
  end.
Lemma pinsert_erase t n la i lb : erase (pinsert t n la i lb) = tinsert (erase t) i lb.
Proof.
  induction t as [a j b|a b l IHl r IHr]; cbn; auto. unfold to_b, goes_right. rewrite !pbb_erase. cbv zeta.
  match goal with |- context [if ?c then (if ?x then _ else _) else _] => idtac | _ => idtac end.
  destruct (nadd (bb_area (pbb r)) (bb_merged_area (pbb l) lb) =? nadd (bb_area (pbb l)) (bb_merged_area (pbb r) lb))%num.
  - destruct (bb_proximity (pbb r) lb <? bb_proximity (pbb l) lb)%num; cbn; now rewrite ?IHl, ?IHr.
  - destruct (_ <? _)%num; cbn; now rewrite ?IHl, ?IHr.
Qed.
Lemma pinsert_cnt t n la i lb x : cnt x (addrs (pinsert t n la i lb)) = cnt x (n :: la :: addrs t).
Proof. induction t as [a j b|a b l IHl r IHr]; cbn [pinsert addrs]; [rewrite ?cnt_cons; cbn; rewrite ?cnt_cons, cnt_nil; lia|]. destruct (to_b _ _ _); cbn [addrs]; rewrite !cnt_cons, !cnt_app, ?IHl, ?IHr, !cnt_cons; lia. Qed.
Lemma pinsert_leaves t n la i lb q : In q (pleaves (pinsert t n la i lb)) <-> q = (i, la) \/ In q (pleaves t).
Proof. induction t as [a j b|a b l IHl r IHr]; cbn [pinsert pleaves]; [cbn; intuition congruence|]. destruct (to_b _ _ _); cbn [pleaves]; rewrite !in_app_iff, ?IHl, ?IHr; tauto. Qed.
Definition is_pl (t : pt) : bool := match t with PL _ _ _ => true | _ => false end.

Lemma insert_ok d i lb la : forall t fuel h par l, at_ (nodes h) t par -> n_obj (nodes h la) = Some i -> n_bb (nodes h la) = lb -> pooled d h l -> apart (addrs t ++ la :: l) -> (forall x, In x (addrs t ++ la :: l) -> x < n_new h) -> length (addrs t) <= fuel ->
  exists n l' h', let t' := pinsert t n la i lb in ptr_insert buf fuel d (Some (addr t)) la h = Some (addr t', h') /\ at_ (nodes h') t' (if is_pl t then None else par) /\ pooled d h' l' /\
    kept d (fun x => In x (addrs t ++ la :: l)) h h' /\ n < n_new h' /\ n_bb (nodes h' la) = lb /\ (forall y, cnt y (n :: l') = cnt y (l ++ grown h h')).
Proof.
  induction t as [a j b|a b l IHl r IHr]; intros fuel h par pl A Oi Ob P Ap Lt Lf.
  - destruct fuel as [|fuel]; [cbn in Lf; lia|]. cbn [ptr_insert addr]. cbn in A. destruct A as (A1 & A2 & A3). unfold ptr_is_leaf. rewrite A1. unfold ptr_new_node. pose proof (from_pool_ok d h pl P) as Fp. destruct (node_from_pool buf d h) as [n h1]. destruct Fp as (l' & P1 & K1 & Ln & C1).
    assert (Da : a <> la). { intros ->. specialize (Ap la). cbn in Ap. rewrite !cnt_cons, Nat.eqb_refl in Ap. lia. }
    assert (La : la < n_new h) by (apply Lt; cbn; auto). assert (Laa : a < n_new h) by (apply Lt; cbn; auto).
    pose proof (pool_apart _ _ _ _ _ P C1) as An. pose proof (fun y => pool_old _ _ _ _ y C1) as On.
    assert (Dn : forall y, In y (n :: l') -> y <> a /\ y <> la). { intros y Hy. split; intros ->; [specialize (On a Laa Hy); specialize (Ap a)|specialize (On la La Hy); specialize (Ap la)]; apply cnt_in in On; cbn in Ap; rewrite !cnt_cons, Nat.eqb_refl in Ap; lia. }
    assert (Nn : n <> a /\ n <> la) by (apply Dn; now left).
    destruct Nn as [Na Nl]. assert (Ka : nodes h1 a = nodes h a) by (apply K1; auto). assert (Kl : nodes h1 la = nodes h la) by (apply K1; auto).
    set (h2 := set_node h1 n _). assert (E2 : forall y, nodes (set_b (set_a h2 n la) n a) y = if Nat.eqb a y then (let m := nodes h a in MkNode (n_obj m) (n_bb m) (Some n) (n_a m) (n_b m)) else if Nat.eqb la y then (let m := nodes h la in MkNode (n_obj m) (n_bb m) (Some n) (n_a m) (n_b m)) else if Nat.eqb n y then MkNode None (bb_merge lb b) None (Some la) (Some a) else nodes h1 y).
    { intros y. rewrite set_b_nodes, !set_a_nodes by auto. destruct (Nat.eqb_spec a y) as [<-|Dy].
      - destruct (Nat.eqb_spec la a); [congruence|]. destruct (Nat.eqb_spec n a); [congruence|]. unfold h2. rewrite set_node_same, Ka by auto. reflexivity.
      - destruct (Nat.eqb_spec n y) as [<-|Dnn].
        + destruct (Nat.eqb_spec la n); [congruence|]. rewrite Nat.eqb_refl. unfold h2. cbn. rewrite put_eq. cbn. rewrite Ka, Kl, Ob, A2. reflexivity.
        + destruct (Nat.eqb_spec la y) as [<-|]; [|unfold h2; now rewrite set_node_same]. unfold h2. rewrite set_node_same, Kl by auto. reflexivity. }
    exists n, l'. eexists. cbn [pinsert addr]. split; [reflexivity|]. split; [|split; [|split; [|split; [|split]]]].
    + cbn [at_ is_pl addr]. rewrite !E2, !Nat.eqb_refl. destruct (Nat.eqb_spec a n); [congruence|]. destruct (Nat.eqb_spec la n); [congruence|]. destruct (Nat.eqb_spec a la); [congruence|]. cbn. rewrite Oi, Ob, A1, A2. repeat split; auto.
    + destruct P1 as (C & B & D). split; [|split]; auto. change (n_pool (set_b (set_a h2 n la) n a) d) with (n_pool h1 d). revert C. apply nchain_ext. intros y Hy. rewrite E2.
      destruct (Dn y) as [D1 D2]; [now right|]. assert (y <> n). { intros ->. specialize (An n). rewrite cnt_cons, Nat.eqb_refl in An. apply cnt_in in Hy. lia. }
      destruct (Nat.eqb_spec a y); [congruence|]. destruct (Nat.eqb_spec la y); [congruence|]. destruct (Nat.eqb_spec n y); [congruence|auto].
    + destruct K1 as (Q1 & Q2 & Q3 & Q4). split; auto. split; auto. split; auto. intros y Ly Ny. rewrite E2. cbn in Ny. destruct (Nat.eqb_spec a y); [tauto|]. destruct (Nat.eqb_spec la y); [tauto|]. destruct (Nat.eqb_spec n y) as [<-|]; [|apply Q4; auto].
      exfalso. apply Ny. right. right. apply On; cbn; auto.
    + exact Ln.
    + rewrite E2, Nat.eqb_refl. destruct (Nat.eqb_spec a la); [congruence|]. cbn. exact Ob.
    + exact C1.
  - destruct fuel as [|fuel]; [cbn in Lf; lia|]. cbn [addrs length] in Lf. rewrite app_length in Lf. cbn [at_] in A. destruct A as (A1 & A2 & A3 & A4 & A5 & A6 & A7). cbn [ptr_insert addr]. unfold ptr_is_leaf. rewrite A1, A4, A5. rewrite (at_bb _ _ _ A6), (at_bb _ _ _ A7), Ob.
    assert (C : forall x, cnt x [a] + cnt x (addrs l) + cnt x (addrs r) + cnt x [la] + cnt x pl <= 1). { intros x. specialize (Ap x). cbn [addrs] in Ap. rewrite cnt_app, !cnt_cons, !cnt_app in Ap. rewrite !cnt_cons, !cnt_nil. lia. }
    assert (Ll : forall x, In x [a] \/ In x (addrs l) \/ In x (addrs r) \/ In x [la] \/ In x pl -> x < n_new h). { intros x Hx. apply Lt. cbn [addrs]. rewrite in_app_iff. cbn [In]. rewrite !in_app_iff. cbn in Hx. tauto. }
    cbn [pinsert]. destruct (to_b (pbb l) (pbb r) lb).
    + destruct (IHr fuel h (Some a) pl) as (n & l' & h' & R); auto.
      { intros x. specialize (C x). rewrite cnt_app, cnt_cons. rewrite !cnt_cons, !cnt_nil in C. lia. } { intros x Hx. apply Ll. apply in_app_or in Hx. cbn in *; tauto. } { lia. }
      destruct R as (-> & B1 & B2 & B3 & B4 & B5 & B6). set (r' := pinsert r n la i lb) in *. pose proof (fun x => pinsert_cnt r n la i lb x) as Cr. fold r' in Cr. pose proof (pool_apart _ _ _ _ _ P B6) as An. pose proof (fun y => pool_old _ _ _ _ y B6) as On.
      destruct B3 as (Q1 & Q2 & Q3 & Q4).
      assert (Dp : forall x, In x (n :: l') -> cnt x [a] = 0 /\ cnt x (addrs l) = 0 /\ cnt x (addrs r) = 0 /\ cnt x [la] = 0).
      { intros x Hx. destruct (Nat.lt_ge_cases x (n_new h)) as [Lx|Gx]. - specialize (On x Lx Hx). apply cnt_in in On. specialize (C x). lia. - repeat split; apply cnt_out; intros K; (assert (x < n_new h) by (apply Ll; auto)); lia. }
      assert (Na : cnt a [a] = 1) by (now rewrite cnt_cons, Nat.eqb_refl, cnt_nil).
      assert (Ana : cnt a (addrs r') = 0). { rewrite Cr, !cnt_cons. pose proof (C a) as Ca. rewrite !cnt_cons, !cnt_nil, Nat.eqb_refl in Ca. destruct (Nat.eqb_spec a n) as [<-|]; [|lia]. destruct (Dp a) as (D1 & _); [now left|]. lia. }
      assert (Dr : a <> addr r'). { intros E. pose proof (addr_in r') as K. rewrite <- E in K. apply cnt_in in K. lia. }
      assert (Apr : apart (addrs r')). { intros x. rewrite Cr, !cnt_cons. pose proof (C x) as Cx. rewrite !cnt_cons, !cnt_nil in Cx. destruct (Nat.eqb_spec x n) as [->|]; [|lia]. destruct (Dp n) as (_ & _ & D3 & D4); [now left|]. rewrite !cnt_cons, !cnt_nil in D4. lia. }
      assert (Old : forall x, In x [a] \/ In x (addrs l) -> nodes h' x = nodes h x). { intros x Hx. apply Q4; [apply Ll; tauto|]. intros K. apply cnt_in in K. rewrite cnt_app, cnt_cons in K. pose proof (C x) as Cx. rewrite !(cnt_cons x la), cnt_nil in Cx. destruct Hx as [Hx|Hx]; apply cnt_in in Hx; lia. }
      assert (Oa : nodes h' a = nodes h a) by (apply Old; cbn; auto).
      set (h2 := set_b h' a (addr r')). assert (E2 : forall y, nodes h2 y = if Nat.eqb (addr r') y then (let m := nodes h' (addr r') in MkNode (n_obj m) (n_bb m) (Some a) (n_a m) (n_b m)) else if Nat.eqb a y then (let m := nodes h a in MkNode (n_obj m) (n_bb m) (n_parent m) (n_a m) (Some (addr r'))) else nodes h' y) by (intros y; unfold h2; rewrite set_b_nodes by auto; rewrite Oa; reflexivity).
      assert (Bl : n_bb (nodes h2 la) = lb). { rewrite E2. destruct (Nat.eqb_spec (addr r') la) as [->|]; [exact B5|]. destruct (Nat.eqb_spec a la) as [->|]; [|exact B5]. pose proof (C la). lia. }
      assert (Ba : nodes h2 a = MkNode None b par (Some (addr l)) (Some (addr r'))). { rewrite E2. destruct (Nat.eqb_spec (addr r') a); [congruence|]. rewrite Nat.eqb_refl. cbn. now rewrite A1, A2, A3, A4. }
      rewrite Bl, Ba. cbn [n_bb]. set (h3 := set_bb h2 a (bb_merge b lb)). assert (E3 : forall y, nodes h3 y = if Nat.eqb a y then MkNode None (bb_merge b lb) par (Some (addr l)) (Some (addr r')) else nodes h2 y). { intros y. unfold h3. rewrite set_bb_nodes, Ba. reflexivity. }
      exists n, l', h3. cbn [addr at_ is_pl addrs]. split; [reflexivity|]. split; [|split; [|split; [|split; [|split]]]]; auto.
      * rewrite !E3, !Nat.eqb_refl. cbn [n_obj n_bb n_parent n_a n_b]. repeat (split; auto).
        -- revert A6. apply at_ext. intros x Hx. rewrite E3, E2. assert (cnt x (addrs l) > 0) as Cx by (now apply cnt_in). destruct (Nat.eqb_spec a x) as [->|]; [pose proof (C x); lia|]. destruct (Nat.eqb_spec (addr r') x) as [<-|]; [|apply Old; auto].
           exfalso. pose proof (addr_in r') as K. apply cnt_in in K. rewrite Cr, !cnt_cons in K. pose proof (C (addr r')) as Cy. rewrite !(cnt_cons _ la), cnt_nil in Cy. destruct (Nat.eqb_spec (addr r') n) as [E|]; [|lia]. destruct (Dp n) as (_ & D2 & _); [now left|]. rewrite <- E in D2. lia.
        -- refine (at_reparent _ _ _ _ _ Apr B1 _ _ _ _ _ _).
           ++ intros x Hx Dx. rewrite E3, E2. destruct (Nat.eqb_spec a x) as [->|]; [apply cnt_in in Hx; lia|]. destruct (Nat.eqb_spec (addr r') x); [congruence|]. reflexivity.
           ++ rewrite E3, E2, Nat.eqb_refl. destruct (Nat.eqb_spec a (addr r')); [congruence|reflexivity].
           ++ rewrite E3, E2, Nat.eqb_refl. destruct (Nat.eqb_spec a (addr r')); [congruence|reflexivity].
           ++ rewrite E3, E2, Nat.eqb_refl. destruct (Nat.eqb_spec a (addr r')); [congruence|reflexivity].
           ++ rewrite E3, E2, Nat.eqb_refl. destruct (Nat.eqb_spec a (addr r')); [congruence|reflexivity].
           ++ rewrite E3, E2, Nat.eqb_refl. destruct (Nat.eqb_spec a (addr r')); [congruence|reflexivity].
      * destruct B2 as (G1 & G2 & G3). split; [|split]; auto. change (n_pool h3 d) with (n_pool h' d). revert G1. apply nchain_ext. intros x Hx. destruct (Dp x) as (D1 & D2 & D3 & D4); [now right|]. rewrite !cnt_cons, !cnt_nil in D1, D4. rewrite E3, E2. destruct (Nat.eqb_spec a x) as [->|]; [rewrite Nat.eqb_refl in D1; lia|]. destruct (Nat.eqb_spec (addr r') x) as [<-|]; [|reflexivity].
        exfalso. pose proof (addr_in r') as K. apply cnt_in in K. rewrite Cr, !cnt_cons in K. specialize (An (addr r')). rewrite cnt_cons in An. apply cnt_in in Hx. lia.
      * split; auto. split; auto. split; auto. intros x Lx Nx. cbn [app In] in Nx. rewrite !in_app_iff in Nx. cbn [In] in Nx. rewrite E3, E2. destruct (Nat.eqb_spec a x); [tauto|].
        destruct (Nat.eqb_spec (addr r') x) as [E|]; [|apply Q4; auto; rewrite in_app_iff; cbn [In]; tauto]. exfalso. pose proof (addr_in r') as K. rewrite E in K. apply cnt_in in K. rewrite Cr in K. apply cnt_in in K. cbn [In] in K. assert (n = x -> In x pl) by (intros <-; apply On; cbn; auto). tauto.
      * rewrite E3. destruct (Nat.eqb_spec a la) as [->|]; [|exact Bl]. pose proof (C la). lia.
    + destruct (IHl fuel h (Some a) pl) as (n & l' & h' & R); auto.
      { intros x. specialize (C x). rewrite cnt_app, cnt_cons. rewrite !cnt_cons, !cnt_nil in C. lia. } { intros x Hx. apply Ll. apply in_app_or in Hx. cbn in *; tauto. } { lia. }
      destruct R as (-> & B1 & B2 & B3 & B4 & B5 & B6). set (lx' := pinsert l n la i lb) in *. pose proof (fun x => pinsert_cnt l n la i lb x) as Cr. fold lx' in Cr. pose proof (pool_apart _ _ _ _ _ P B6) as An. pose proof (fun y => pool_old _ _ _ _ y B6) as On.
      destruct B3 as (Q1 & Q2 & Q3 & Q4).
      assert (Dp : forall x, In x (n :: l') -> cnt x [a] = 0 /\ cnt x (addrs r) = 0 /\ cnt x (addrs l) = 0 /\ cnt x [la] = 0).
      { intros x Hx. destruct (Nat.lt_ge_cases x (n_new h)) as [Lx|Gx]. - specialize (On x Lx Hx). apply cnt_in in On. specialize (C x). lia. - repeat split; apply cnt_out; intros K; (assert (x < n_new h) by (apply Ll; auto)); lia. }
      assert (Na : cnt a [a] = 1) by (now rewrite cnt_cons, Nat.eqb_refl, cnt_nil).
      assert (Ana : cnt a (addrs lx') = 0). { rewrite Cr, !cnt_cons. pose proof (C a) as Ca. rewrite !cnt_cons, !cnt_nil, Nat.eqb_refl in Ca. destruct (Nat.eqb_spec a n) as [<-|]; [|lia]. destruct (Dp a) as (D1 & _); [now left|]. lia. }
      assert (Dr : a <> addr lx'). { intros E. pose proof (addr_in lx') as K. rewrite <- E in K. apply cnt_in in K. lia. }
      assert (Apr : apart (addrs lx')). { intros x. rewrite Cr, !cnt_cons. pose proof (C x) as Cx. rewrite !cnt_cons, !cnt_nil in Cx. destruct (Nat.eqb_spec x n) as [->|]; [|lia]. destruct (Dp n) as (_ & _ & D3 & D4); [now left|]. rewrite !cnt_cons, !cnt_nil in D4. lia. }
      assert (Old : forall x, In x [a] \/ In x (addrs r) -> nodes h' x = nodes h x). { intros x Hx. apply Q4; [apply Ll; tauto|]. intros K. apply cnt_in in K. rewrite cnt_app, cnt_cons in K. pose proof (C x) as Cx. rewrite !(cnt_cons x la), cnt_nil in Cx. destruct Hx as [Hx|Hx]; apply cnt_in in Hx; lia. }
      assert (Oa : nodes h' a = nodes h a) by (apply Old; cbn; auto).
      set (h2 := set_a h' a (addr lx')). assert (E2 : forall y, nodes h2 y = if Nat.eqb (addr lx') y then (let m := nodes h' (addr lx') in MkNode (n_obj m) (n_bb m) (Some a) (n_a m) (n_b m)) else if Nat.eqb a y then (let m := nodes h a in MkNode (n_obj m) (n_bb m) (n_parent m) (Some (addr lx')) (n_b m)) else nodes h' y) by (intros y; unfold h2; rewrite set_a_nodes by auto; rewrite Oa; reflexivity).
      assert (Bl : n_bb (nodes h2 la) = lb). { rewrite E2. destruct (Nat.eqb_spec (addr lx') la) as [->|]; [exact B5|]. destruct (Nat.eqb_spec a la) as [->|]; [|exact B5]. pose proof (C la). lia. }
      assert (Ba : nodes h2 a = MkNode None b par (Some (addr lx')) (Some (addr r))). { rewrite E2. destruct (Nat.eqb_spec (addr lx') a); [congruence|]. rewrite Nat.eqb_refl. cbn. now rewrite A1, A2, A3, A5. }
      rewrite Bl, Ba. cbn [n_bb]. set (h3 := set_bb h2 a (bb_merge b lb)). assert (E3 : forall y, nodes h3 y = if Nat.eqb a y then MkNode None (bb_merge b lb) par (Some (addr lx')) (Some (addr r)) else nodes h2 y). { intros y. unfold h3. rewrite set_bb_nodes, Ba. reflexivity. }
      exists n, l', h3. cbn [addr at_ is_pl addrs]. split; [reflexivity|]. split; [|split; [|split; [|split; [|split]]]]; auto.
      * rewrite !E3, !Nat.eqb_refl. cbn [n_obj n_bb n_parent n_a n_b]. repeat (split; auto).
        -- refine (at_reparent _ _ _ _ _ Apr B1 _ _ _ _ _ _).
           ++ intros x Hx Dx. rewrite E3, E2. destruct (Nat.eqb_spec a x) as [->|]; [apply cnt_in in Hx; lia|]. destruct (Nat.eqb_spec (addr lx') x); [congruence|]. reflexivity.
           ++ rewrite E3, E2, Nat.eqb_refl. destruct (Nat.eqb_spec a (addr lx')); [congruence|reflexivity].
           ++ rewrite E3, E2, Nat.eqb_refl. destruct (Nat.eqb_spec a (addr lx')); [congruence|reflexivity].
           ++ rewrite E3, E2, Nat.eqb_refl. destruct (Nat.eqb_spec a (addr lx')); [congruence|reflexivity].
           ++ rewrite E3, E2, Nat.eqb_refl. destruct (Nat.eqb_spec a (addr lx')); [congruence|reflexivity].
           ++ rewrite E3, E2, Nat.eqb_refl. destruct (Nat.eqb_spec a (addr lx')); [congruence|reflexivity].
        -- revert A7. apply at_ext. intros x Hx. rewrite E3, E2. assert (cnt x (addrs r) > 0) as Cx by (now apply cnt_in). destruct (Nat.eqb_spec a x) as [->|]; [pose proof (C x); lia|]. destruct (Nat.eqb_spec (addr lx') x) as [<-|]; [|apply Old; auto].
           exfalso. pose proof (addr_in lx') as K. apply cnt_in in K. rewrite Cr, !cnt_cons in K. pose proof (C (addr lx')) as Cy. rewrite !(cnt_cons _ la), cnt_nil in Cy. destruct (Nat.eqb_spec (addr lx') n) as [E|]; [|lia]. destruct (Dp n) as (_ & D2 & _); [now left|]. rewrite <- E in D2. lia.
      * destruct B2 as (G1 & G2 & G3). split; [|split]; auto. change (n_pool h3 d) with (n_pool h' d). revert G1. apply nchain_ext. intros x Hx. destruct (Dp x) as (D1 & D2 & D3 & D4); [now right|]. rewrite !cnt_cons, !cnt_nil in D1, D4. rewrite E3, E2. destruct (Nat.eqb_spec a x) as [->|]; [rewrite Nat.eqb_refl in D1; lia|]. destruct (Nat.eqb_spec (addr lx') x) as [<-|]; [|reflexivity].
        exfalso. pose proof (addr_in lx') as K. apply cnt_in in K. rewrite Cr, !cnt_cons in K. specialize (An (addr lx')). rewrite cnt_cons in An. apply cnt_in in Hx. lia.
      * split; auto. split; auto. split; auto. intros x Lx Nx. cbn [app In] in Nx. rewrite !in_app_iff in Nx. cbn [In] in Nx. rewrite E3, E2. destruct (Nat.eqb_spec a x); [tauto|].
        destruct (Nat.eqb_spec (addr lx') x) as [E|]; [|apply Q4; auto; rewrite in_app_iff; cbn [In]; tauto]. exfalso. pose proof (addr_in lx') as K. rewrite E in K. apply cnt_in in K. rewrite Cr in K. apply cnt_in in K. cbn [In] in K. assert (n = x -> In x pl) by (intros <-; apply On; cbn; auto). tauto.
      * rewrite E3. destruct (Nat.eqb_spec a la) as [->|]; [|exact Bl]. pose proof (C la). lia.
Qed.

(** ** A leaf and its way up *)
(** the frames above a node, innermost first: the parent, its box, whether the node is the parent's a, the other child *)
Definition frame := (nat * bb * bool * pt)%type.
Definition fit (f : frame) (t : pt) : pt := let '(a, b, dir, s) := f in if dir then PN a b t s else PN a b s t.
Fixpoint plug (t : pt) (c : list frame) : pt := match c with [] => t | f :: c => plug (fit f t) c end.
Definition par_of (c : list frame) : option nat := match c with [] => None | (a, _, _, _) :: _ => Some a end.
Fixpoint caddrs (c : list frame) : list nat := match c with [] => [] | (a, _, _, s) :: c => a :: addrs s ++ caddrs c end.
Fixpoint at_ctx (f : nat -> node) (c : list frame) (x : nat) : Prop :=
  match c with
  | [] => True
  | (a, b, dir, s) :: c => n_obj (f a) = None /\ n_bb (f a) = b /\ n_parent (f a) = par_of c /\ n_a (f a) = Some (if dir : bool then x else addr s) /\ n_b (f a) = Some (if dir : bool then addr s else x) /\ at_ f s (Some a) /\ at_ctx f c a
  end.
Lemma plug_app t c1 c2 : plug t (c1 ++ c2) = plug (plug t c1) c2. Proof. revert t. induction c1; intros t; cbn; auto. Qed.
Lemma plug_at f c : forall t, at_ f (plug t c) None <-> at_ f t (par_of c) /\ at_ctx f c (addr t).
Proof.
  induction c as [|[[[a b] dir] s] c IH]; intros t; cbn [plug par_of at_ctx]; [tauto|]. rewrite IH. destruct dir; cbn [fit at_ addr]; tauto.
Qed.
Lemma plug_cnt x c : forall t, cnt x (addrs (plug t c)) = cnt x (addrs t) + cnt x (caddrs c).
Proof. induction c as [|[[[a b] dir] s] c IH]; intros t; cbn [plug caddrs]; [rewrite cnt_nil; lia|]. rewrite IH. destruct dir; cbn [fit addrs]; rewrite !cnt_cons, !cnt_app; lia. Qed.
Lemma plug_find i la t : In (i, la) (pleaves t) -> exists lb c, t = plug (PL la i lb) c.
Proof.
  induction t as [a j b|a b l IHl r IHr]; cbn [pleaves].
  - intros [E|[]]. inversion E; subst. exists b, []. reflexivity.
  - intros K. apply in_app_or in K. destruct K as [K|K]; [destruct (IHl K) as (lb & c & E); exists lb, (c ++ [(a, b, true, r)])|destruct (IHr K) as (lb & c & E); exists lb, (c ++ [(a, b, false, l)])]; rewrite plug_app, <- E; reflexivity.
Qed.
Fixpoint cleaves (c : list frame) : list (nat * nat) := match c with [] => [] | (_, _, _, s) :: c => pleaves s ++ cleaves c end.
Lemma plug_leaves q c : forall t, In q (pleaves (plug t c)) <-> In q (pleaves t) \/ In q (cleaves c).
Proof. induction c as [|[[[a b] dir] s] c IH]; intros t; cbn [plug cleaves]; [cbn; tauto|]. rewrite IH, in_app_iff. destruct dir; cbn [fit pleaves]; rewrite in_app_iff; tauto. Qed.
Lemma plug_cnt_leaves x c : forall t, cnt x (map fst (pleaves (plug t c))) = cnt x (map fst (pleaves t)) + cnt x (map fst (cleaves c)).
Proof. induction c as [|[[[a b] dir] s] c IH]; intros t; cbn [plug cleaves map]; [rewrite cnt_nil; lia|]. rewrite IH, map_app, cnt_app. destruct dir; cbn [fit pleaves]; rewrite map_app, cnt_app; lia. Qed.

(** boxes recomputed on the way up from a node with box bx *)
Definition fit_box (f : frame) (bx : bb) : bb := let '(_, _, dir, s) := f in if dir then bb_merge bx (pbb s) else bb_merge (pbb s) bx.
Definition with_box (f : frame) (b : bb) : frame := let '(a, _, dir, s) := f in (a, b, dir, s).
Fixpoint refitc (bx : bb) (c : list frame) : list frame := match c with [] => [] | f :: c => with_box f (fit_box f bx) :: refitc (fit_box f bx) c end.
Lemma refitc_leaves bx c : cleaves (refitc bx c) = cleaves c. Proof. revert bx. induction c as [|[[[a b] dir] s] c IH]; intros bx; cbn; auto. now rewrite IH. Qed.
Lemma refitc_addrs bx c : caddrs (refitc bx c) = caddrs c. Proof. revert bx. induction c as [|[[[a b] dir] s] c IH]; intros bx; cbn; auto. now rewrite IH. Qed.
Definition premove (c : list frame) : option pt := match c with [] => None | (_, _, _, s) :: c => Some (plug s (refitc (pbb s) c)) end.
Lemma refit_snoc f c : forall t, plug t (refitc (pbb t) (c ++ [f])) = fit (with_box f (fit_box f (pbb (plug t (refitc (pbb t) c))))) (plug t (refitc (pbb t) c)).
Proof.
  induction c as [|g c IH]; intros t; cbn [app refitc plug]; auto. specialize (IH (fit (with_box g (fit_box g (pbb t))) t)). assert (E : pbb (fit (with_box g (fit_box g (pbb t))) t) = fit_box g (pbb t)) by (destruct g as [[[a b] []] s]; reflexivity). rewrite E in IH. exact IH.
Qed.
Lemma has_erase i t : has i (erase t) = true <-> In i (map fst (pleaves t)).
Proof. rewrite <- tleaves_erase. unfold has. rewrite existsb_exists, in_map_iff. split; intros (x & A & B); exists x. - apply Nat.eqb_eq in B. auto. - split; auto. now apply Nat.eqb_eq. Qed.
Lemma leaf_has i t : is_leaf_of i (erase t) = true -> In i (map fst (pleaves t)).
Proof. destruct t; cbn; [|congruence]. intros E. apply Nat.eqb_eq in E. auto. Qed.
Lemma plug_not_leaf i t f c : is_leaf_of i (erase (plug t (f :: c))) = false.
Proof. revert t f. induction c as [|g c IH]; intros t f; cbn [plug]; [destruct f as [[[a b] []] s]; reflexivity|apply (IH (fit f t) g)]. Qed.
Lemma premove_erase i la lb c : ~ In i (map fst (cleaves c)) -> tremove (erase (plug (PL la i lb) c)) i = option_map erase (premove c).
Proof.
  induction c as [|f c IH] using rev_ind; intros Ni.
  - cbn. now rewrite Nat.eqb_refl.
  - assert (Ec : cleaves (c ++ [f]) = cleaves c ++ (let '(_, _, _, s) := f in pleaves s)). { clear. induction c as [|[[[a b] dir] s] c IH]; cbn; [destruct f as [[[a b] dir] s]; cbn; now rewrite app_nil_r|]. now rewrite IH, app_assoc. }
    rewrite Ec, map_app, in_app_iff in Ni. assert (Nc : ~ In i (map fst (cleaves c))) by tauto. specialize (IH Nc). rewrite plug_app. cbn [plug]. destruct f as [[[a b] dir] s]. assert (Ns : ~ In i (map fst (pleaves s))) by tauto.
    assert (Hs : has i (erase s) = false) by (destruct (has i (erase s)) eqn:E; auto; apply has_erase in E; contradiction). assert (Ls : is_leaf_of i (erase s) = false) by (destruct (is_leaf_of i (erase s)) eqn:E; auto; apply leaf_has in E; contradiction).
    destruct c as [|g c].
    + cbn [plug app premove]. destruct dir; cbn [fit erase tremove]; rewrite ?Ls; cbn [is_leaf_of]; rewrite Nat.eqb_refl; reflexivity.
    + assert (Hp : has i (erase (plug (PL la i lb) (g :: c))) = true). { apply has_erase. apply cnt_in. rewrite plug_cnt_leaves. cbn [pleaves map fst]. rewrite cnt_cons, Nat.eqb_refl. lia. }
      pose proof (plug_not_leaf i (PL la i lb) g c) as Lp. destruct g as [[[a' b'] dir'] s']. set (T := plug (PL la i lb) ((a', b', dir', s') :: c)) in *. cbn [app premove]. rewrite refit_snoc. cbn [premove option_map] in IH.
      destruct dir; cbn [fit erase tremove]; rewrite ?Ls, ?Lp, ?Hs, ?Hp, IH; unfold new_node; rewrite !pbb_erase; reflexivity.
Qed.
Lemma ups_plug i la lb c : ~ In i (map fst (cleaves c)) -> ups (erase (plug (PL la i lb) c)) i = map (fun f : frame => let '(_, _, dir, s) := f in (erase s, dir)) c.
Proof.
  induction c as [|f c IH] using rev_ind; intros Ni; [reflexivity|].
  assert (Ec : cleaves (c ++ [f]) = cleaves c ++ (let '(_, _, _, s) := f in pleaves s)). { clear. induction c as [|[[[a b] dir] s] c IH]; cbn; [destruct f as [[[a b] dir] s]; cbn; now rewrite app_nil_r|]. now rewrite IH, app_assoc. }
  rewrite Ec, map_app, in_app_iff in Ni. rewrite map_app, <- IH by tauto. rewrite plug_app. cbn [plug map]. destruct f as [[[a b] dir] s].
  assert (Hs : has i (erase s) = false) by (destruct (has i (erase s)) eqn:E; auto; apply has_erase in E; tauto).
  assert (Hp : has i (erase (plug (PL la i lb) c)) = true). { apply has_erase. apply cnt_in. rewrite plug_cnt_leaves. cbn [pleaves map fst]. rewrite cnt_cons, Nat.eqb_refl. lia. }
  destruct dir; cbn [fit erase ups]; rewrite ?Hs, ?Hp; reflexivity.
Qed.

Lemma at_ctx_ext f g c : forall x, (forall y, In y (caddrs c) -> g y = f y) -> at_ctx f c x -> at_ctx g c x.
Proof.
  induction c as [|[[[a b] dir] s] c IH]; intros x E; cbn [at_ctx caddrs] in *; auto. rewrite (E a) by (now left). intros (A1 & A2 & A3 & A4 & A5 & A6 & A7). repeat (split; auto).
  - revert A6. apply at_ext. intros y Hy. apply E. right. apply in_or_app. auto.
  - apply IH; auto. intros y Hy. apply E. right. apply in_or_app. auto.
Qed.
Fixpoint top (x : nat) (c : list frame) : nat := match c with [] => x | (a, _, _, _) :: c => top a c end.
Lemma top_addr c : forall t, addr (plug t c) = top (addr t) c.
Proof. induction c as [|[[[a b] dir] s] c IH]; intros t; cbn [plug top]; auto. rewrite IH. destruct dir; reflexivity. Qed.
Lemma top_in x c : In (top x c) (x :: caddrs c).
Proof. revert x. induction c as [|[[[a b] dir] s] c IH]; intros x; cbn [top caddrs]; [now left|]. right. destruct (IH a) as [E|K]; [left; auto|]. right. apply in_or_app. auto. Qed.

Lemma top_refit c : forall bx x, top x (refitc bx c) = top x c.
Proof. induction c as [|[[[a b] dir] t] c IH]; intros bx x; cbn [refitc with_box top]; auto. Qed.

Definition touched (ch : nat -> Prop) (h h' : nheap) : Prop := n_pool h' = n_pool h /\ n_root h' = n_root h /\ n_new h' = n_new h /\ forall x, ~ ch x -> nodes h' x = nodes h x.
Lemma refit_ok c : forall fuel h t, at_ (nodes h) t (par_of c) -> at_ctx (nodes h) c (addr t) -> apart (addrs t ++ caddrs c) -> length c <= fuel ->
  exists h', refit fuel (par_of c) h = Some h' /\ at_ (nodes h') (plug t (refitc (pbb t) c)) None /\ touched (fun x => In x (caddrs c)) h h'.
Proof.
  induction c as [|[[[a b] dir] s] c IH]; intros fuel h t A C Ap Lf.
  - exists h. cbn [par_of refit]. destruct fuel; (split; [reflexivity|split; [exact A|repeat split]]).
  - destruct fuel as [|fuel]; [cbn in Lf; lia|]. cbn [par_of refit]. cbn [at_ctx] in C. destruct C as (C1 & C2 & C3 & C4 & C5 & C6 & C7). cbn [par_of] in A.
    assert (Q : forall x, cnt x (addrs t) + (if Nat.eqb x a then 1 else 0) + cnt x (addrs s) + cnt x (caddrs c) <= 1). { intros x. specialize (Ap x). cbn [caddrs] in Ap. rewrite cnt_app, cnt_cons, cnt_app in Ap. lia. }
    assert (Na : forall x, In x (addrs t) \/ In x (addrs s) \/ In x (caddrs c) -> x <> a). { intros x Hx ->. specialize (Q a). rewrite Nat.eqb_refl in Q. rewrite !cnt_in in Hx. lia. }
    rewrite C4, C5. set (b' := fit_box (a, b, dir, s) (pbb t)). assert (Eb : bb_merge (n_bb (nodes h (if dir then addr t else addr s))) (n_bb (nodes h (if dir then addr s else addr t))) = b') by (unfold b'; destruct dir; cbn [fit_box]; now rewrite (at_bb _ _ _ A), (at_bb _ _ _ C6)).
    rewrite Eb, C3. set (h1 := set_bb h a b'). assert (E1 : forall y, y <> a -> nodes h1 y = nodes h y) by (intros y Dy; unfold h1; rewrite set_bb_nodes; destruct (Nat.eqb_spec a y); [congruence|reflexivity]).
    assert (E2 : nodes h1 a = MkNode None b' (par_of c) (Some (if dir then addr t else addr s)) (Some (if dir then addr s else addr t))) by (unfold h1; rewrite set_bb_nodes, Nat.eqb_refl; cbn; now rewrite C1, C3, C4, C5).
    assert (At : at_ (nodes h1) t (Some a)) by (revert A; apply at_ext; intros x Hx; apply E1, Na; auto). assert (As : at_ (nodes h1) s (Some a)) by (revert C6; apply at_ext; intros x Hx; apply E1, Na; auto).
    destruct (IH fuel h1 (fit (a, b', dir, s) t)) as (h' & R1 & R2 & R3).
    + destruct dir; cbn [fit at_]; rewrite E2; cbn; repeat (split; auto).
    + replace (addr (fit (a, b', dir, s) t)) with a by (destruct dir; reflexivity). revert C7. apply at_ctx_ext. intros x Hx. apply E1, Na; auto.
    + intros x. specialize (Q x). destruct dir; cbn [fit addrs]; rewrite cnt_app, cnt_cons, cnt_app; lia.
    + cbn in Lf. lia.
    + exists h'. split; auto. split.
      * cbn [refitc plug with_box]. fold b'. replace (pbb (fit (a, b', dir, s) t)) with b' in R2 by (destruct dir; reflexivity). exact R2.
      * destruct R3 as (P1 & P2 & P3 & P4). split; [exact P1|]. split; [exact P2|]. split; [exact P3|]. intros x Nx. cbn [caddrs] in Nx. rewrite P4, E1; auto. intros ->. apply Nx. now left. intros K. apply Nx. right. apply in_or_app. auto.
Qed.
Lemma same_some x y : x <> y -> same (Some x) (Some y) = false. Proof. intros D. apply same_ne. congruence. Qed.
Lemma other_ok h a b dir s c la : at_ctx (nodes h) ((a, b, dir, s) :: c) la -> addr s <> la -> other h a la = Some (addr s).
Proof. cbn [at_ctx]. intros (_ & _ & _ & A & B & _) D. unfold other. rewrite A, B. destruct dir; [now rewrite same_refl|]. rewrite same_some; auto. Qed.
Definition removed (c : list frame) : list nat := match c with [] => [] | (a, _, _, _) :: _ => [a] end.
Lemma remove_ok d la c fuel h l : at_ctx (nodes h) c la -> n_parent (nodes h la) = par_of c -> apart (la :: caddrs c ++ l) -> (forall x, In x (la :: caddrs c ++ l) -> x < n_new h) -> pooled d h l -> length c <= fuel ->
  exists h', ptr_remove fuel d (Some (top la c)) la h = Some (option_map addr (premove c), h') /\ (forall t, premove c = Some t -> at_ (nodes h') t None) /\ pooled d h' (removed c ++ l) /\ kept d (fun x => In x (caddrs c)) h h' /\ n_new h' = n_new h.
Proof.
  intros A Pa Ap Lt P Lf. unfold ptr_remove. destruct c as [|f c].
  - exists h. cbn [top]. rewrite same_refl. cbn. split; auto. split; [congruence|]. split; auto. split; auto. apply kept_refl.
  - destruct f as [[[a b] dir] s].
    assert (Q : forall x, (if Nat.eqb x la then 1 else 0) + (if Nat.eqb x a then 1 else 0) + cnt x (addrs s) + cnt x (caddrs c) + cnt x l <= 1). { intros x. specialize (Ap x). cbn [caddrs app] in Ap. rewrite !cnt_cons, !cnt_app in Ap. lia. }
    assert (Dla : forall x, In x (addrs s) \/ In x (caddrs c) \/ x = a \/ In x l -> x <> la). { intros x Hx ->. specialize (Q la). rewrite Nat.eqb_refl in Q. destruct Hx as [Hx|[Hx|[->|Hx]]]; [| |rewrite Nat.eqb_refl in Q; lia|]; apply cnt_in in Hx; lia. }
    assert (Da : forall x, In x (addrs s) \/ In x (caddrs c) \/ In x l -> x <> a). { intros x Hx ->. specialize (Q a). rewrite Nat.eqb_refl in Q. destruct Hx as [Hx|[Hx|Hx]]; apply cnt_in in Hx; lia. }
    assert (Ds : forall x, In x (addrs s) -> In x (caddrs c) \/ In x l -> False). { intros x Hs Hx. specialize (Q x). apply cnt_in in Hs. destruct Hx as [Hx|Hx]; apply cnt_in in Hx; lia. }
    assert (La : a < n_new h) by (apply Lt; cbn; auto). pose proof (addr_in s) as Is.
    rewrite same_some. 2: { intros E. pose proof (top_in a c) as K. cbn [top] in E. rewrite <- E in K. destruct K as [K|K]; [apply (Dla a); auto|apply (Dla la); auto]. }
    rewrite Pa. cbn [par_of top]. cbn [premove removed option_map].
    assert (Ds2 : addr s <> la) by (apply Dla; auto). pose proof (other_ok _ _ _ _ _ _ _ A Ds2) as Eo. cbn [at_ctx] in A. destruct A as (A1 & A2 & A3 & A4 & A5 & A6 & A7). assert (Aps : apart (addrs s)) by (intros x; specialize (Q x); lia).
    destruct c as [|[[[a2 b2] dir2] s2] c].
    + cbn [top]. rewrite same_refl, Eo. cbn [par_of] in A3. rewrite A3. set (h1 := set_parent h (addr s) None). assert (E1 : forall y, y <> addr s -> nodes h1 y = nodes h y) by (intros y Dy; unfold h1; apply set_node_same; auto).
      assert (P1 : pooled d h1 l). { destruct P as (P1 & P2 & P3). split; [|split]; auto. change (n_pool h1 d) with (n_pool h d). revert P1. apply nchain_ext. intros x Hx. apply E1. intros ->. eauto. }
      destruct (recycle_node_ok d h1 l a P1) as (R1 & R2); [intros K; apply (Da a); auto|auto|]. exists (recycle_node d h1 a). cbn [refitc plug]. split; [reflexivity|]. split; [|split; [exact R1|split; [|reflexivity]]].
      * intros t Et. inversion Et; subst t; clear Et. assert (E2 : forall x, In x (addrs s) -> nodes (recycle_node d h1 a) x = nodes h1 x). { intros x Hx. apply R2; [apply Lt; cbn [caddrs]; cbn [In app]; rewrite !in_app_iff; auto|]. intros ->. apply (Da x); auto. }
        refine (at_reparent (nodes h) _ s (Some a) None Aps A6 _ _ _ _ _ _); [intros x Hx Dx; rewrite E2 by auto; auto|rewrite E2 by auto; unfold h1, set_parent; cbn; now rewrite put_eq ..].
      * destruct R2 as (K1 & K2 & K3 & K4). split; [exact K1|]. split; [exact K2|]. split; [exact K3|]. intros x Lx Nx. cbn [caddrs] in Nx. rewrite K4; [|exact Lx|intros E; apply Nx; left; exact E]. apply E1. intros E. subst x. apply Nx. right. apply in_or_app. auto.
    + cbn [top]. rewrite same_some. 2: { intros E. apply (Da (top a2 c)); auto. right. left. pose proof (top_in a2 c) as K. cbn [caddrs]. destruct K as [<-|K]; [now left|right; apply in_or_app; auto]. }
      rewrite Eo. cbn [par_of] in A3. rewrite A3. cbn [at_ctx] in A7. destruct A7 as (B1 & B2 & B3 & B4 & B5 & B6 & B7).
      assert (Q2 : forall x, (if Nat.eqb x a then 1 else 0) + (if Nat.eqb x a2 then 1 else 0) + cnt x (addrs s) + cnt x (addrs s2) + cnt x (caddrs c) + cnt x l <= 1). { intros x. specialize (Q x). cbn [caddrs] in Q. rewrite cnt_cons, cnt_app in Q. lia. }
      assert (Da2 : forall x, In x (addrs s) \/ In x (addrs s2) \/ In x (caddrs c) \/ In x l -> x <> a2). { intros x Hx ->. specialize (Q2 a2). rewrite Nat.eqb_refl in Q2. destruct Hx as [Hx|[Hx|[Hx|Hx]]]; apply cnt_in in Hx; lia. }
      assert (Da1 : forall x, In x (addrs s) \/ In x (addrs s2) \/ In x (caddrs c) \/ In x l -> x <> a). { intros x Hx ->. specialize (Q2 a). rewrite Nat.eqb_refl in Q2. destruct Hx as [Hx|[Hx|[Hx|Hx]]]; apply cnt_in in Hx; lia. }
      assert (Daa : a <> a2) by (intros ->; specialize (Q2 a2); rewrite Nat.eqb_refl in Q2; lia). assert (La2 : a2 < n_new h) by (apply Lt; cbn; rewrite in_app_iff; cbn; rewrite in_app_iff; cbn; auto 7).
      destruct (recycle_node_ok d h l a P) as (R1 & R2); [intros K; apply (Da a); auto|auto|]. set (h1 := recycle_node d h a) in *. assert (N1 : n_new h1 = n_new h) by reflexivity. destruct R2 as (K1 & K2 & K3 & K4).
      assert (E1 : forall y, y < n_new h -> y <> a -> nodes h1 y = nodes h y) by (intros y Ly Dy; apply K4; auto).
      set (h2 := if dir2 then set_a h1 a2 (addr s) else set_b h1 a2 (addr s)).
      assert (Lts : forall x, In x (addrs s) \/ In x (addrs s2) \/ In x (caddrs c) \/ In x l -> x < n_new h). { intros x Hx. apply Lt. cbn [caddrs In app]. rewrite !in_app_iff. cbn [In app]. rewrite !in_app_iff. tauto. }
      assert (D2s : a2 <> addr s) by (intros E; apply (Da2 (addr s)); auto).
      assert (E2 : forall y, nodes h2 y = if Nat.eqb (addr s) y then (let n := nodes h (addr s) in MkNode (n_obj n) (n_bb n) (Some a2) (n_a n) (n_b n)) else if Nat.eqb a2 y then MkNode None b2 (par_of c) (Some (if dir2 then addr s else addr s2)) (Some (if dir2 then addr s2 else addr s)) else nodes h1 y).
      { intros y. unfold h2. destruct dir2; [rewrite set_a_nodes by auto|rewrite set_b_nodes by auto]; (rewrite (E1 (addr s)) by auto; rewrite (E1 a2) by auto); cbv zeta; rewrite ?B1, ?B2, ?B3, ?B4, ?B5; reflexivity. }
      assert (Eh : n_pool h2 = n_pool h1 /\ n_root h2 = n_root h1 /\ n_new h2 = n_new h1) by (unfold h2; destruct dir2; auto). destruct Eh as (F1 & F2 & F3).
      assert (Er : replace_child fuel d (Some a2) a (addr s) h = refit fuel (Some a2) h2).
      { unfold replace_child. rewrite B4, B5. unfold h2. destruct dir2; [rewrite same_refl|rewrite same_some by (intros E; apply (Da1 (addr s2)); [right; left; apply addr_in|congruence])]; unfold h1; reflexivity. }
      rewrite Er. clear Er. clearbody h2. clearbody h1.
      assert (E3 : forall x, x < n_new h -> x <> a -> x <> a2 -> x <> addr s -> nodes h2 x = nodes h x). { intros x Lx D1 D2 D3. rewrite E2. destruct (Nat.eqb_spec (addr s) x); [congruence|]. destruct (Nat.eqb_spec a2 x); [congruence|]. auto. }
      assert (E4 : nodes h2 a2 = MkNode None b2 (par_of c) (Some (if dir2 then addr s else addr s2)) (Some (if dir2 then addr s2 else addr s))). { rewrite E2. destruct (Nat.eqb_spec (addr s) a2); [congruence|]. now rewrite Nat.eqb_refl. }
      destruct (refit_ok ((a2, b2, dir2, s2) :: c) fuel h2 s) as (h' & R3 & R4 & R5).
      * cbn [par_of]. refine (at_reparent (nodes h) _ s (Some a) (Some a2) Aps A6 _ _ _ _ _ _); [intros x Hx Dx; apply E3; auto|rewrite E2, Nat.eqb_refl; reflexivity ..].
      * cbn [at_ctx]. rewrite E4. cbn [n_obj n_bb n_parent n_a n_b]. repeat (split; auto).
        -- revert B6. apply at_ext. intros x Hx. apply E3; auto. intros ->. specialize (Q2 (addr s)). apply cnt_in in Hx. apply cnt_in in Is. lia.
        -- revert B7. apply at_ctx_ext. intros x Hx. apply E3; auto. intros ->. specialize (Q2 (addr s)). apply cnt_in in Hx. apply cnt_in in Is. lia.
      * intros x. specialize (Q2 x). cbn [caddrs]. rewrite cnt_app, cnt_cons, cnt_app. lia.
      * cbn in Lf |- *. lia.
      * cbn [par_of] in R3. rewrite R3. destruct R5 as (G1 & G2 & G3 & G4). exists h'. split; [|split; [|split; [|split]]].
        -- do 2 f_equal. change (Some (top a2 c) = Some (addr (plug s (refitc (pbb s) ((a2, b2, dir2, s2) :: c))))). rewrite top_addr. f_equal. cbn [refitc with_box top]. symmetry. apply top_refit.
        -- intros t Et. inversion Et; subst t. exact R4.
        -- assert (Hl : forall x, In x (a :: l) -> nodes h' x = nodes h1 x). { intros x [<-|Hx].
           - rewrite G4, E2. + destruct (Nat.eqb_spec (addr s) a); [exfalso; apply (Da (addr s)); auto|]. destruct (Nat.eqb_spec a2 a); [congruence|reflexivity]. + intros K. apply (Da a); auto.
           - rewrite G4, E2. + destruct (Nat.eqb_spec (addr s) x) as [<-|]; [exfalso; eauto|]. destruct (Nat.eqb_spec a2 x) as [<-|]; [exfalso; apply (Da2 a2); auto|reflexivity]. + intros K. specialize (Q2 x). cbn [caddrs] in K. apply cnt_in in K. rewrite cnt_cons, cnt_app in K. apply cnt_in in Hx. lia. }
           cbn [app]. destruct R1 as (T1 & T2 & T3). split; [|split]; auto. { rewrite G1, F1. revert T1. apply nchain_ext. exact Hl. } { intros x Hx. rewrite G3, F3. auto. }
        -- split; [rewrite G1, F1; exact K1|]. split; [rewrite G2, F2; exact K2|]. split; [lia|]. intros x Lx Nx. cbn [caddrs] in Nx. cbn [In app] in Nx. rewrite in_app_iff in Nx. cbn [In] in Nx. rewrite G4 by (cbn [caddrs In]; tauto). apply E3; [exact Lx|intros E; subst x; tauto ..].
        -- lia.
Qed.
End Nodes.
