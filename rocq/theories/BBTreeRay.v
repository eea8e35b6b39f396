(** Ray casts through the trees. *)
From Coq Require Import ZArith Bool List Arith Permutation Lia Reals Lra.
From Verif Require Import Num NumReal Vec BB BBProofs BBTree BBTreeSpec BBTreeProofs BBTreeMark BBTreeInv BBTreeReindex.
Import ListNotations.

Section Log.
Context {N : Num} {O : NumOrd N}.

Lemma tsegment_log {St} (f : nat -> St -> num * St) a b t e s log :
  exists u s' vis rest, tsegment (logged f) a b t e (s, log) = (u, (s', log ++ vis)) /\
    Permutation (vis ++ rest) (map fst (tleaves t)).
Proof.
  revert e s log. induction t as [i c|c l IHl r IHr]; intros e s log.
  - cbn. unfold logged; cbn. destruct (f i s) as [u s']. exists u, s', [i], []. split; reflexivity.
  - cbn [tsegment tleaves]. rewrite map_app.
    set (tA := bb_segment_query (tbb l) a b). set (tB := bb_segment_query (tbb r) a b).
    assert (GA : forall e s log, exists u s' vis rest,
      (if nltb tA (fst (e, (s, log))) then let '(u, s0) := tsegment (logged f) a b l (fst (e, (s, log))) (snd (e, (s, log))) in
         (nmin (fst (e, (s, log))) u, s0) else (e, (s, log))) = (u, (s', log ++ vis)) /\ Permutation (vis ++ rest) (map fst (tleaves l))).
    { intros e1 s1 log1. cbn [fst snd]. destruct (nltb tA e1).
      - destruct (IHl e1 s1 log1) as (u & s' & vis & rest & E & P). rewrite E. eauto 6.
      - exists e1, s1, [], (map fst (tleaves l)). rewrite app_nil_r. auto. }
    assert (GB : forall e s log, exists u s' vis rest,
      (if nltb tB (fst (e, (s, log))) then let '(u, s0) := tsegment (logged f) a b r (fst (e, (s, log))) (snd (e, (s, log))) in
         (nmin (fst (e, (s, log))) u, s0) else (e, (s, log))) = (u, (s', log ++ vis)) /\ Permutation (vis ++ rest) (map fst (tleaves r))).
    { intros e1 s1 log1. cbn [fst snd]. destruct (nltb tB e1).
      - destruct (IHr e1 s1 log1) as (u & s' & vis & rest & E & P). rewrite E. eauto 6.
      - exists e1, s1, [], (map fst (tleaves r)). rewrite app_nil_r. auto. }
    destruct (nltb tA tB).
    + destruct (GA e s log) as (u1 & s1 & v1 & r1 & E1 & P1). rewrite E1.
      destruct (GB u1 s1 (log ++ v1)) as (u2 & s2 & v2 & r2 & E2 & P2). rewrite E2, <- app_assoc.
      exists u2, s2, (v1 ++ v2), (r1 ++ r2). split; auto. rewrite <- P1, <- P2.
      rewrite <- !app_assoc. apply Permutation_app_head. rewrite !app_assoc. apply Permutation_app_tail. apply Permutation_app_comm.
    + destruct (GB e s log) as (u1 & s1 & v1 & r1 & E1 & P1). rewrite E1.
      destruct (GA u1 s1 (log ++ v1)) as (u2 & s2 & v2 & r2 & E2 & P2). rewrite E2, <- app_assoc.
      exists u2, s2, (v1 ++ v2), (r1 ++ r2). split; auto. rewrite <- P1, <- P2.
      transitivity ((v1 ++ r1) ++ (v2 ++ r2)); [|apply Permutation_app_comm].
      rewrite <- !app_assoc. apply Permutation_app_head. rewrite !app_assoc. apply Permutation_app_tail. apply Permutation_app_comm.
Qed.

Lemma segment_at_most_once x d {St} (f : nat -> St -> num * St) a b e s : reached x ->
  let log := snd (index_segment (logged f) x d a b e (s, [])) in
  NoDup log /\ forall i, In i log -> In i (x_leaves x d).
Proof.
  intros R. apply reached_inv in R. destruct R as [M _]. cbn zeta. pose proof (m_wf x M d) as [ND _].
  pose proof (m_leaves x M d) as P. unfold index_segment, leaf_list in *. destruct (x_root x d) as [t|].
  - destruct (tsegment_log f a b t e s []) as (u & s' & vis & rest & E & P'). rewrite E. cbn. split.
    + eapply nd_app_l. eapply Permutation_NoDup; [symmetry; exact P'|exact ND].
    + intros i Hi. eapply Permutation_in; [exact P|]. eapply Permutation_in; [exact P'|]. apply in_or_app. auto.
  - cbn. split; [constructor | tauto].
Qed.
End Log.

Local Open Scope R_scope.
Notation Rt := (@tree RNum).

Lemma wf_R (b : Rbb) : bb_wf b <-> bL b <= bR b /\ bB b <= bT b.
Proof. unfold bb_wf, bb_wf. cbn. rewrite !Rleb_true. tauto. Qed.

Lemma entry_mono (a b : @vec RNum) (big small : Rbb) : bb_wf small -> bb_contains big small = true ->
  bb_segment_query big a b <= bb_segment_query small a b.
Proof.
  intros Ws Hc. pose proof (contains_wf _ _ Hc Ws) as Wb. rewrite wf_R in Ws, Wb.
  pose proof (segment_query_spec big a b (proj1 Wb) (proj2 Wb)) as Sb. pose proof (segment_query_spec small a b (proj1 Ws) (proj2 Ws)) as Ss.
  cbn zeta in Sb, Ss. pose proof RMaxFloat_big.
  destruct Ss as [(S1 & S2 & S3 & S4)|(S1 & S2)], Sb as [(B1 & B2 & B3 & B4)|(B1 & B2)]; try lra.
  - apply B4; auto. apply contains_spec in Hc. cbn in Hc. rewrite !Rleb_true in Hc. unfold RIn in *. lra.
  - exfalso. apply (B2 (bb_segment_query small a b)); auto. apply contains_spec in Hc. cbn in Hc. rewrite !Rleb_true in Hc. unfold RIn in *. lra.
Qed.

Section First.
Variables (shapeq : nat -> option R) (a b : @vec RNum).
Notation enters c := (bb_segment_query (N:=RNum) c a b).

Definition leaf_bound (t : Rt) : Prop :=
  forall i c u, In (i, c) (tleaves t) -> shapeq i = Some u -> enters c <= u.
Definition leaves_wf (t : Rt) : Prop := forall p, In p (tleaves t) -> bb_wf (snd p).

Definition first_ok (ids : list nat) (s s' : R * option nat) : Prop :=
  fst s' <= fst s /\ (forall i u, In i ids -> shapeq i = Some u -> fst s' <= u) /\
  (s' = s \/ exists i, In i ids /\ s' = (fst s', Some i) /\ shapeq i = Some (fst s') /\ fst s' < fst s).

Lemma first_ok_seq l r s1 s2 s3 : first_ok l s1 s2 -> first_ok r s2 s3 -> first_ok (l ++ r) s1 s3 /\ first_ok (r ++ l) s1 s3.
Proof.
  intros (A1 & A2 & A3) (B1 & B2 & B3).
  assert (K : forall ids, (forall i, In i ids <-> In i l \/ In i r) -> first_ok ids s1 s3).
  { intros ids Hi. split; [lra|]. split.
    - intros i u H E. apply Hi in H as [H|H]; [specialize (A2 i u H E); lra | apply (B2 i u); auto].
    - destruct B3 as [->|(i & H1 & H2 & H3 & H4)].
      + destruct A3 as [->|(i & H1 & H2 & H3 & H4)]; [auto|]. right. exists i. rewrite Hi. auto.
      + right. exists i. rewrite Hi. repeat split; auto. lra. }
  split; apply K; intros i; rewrite in_app_iff; tauto.
Qed.

Lemma first_tree t (s : @num RNum * option nat) : bounded t -> leaves_wf t -> leaf_bound t ->
  exists s', tsegment (@query_first RNum shapeq) a b t (fst s) s = (fst s', s') /\ first_ok (map fst (tleaves t)) s s'.
Proof.
  revert s. induction t as [i c|c l IHl r IHr]; intros s Hb Hw Hl.
  - cbn. exists (snd (@query_first RNum shapeq i s)). split; [reflexivity|]. unfold query_first; cbn [snd fst].
    change (@num RNum) with R in *. unfold first_ok; cbn. destruct (shapeq i) as [u|] eqn:E; cbn.
    + change (@nltb RNum u (fst s)) with (Rltb u (fst s)). destruct (Rltb_spec u (fst s)); cbn.
      * split; [lra|]. split; [intros j v [<-|[]] Ej; assert (u = v) by congruence; lra|]. right. exists i. auto.
      * split; [lra|]. split; [intros j v [<-|[]] Ej; assert (u = v) by congruence; lra|]. auto.
    + split; [lra|]. split; [intros j v [<-|[]] Ej; congruence|]. auto.
  - destruct Hb as (H0 & Hbl & Hbr & Hc).
    assert (Wl : leaves_wf l) by (intros p Hp; apply Hw; cbn; apply in_or_app; auto).
    assert (Wr : leaves_wf r) by (intros p Hp; apply Hw; cbn; apply in_or_app; auto).
    assert (Ll : leaf_bound l) by (intros i d u Hp; apply Hl; cbn; apply in_or_app; auto).
    assert (Lr : leaf_bound r) by (intros i d u Hp; apply Hl; cbn; apply in_or_app; auto).
    assert (G : forall t, bounded t -> leaves_wf t -> leaf_bound t ->
      (forall s, exists s', tsegment (@query_first RNum shapeq) a b t (fst s) s = (fst s', s') /\ first_ok (map fst (tleaves t)) s s') ->
      forall s, exists s', (if @nltb RNum (enters (tbb t)) (fst (fst s, s)) then
         let '(u, s0) := tsegment (@query_first RNum shapeq) a b t (fst (fst s, s)) (snd (fst s, s)) in
         (nmin (fst (fst s, s)) u, s0) else (fst s, s)) = (fst s', s') /\ first_ok (map fst (tleaves t)) s s').
    { intros t Hbt Wt Lt IH s1. cbn [fst snd]. change (@nltb RNum) with Rltb. destruct (Rltb_spec (enters (tbb t)) (fst s1)) as [Hlt|Hge].
      - destruct (IH s1) as (s' & E & F). exists s'. rewrite E. split; auto. f_equal. destruct F as (F1 & _). cbn.
        apply Rmin_right. exact F1.
      - exists s1. split; auto. split; [lra|]. split; auto. intros i u Hi Eu. apply in_map_iff in Hi as ([j d] & <- & Hp). cbn in Eu.
        pose proof (Lt j d u Hp Eu). pose proof (entry_mono a b (tbb t) d (Wt _ Hp) (bounded_contains t _ Hbt Hp)).
        change (@num RNum) with R in *. cbn [snd] in *. lra. }
    cbn [tsegment tleaves]. rewrite map_app. destruct (@nltb RNum (enters (tbb l)) (enters (tbb r))).
    + destruct (G l Hbl Wl Ll (fun s => IHl s Hbl Wl Ll) s) as (s1 & E1 & F1). rewrite E1.
      destruct (G r Hbr Wr Lr (fun s => IHr s Hbr Wr Lr) s1) as (s2 & E2 & F2). rewrite E2.
      exists s2. split; auto. apply (first_ok_seq _ _ _ _ _ F1 F2).
    + destruct (G r Hbr Wr Lr (fun s => IHr s Hbr Wr Lr) s) as (s1 & E1 & F1). rewrite E1.
      destruct (G l Hbl Wl Ll (fun s => IHl s Hbl Wl Ll) s1) as (s2 & E2 & F2). rewrite E2.
      exists s2. split; auto. apply (first_ok_seq _ _ _ _ _ F1 F2).
Qed.

Lemma first_index x d (s : @num RNum * option nat) : inv x -> (forall i c u, key_box x (d, i) = Some c -> shapeq i = Some u -> enters c <= u) ->
  first_ok (x_leaves x d) s (index_segment (@query_first RNum shapeq) x d a b (fst s) s).
Proof.
  intros [M _] H. pose proof (m_wf x M) as W. destruct (W d) as [ND B]. pose proof (m_leaves x M d) as P.
  unfold index_segment. destruct (x_root x d) as [t|] eqn:E.
  - destruct (first_tree t s) as (s' & Es & F).
    + apply B; auto.
    + intros [i c] Hp. apply (m_boxes x M (d, i)). apply key_box_In; auto. unfold leaf_list; cbn. rewrite E. exact Hp.
    + intros i c u Hp Eu. apply (H i c u); auto. apply key_box_In; auto. unfold leaf_list; cbn. rewrite E. exact Hp.
    + rewrite Es. unfold leaf_list in P. rewrite E in P. cbn [snd]. destruct F as (F1 & F2 & F3). split; auto. split.
      * intros i u Hi. apply F2. eapply Permutation_in; [symmetry; exact P|auto].
      * destruct F3 as [->|(i & G1 & G2)]; [auto|]. right. exists i. split; auto. eapply Permutation_in; [exact P|auto].
  - split; [lra|]. split; [|auto]. intros i u Hi. unfold leaf_list in P. rewrite E in P. apply Permutation_nil in P. rewrite P in Hi. destruct Hi.
Qed.

Lemma segment_first_spec x : reached x ->
  (forall d i c u, key_box x (d, i) = Some c -> shapeq i = Some u -> enters c <= u) ->
  let r := segment_query_first x shapeq a b in
  fst r <= 1 /\ (forall d i u, In i (x_leaves x d) -> shapeq i = Some u -> fst r <= u) /\
  (r = (1, None) \/ exists d i, In i (x_leaves x d) /\ snd r = Some i /\ shapeq i = Some (fst r) /\ fst r < 1).
Proof.
  intros Hx H. apply reached_inv in Hx. cbn zeta.
  pose proof (first_index x false (1, None) Hx (H false)) as F1. cbn [fst] in F1.
  set (info := index_segment (@query_first RNum shapeq) x false a b 1 (1, None)) in *.
  pose proof (first_index x true info Hx (H true)) as F2.
  set (r := index_segment (@query_first RNum shapeq) x true a b (fst info) info) in *.
  destruct F1 as (A1 & A2 & A3), F2 as (B1 & B2 & B3). cbn [fst snd] in *.
  assert (E : segment_query_first x shapeq a b = r) by reflexivity. rewrite E. clear E. clearbody r info. change (@num RNum) with R in *. split; [lra|]. split.
  - intros [|] i u Hi Eu; [apply (B2 i u); auto|]. specialize (A2 i u Hi Eu). lra.
  - destruct B3 as [B3|(i & H1 & H2 & H3 & H4)].
    + rewrite B3. destruct A3 as [->|(i & H1 & H2 & H3 & H4)]; [auto|]. right. exists false, i.
      split; auto. split; [rewrite H2; reflexivity|]. auto.
    + right. exists true, i. split; auto. split; [rewrite H2; reflexivity|]. split; auto. lra.
Qed.

(** SegmentQuery: every shape whose leaf box the segment enters before its end is handed to the callback *)
Lemma shapes_tree (t : Rt) log : bounded t -> leaves_wf t ->
  exists vis, tsegment (fun i log => (@n1 RNum, log ++ [i])) a b t (@n1 RNum) log = (@n1 RNum, log ++ vis) /\
    forall i c, In (i, c) (tleaves t) -> enters c < 1 -> In i vis.
Proof.
  revert log. induction t as [i c|c l IHl r IHr]; intros log Hb Hw.
  - cbn. exists [i]. split; [reflexivity|]. intros j d [E|[]] _. injection E as <- <-. left. auto.
  - destruct Hb as (H0 & Hbl & Hbr & Hc).
    assert (Wl : leaves_wf l) by (intros p Hp; apply Hw; cbn; apply in_or_app; auto).
    assert (Wr : leaves_wf r) by (intros p Hp; apply Hw; cbn; apply in_or_app; auto).
    set (f := fun i log => (@n1 RNum, log ++ [i])) in *.
    assert (G : forall t, bounded t -> leaves_wf t ->
      (forall log, exists vis, tsegment f a b t (@n1 RNum) log = (@n1 RNum, log ++ vis) /\ forall i c, In (i, c) (tleaves t) -> enters c < 1 -> In i vis) ->
      forall log, exists vis, (if @nltb RNum (enters (tbb t)) (fst (@n1 RNum, log)) then
         let '(u, s0) := tsegment f a b t (fst (@n1 RNum, log)) (snd (@n1 RNum, log)) in
         (nmin (fst (@n1 RNum, log)) u, s0) else (@n1 RNum, log)) = (@n1 RNum, log ++ vis) /\ forall i c, In (i, c) (tleaves t) -> enters c < 1 -> In i vis).
    { intros t Hbt Wt IH log1. cbn [fst snd]. change (@nltb RNum) with Rltb. change (@n1 RNum) with 1 in *.
      destruct (Rltb_spec (enters (tbb t)) 1) as [Hlt|Hge].
      - destruct (IH log1) as (vis & E & F). exists vis. rewrite E. split; auto. f_equal. cbn. apply Rmin_left. lra.
      - exists []. rewrite app_nil_r. split; auto. intros i d Hp He.
        pose proof (entry_mono a b (tbb t) d (Wt _ Hp) (bounded_contains t _ Hbt Hp)). lra. }
    cbn [tsegment tleaves]. destruct (@nltb RNum (enters (tbb l)) (enters (tbb r))).
    + destruct (G l Hbl Wl (fun s => IHl s Hbl Wl) log) as (v1 & E1 & F1). rewrite E1.
      destruct (G r Hbr Wr (fun s => IHr s Hbr Wr) (log ++ v1)) as (v2 & E2 & F2). rewrite E2.
      exists (v1 ++ v2). rewrite app_assoc. split; auto. intros i d Hp He. apply in_or_app. apply in_app_or in Hp as [Hp|Hp]; eauto.
    + destruct (G r Hbr Wr (fun s => IHr s Hbr Wr) log) as (v1 & E1 & F1). rewrite E1.
      destruct (G l Hbl Wl (fun s => IHl s Hbl Wl) (log ++ v1)) as (v2 & E2 & F2). rewrite E2.
      exists (v1 ++ v2). rewrite app_assoc. split; auto. intros i d Hp He. apply in_or_app. apply in_app_or in Hp as [Hp|Hp]; eauto.
Qed.
Lemma segment_all_spec x d i c : reached x -> key_box x (d, i) = Some c -> enters c < 1 ->
  In i (segment_query_shapes x a b).
Proof.
  intros R Hk He. apply reached_inv in R. destruct R as [M _]. pose proof (m_wf x M) as W.
  assert (K : forall d log, exists vis, index_segment (fun i log => (@n1 RNum, log ++ [i])) x d a b (@n1 RNum) log = log ++ vis /\
    forall i c, key_box x (d, i) = Some c -> enters c < 1 -> In i vis).
  { intros e log. unfold index_segment. destruct (W e) as [_ B]. destruct (x_root x e) as [t|] eqn:E.
    - destruct (shapes_tree t log) as (vis & Es & F); [apply B; auto| |].
      + intros [j q] Hp. apply (m_boxes x M (e, j)). apply key_box_In; auto. unfold leaf_list; cbn. rewrite E. exact Hp.
      + exists vis. rewrite Es. split; auto. intros j q Hq. apply F. apply key_box_In in Hq; auto. unfold leaf_list in Hq; cbn in Hq.
        rewrite E in Hq. exact Hq.
    - exists []. rewrite app_nil_r. split; auto. intros j q Hq. unfold key_box in Hq; cbn in Hq. rewrite E in Hq. discriminate. }
  unfold segment_query_shapes. destruct (K false []) as (v1 & -> & F1). destruct (K true ([] ++ v1)) as (v2 & -> & F2).
  apply in_or_app. destruct d; [right; eauto | left; cbn; eauto].
Qed.
End First.
