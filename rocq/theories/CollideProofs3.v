From Coq Require Import ZArith Bool List Lia.
From Verif Require Import Collide CollideSpec CollideProofs.
Import ListNotations.

(** ** Contact memory *)
Lemma map_write_other m b off l b' o c : b' <> b \/ o + c <= off ->
  map (write m b off l b') (seq o c) = map (m b') (seq o c).
Proof.
  intros H. apply map_ext_in. intros i I. apply in_seq in I. unfold write.
  destruct (Nat.eqb_spec b' b); [|reflexivity]. destruct H; [contradiction|].
  destruct (Nat.leb_spec off i); [lia|reflexivity].
Qed.
Lemma map_write_same m b off l : map (write m b off l b) (seq off (length l)) = l.
Proof.
  apply (nth_ext _ _ 0%Z 0%Z); [now rewrite map_length, seq_length|]. intros n Hn. rewrite map_length, seq_length in Hn.
  rewrite (nth_indep _ 0%Z (write m b off l b 0)) by (now rewrite map_length, seq_length).
  rewrite map_nth, seq_nth by lia. unfold write. rewrite Nat.eqb_refl.
  destruct (Nat.leb_spec off (off + n)); [|lia]. destruct (Nat.ltb_spec (off + n) (off + length l)); [|lia]. cbn [andb].
  f_equal. lia.
Qed.

(** An arbiter in the cache. *)
Definition good (pers : nat) (fin : Prop) (w : cspace) (x : arb) : Prop :=
  a_count x = length (a_ghost x) /\ a_count x <= max_contacts /\
  match a_contacts x with
  | CNil => a_count x = 0
  | CRing b o => b < w_nbufs w /\ f_stamp (w_bufs w b) = a_stamp x /\ o + a_count x <= f_num (w_bufs w b) /\
                 map (w_mem w b) (seq o (a_count x)) = a_ghost x /\ a_stamp x <= w_stamp w /\ w_stamp w - a_stamp x <= pers /\
                 (fin -> w_stamp w - a_stamp x < pers)
  | CPriv _ => False
  end.
Definition good_asleep (x : arb) : Prop :=
  a_count x = length (a_ghost x) /\ a_count x <= max_contacts /\ exists l, a_contacts x = CPriv l /\ firstn (a_count x) l = a_ghost x.
Record inv (pers : nat) (h : list op) (w : cspace) : Prop := {
  inv_head : match w_head w with None => ~ started h /\ w_cache w = [] /\ w_asleep w = [] /\ w_nbufs w = 0 | Some b => started h /\ b < w_nbufs w /\ f_stamp (w_bufs w b) = w_stamp w end;
  inv_bufs : forall b, b < w_nbufs w -> f_next (w_bufs w b) < w_nbufs w /\ f_num (w_bufs w b) <= buffer_size /\ f_stamp (w_bufs w b) <= w_stamp w;
  inv_cache : forall x, In x (w_cache w) -> good pers (exists f, In (Finish f) (since h)) w x;
  inv_asleep : forall x, In x (w_asleep w) -> good_asleep x }.

Definition bufs_ok (w : cspace) : Prop :=
  forall b, b < w_nbufs w -> f_next (w_bufs w b) < w_nbufs w /\ f_num (w_bufs w b) <= buffer_size /\ f_stamp (w_bufs w b) <= w_stamp w.
Definition head_ok (w : cspace) : Prop :=
  match w_head w with None => w_nbufs w = 0 | Some b => b < w_nbufs w end.

(** push_fresh keeps every arbiter that is young enough, and leaves a head with the current stamp and no contacts. *)
Lemma push_fresh_ok pers w : bufs_ok w -> head_ok w ->
  bufs_ok (push_fresh pers w) /\
  (exists b, w_head (push_fresh pers w) = Some b /\ b < w_nbufs (push_fresh pers w) /\ f_stamp (w_bufs (push_fresh pers w) b) = w_stamp w /\ f_num (w_bufs (push_fresh pers w) b) = 0) /\
  (forall b, b < w_nbufs w -> w_stamp w - f_stamp (w_bufs w b) <= pers ->
     b < w_nbufs (push_fresh pers w) /\ f_stamp (w_bufs (push_fresh pers w) b) = f_stamp (w_bufs w b) /\ f_num (w_bufs (push_fresh pers w) b) = f_num (w_bufs w b)).
Proof.
  intros B H. unfold push_fresh, head_ok, bufs_ok in *. destruct (w_head w) as [h|].
  - set (tail := f_next (w_bufs w h)). destruct (B h H) as (Tl & _ & _). fold tail in Tl.
    destruct (Nat.ltb_spec pers (w_stamp w - f_stamp (w_bufs w tail))) as [R|R]; cbn.
    + split; [|split].
      * intros b Hb. unfold upd_buf. destruct (Nat.eqb_spec b tail); cbn; [|now apply B]. split; [now apply (B tail Tl)|]. unfold buffer_size. lia.
      * exists tail. unfold upd_buf. rewrite Nat.eqb_refl. cbn. auto.
      * intros b Hb L. unfold upd_buf. destruct (Nat.eqb_spec b tail) as [->|]; [lia|auto].
    + split; [|split].
      * intros b Hb. unfold upd_buf. destruct (Nat.eqb_spec b h) as [->|]; cbn.
        -- destruct (Nat.eqb_spec h (w_nbufs w)); [lia|]. destruct (B h H) as (? & ? & ?). lia.
        -- destruct (Nat.eqb_spec b (w_nbufs w)); cbn; [unfold buffer_size; lia|]. assert (Hb' : b < w_nbufs w) by lia. destruct (B b Hb') as (? & ? & ?). lia.
      * exists (w_nbufs w). unfold upd_buf. destruct (Nat.eqb_spec (w_nbufs w) h); [lia|]. rewrite Nat.eqb_refl. cbn. auto.
      * intros b Hb L. unfold upd_buf. destruct (Nat.eqb_spec b h) as [->|]; cbn.
        -- destruct (Nat.eqb_spec h (w_nbufs w)); [lia|]. auto.
        -- destruct (Nat.eqb_spec b (w_nbufs w)); [lia|]. auto.
  - cbn. split; [|split].
    + intros b Hb. unfold upd_buf. destruct (Nat.eqb_spec b (w_nbufs w)); [cbn; unfold buffer_size; lia|]. lia.
    + exists (w_nbufs w). unfold upd_buf. rewrite Nat.eqb_refl. cbn. auto.
    + intros b Hb. lia.
Qed.
Lemma get_array_ok pers w b : w_head w = Some b -> b < w_nbufs w -> f_stamp (w_bufs w b) = w_stamp w -> bufs_ok w ->
  bufs_ok (get_array pers w) /\
  (exists b', w_head (get_array pers w) = Some b' /\ b' < w_nbufs (get_array pers w) /\ f_stamp (w_bufs (get_array pers w) b') = w_stamp w /\ f_num (w_bufs (get_array pers w) b') + max_contacts <= buffer_size) /\
  (forall b, b < w_nbufs w -> w_stamp w - f_stamp (w_bufs w b) <= pers ->
     b < w_nbufs (get_array pers w) /\ f_stamp (w_bufs (get_array pers w) b) = f_stamp (w_bufs w b) /\ f_num (w_bufs (get_array pers w) b) = f_num (w_bufs w b)).
Proof.
  intros E L St B. unfold get_array. rewrite E.
  destruct (Nat.ltb_spec buffer_size (f_num (w_bufs w b) + max_contacts)).
  - assert (HO : head_ok w) by (unfold head_ok; now rewrite E).
    destruct (push_fresh_ok pers w B HO) as (P1 & (b' & Q1 & Q2 & Q3 & Q4) & P3). split; [exact P1|]. split; [|exact P3].
    exists b'. rewrite Q4. repeat split; auto. unfold max_contacts, buffer_size. lia.
  - split; [exact B|]. split; [|auto]. exists b. auto.
Qed.

Lemma good_frame pers (fin fin' : Prop) w w' x : w_stamp w' = w_stamp w -> (fin' -> fin) ->
  (forall b, b < w_nbufs w -> w_stamp w - f_stamp (w_bufs w b) <= pers -> b < w_nbufs w' /\ f_stamp (w_bufs w' b) = f_stamp (w_bufs w b) /\ f_num (w_bufs w b) <= f_num (w_bufs w' b)) ->
  (forall b o c, b < w_nbufs w -> w_stamp w - f_stamp (w_bufs w b) <= pers -> o + c <= f_num (w_bufs w b) -> map (w_mem w' b) (seq o c) = map (w_mem w b) (seq o c)) ->
  good pers fin w x -> good pers fin' w' x.
Proof.
  intros S F B M (G1 & G2 & G3). split; [exact G1|]. split; [exact G2|]. destruct (a_contacts x) as [|b o|l]; auto.
  destruct G3 as (A1 & A2 & A3 & A4 & A5 & A6 & A7). rewrite <- A2 in A6. destruct (B b A1 A6) as (B1 & B2 & B3).
  rewrite (M b o (a_count x) A1 A6 A3). rewrite S, B2. rewrite A2 in A6. repeat split; auto; lia.
Qed.

(** A write of at most two contacts through the array handed out by get_array, then a number [n] of them kept. *)
Lemma array_write pers (fin : Prop) h w data n :
  inv pers h w -> w_head w <> None -> length data <= max_contacts -> n <= length data ->
  let w0 := get_array pers w in
  let w1 := set_mem w0 (write (w_mem w0) (array_buf w0) (array_off w0) data) in
  let w2 := set_num w1 (array_off w0 + n) in
  bufs_ok w2 /\ w_head w2 = Some (array_buf w0) /\ array_buf w0 < w_nbufs w2 /\ f_stamp (w_bufs w2 (array_buf w0)) = w_stamp w2 /\
  (forall x, good pers fin w x -> good pers fin w2 x) /\
  map (w_mem w2 (array_buf w0)) (seq (array_off w0) (length data)) = data /\
  f_num (w_bufs w2 (array_buf w0)) = array_off w0 + n /\ array_off w0 + max_contacts <= buffer_size /\
  w_stamp w2 = w_stamp w /\ w_cache w2 = w_cache w /\ w_asleep w2 = w_asleep w.
Proof.
  intros I HN LD LN w0 w1 w2. destruct I as [IH IB IC IA]. destruct (w_head w) as [b|] eqn:E; [|congruence]. destruct IH as (_ & H1 & H2).
  destruct (get_array_ok pers w b E H1 H2 IB) as (G1 & (b' & Q1 & Q2 & Q3 & Q4) & G3). fold w0 in G1, Q1, Q2, Q3, Q4, G3.
  destruct (get_array_arbs pers w) as (C & Sl & A & St & T & Mm). fold w0 in C, Sl, A, St, T, Mm.
  assert (AB : array_buf w0 = b') by (unfold array_buf; now rewrite Q1).
  assert (AO : array_off w0 = f_num (w_bufs w0 b')) by (unfold array_off; now rewrite AB).
  assert (AB1 : array_buf w1 = b') by (unfold array_buf; cbn; now rewrite Q1).
  assert (OTH : forall c, c <> b' -> w_bufs w2 c = w_bufs w0 c).
  { intros c Hc. unfold w2, set_num. rewrite AB1. cbn. unfold upd_buf. destruct (Nat.eqb_spec c b'); [contradiction|reflexivity]. }
  assert (NUM : f_num (w_bufs w2 b') = array_off w0 + n /\ f_stamp (w_bufs w2 b') = f_stamp (w_bufs w0 b') /\ f_next (w_bufs w2 b') = f_next (w_bufs w0 b')).
  { unfold w2, set_num. rewrite AB1. cbn. unfold upd_buf. rewrite Nat.eqb_refl. cbn. auto. }
  destruct NUM as (N1 & N2 & N3).
  assert (W2 : w_nbufs w2 = w_nbufs w0 /\ w_head w2 = w_head w0 /\ w_stamp w2 = w_stamp w0 /\ w_cache w2 = w_cache w0 /\ w_asleep w2 = w_asleep w0 /\
    w_mem w2 = write (w_mem w0) b' (array_off w0) data).
  { unfold w2, w1. cbn. rewrite AB. auto 10. }
  destruct W2 as (W1 & W2 & W3 & W4 & W5 & W6). clearbody w2. rewrite AB.
  assert (MC : length data <= max_contacts) by exact LD.
  split.
  { intros c Hc. rewrite W1 in Hc. destruct (G1 c Hc) as (K1 & K2 & K3). rewrite W1, W3. destruct (Nat.eq_dec c b') as [->|NE].
    - rewrite N1, N2, N3, AO. repeat split; auto; lia.
    - rewrite OTH by exact NE. auto. }
  split; [congruence|]. split; [congruence|]. split; [rewrite N2, W3, St; exact Q3|].
  split.
  { intros x. apply good_frame; [congruence|auto| |].
    - intros c Hc Lc. destruct (G3 c Hc Lc) as (K1 & K2 & K3). rewrite W1. split; [exact K1|]. destruct (Nat.eq_dec c b') as [->|NE].
      + rewrite N1, N2, AO. split; [congruence|]. lia.
      + rewrite OTH by exact NE. split; [exact K2|]. lia.
    - intros c o k Hc Lc Lo. destruct (G3 c Hc Lc) as (K1 & K2 & K3). rewrite W6, <- Mm. apply map_write_other.
      destruct (Nat.eq_dec c b') as [->|NE]; [right; rewrite AO; lia|left; exact NE]. }
  split; [rewrite W6; apply map_write_same|]. split; [exact N1|]. rewrite AO. repeat split; auto; congruence.
Qed.

Lemma since_nonfin h o : (forall f, o <> Finish f) -> (exists f, In (Finish f) (since (h ++ [o]))) -> exists f, In (Finish f) (since h).
Proof.
  intros N (f & I). rewrite since_snoc in I. assert (J : In (Finish f) (since h ++ [o]) \/ False).
  { destruct o; auto. } destruct J as [J|[]]. apply in_app_or in J. destruct J as [J|[J|[]]]; [eauto|]. exfalso. now apply (N f).
Qed.
Lemma fin_weaken pers (fin fin' : Prop) w x : (fin' -> fin) -> good pers fin w x -> good pers fin' w x.
Proof. intros F. apply good_frame; auto. Qed.
Lemma good_set_state pers fin w x s : good pers fin w x -> good pers fin w (set_state x s).
Proof. auto. Qed.
Lemma good_eq pers fin w w' x : w_stamp w' = w_stamp w -> w_bufs w' = w_bufs w -> w_nbufs w' = w_nbufs w -> w_mem w' = w_mem w -> good pers fin w x -> good pers fin w' x.
Proof. intros A B C D. unfold good. now rewrite A, B, C, D. Qed.

Lemma filter_arbs_in f l y : In y (fst (filter_arbs f l)) -> exists x, In x l /\ fst (f x) = Some y.
Proof.
  induction l as [|x l IH]; [intros []|]. cbn. destruct (f x) as [o e1] eqn:E. destruct (filter_arbs f l) as [l' e2]. cbn in *.
  destruct o as [z|]; cbn.
  - intros [<-|I]; [exists x; rewrite E; auto|]. destruct (IH I) as (x' & ? & ?). eauto.
  - intros I. destruct (IH I) as (x' & ? & ?). eauto.
Qed.

Lemma started_snoc h o : started (h ++ [o]) <-> started h \/ o = Start.
Proof. unfold started. rewrite in_app_iff. cbn. intuition. Qed.

Lemma start_inv pers h w : inv pers h w -> ok_op pers h Start -> inv pers (h ++ [Start]) (do_start pers w).
Proof.
  intros [IH IB IC IA] O. unfold do_start. set (w1 := set_arbs _ _ _ _).
  assert (B1 : bufs_ok w1). { intros b Hb. destruct (IB b Hb) as (? & ? & ?). unfold w1. cbn [w_bufs w_stamp w_nbufs set_arbs set_stamp]. repeat split; auto; lia. }
  assert (H1 : head_ok w1). { unfold head_ok. cbn. destruct (w_head w); tauto. }
  destruct (push_fresh_ok pers w1 B1 H1) as (P1 & (b' & Q1 & Q2 & Q3 & Q4) & P3).
  destruct (push_fresh_arbs pers w1) as (C & Sl & A & St & T & Mm).
  set (w' := push_fresh pers w1) in *.
  constructor.
  - rewrite Q1. split; [apply started_snoc; now right|]. split; [exact Q2|congruence].
  - exact P1.
  - intros x I. rewrite C in I. cbn in I. apply in_map_iff in I. destruct I as (y & <- & I).
    assert (FIN : exists f, In (Finish f) (since h)).
    { apply O. destruct (w_head w) as [b|] eqn:E; [apply IH|]. destruct IH as (_ & N & _). rewrite N in I. destruct I. }
    assert (G : good pers False w' y).
    { destruct (IC y I) as (G1 & G2 & G3). split; [exact G1|]. split; [exact G2|].
      destruct (a_contacts y) as [|b o|l]; auto. destruct G3 as (A1 & A2 & A3 & A4 & A5 & A6 & A7). specialize (A7 FIN).
      destruct (P3 b A1) as (K1 & K2 & K3). { change (S (w_stamp w) - f_stamp (w_bufs w b) <= pers). rewrite A2. lia. }
      rewrite K2, K3, St, Mm. change (w_stamp w1) with (S (w_stamp w)). change (w_bufs w1) with (w_bufs w). change (w_mem w1) with (w_mem w). repeat split; auto; lia. }
    rewrite since_snoc. apply (fin_weaken pers False); [intros (f & [])|]. match goal with |- good _ _ _ (if ?c then _ else _) => destruct c end; exact G.
  - intros x I. rewrite Sl in I. now apply IA.
Qed.

Lemma touch_inv pers h w t : 1 <= pers -> inv pers h w -> started h -> length (t_data t) <= max_contacts -> inv pers (h ++ [TouchPair t]) (do_touch pers t w).
Proof.
  intros P I ST LD. assert (HN : w_head w <> None). { destruct I as [IH _ _ _]. destruct (w_head w); [discriminate|]. tauto. }
  pose proof I as [IH IB IC IA].
  unfold do_touch. cbv zeta. set (w0 := get_array pers w). set (b := array_buf w0). set (off := array_off w0).
  set (w1 := set_mem w0 (write (w_mem w0) b off (t_data t))).
  set (FIN' := exists f, In (Finish f) (since (h ++ [TouchPair t]))).
  assert (FW : FIN' -> exists f, In (Finish f) (since h)) by (apply since_nonfin; discriminate).
  assert (N0 : forall n, n <= length (t_data t) -> let w2 := set_num w1 (off + n) in
    bufs_ok w2 /\ w_head w2 = Some b /\ b < w_nbufs w2 /\ f_stamp (w_bufs w2 b) = w_stamp w2 /\
    (forall x, good pers FIN' w x -> good pers FIN' w2 x) /\ map (w_mem w2 b) (seq off (length (t_data t))) = t_data t /\
    f_num (w_bufs w2 b) = off + n /\ off + max_contacts <= buffer_size /\
    w_stamp w2 = w_stamp w /\ w_cache w2 = w_cache w /\ w_asleep w2 = w_asleep w).
  { intros n Hn. exact (array_write pers FIN' h w (t_data t) n I HN LD Hn). }
  assert (GC : forall x, In x (w_cache w) -> good pers FIN' w x) by (intros x Hx; eapply fin_weaken; [exact FW|now apply IC]).
  destruct (t_data t) as [|d0 ds] eqn:ED.
  - (* no contact *)
    destruct (N0 0 ltac:(cbn; lia)) as (B1 & B2 & B3 & B4 & B5 & B6 & B7 & B8 & B9 & B10 & B11).
    assert (EB : forall c, f_next (w_bufs (set_num w1 (off + 0)) c) = f_next (w_bufs w1 c) /\ f_num (w_bufs (set_num w1 (off + 0)) c) = f_num (w_bufs w1 c) /\ f_stamp (w_bufs (set_num w1 (off + 0)) c) = f_stamp (w_bufs w1 c)).
    { intros c. unfold set_num. cbn. unfold upd_buf. change (array_buf w1) with b. destruct (Nat.eqb_spec c b) as [->|]; cbn; [|auto].
      rewrite Nat.add_0_r. auto. }
    constructor.
    + change (w_head w1) with (w_head (set_num w1 (off + 0))). rewrite B2. split; [apply started_snoc; now left|]. split; [exact B3|].
      destruct (EB b) as (_ & _ & <-). exact B4.
    + intros c Hc. destruct (EB c) as (<- & <- & <-). apply B1, Hc.
    + intros x Hx. change (w_cache w1) with (w_cache (set_num w1 (off + 0))) in Hx. rewrite B10 in Hx.
      destruct (B5 x (GC x Hx)) as (G1 & G2 & G3). split; [exact G1|]. split; [exact G2|].
      destruct (a_contacts x) as [|c o|l]; auto. destruct (EB c) as (_ & E1 & E2). rewrite <- E1, <- E2. exact G3.
    + intros x Hx. change (w_asleep w1) with (w_asleep (set_num w1 (off + 0))) in Hx. rewrite B11 in Hx. now apply IA.
  - cbv zeta. rewrite <- ED in *. set (n := length (t_data t)) in *.
    unfold push_contacts. change (array_off w1) with off. unfold extract.
    set (xu := arb_update _ _ _ _ _).
    destruct (N0 n (Nat.le_refl n)) as (B1 & B2 & B3 & B4 & B5 & B6 & B7 & B8 & B9 & B10 & B11).
    set (w2 := set_num w1 (off + n)) in *.
    set (first := astate_eqb (a_state xu) FirstCollision). set (x1 := if first && _ then _ else _). set (pre := negb (astate_eqb (a_state x1) Ignore)).
    set (x2 := if pre && _ then _ else _). set (ok := pre && _ && _ && _ && _). set (evs := (if first then _ else _) ++ _).
    assert (X2 : a_contacts x2 = CRing b off /\ a_count x2 = n /\ a_ghost x2 = t_data t).
    { unfold x2, x1. destruct (pre && _), (first && _); cbn; auto. }
    destruct X2 as (X1 & X3 & X4). clearbody x2 evs ok. clear x1 pre first xu.
    destruct ok.
    + constructor; cbn -[w2 buffer_size].
      * rewrite B2. split; [apply started_snoc; now left|]. split; [exact B3|exact B4].
      * exact B1.
      * intros x [<-|Hx].
        -- split; [|split]; cbn -[w2 buffer_size]; [rewrite X3, X4; reflexivity|rewrite X3; exact LD|]. rewrite X1, X3, X4. repeat split; auto; lia.
        -- apply filter_In in Hx. destruct Hx as [Hx _]. rewrite B10 in Hx. eapply good_eq; [..|apply B5, GC, Hx]; reflexivity.
      * intros x Hx. rewrite B11 in Hx. now apply IA.
    + (* rejected: contacts popped *)
      destruct (N0 0 (Nat.le_0_l _)) as (D1 & D2 & D3 & D4 & D5 & D6 & D7 & D8 & D9 & D10 & D11).
      assert (PB : forall c, w_bufs (set_num w2 (array_off w2 - n)) c = w_bufs (set_num w1 (off + 0)) c).
      { intros c. unfold set_num. cbn. unfold upd_buf. change (array_buf w2) with b. change (array_buf w1) with b.
        assert (OF : array_off w2 = off + n). { unfold array_off. change (array_buf w2) with b. exact B7. }
        rewrite OF. destruct (Nat.eqb_spec c b) as [->|NE]; [rewrite Nat.eqb_refl; cbn; f_equal; lia|].
        destruct (Nat.eqb_spec c b); [contradiction|reflexivity]. }
      unfold pop_contacts. change (array_off (emit w2 evs)) with (array_off w2).
      constructor.
      * change (match w_head (set_num w1 (off + 0)) with None => ~ started (h ++ [TouchPair t]) /\ w_cache (set_arbs (set_num (emit w2 evs) (array_off w2 - n)) (Arb (a_A x2) (a_B x2) (if astate_eqb (a_state x2) Ignore then Ignore else Normal) (w_stamp w2) CNil 0 [] :: filter (fun x => negb (arb_is (t_a t) (t_b t) x)) (w_cache w2)) (w_active w2) (w_asleep w2)) = [] /\ w_asleep w2 = [] /\ w_nbufs w2 = 0
          | Some c => started (h ++ [TouchPair t]) /\ c < w_nbufs (set_num w1 (off + 0)) /\ f_stamp (w_bufs (set_num w2 (array_off w2 - n)) c) = w_stamp (set_num w1 (off + 0)) end).
        rewrite D2, PB. split; [apply started_snoc; now left|]. split; [exact D3|exact D4].
      * intros c Hc. pose proof (D1 c Hc) as D1c. rewrite <- PB in D1c. exact D1c.
      * intros x [<-|Hx].
        -- split; [|split]; cbn; auto. unfold max_contacts. lia.
        -- apply filter_In in Hx. destruct Hx as [Hx _]. change (In x (w_cache w2)) in Hx. rewrite B10 in Hx.
           destruct (D5 x (GC x Hx)) as (G1 & G2 & G3). split; [exact G1|]. split; [exact G2|].
           destruct (a_contacts x) as [|c o|l]; auto. rewrite <- PB in G3. exact G3.
      * intros x Hx. change (In x (w_asleep w2)) in Hx. rewrite B11 in Hx. now apply IA.
Qed.

Lemma sleep_inv pers h w a b : inv pers h w -> inv pers (h ++ [Sleep a b]) (do_sleep a b w).
Proof.
  intros I. pose proof I as [IH IB IC IA].
  assert (FW : (exists f, In (Finish f) (since (h ++ [Sleep a b]))) -> exists f, In (Finish f) (since h)) by (apply since_nonfin; discriminate).
  assert (GC : forall x, In x (w_cache w) -> good pers (exists f, In (Finish f) (since (h ++ [Sleep a b]))) w x) by (intros x Hx; eapply fin_weaken; [exact FW|now apply IC]).
  assert (SS : started h -> started (h ++ [Sleep a b])) by (intros; apply started_snoc; now left).
  assert (SN : ~ started h -> ~ started (h ++ [Sleep a b])) by (intros N Z; apply started_snoc in Z; destruct Z; [auto|discriminate]).
  unfold do_sleep, extract. destruct (find (arb_is a b) (w_cache w)) as [x|] eqn:F.
  - apply find_some in F. destruct F as [F _]. destruct (IC x F) as (G1 & G2 & G3). constructor.
    + cbn [w_head w_cache w_asleep w_nbufs w_bufs w_stamp set_arbs]. destruct (w_head w); [tauto|]. destruct IH as (_ & N & _). rewrite N in F. destruct F.
    + exact IB.
    + intros y Hy. cbn in Hy. apply filter_In in Hy. destruct Hy as [Hy _]. eapply good_eq; [..|apply GC, Hy]; reflexivity.
    + intros y [<-|Hy]; [|now apply IA]. split; [exact G1|]. split; [exact G2|]. exists (contacts_of w x). split; [reflexivity|].
      cbn [a_count a_ghost]. unfold contacts_of. destruct (a_contacts x) as [|c o|l]; [|destruct G3 as (_ & _ & _ & G3 & _)|destruct G3].
      * rewrite G3 in *. destruct (a_ghost x); [reflexivity|discriminate].
      * rewrite G3, G1. apply firstn_all.
  - constructor; [|exact IB|exact GC|exact IA]. destruct (w_head w); tauto.
Qed.

Lemma wake_inv pers h w a b : 1 <= pers -> inv pers h w -> inv pers (h ++ [Wake a b]) (do_wake pers a b w).
Proof.
  intros P I. pose proof I as [IH IB IC IA].
  set (FIN' := exists f, In (Finish f) (since (h ++ [Wake a b]))).
  assert (FW : FIN' -> exists f, In (Finish f) (since h)) by (apply since_nonfin; discriminate).
  assert (GC : forall x, In x (w_cache w) -> good pers FIN' w x) by (intros x Hx; eapply fin_weaken; [exact FW|now apply IC]).
  assert (SS : started h -> started (h ++ [Wake a b])) by (intros; apply started_snoc; now left).
  assert (SN : ~ started h -> ~ started (h ++ [Wake a b])) by (intros N Z; apply started_snoc in Z; destruct Z; [auto|discriminate]).
  unfold do_wake, extract. destruct (find (arb_is a b) (w_asleep w)) as [x|] eqn:F.
  - apply find_some in F. destruct F as [F _]. destruct (IA x F) as (G1 & G2 & l & G3 & G4).
    assert (HN : w_head w <> None). { destruct (w_head w); [discriminate|]. destruct IH as (_ & _ & N & _). rewrite N in F. destruct F. }
    assert (CO : contacts_of (get_array pers w) x = a_ghost x) by (unfold contacts_of; now rewrite G3).
    cbv zeta. rewrite CO. unfold push_contacts.
    pose proof (array_write pers FIN' h w (a_ghost x) (a_count x) I HN) as AW. cbv zeta in AW.
    set (w0 := get_array pers w) in *. set (bf := array_buf w0) in *. set (off := array_off w0) in *.
    set (w1 := set_mem w0 (write (w_mem w0) bf off (a_ghost x))) in *. change (array_off w1) with off.
    destruct AW as (B1 & B2 & B3 & B4 & B5 & B6 & B7 & B8 & B9 & B10 & B11); [lia|lia|].
    set (w2 := set_num w1 (off + a_count x)) in *.
    constructor; cbn -[w2 buffer_size].
    + rewrite B2. destruct (w_head w); [|congruence]. tauto.
    + exact B1.
    + intros y [<-|Hy].
      * split; [exact G1|]. split; [exact G2|]. cbn -[w2]. rewrite G1 in *. repeat split; auto; lia.
      * rewrite B10 in Hy. eapply good_eq; [..|apply B5, GC, Hy]; reflexivity.
    + intros y Hy. apply filter_In in Hy. destruct Hy as [Hy _]. now apply IA.
  - constructor; [|exact IB|exact GC|exact IA]. destruct (w_head w); tauto.
Qed.

Lemma finish_inv pers h w still : inv pers h w ->
  (forall x, In x (w_cache w) -> still (a_A x) = true -> still (a_B x) = true -> a_contacts x = CNil \/ w_stamp w - a_stamp x < pers) ->
  inv pers (h ++ [Finish still]) (do_finish pers still w).
Proof.
  intros I NF. pose proof I as [IH IB IC IA]. unfold do_finish.
  pose proof (filter_arbs_in (set_filter pers (w_stamp w) still) (w_cache w)) as FI.
  destruct (filter_arbs _ (w_cache w)) as [c evs]. cbn [fst] in FI. constructor.
  - cbn [w_head w_cache w_asleep w_nbufs w_bufs w_stamp set_arbs emit]. destruct (w_head w) as [b|].
    + rewrite started_snoc. tauto.
    + rewrite started_snoc. destruct IH as (N1 & N2 & N3 & N4). repeat split; auto; [intuition discriminate|].
      destruct c as [|y c]; [reflexivity|]. destruct (FI y (or_introl eq_refl)) as (x & Hx & _). rewrite N2 in Hx. destruct Hx.
  - exact IB.
  - intros y Hy. destruct (FI y Hy) as (x & Hx & Fx). destruct (IC x Hx) as (G1 & G2 & G3).
    assert (Y : a_contacts y = a_contacts x /\ a_count y = a_count x /\ a_ghost y = a_ghost x /\ a_stamp y = a_stamp x /\ (a_contacts x = CNil \/ w_stamp w - a_stamp x < pers)).
    { unfold set_filter in Fx. destruct (still (a_A x) && still (a_B x)) eqn:S.
      - cbn in Fx. injection Fx as <-. apply andb_prop in S. destruct S. auto 10.
      - cbn [fst] in Fx. destruct (Nat.leb_spec pers (w_stamp w - a_stamp x)); [discriminate|]. injection Fx as <-.
        destruct (_ && negb _); cbn; auto 10. }
    destruct Y as (Y1 & Y2 & Y3 & Y4 & Y5). unfold good. rewrite Y1, Y2, Y3, Y4. split; [exact G1|]. split; [exact G2|].
    destruct (a_contacts x) as [|b o|l]; auto. destruct Y5 as [Y5|Y5]; [discriminate|]. cbn. repeat split; try apply G3. auto.
  - exact IA.
Qed.
Lemma remove_inv pers h w s : inv pers h w -> inv pers (h ++ [Remove s]) (do_remove s w).
Proof.
  intros I. pose proof I as [IH IB IC IA]. unfold do_remove.
  assert (FW : (exists f, In (Finish f) (since (h ++ [Remove s]))) -> exists f, In (Finish f) (since h)) by (apply since_nonfin; discriminate).
  pose proof (filter_arbs_in (remove_filter s) (w_cache w)) as FI.
  destruct (filter_arbs _ (w_cache w)) as [c evs]. cbn [fst] in FI. constructor.
  - cbn [w_head w_cache w_asleep w_nbufs w_bufs w_stamp set_arbs emit]. destruct (w_head w) as [b|].
    + rewrite started_snoc. tauto.
    + rewrite started_snoc. destruct IH as (N1 & N2 & N3 & N4). repeat split; auto; [intuition discriminate|].
      destruct c as [|y c]; [reflexivity|]. destruct (FI y (or_introl eq_refl)) as (x & Hx & _). rewrite N2 in Hx. destruct Hx.
  - exact IB.
  - intros y Hy. destruct (FI y Hy) as (x & Hx & Fx). unfold remove_filter in Fx. destruct (_ || _); [discriminate|]. injection Fx as <-.
    eapply fin_weaken; [exact FW|]. eapply good_eq; [..|apply IC, Hx]; reflexivity.
  - exact IA.
Qed.

Lemma run_inv pers h : 1 <= pers -> valid pers h -> no_stale_frozen pers h -> inv pers h (run pers h).
Proof.
  intros P. induction h as [|o h IH] using rev_ind; intros V NF.
  - constructor; cbn; try tauto; try lia.
  - apply valid_snoc in V. destruct V as [V O].
    assert (I : inv pers h (run pers h)).
    { apply IH; [exact V|]. intros h1 still h2 E. apply (NF h1 still (h2 ++ [o])). now rewrite E, <- app_assoc. }
    rewrite run_snoc. destruct o as [|t|a b|a b|still|s]; cbn [step_op].
    + now apply start_inv.
    + destruct O as (O1 & _ & O2 & _). now apply touch_inv.
    + now apply sleep_inv.
    + now apply wake_inv.
    + apply finish_inv; [exact I|]. now apply (NF h still []).
    + now apply remove_inv.
Qed.

(** What the invariant says to the user *)
Lemma contacts_intact pers h x : 1 <= pers -> valid pers h -> no_stale_frozen pers h ->
  In x (w_cache (run pers h)) \/ In x (w_asleep (run pers h)) -> contacts_of (run pers h) x = a_ghost x.
Proof.
  intros P V NF. destruct (run_inv pers h P V NF) as [_ _ IC IA]. intros [I|I]; unfold contacts_of.
  - destruct (IC x I) as (G1 & G2 & G3). destruct (a_contacts x); [|apply G3|destruct G3].
    rewrite G3 in G1. destruct (a_ghost x); [reflexivity|discriminate].
  - destruct (IA x I) as (G1 & G2 & l & -> & G4). exact G4.
Qed.
(** The two contacts handed out at the next collision or wake-up are in no cached arbiter and inside the buffer. *)
Lemma handed_out_fresh pers h x : 1 <= pers -> valid pers h -> no_stale_frozen pers h -> started h ->
  let w := get_array pers (run pers h) in
  array_off w + max_contacts <= buffer_size /\
  (In x (w_cache (run pers h)) -> forall i, array_off w <= i -> ~ uses x (array_buf w) i).
Proof.
  intros P V NF ST w. pose proof (run_inv pers h P V NF) as I. pose proof I as [IH IB IC IA].
  destruct (w_head (run pers h)) as [b|] eqn:E; [|tauto]. destruct IH as (_ & H1 & H2).
  destruct (get_array_ok pers _ b E H1 H2 IB) as (G1 & (b' & Q1 & Q2 & Q3 & Q4) & G3). fold w in G1, Q1, Q2, Q3, Q4, G3.
  assert (AB : array_buf w = b') by (unfold array_buf; now rewrite Q1). unfold array_off. rewrite AB. split; [exact Q4|].
  intros Ix i Hi (o & C & R). destruct (IC x Ix) as (_ & _ & G). rewrite C in G. destruct G as (A1 & A2 & A3 & A4 & A5 & A6 & A7).
  destruct (G3 b' A1) as (K1 & K2 & K3); [lia|]. lia.
Qed.

(** The size bound needs neither assumption. *)
Record inv2 (h : list op) (w : cspace) : Prop := {
  inv2_head : match w_head w with None => ~ started h /\ w_cache w = [] /\ w_asleep w = [] /\ w_nbufs w = 0 | Some b => b < w_nbufs w end;
  inv2_bufs : bufs_ok w;
  inv2_cache : forall x, In x (w_cache w) -> a_count x <= max_contacts;
  inv2_asleep : forall x, In x (w_asleep w) -> a_count x <= max_contacts }.
Lemma set_num_ok w n : bufs_ok w -> n <= buffer_size -> bufs_ok (set_num w n).
Proof.
  intros B L b Hb. destruct (B b Hb) as (B1 & B2 & B3). unfold set_num. cbn. unfold upd_buf. destruct (Nat.eqb_spec b (array_buf w)) as [->|]; cbn; auto.
Qed.
Lemma get_array_ok2 pers w b : w_head w = Some b -> b < w_nbufs w -> bufs_ok w ->
  bufs_ok (get_array pers w) /\ (exists b', w_head (get_array pers w) = Some b' /\ b' < w_nbufs (get_array pers w)) /\
  array_off (get_array pers w) + max_contacts <= buffer_size.
Proof.
  intros E L B. unfold get_array. rewrite E.
  destruct (Nat.ltb_spec buffer_size (f_num (w_bufs w b) + max_contacts)) as [Q|Q].
  - assert (HO : head_ok w) by (unfold head_ok; now rewrite E).
    destruct (push_fresh_ok pers w B HO) as (P1 & (b' & Q1 & Q2 & Q3 & Q4) & P3). split; [exact P1|]. split; [eauto|].
    unfold array_off, array_buf. rewrite Q1, Q4. unfold max_contacts, buffer_size. lia.
  - split; [exact B|]. split; [eauto|]. unfold array_off, array_buf. now rewrite E.
Qed.
Lemma bufs_ok_eq w w' : w_bufs w' = w_bufs w -> w_nbufs w' = w_nbufs w -> w_stamp w' = w_stamp w -> bufs_ok w -> bufs_ok w'.
Proof. intros A B C. unfold bufs_ok. now rewrite A, B, C. Qed.
Lemma head2_snoc h o w w' : o <> Start ->
  w_head w' = w_head w -> w_nbufs w' = w_nbufs w -> (w_cache w = [] -> w_cache w' = []) -> (w_cache w = [] -> w_asleep w = [] -> w_asleep w' = []) ->
  match w_head w with None => ~ started h /\ w_cache w = [] /\ w_asleep w = [] /\ w_nbufs w = 0 | Some b => b < w_nbufs w end ->
  match w_head w' with None => ~ started (h ++ [o]) /\ w_cache w' = [] /\ w_asleep w' = [] /\ w_nbufs w' = 0 | Some b => b < w_nbufs w' end.
Proof.
  intros N -> -> C A. destruct (w_head w); [auto|]. intros (H1 & H2 & H3 & H4). rewrite started_snoc. repeat split; auto. tauto.
Qed.
Lemma head2_some h w' b : w_head w' = Some b -> b < w_nbufs w' ->
  match w_head w' with None => ~ started h /\ w_cache w' = [] /\ w_asleep w' = [] /\ w_nbufs w' = 0 | Some b => b < w_nbufs w' end.
Proof. now intros ->. Qed.
Lemma run_inv2 pers h : valid pers h -> inv2 h (run pers h).
Proof.
  induction h as [|o h IH] using rev_ind; intros V.
  - constructor; cbn; try tauto. intros b Hb. cbn in Hb. lia.
  - apply valid_snoc in V. destruct V as [V O]. specialize (IH V). rewrite run_snoc. destruct IH as [IH IB IC IA].
    set (w := run pers h) in *. destruct o as [|t|a b|a b|still|s]; cbn [step_op].
    + unfold do_start. set (w1 := set_arbs _ _ _ _).
      assert (B1 : bufs_ok w1). { intros b Hb. destruct (IB b Hb) as (? & ? & ?). unfold w1. cbn [w_bufs w_stamp w_nbufs set_arbs set_stamp]. repeat split; auto; lia. }
      assert (H1 : head_ok w1). { unfold head_ok. cbn. destruct (w_head w); tauto. }
      destruct (push_fresh_ok pers w1 B1 H1) as (P1 & (b' & Q1 & Q2 & Q3 & Q4) & P3).
      destruct (push_fresh_arbs pers w1) as (C & Sl & A & St & T & Mm). constructor.
      * rewrite Q1. exact Q2.
      * exact P1.
      * intros x I. rewrite C in I. cbn in I. apply in_map_iff in I. destruct I as (y & <- & I).
        match goal with |- a_count (if ?c then _ else _) <= _ => destruct c end; exact (IC y I).
      * intros x I. rewrite Sl in I. now apply IA.
    + destruct O as (O1 & _ & O2 & _). destruct (w_head w) as [b|] eqn:E; [|tauto].
      destruct (get_array_ok2 pers w b E IH IB) as (G1 & (b' & G2 & G3) & G4). destruct (get_array_arbs pers w) as (C & Sl & A & St & T & Mm).
      unfold do_touch. cbv zeta. set (w0 := get_array pers w) in *.
      destruct (t_data t) as [|d0 ds] eqn:ED.
      * constructor; cbn [w_head set_mem]; [rewrite G2; exact G3|eapply bufs_ok_eq; [..|exact G1]; reflexivity| |]; cbn; rewrite ?C, ?Sl; auto.
      * rewrite <- ED in *. set (w1 := set_mem w0 _). set (n := length (t_data t)) in *. unfold extract, push_contacts.
        change (array_off w1) with (array_off w0).
        assert (B1 : bufs_ok w1) by (eapply bufs_ok_eq; [..|exact G1]; reflexivity).
        assert (B2 : bufs_ok (set_num w1 (array_off w0 + n))) by (apply set_num_ok; [exact B1|lia]).
        set (w2 := set_num w1 (array_off w0 + n)) in *.
        assert (C2 : w_cache w2 = w_cache w) by exact C.
        set (xu := arb_update _ _ _ _ _). set (first := astate_eqb (a_state xu) FirstCollision). set (x1 := if first && _ then _ else _).
        set (pre := negb (astate_eqb (a_state x1) Ignore)). set (x2 := if pre && _ then _ else _). set (ok := pre && _ && _ && _ && _).
        assert (X : a_count x2 = n). { unfold x2, x1. destruct (pre && _), (first && _); reflexivity. }
        clearbody x2 ok. destruct ok.
        -- constructor; cbn [w_head set_arbs emit]; [change (w_head w2) with (w_head w0); rewrite G2; exact G3|eapply bufs_ok_eq; [..|exact B2]; reflexivity| |].
           ++ intros x [<-|Hx]; [cbn; rewrite X; exact O2|]. apply filter_In in Hx. destruct Hx as [Hx _]. rewrite C2 in Hx. now apply IC.
           ++ intros x Hx. change (In x (w_asleep w0)) in Hx. rewrite Sl in Hx. now apply IA.
        -- unfold pop_contacts. constructor.
           ++ apply (head2_some _ _ b'); [exact G2|exact G3].
           ++ eapply bufs_ok_eq; [..|apply (set_num_ok w2 (array_off w2 - n) B2)]; try reflexivity.
              assert (array_off w2 = array_off w0 + n). { unfold array_off at 1. unfold w2, set_num. cbn. unfold upd_buf. now rewrite Nat.eqb_refl. }
              lia.
           ++ intros x [<-|Hx]; [cbn; lia|]. apply filter_In in Hx. destruct Hx as [Hx _]. change (In x (w_cache w2)) in Hx. rewrite C2 in Hx. now apply IC.
           ++ intros x Hx. change (In x (w_asleep w0)) in Hx. rewrite Sl in Hx. now apply IA.
    + unfold do_sleep, extract. destruct (find (arb_is a b) (w_cache w)) as [x|] eqn:F.
      * apply find_some in F. destruct F as [F _]. constructor.
        -- apply (head2_snoc h _ w); [discriminate|reflexivity|reflexivity| | |exact IH]; intros N; rewrite N in F; destruct F.
        -- eapply bufs_ok_eq; [..|exact IB]; reflexivity.
        -- intros y Hy. apply filter_In in Hy. destruct Hy as [Hy _]. now apply IC.
        -- intros y [<-|Hy]; [now apply (IC x)|now apply IA].
      * constructor; auto. apply (head2_snoc h _ w); [discriminate|..|exact IH]; auto.
    + unfold do_wake, extract. destruct (find (arb_is a b) (w_asleep w)) as [x|] eqn:F.
      * apply find_some in F. destruct F as [F _]. cbv zeta.
        destruct (w_head w) as [c|] eqn:E; [|destruct IH as (_ & _ & N & _); rewrite N in F; destruct F].
        destruct (get_array_ok2 pers w c E IH IB) as (G1 & (b' & G2 & G3) & G4). destruct (get_array_arbs pers w) as (C & Sl & A & St & T & Mm).
        set (w0 := get_array pers w) in *. set (w1 := set_mem w0 _). unfold push_contacts. change (array_off w1) with (array_off w0).
        pose proof (IA x F) as XC. constructor.
        -- apply (head2_some _ _ b'); [exact G2|exact G3].
        -- eapply bufs_ok_eq; [..|apply (set_num_ok w1 (array_off w0 + a_count x))]; try reflexivity; [eapply bufs_ok_eq; [..|exact G1]; reflexivity|lia].
        -- intros y [<-|Hy]; [exact XC|]. change (In y (w_cache w0)) in Hy. rewrite C in Hy. now apply IC.
        -- intros y Hy. apply filter_In in Hy. destruct Hy as [Hy _]. now apply IA.
      * constructor; auto. apply (head2_snoc h _ w); [discriminate|..|exact IH]; auto.
    + unfold do_finish. pose proof (filter_arbs_in (set_filter pers (w_stamp w) still) (w_cache w)) as FI.
      destruct (filter_arbs _ (w_cache w)) as [c evs]. cbn [fst] in FI. constructor.
      * apply (head2_snoc h _ w); [discriminate|reflexivity|reflexivity| | |exact IH]; [|auto]. intros N. cbn. destruct c as [|y c]; [reflexivity|].
        destruct (FI y (or_introl eq_refl)) as (x & Hx & _). rewrite N in Hx. destruct Hx.
      * eapply bufs_ok_eq; [..|exact IB]; reflexivity.
      * intros y Hy. destruct (FI y Hy) as (x & Hx & Fx). unfold set_filter in Fx. destruct (still (a_A x) && still (a_B x)).
        -- injection Fx as <-. now apply IC.
        -- cbn [fst] in Fx. destruct (Nat.leb pers _); [discriminate|]. injection Fx as <-. destruct (_ && negb _); now apply (IC x).
      * exact IA.
    + unfold do_remove. pose proof (filter_arbs_in (remove_filter s) (w_cache w)) as FI.
      destruct (filter_arbs _ (w_cache w)) as [c evs]. cbn [fst] in FI. constructor.
      * apply (head2_snoc h _ w); [discriminate|reflexivity|reflexivity| | |exact IH]; [|auto]. intros N. cbn. destruct c as [|y c]; [reflexivity|].
        destruct (FI y (or_introl eq_refl)) as (x & Hx & _). rewrite N in Hx. destruct Hx.
      * eapply bufs_ok_eq; [..|exact IB]; reflexivity.
      * intros y Hy. destruct (FI y Hy) as (x & Hx & Fx). unfold remove_filter in Fx. destruct (_ || _); [discriminate|]. injection Fx as <-. now apply IC.
      * exact IA.
Qed.
Lemma buffers_bounded2 pers h b : valid pers h -> b < w_nbufs (run pers h) -> f_num (w_bufs (run pers h) b) <= 1024.
Proof. intros V Hb. destruct (run_inv2 pers h V) as [_ IB _ _]. apply (IB b Hb). Qed.
