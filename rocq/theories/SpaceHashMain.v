(** Proofs for C16 and C17: histories. *)
From Coq Require Import ZArith List Bool PeanoNat Lia Permutation.
From Verif Require Import Num Vec BB SpaceHash SpaceHashSpec SpaceHashInv SpaceHashOps SpaceHashQuery.
Import ListNotations.

Section Main.
Context {Nm : Num} (toint : num -> Z) (ffloor : num -> num) (dim : num) (cells : nat).
Hypothesis some_cells : (0 < cells)%nat.
Notation box_cells := (box_cells toint dim).
Notation inv := (inv cells).
Notation on := (on cells).
Notation perform := (perform toint ffloor dim cells).
Notation run := (run toint ffloor dim cells).

(** ** Rays *)
Lemma tell_ray f s hs out t : fst (tell (ray_note f) s hs (out, t)) = rev (map (shape_of s) hs) ++ out.
Proof. unfold tell. revert out t. induction hs as [|h hs IH]; intros out t; cbn [fold_left map rev]; auto. unfold ray_note at 2. cbn [fst snd]. rewrite IH, <- app_assoc. reflexivity. Qed.
Lemma walk_loop_ok f d : forall fuel w te s out r, inv s -> walk_loop cells fuel f d w te s out = Some r ->
  exists hs, let '(s', out', te', cs) := r in inv s' /\ marked hs s s' /\ told None s hs /\ out' = rev (map (shape_of s) hs) ++ out /\
    (forall c h, live s h -> on s c h -> on s' c h) /\ (forall c h, In c cs -> live s h -> on s c h -> seen (at_handle s' h) = stamp s).
Proof.
  induction fuel as [|fuel IH]; intros w te s out r I; cbn [walk_loop].
  - destruct (now w <? te)%num; [discriminate|]. intros [= <-]. exists []. split; auto. split; [apply like_marked, like_refl|]. split; [split; [constructor|contradiction]|]. split; auto. split; [auto|contradiction].
  - destruct (now w <? te)%num.
    2:{ intros [= <-]. exists []. split; auto. split; [apply like_marked, like_refl|]. split; [split; [constructor|contradiction]|]. split; auto. split; [auto|contradiction]. }
    destruct (query_cell_ok cells some_cells (ray_note f) None (cell_x w, cell_y w) s (out, n1) I) as (hs & s1 & E & I1 & M1 & T1 & W1 & P1 & Q1 & S1). rewrite E.
    pose proof (tell_ray f s hs out n1) as TR. destruct (tell (ray_note f) s hs (out, n1)) as [out1 t1]. cbn [fst] in TR.
    destruct (walk_loop cells fuel f d (walk_step d w) (nmin te t1) s1 out1) as [[[[s2 out2] te2] cs2]|] eqn:E2; [|discriminate]. intros [= <-].
    apply IH in E2 as (hs2 & I2 & M2 & T2 & O2 & P2 & S2); auto. exists (hs ++ hs2). split; auto. split; [eapply marked_trans; eauto|]. split; [eapply told_app; eauto|].
    assert (Lv : forall k, live s k -> live s1 k) by (intros k; unfold live; now rewrite (m_obj _ _ _ M1)). split; [|split].
    + rewrite O2, TR, map_app, rev_app_distr, <- app_assoc. f_equal. f_equal. apply map_ext. intros k. unfold shape_of. now rewrite (m_obj _ _ _ M1).
    + intros c h L O. apply P2; auto.
    + intros c h [<-|C] L O.
      * destruct (S1 h L O) as [X|X]; [|discriminate]. rewrite <- (m_stamp _ _ _ M1) in X |- *. eapply marked_seen; eauto.
      * rewrite <- (m_stamp _ _ _ M1). apply (S2 c h C); auto.
Qed.
Lemma ray_ok fuel f a b t s r : inv s -> fresh s -> segment_query toint dim cells ffloor fuel f a b t s = Some r ->
  let '(s', out, te, cs) := r in inv s' /\ fresh s' /\ NoDup out /\ (forall o, In o out -> exists h, obj (at_handle s h) = Some o) /\
    (forall h o c, obj (at_handle s h) = Some o -> In c cs -> on s c h -> In o out) /\
    (forall h, obj (at_handle s' h) = obj (at_handle s h)) /\ (forall c h, live s h -> on s c h -> on s' c h).
Proof.
  intros I Fr. unfold segment_query. destruct (walk_start _ _ _ _) as [w d]. destruct (walk_loop _ _ _ _ _ _ _ _) as [[[[s1 out] te] cs]|] eqn:E; [|discriminate]. intros [= <-].
  apply walk_loop_ok in E as (hs & I1 & M & [N T] & O & P & Cv); auto. rewrite app_nil_r in O. subst out. split; [now apply inv_next|]. split; [|split; [|split; [|split; [|split]]]].
  - intros h. change (seen (at_handle s1 h) < S (stamp s1))%nat. rewrite (m_seen _ _ _ M), (m_stamp _ _ _ M). pose proof (Fr h). destruct (in_dec _ _ _); lia.
  - apply NoDup_rev. eapply shapes_nodup; eauto. intros h H. now apply T in H.
  - intros o H. apply in_rev in H. apply in_map_iff in H as (h & <- & H). apply T in H as (L & _). exists h. unfold shape_of, live in *. destruct (obj (at_handle s h)); congruence.
  - intros h o c Oh C On. rewrite <- in_rev. apply in_map_iff. exists h. split; [unfold shape_of; now rewrite Oh|]. specialize (Cv c h C). rewrite (m_seen _ _ _ M) in Cv. pose proof (Fr h). destruct (in_dec Nat.eq_dec h hs); [auto|]. assert (seen (at_handle s h) = stamp s) by (apply Cv; auto; unfold live; congruence). lia.
  - intros h. apply (m_obj _ _ _ M).
  - intros c h L On. apply P in On; auto.
Qed.

(** ** Histories *)
Definition indexed (s : hash) (bx : nat -> option bb) : Prop := forall o,
  match bx o with
  | Some b => exists h, obj (at_handle s h) = Some o /\ forall c, In c (box_cells b) -> on s c h
  | None => forall h, obj (at_handle s h) <> Some o
  end.
Lemma indexed_keep s s' bx : (forall h, obj (at_handle s' h) = obj (at_handle s h)) -> (forall c h, live s h -> on s c h -> on s' c h) -> indexed s bx -> indexed s' bx.
Proof.
  intros O P H o. specialize (H o). destruct (bx o) as [b|]; [|intros h; now rewrite O]. destruct H as (h & Oh & C). exists h. split; [now rewrite O|]. intros c Hc. apply P; auto. unfold live. congruence.
Qed.
Lemma all_of_app {A S} (f : A -> S -> option S) l l' s : all_of f (l ++ l') s = match all_of f l s with Some s => all_of f l' s | None => None end.
Proof. revert s. induction l as [|x l IH]; intros s; cbn; auto. destruct (f x s); auto. Qed.
Lemma insert_indexed pick o b s : inv s -> fresh s -> exists s', insert toint dim cells pick o b s = Some s' /\ inv s' /\ fresh s' /\
  forall bx, (forall x, x <> o -> match bx x with Some b => exists h, obj (at_handle s h) = Some x /\ (forall c, In c (box_cells b) -> on s c h) | None => forall h, obj (at_handle s h) <> Some x end) -> indexed s' (fun x => if Nat.eqb x o then Some b else bx x).
Proof.
  intros I Fr. destruct (insert_ok toint dim cells some_cells pick o b s I) as (s' & h & E & I' & O & C & Ot & P & F & _). exists s'. split; auto. split; auto. split; auto.
  intros bx H x. specialize (H x). destruct (Nat.eqb_spec x o) as [->|D]; [exists h; auto|]. specialize (H D). destruct (bx x) as [bx'|].
  - destruct H as (k & Ok & Ck). exists k. split; [now apply Ot|]. auto.
  - intros k Ok. apply Ot in Ok; auto. now apply H in Ok.
Qed.
Lemma reindex_query_ok order boxes s : inv s -> fresh s -> (forall l, Permutation l (order l)) -> exists s' ps, let out := map (fun p : nat * nat => (shape_of s (fst p), shape_of s (snd p))) ps in
  reindex_query toint dim cells order boxes s = Some (s', out) /\ inv s' /\ fresh s' /\ (forall h, obj (at_handle s' h) = obj (at_handle s h)) /\
  (forall h o c, obj (at_handle s h) = Some o -> In c (box_cells (boxes o)) -> on s' c h) /\
  NoDup ps /\ (forall h k, In (h, k) ps -> live s h /\ live s k /\ h <> k /\ ~ In (k, h) ps) /\
  (forall h k a b c, h <> k -> obj (at_handle s h) = Some a -> obj (at_handle s k) = Some b -> In c (box_cells (boxes a)) -> In c (box_cells (boxes b)) -> In (h, k) ps \/ In (k, h) ps).
Proof.
  intros I Fr Pm. destruct (clear_ok cells s I) as (I0 & M0 & Z). set (s0 := clear_table s) in *.
  assert (Ob : forall h, obj (at_handle s0 h) = obj (at_handle s h)) by apply (m_obj _ _ _ M0).
  assert (Sh : forall h, shape_of s0 h = shape_of s h) by (intros h; unfold shape_of; now rewrite Ob).
  assert (Lv : forall h, live s0 h <-> live s h) by (intros h; unfold live; now rewrite Ob).
  assert (F0 : fresh s0) by (intros h; rewrite (m_seen _ _ _ M0), (m_stamp _ _ _ M0); apply Fr). set (l := order (hset s)).
  assert (Il : forall h, In h l <-> live s h) by (intros h; unfold l; rewrite <- (Pm (hset s)); apply (i_obj _ _ I)).
  assert (ND : NoDup l) by (unfold l; eapply Permutation_NoDup; [apply Pm|apply (i_set _ _ I)]).
  destruct (rehash_ok toint dim cells some_cells boxes l s0 [] I0 F0 ND) as (ps & s' & E & I' & F' & O' & NP & Bef & P & H & C1 & C2).
  { intros h Hh. split; [now apply Lv, Il|]. rewrite Z. intros []. }
  exists s', ps. split; [unfold reindex_query; fold s0 l; rewrite E, app_nil_r; f_equal; f_equal; apply map_ext; intros p; now rewrite !Sh|]. split; auto. split; auto. split; [intros h; now rewrite O', Ob|]. split; [|split; [auto|split]].
  - intros h o c Oh Hc. apply (H h c); [apply Il; unfold live; congruence|]. rewrite Sh. unfold shape_of. now rewrite Oh.
  - intros h k Hp. destruct (Bef h k Hp) as (Lk & l1 & l2 & El & Pos). rewrite Z in Pos. destruct Pos as [[]|Pos].
    split; [apply Il; rewrite El; apply in_elt|]. split; [now apply Lv|].
    assert (NDs : NoDup (l1 ++ h :: l2)) by now rewrite <- El. split; [intros <-; apply NoDup_remove_2 in NDs; apply NDs, in_or_app; auto|].
    intros Hp'. destruct (Bef k h Hp') as (_ & m1 & m2 & Em & Pos'). rewrite Z in Pos'. destruct Pos' as [[]|Pos'].
    apply in_split in Pos as (x1 & x2 & ->). apply in_split in Pos' as (y1 & y2 & ->).
    (* h occurs after k, and k after h: k occurs once *)
    rewrite <- app_assoc in El, Em. cbn in El, Em. assert (NDl : NoDup l) by auto. rewrite Em in NDl.
    assert (X : forall (a b a' b' : list nat) z, NoDup (a ++ z :: b) -> a ++ z :: b = a' ++ z :: b' -> a = a').
    { clear. induction a as [|w a IHa]; intros b [|w' a'] b' z N E; cbn in *; auto; injection E as -> E.
      - exfalso. inversion_clear N as [|? ? N1 N2]. apply N1. rewrite E. apply in_elt.
      - exfalso. inversion_clear N as [|? ? N1 N2]. apply N1. apply in_elt.
      - f_equal. inversion_clear N as [|? ? N1 N2]. eapply IHa; eauto. }
    assert (Y : y1 ++ h :: y2 = x1). { apply (X (y1 ++ h :: y2) m2 x1 (x2 ++ h :: l2) k). - rewrite <- app_assoc. cbn. auto. - rewrite <- app_assoc. cbn. congruence. }
    rewrite El in Em. rewrite El in ND. rewrite <- Y in ND. rewrite <- !app_assoc in ND. cbn in ND. apply NoDup_remove_2 in ND. apply ND. rewrite !in_app_iff. right. right. right. apply in_or_app. right. now left.
  - intros h k a b c Ne Oa Ob' Ca Cb. assert (Ih : In h l) by (apply Il; unfold live; congruence). assert (Ik : In k l) by (apply Il; unfold live; congruence).
    assert (Sa : shape_of s0 h = a) by (rewrite Sh; unfold shape_of; now rewrite Oa). assert (Sb : shape_of s0 k = b) by (rewrite Sh; unfold shape_of; now rewrite Ob').
    apply in_split in Ih as (l1 & l2 & El). rewrite El in Ik. apply in_app_or in Ik as [Ik|[Ik|Ik]]; [|congruence|].
    + apply in_split in Ik as (x1 & x2 & ->). left. apply (C2 x1 k x2 h l2 c); [rewrite El, <- app_assoc; reflexivity|now rewrite Sa|now rewrite Sb].
    + apply in_split in Ik as (x1 & x2 & ->). right. apply (C2 l1 h x1 k x2 c); [exact El|now rewrite Sb|now rewrite Sa].
Qed.
Lemma perform_ok cl s : inv s -> fresh s -> fair cl -> (forall fuel f a b t, cl <> Ray fuel f a b t) -> exists s', perform cl s = Some s'.
Proof.
  intros I Fr Fa NR. destruct cl; cbn.
  - destruct (insert_indexed pick shape box s I Fr) as (s' & E & _). eauto.
  - eauto.
  - unfold reindex_object. pose proof (find_handle_ok cells s shape I) as F. destruct (find_handle s shape) as [h|]; eauto. destruct F as [H O]. destruct (orphan_ok cells h shape s I H O) as (I1 & O1 & T1 & St & Se).
    destruct (insert_indexed pick shape box (orphan h s) I1) as (s' & E & _); eauto. intros k. rewrite Se, St. apply Fr.
  - destruct (reindex_query_ok order boxes s I Fr Fa) as (s' & ps & E & _). rewrite E. cbn. eauto.
  - destruct (query_ok toint dim cells some_cells self box s I Fr) as (s' & out & E & _). rewrite E. cbn. eauto.
  - exfalso. eapply NR; eauto.
  - eauto.
Qed.
Lemma perform_inv cl s s' : inv s -> fresh s -> fair cl -> perform cl s = Some s' -> inv s' /\ fresh s' /\
  (cl <> Reindex -> forall cls, indexed s (boxes_after cls) -> indexed s' (boxes_after (cls ++ [cl]))).
Proof.
  intros I Fr Fa. unfold boxes_after. destruct cl; cbn [SpaceHashSpec.perform].
  - destruct (insert_indexed pick shape box s I Fr) as (s1 & E & I1 & F1 & Ix). rewrite E. intros [= <-]. split; auto. split; auto. intros _ cls H. rewrite fold_left_app. apply Ix. intros x _. apply H.
  - intros [= <-]. unfold remove. pose proof (find_handle_ok cells s shape I) as F. destruct (find_handle s shape) as [h|].
    + destruct F as [H O]. destruct (orphan_ok cells h shape s I H O) as (I1 & O1 & T1 & St & Se). split; auto. split; [intros k; rewrite Se, St; apply Fr|]. intros _ cls Hx. rewrite fold_left_app. cbn [fold_left]. intros x. specialize (Hx x). destruct (Nat.eqb_spec x shape) as [->|D].
      * intros k Ok. apply O1 in Ok as [? _]. congruence.
      * destruct (fold_left _ cls _ x) as [b|].
        -- destruct Hx as (k & Ok & Ck). exists k. split; [now apply O1|]. intros c Hc. specialize (Ck c Hc). unfold on, SpaceHashOps.on, chain_at in *. now rewrite T1.
        -- intros k Ok. apply O1 in Ok as [_ Ok]. now apply Hx in Ok.
    + split; auto. split; auto. intros _ cls Hx. rewrite fold_left_app. cbn [fold_left]. intros x. specialize (Hx x). destruct (Nat.eqb_spec x shape) as [->|D]; auto.
  - unfold reindex_object. pose proof (find_handle_ok cells s shape I) as F. destruct (find_handle s shape) as [h|].
    + destruct F as [H O]. destruct (orphan_ok cells h shape s I H O) as (I1 & O1 & T1 & St & Se).
      destruct (insert_indexed pick shape box (orphan h s) I1) as (s1 & E & I2 & F2 & Ix); [intros k; rewrite Se, St; apply Fr|]. rewrite E. intros [= <-]. split; auto. split; auto. intros _ cls Hx. rewrite fold_left_app. cbn [fold_left].
      set (bx := fold_left _ cls _) in *. assert (Some_bx : exists b, bx shape = Some b). { specialize (Hx shape). destruct (bx shape); eauto. exfalso. eapply Hx; eauto. }
      intros x. specialize (Ix bx). unfold indexed in Ix. assert (Hyp : forall x, x <> shape -> match bx x with Some b => exists h0, obj (at_handle (orphan h s) h0) = Some x /\ (forall c, In c (box_cells b) -> on (orphan h s) c h0) | None => forall h0, obj (at_handle (orphan h s) h0) <> Some x end).
      { intros y D. specialize (Hx y). destruct (bx y) as [b|].
        - destruct Hx as (k & Ok & Ck). exists k. split; [now apply O1|]. intros c Hc. specialize (Ck c Hc). unfold on, SpaceHashOps.on, chain_at in *. now rewrite T1.
        - intros k Ok. apply O1 in Ok as [_ Ok]. now apply Hx in Ok. }
      specialize (Ix Hyp x). clear Hyp. destruct (Nat.eqb_spec x shape) as [D|D]; [rewrite D in *|exact Ix]. destruct Some_bx as [b ->]. exact Ix.
    + intros [= <-]. split; auto. split; auto. intros _ cls Hx. rewrite fold_left_app. cbn [fold_left]. intros x. specialize (Hx x). destruct (Nat.eqb_spec x shape) as [->|D]; auto. destruct (fold_left _ cls _ shape); [destruct Hx as (k & Ok & _); now apply F in Ok|exact Hx].
  - destruct (reindex_query_ok order boxes s I Fr Fa) as (s1 & ps & E & I1 & F1 & O1 & On & _). rewrite E. intros [= <-]. split; auto. split; auto. intros _ cls Hx. rewrite fold_left_app. cbn [fold_left]. intros x. specialize (Hx x). destruct (fold_left _ cls _ x) as [b|]; cbn [option_map].
    + destruct Hx as (k & Ok & _). exists k. split; [now rewrite O1|]. intros c Hc. eapply On; eauto.
    + intros k. now rewrite O1.
  - destruct (query_ok toint dim cells some_cells self box s I Fr) as (s1 & out & E & I1 & F1 & _ & _ & _ & O1 & P1). rewrite E. intros [= <-]. split; auto. split; auto. intros _ cls Hx. rewrite fold_left_app. cbn [fold_left]. eapply indexed_keep; eauto.
  - destruct (segment_query _ _ _ _ _ _ _ _ _ s) as [r|] eqn:E; [|discriminate]. apply ray_ok in E; auto. destruct r as [[[s1 out] te] cs]. intros [= <-]. destruct E as (I1 & F1 & _ & _ & _ & O1 & P1). split; auto. split; auto. intros _ cls Hx. rewrite fold_left_app. cbn [fold_left]. eapply indexed_keep; eauto.
  - intros [= <-]. destruct (clear_ok cells s I) as (I0 & M0 & Z). split; auto. split; [intros h; unfold reindex; rewrite (m_seen _ _ _ M0), (m_stamp _ _ _ M0); apply Fr|congruence].
Qed.
Lemma run_snoc cs c s : run (cs ++ [c]) s = match run cs s with Some s => perform c s | None => None end.
Proof. unfold SpaceHashSpec.run. rewrite all_of_app. destruct (all_of perform cs s); auto. cbn. now destruct (perform c h). Qed.
Lemma run_inv k cs : forall s, Forall fair cs -> run cs (new_hash cells k) = Some s -> inv s /\ fresh s /\ (~ In Reindex cs -> indexed s (boxes_after cs)).
Proof.
  induction cs as [|c cs IH] using rev_ind; intros s Fa R.
  - injection R as <-. destruct (new_hash_inv cells k) as (I & F & N). split; auto. split; auto. intros _ o h. rewrite N. discriminate.
  - rewrite run_snoc in R. destruct (run cs (new_hash cells k)) as [s0|]; [|discriminate]. apply Forall_app in Fa as [Fa Fc]. inversion Fc; subst. destruct (IH s0 Fa eq_refl) as (I0 & F0 & X0). destruct (perform_inv c s0 s I0 F0) as (I1 & F1 & X1); auto.
    split; auto. split; auto. intros NR. apply X1; [intros ->; apply NR, in_elt|]. apply X0. intros J. apply NR, in_or_app. auto.
Qed.

(** ** The statements *)
Lemma run_total k cs : Forall fair cs -> (forall c, In c cs -> forall fuel f a b t, c <> Ray fuel f a b t) -> exists s, run cs (new_hash cells k) = Some s.
Proof.
  induction cs as [|c cs IH] using rev_ind; intros Fa NR; [eexists; reflexivity|]. apply Forall_app in Fa as [Fa Fc]. inversion Fc; subst. destruct IH as [s R]; auto; [intros; apply NR, in_or_app; auto|]. rewrite run_snoc, R. destruct (run_inv k cs s Fa R) as (I & F & _).
  apply perform_ok; auto. intros. apply NR, in_elt.
Qed.
Lemma counts k cs s : Forall fair cs -> run cs (new_hash cells k) = Some s ->
  (forall h, In h (concat (table s)) \/ In h (hset s) -> (h < length (heap s))%nat) /\
  (forall h, (h < length (heap s))%nat -> retains (at_handle s h) = Z.of_nat (count_occ Nat.eq_dec (concat (table s)) h + if in_dec Nat.eq_dec h (hset s) then 1 else 0)) /\
  NoDup (pool s) /\ (forall h, In h (pool s) <-> (h < length (heap s))%nat /\ ~ In h (concat (table s)) /\ ~ In h (hset s)) /\ NoDup (hset s).
Proof.
  intros Fa R. destruct (run_inv k cs s Fa R) as (I & _ & _). pose proof (i_good _ _ I) as [A B C D]. unfold refs in *. split; [intros h H; apply A, in_or_app; auto|]. split; [|split; [auto|split; [|apply (i_set _ _ I)]]].
  - intros h H. rewrite B by auto. f_equal. rewrite occ_app. f_equal. apply occ_nodup, (i_set _ _ I).
  - intros h. rewrite D, in_app_iff. tauto.
Qed.
Variable ok : num -> Prop.
Hypothesis mono : monotone toint dim ok.
Lemma meeting_cell a b : box_in ok a -> box_in ok b -> valid_box a -> valid_box b -> bb_intersects a b = true -> exists c, In c (box_cells a) /\ In c (box_cells b).
Proof.
  intros (a1 & a2 & a3 & a4) (b1 & b2 & b3 & b4) [Va1 Va2] [Vb1 Vb2] X. unfold bb_intersects in X. rewrite !andb_true_iff in X. destruct X as [[[X1 X2] X3] X4].
  pose proof (mono _ _ a1 a2 Va1). pose proof (mono _ _ a3 a4 Va2). pose proof (mono _ _ b1 b2 Vb1). pose proof (mono _ _ b3 b4 Vb2). pose proof (mono _ _ a1 b2 X1). pose proof (mono _ _ b1 a2 X2). pose proof (mono _ _ a3 b4 X3). pose proof (mono _ _ b3 a4 X4).
  exists (Z.max (floor toint (bL a / dim)%num) (floor toint (bL b / dim)%num), Z.max (floor toint (bB a / dim)%num) (floor toint (bB b / dim)%num)).
  split; unfold SpaceHash.box_cells; apply in_flat_map; eexists; (split; [apply in_zrange|apply in_map_iff; eexists; split; [reflexivity|apply in_zrange]]); lia.
Qed.
Lemma found k cs s self b : Forall fair cs -> ~ In Reindex cs -> run cs (new_hash cells k) = Some s ->
  exists s' out, query toint dim cells self b s = Some (s', out) /\ NoDup out /\ (forall o, In o out -> boxes_after cs o <> None /\ self <> Some o) /\
  (forall o bx, boxes_after cs o = Some bx -> self <> Some o -> box_in ok b -> box_in ok bx -> valid_box b -> valid_box bx -> bb_intersects bx b = true -> In o out).
Proof.
  intros Fa NR R. destruct (run_inv k cs s Fa R) as (I & F & X). specialize (X NR). destruct (query_ok toint dim cells some_cells self b s I F) as (s' & out & E & I' & F' & N & Only & All & _). exists s', out. split; auto. split; auto. split.
  - intros o Ho. apply Only in Ho as (Sf & h & c & Oh & _). split; auto. intros Z. specialize (X o). rewrite Z in X. now apply X in Oh.
  - intros o bx Hb Sf K1 K2 V1 V2 Ix. specialize (X o). rewrite Hb in X. destruct X as (h & Oh & Ch). destruct (meeting_cell bx b K2 K1 V2 V1 Ix) as (c & C1 & C2). apply (All h o c); auto.
Qed.
Lemma pairs_found k cs s order boxes : Forall fair cs -> ~ In Reindex cs -> run cs (new_hash cells k) = Some s -> (forall l, Permutation l (order l)) ->
  exists s' out, reindex_query toint dim cells order boxes s = Some (s', out) /\ NoDup out /\
  (forall a b, In (a, b) out -> a <> b /\ boxes_after cs a <> None /\ boxes_after cs b <> None /\ ~ In (b, a) out) /\
  (forall a b, a <> b -> boxes_after cs a <> None -> boxes_after cs b <> None -> box_in ok (boxes a) -> box_in ok (boxes b) -> valid_box (boxes a) -> valid_box (boxes b) -> bb_intersects (boxes a) (boxes b) = true -> In (a, b) out \/ In (b, a) out).
Proof.
  intros Fa NR R Pm. destruct (run_inv k cs s Fa R) as (I & F & X). specialize (X NR). destruct (reindex_query_ok order boxes s I F Pm) as (s' & ps & E & I' & F' & O' & On & NP & Pr & Cov).
  assert (Inj : forall h h', live s h -> live s h' -> shape_of s h = shape_of s h' -> h = h'). { intros h h' L L' Eq. apply (i_uniq _ _ I); auto. unfold shape_of, live in *. destruct (obj (at_handle s h)), (obj (at_handle s h')); congruence. }
  assert (Bx : forall h, live s h -> boxes_after cs (shape_of s h) <> None). { intros h L Z. specialize (X (shape_of s h)). rewrite Z in X. unfold shape_of, live in *. destruct (obj (at_handle s h)) eqn:Oh; [|congruence]. now apply X in Oh. }
  exists s'. eexists. split; [exact E|]. split; [|split].
  - clear - NP Pr Inj. induction NP as [|[h k] ps Np NP IH]; cbn; constructor.
    + intros J. apply in_map_iff in J as ([h' k'] & Eq & J). cbn in Eq. injection Eq as Eh Ek. destruct (Pr h k (or_introl eq_refl)) as (L1 & L2 & _). destruct (Pr h' k' (or_intror J)) as (L3 & L4 & _). apply Np. replace h with h' by (apply Inj; auto). replace k with k' by (apply Inj; auto). exact J.
    + apply IH. intros a b J. destruct (Pr a b (or_intror J)) as (L1 & L2 & L3 & L4). split; auto. split; auto. split; auto. intros K. apply L4. now right.
  - intros a b J. apply in_map_iff in J as ([h k'] & Eq & J). cbn in Eq. injection Eq as <- <-. destruct (Pr h k' J) as (L1 & L2 & Ne & Nx). split; [intros Y; apply Ne; now apply Inj|]. split; auto. split; auto. intros K. apply in_map_iff in K as ([h2 k2] & Eq & K). cbn in Eq. injection Eq as Eh Ek.
    destruct (Pr h2 k2 K) as (L3 & L4 & _). apply Nx. replace k' with h2 by (apply Inj; auto). replace h with k2 by (apply Inj; auto). exact K.
  - intros a b Ne Ha Hb K1 K2 V1 V2 Ix. pose proof (X a) as Xa. pose proof (X b) as Xb. destruct (boxes_after cs a) as [ba|]; [|congruence]. destruct (boxes_after cs b) as [bb'|]; [|congruence]. destruct Xa as (h & Oh & _). destruct Xb as (k' & Ok & _).
    destruct (meeting_cell (boxes a) (boxes b) K1 K2 V1 V2 Ix) as (c & C1 & C2). assert (Ek : h <> k') by congruence. destruct (Cov h k' a b c Ek Oh Ok C1 C2) as [J|J]; [left|right]; apply in_map_iff; [exists (h, k')|exists (k', h)]; (split; [cbn; unfold shape_of; now rewrite Oh, Ok|auto]).
Qed.
Lemma nodup_app {A} (l l' : list A) : NoDup l -> NoDup l' -> (forall x, In x l -> In x l' -> False) -> NoDup (l ++ l').
Proof. clear. induction l as [|x l IH]; intros N N' D; auto. inversion N; subst. cbn. constructor. - intros H. apply in_app_or in H as [H|H]; [auto|]. apply (D x); cbn; auto. - apply IH; auto. intros y Hy. apply D. now right. Qed.
(** the pairs a dynamic index adds against a static index *)
Lemma static_found k objs boxes : forall cs s out, Forall fair cs -> ~ In Reindex cs -> run cs (new_hash cells k) = Some s -> NoDup objs ->
  exists s' new, all_of (fun o '(st, out) => match query toint dim cells (Some o) (boxes o) st with Some (st, l) => Some (st, map (pair o) l ++ out) | None => None end) objs (s, out) = Some (s', new ++ out) /\ NoDup new /\
  (forall a b, In (a, b) new -> In a objs /\ a <> b /\ boxes_after cs b <> None) /\
  (forall a b bx, In a objs -> a <> b -> boxes_after cs b = Some bx -> box_in ok (boxes a) -> box_in ok bx -> valid_box (boxes a) -> valid_box bx -> bb_intersects bx (boxes a) = true -> In (a, b) new).
Proof.
  induction objs as [|o objs IH]; intros cs s out Fa NR R Nd; cbn [all_of].
  - exists s, []. split; auto. split; [constructor|]. split; contradiction.
  - inversion Nd; subst. destruct (found k cs s (Some o) (boxes o) Fa NR R) as (s1 & l & E & N & Only & All). rewrite E.
    assert (R1 : run (cs ++ [Query (Some o) (boxes o)]) (new_hash cells k) = Some s1) by (rewrite run_snoc, R; cbn; rewrite E; reflexivity).
    assert (B1 : forall x, boxes_after (cs ++ [Query (Some o) (boxes o)]) x = boxes_after cs x) by (intros x; unfold boxes_after; rewrite fold_left_app; reflexivity).
    destruct (IH (cs ++ [Query (Some o) (boxes o)]) s1 (map (pair o) l ++ out)) as (s' & new & E' & N' & Only' & All'); auto.
    { apply Forall_app. split; auto. constructor; [exact I|constructor]. } { intros J. apply in_app_or in J as [J|[J|[]]]; [auto|discriminate]. }
    exists s', (new ++ map (pair o) l). rewrite E', app_assoc. split; auto. split; [|split].
    + apply nodup_app; auto.
      * apply FinFun.Injective_map_NoDup; auto. intros x y [= ->]. reflexivity.
      * intros [x y] Hx Hy. apply in_map_iff in Hy as (z & [= <- <-] & _). apply Only' in Hx as (Hx & _). contradiction.
    + intros a b Hab. apply in_app_or in Hab as [Hab|Hab].
      * apply Only' in Hab as (? & ? & ?). rewrite B1 in *. split; [now right|auto].
      * apply in_map_iff in Hab as (z & [= <- <-] & Hz). apply Only in Hz as [? ?]. split; [now left|]. split; [congruence|auto].
    + intros a b bx [<-|Ha] D Hb K1 K2 V1 V2 X; apply in_or_app.
      * right. apply in_map. eapply All; eauto. congruence.
      * left. eapply All'; eauto. now rewrite B1.
Qed.
Lemma count_none s bx o : inv s -> indexed s bx -> bx o <> None -> count s <> 0%nat.
Proof. intros I X N Z. specialize (X o). destruct (bx o); [|congruence]. destruct X as (h & O & _). assert (L : live s h) by (unfold live; congruence). apply (i_obj _ _ I) in L. unfold count in Z. destruct (hset s); [contradiction|discriminate]. Qed.
Lemma static_pairs k cs s objs boxes out : Forall fair cs -> ~ In Reindex cs -> run cs (new_hash cells k) = Some s -> NoDup objs ->
  exists s' new, collide_static toint dim cells objs boxes s out = Some (s', new ++ out) /\ NoDup new /\
  (forall a b, In (a, b) new -> In a objs /\ a <> b /\ boxes_after cs b <> None) /\
  (forall a b bx, In a objs -> a <> b -> boxes_after cs b = Some bx -> box_in ok (boxes a) -> box_in ok bx -> valid_box (boxes a) -> valid_box bx -> bb_intersects bx (boxes a) = true -> In (a, b) new).
Proof.
  intros Fa NR R Nd. unfold collide_static. destruct (Nat.eqb_spec (count s) 0) as [Z|Z]; [|eapply static_found; eauto]. destruct (run_inv k cs s Fa R) as (I & F & X). specialize (X NR).
  exists s, []. split; auto. split; [constructor|]. split; [contradiction|]. intros a b bx _ _ Hb. exfalso. apply (count_none s (boxes_after cs) b I X); [rewrite Hb; discriminate|exact Z].
Qed.
Lemma ray_found k cs s fuel f a b t r : Forall fair cs -> ~ In Reindex cs -> run cs (new_hash cells k) = Some s -> segment_query toint dim cells ffloor fuel f a b t s = Some r ->
  let '(s', out, te, vs) := r in NoDup out /\ (forall o, In o out -> boxes_after cs o <> None) /\ (forall o bx c, boxes_after cs o = Some bx -> In c (box_cells bx) -> In c vs -> In o out).
Proof.
  intros Fa NR R E. destruct (run_inv k cs s Fa R) as (I & F & X). specialize (X NR). apply ray_ok in E; auto. destruct r as [[[s' out] te] vs]. destruct E as (_ & _ & N & Only & All & _). split; auto. split.
  - intros o Ho Z. apply Only in Ho as (h & Oh). specialize (X o). rewrite Z in X. now apply X in Oh.
  - intros o bx c Hb C V. specialize (X o). rewrite Hb in X. destruct X as (h & Oh & Ch). eauto.
Qed.
End Main.
