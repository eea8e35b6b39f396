(** Lemmas about locks and post-step callbacks. *)
From Coq Require Import ZArith List Bool Arith Lia.
From Verif Require Import PostStep PostStepSpec.
Import ListNotations.
Local Open Scope Z_scope.

Section act_ind.
  Variable P : act -> Prop.
  Hypothesis Hl : P ALock.
  Hypothesis Hu : forall r, P (AUnlock r).
  Hypothesis Ha : forall k id b, Forall P b -> P (AAddPost k id b).
  Hypothesis Hv : forall c, Forall (Forall P) c -> P (AVisit c).
  Hypothesis Hb : forall c d, Forall (Forall P) c -> Forall (Forall P) d -> P (ABBQuery c d).
  Hypothesis Hs : forall z c d, Forall (Forall P) c -> Forall (Forall P) d -> P (AStep z c d).
  Hypothesis Hr : P AReindex.
  Hypothesis Hm : P AMutate.
  Fixpoint act_ind2 (a : act) : P a :=
    let body := fix body (l : list act) : Forall P l :=
      match l with [] => Forall_nil _ | x :: r => Forall_cons x (act_ind2 x) (body r) end in
    let bodies := fix bodies (l : list (list act)) : Forall (Forall P) l :=
      match l with [] => Forall_nil _ | x :: r => Forall_cons x (body x) (bodies r) end in
    match a with
    | ALock => Hl | AUnlock r => Hu r | AAddPost k id b => Ha k id b (body b)
    | AVisit c => Hv c (bodies c) | ABBQuery c d => Hb c d (bodies c) (bodies d)
    | AStep z c d => Hs z c d (bodies c) (bodies d) | AReindex => Hr | AMutate => Hm
    end.
End act_ind.

Lemma seq_none {A} (f : A -> pstate -> option pstate) l :
  fold_left (fun o a => match o with Some s => f a s | None => None end) l None = None.
Proof. induction l; cbn; auto. Qed.
Lemma seq_nil {A} (f : A -> pstate -> option pstate) s : seq f [] s = Some s.
Proof. reflexivity. Qed.
Lemma seq_cons {A} (f : A -> pstate -> option pstate) a l s :
  seq f (a :: l) s = match f a s with Some s1 => seq f l s1 | None => None end.
Proof. unfold seq. cbn. destruct (f a s); [reflexivity | apply seq_none]. Qed.
Lemma seq_app {A} (f : A -> pstate -> option pstate) l1 l2 s :
  seq f (l1 ++ l2) s = match seq f l1 s with Some s1 => seq f l2 s1 | None => None end.
Proof.
  revert s. induction l1 as [|a l1 IH]; intros s; [reflexivity|].
  cbn [app]. rewrite !seq_cons. destruct (f a s); [apply IH | reflexivity].
Qed.

Definition callback F body s := seq (exec F) body (note (ECall (p_lock s)) s).

Lemma exec_visit F cbs s : exec F (AVisit cbs) s =
  match seq (callback F) cbs (bump 1 s) with Some s1 => unlock F true s1 | None => None end.
Proof. reflexivity. Qed.
Lemma exec_bb F st dy s : exec F (ABBQuery st dy) s =
  match seq (callback F) st s with
  | Some s1 => match seq (callback F) dy (bump 1 s1) with Some s2 => unlock F true s2 | None => None end
  | None => None end.
Proof. reflexivity. Qed.
Lemma exec_step F c1 c2 s : exec F (AStep false c1 c2) s =
  match seq (callback F) c1 (bump 1 s) with
  | Some s1 =>
    match unlock F false s1 with
    | Some s2 => match seq (callback F) c2 (bump 1 s2) with Some s3 => unlock F true s3 | None => None end
    | None => None end
  | None => None end.
Proof. reflexivity. Qed.

(** ** A preorder kept by every basic step is kept by every action *)
Section pre.
  Variable F : pstate -> option pstate.
  Variable R : pstate -> pstate -> Prop.
  Hypothesis Rrefl : forall s, R s s.
  Hypothesis Rtrans : forall a b c, R a b -> R b c -> R a c.
  Hypothesis Rbump : forall s, R s (bump 1 s).
  Hypothesis Rcall : forall s, R s (note (ECall (p_lock s)) s).
  Hypothesis Rmut : forall s, R s (note (EMutate (p_lock s)) s).
  Hypothesis Radd : forall k id b s, R s (add_post k id b s).
  Hypothesis Runlock : forall r s s', unlock F r s = Some s' -> R s s'.

  Lemma seq_pre {A} (f : A -> pstate -> option pstate) l :
    Forall (fun a => forall s s', f a s = Some s' -> R s s') l ->
    forall s s', seq f l s = Some s' -> R s s'.
  Proof.
    induction 1 as [|a l Ha Hl IH]; intros s s' H.
    - injection H as <-. auto.
    - rewrite seq_cons in H. destruct (f a s) eqn:E; [|discriminate]. eauto.
  Qed.

  Lemma exec_pre a : forall s s', exec F a s = Some s' -> R s s'.
  Proof.
    induction a using act_ind2; intros s s' E.
    - injection E as <-. auto.
    - eapply Runlock; exact E.
    - injection E as <-. auto.
    - rewrite exec_visit in E. destruct (seq (callback F) c (bump 1 s)) eqn:E1; [|discriminate].
      eapply Rtrans; [apply Rbump|]. eapply Rtrans; [|eapply Runlock; exact E].
      refine (seq_pre _ _ _ _ _ E1). eapply Forall_impl; [|exact H].
      intros b Hb t t' Ht. eapply Rtrans; [apply Rcall|]. exact (seq_pre _ _ Hb _ _ Ht).
    - rewrite exec_bb in E. destruct (seq (callback F) c s) eqn:E1; [|discriminate].
      destruct (seq (callback F) d (bump 1 p)) eqn:E2; [|discriminate].
      eapply Rtrans; [|eapply Rtrans; [apply Rbump|eapply Rtrans; [|eapply Runlock; exact E]]].
      + refine (seq_pre _ _ _ _ _ E1). eapply Forall_impl; [|exact H].
        intros b Hb t t' Ht. eapply Rtrans; [apply Rcall|]. exact (seq_pre _ _ Hb _ _ Ht).
      + refine (seq_pre _ _ _ _ _ E2). eapply Forall_impl; [|exact H0].
        intros b Hb t t' Ht. eapply Rtrans; [apply Rcall|]. exact (seq_pre _ _ Hb _ _ Ht).
    - destruct z; [injection E as <-; auto|].
      rewrite exec_step in E. destruct (seq (callback F) c (bump 1 s)) eqn:E1; [|discriminate].
      destruct (unlock F false p) eqn:E2; [|discriminate].
      destruct (seq (callback F) d (bump 1 p0)) eqn:E3; [|discriminate].
      eapply Rtrans; [apply Rbump|]. eapply Rtrans; [|eapply Rtrans; [eapply Runlock; exact E2|
        eapply Rtrans; [apply Rbump|eapply Rtrans; [|eapply Runlock; exact E]]]].
      + refine (seq_pre _ _ _ _ _ E1). eapply Forall_impl; [|exact H].
        intros b Hb t t' Ht. eapply Rtrans; [apply Rcall|]. exact (seq_pre _ _ Hb _ _ Ht).
      + refine (seq_pre _ _ _ _ _ E3). eapply Forall_impl; [|exact H0].
        intros b Hb t t' Ht. eapply Rtrans; [apply Rcall|]. exact (seq_pre _ _ Hb _ _ Ht).
    - cbn in E. destruct (0 <? p_lock s); [discriminate|]. injection E as <-. auto.
    - injection E as <-. auto.
  Qed.
  Lemma execs_pre l s s' : seq (exec F) l s = Some s' -> R s s'.
  Proof. apply seq_pre. apply Forall_forall. intros a _. apply exec_pre. Qed.
End pre.

Lemma ran_app a b : ran (a ++ b) = ran a ++ ran b.
Proof. induction a as [|[] a IH]; cbn; rewrite ?IH; auto. Qed.
Lemma registered_app a b : registered (a ++ b) = registered a ++ registered b.
Proof. induction a as [|[[] k i []|?|?|?] a IH]; cbn; rewrite ?IH; auto. Qed.

(** ** Inside a post-step callback *)
Definition RI (s s' : pstate) : Prop :=
  p_skip s = true -> p_skip s' = true /\ exists q evs, p_queue s' = p_queue s ++ q /\ p_log s' = p_log s ++ evs /\
    ran evs = [] /\ registered evs = [].

Lemma inside_pre l s s' : seq exec_inside l s = Some s' -> RI s s'.
Proof.
  apply execs_pre; unfold RI.
  - intros t Ht. split; auto. exists [], []. rewrite !app_nil_r. auto.
  - intros a b c Hab Hbc Ha. destruct (Hab Ha) as (Hb & q1 & e1 & Q1 & L1 & A1 & B1).
    destruct (Hbc Hb) as (Hc & q2 & e2 & Q2 & L2 & A2 & B2). split; auto. exists (q1 ++ q2), (e1 ++ e2).
    rewrite Q2, Q1, L2, L1, ran_app, registered_app, A1, A2, B1, B2, !app_assoc. auto.
  - intros t Ht. split; auto. exists [], []. cbn. rewrite !app_nil_r. auto.
  - intros t Ht. split; auto. exists [], [ECall (p_lock t)]. cbn. rewrite !app_nil_r. auto.
  - intros t Ht. split; auto. exists [], [EMutate (p_lock t)]. cbn. rewrite !app_nil_r. auto.
  - intros k id b t Ht. unfold add_post. destruct (key_free k (p_queue t)); cbn.
    + split; auto. eexists _, [EReg (p_skip t) k id true]. rewrite Ht. cbn. auto.
    + split; auto. exists [], [EReg (p_skip t) k id false]. rewrite Ht, !app_nil_r. cbn. auto.
  - intros r t t' E Ht. unfold unlock in E. cbn in E. rewrite Ht, andb_false_r in E.
    destruct (negb _) in E; injection E as <-; cbn; split; auto; exists [], []; rewrite !app_nil_r; auto.
Qed.

(* while skipPostStep is set it does not matter what flush is *)
Lemma inside_any F a s : p_skip s = true -> forall s', exec F a s = Some s' -> p_skip s' = true.
Proof.
  intros H s' E. revert H.
  apply (exec_pre F (fun s s' => p_skip s = true -> p_skip s' = true)) with (s := s) (s' := s') (a := a); auto.
  - intros k id b t. unfold add_post. destruct (key_free _ _); auto.
  - intros r t t' E1 H. unfold unlock in E1. cbn in E1. rewrite H, andb_false_r in E1.
    destruct (negb _) in E1; injection E1 as <-; auto.
Qed.

(** ** Running the queue *)
Definition cids (c : pcb) : list (option nat * nat) :=
  match pc_fun c with Some (id, _) => [(pc_key c, id)] | None => [] end.
Definition qids (q : list pcb) := flat_map cids q.

Lemma nil_at_len i q : length (nil_at i q) = length q.
Proof.
  unfold nil_at. rewrite <- (firstn_skipn i q) at 3. rewrite !app_length. destruct (skipn i q); reflexivity.
Qed.
Lemma nil_at_skip i q : skipn (S i) (nil_at i q) = skipn (S i) q.
Proof.
  unfold nil_at. revert q. induction i as [|i IH]; intros [|c q]; cbn; auto.
  - specialize (IH q). cbn in IH. rewrite IH. reflexivity.
Qed.

Lemma run_loop n : forall i s s', p_skip s = true -> (i + n <= length (p_queue s))%nat ->
  seq run_one (List.seq i n) s = Some s' ->
  p_skip s' = true /\ exists evs, p_log s' = p_log s ++ evs /\
    ran evs = qids (firstn n (skipn i (p_queue s))) /\ registered evs = [].
Proof.
  induction n as [|n IH]; intros i s s' Hs Hn E.
  - injection E as <-. split; auto. exists []. rewrite app_nil_r. auto.
  - cbn [List.seq] in E. rewrite seq_cons in E. destruct (run_one i s) as [s1|] eqn:E1; [|discriminate].
    unfold run_one in E1.
    destruct (nth_error (p_queue s) i) as [c|] eqn:Ec; [|apply nth_error_None in Ec; lia].
    assert (Hsk : skipn i (p_queue s) = c :: skipn (S i) (p_queue s)).
    { revert Ec. clear. revert i. generalize (p_queue s). intros q i. revert q.
      induction i as [|i IH]; intros [|d q] H; cbn in *; try discriminate; [congruence | auto]. }
    assert (exists q evs, p_skip s1 = true /\ p_queue s1 = nil_at i (p_queue s) ++ q /\ p_log s1 = p_log s ++ evs /\
              ran evs = cids c /\ registered evs = []) as (q & e1 & Hs1 & Q1 & L1 & A1 & B1).
    { unfold cids. destruct (pc_fun c) as [[id body]|].
      - destruct (inside_pre _ _ _ E1) as (H1 & q & evs & HQ & HL & HA & HB); [exact Hs|].
        exists q, (ERun (pc_key c) id (p_lock s) :: evs). cbn in *. rewrite HL, <- app_assoc, HA. auto.
      - injection E1 as <-. exists [], []. cbn. rewrite !app_nil_r. auto. }
    destruct (IH (S i) s1 s' Hs1) as (H' & evs & HL & HA & HB).
    + rewrite Q1, app_length, nil_at_len. lia.
    + exact E.
    + split; auto. exists (e1 ++ evs). rewrite HL, L1, app_assoc, ran_app, registered_app, A1, B1, HA, HB.
      repeat split; auto. rewrite Hsk. cbn [firstn qids flat_map]. f_equal. unfold qids. f_equal.
      rewrite Q1, skipn_app, nil_at_skip, nil_at_len. rewrite firstn_app, skipn_length.
      replace (n - (length (p_queue s) - S i))%nat with 0%nat by lia. cbn. rewrite app_nil_r. reflexivity.
Qed.

(** ** From outside *)
Definition Inv (s : pstate) : Prop :=
  p_skip s = false /\ ran (p_log s) ++ qids (p_queue s) = registered (p_log s).

Lemma flush_inv s s' : ran (p_log s) ++ qids (p_queue s) = registered (p_log s) -> flush_queue s = Some s' ->
  Inv s' /\ p_queue s' = [].
Proof.
  intros H E. unfold flush_queue in E. cbn [p_queue] in E.
  match type of E with match ?x with _ => _ end = _ => destruct x as [s2|] eqn:E2; [|discriminate] end.
  injection E as <-. apply run_loop in E2; [|reflexivity | cbn; lia].
  destruct E2 as (_ & evs & HL & HA & HB). cbn in HL, HA. unfold Inv. cbn.
  rewrite HL, ran_app, registered_app, HA, HB, firstn_all, !app_nil_r. auto.
Qed.

Lemma qids_app a b : qids (a ++ b) = qids a ++ qids b.
Proof. apply flat_map_app. Qed.

Lemma top_inv l s s' : seq exec_top l s = Some s' -> Inv s -> Inv s'.
Proof.
  apply (execs_pre flush_queue (fun s s' => Inv s -> Inv s')); auto.
  - intros t [H1 H2]. split; auto. cbn. rewrite ran_app, registered_app. cbn. rewrite !app_nil_r. auto.
  - intros t [H1 H2]. split; auto. cbn. rewrite ran_app, registered_app. cbn. rewrite !app_nil_r. auto.
  - intros k id b t [H1 H2]. unfold add_post, Inv. destruct (key_free k (p_queue t)); cbn; rewrite H1;
      rewrite ran_app, registered_app; cbn; rewrite ?app_nil_r; split; auto.
    rewrite qids_app, app_assoc, H2. reflexivity.
  - intros r t t' E [H1 H2]. unfold unlock in E. cbn in E. rewrite H1 in E.
    destruct (negb _) in E; [injection E as <-; split; auto|].
    destruct r; cbn in E; [|injection E as <-; split; auto].
    apply flush_inv in E; [tauto | exact H2].
Qed.

Lemma program_inv l s : run_program l = Some s -> Inv s.
Proof. intros E. apply (top_inv l p_init s E). split; reflexivity. Qed.

Lemma pending_queue l s : run_program l = Some s -> pending (p_log s) = qids (p_queue s).
Proof.
  intros E. destruct (program_inv _ _ E) as [_ H]. unfold pending. rewrite <- H.
  rewrite skipn_app, skipn_all, Nat.sub_diag. reflexivity.
Qed.

Lemma in_order l s : run_program l = Some s -> registered (p_log s) = ran (p_log s) ++ pending (p_log s).
Proof. intros E. rewrite (pending_queue _ _ E). symmetry. apply (program_inv _ _ E). Qed.

(** ** Nothing in the queue has run: every queued entry has its function *)
Definition live (s : pstate) : Prop := Forall (fun c => pc_fun c <> None) (p_queue s).
Lemma top_live l s s' : seq exec_top l s = Some s' -> p_skip s = false /\ live s -> p_skip s' = false /\ live s'.
Proof.
  apply (execs_pre flush_queue (fun s s' => p_skip s = false /\ live s -> p_skip s' = false /\ live s')); auto.
  - intros k id b t [H1 H2]. unfold add_post. destruct (key_free k (p_queue t)); cbn; auto.
    split; auto. apply Forall_app. split; auto. repeat constructor. discriminate.
  - intros r t t' E [H1 H2]. unfold unlock in E. cbn in E. rewrite H1 in E.
    destruct (negb _) in E; [injection E as <-; split; auto|].
    destruct r; cbn in E; [|injection E as <-; split; auto].
    unfold flush_queue in E.
    match type of E with match ?x with _ => _ end = _ => destruct x as [s2|] eqn:E2; [|discriminate] end.
    injection E as <-. split; [reflexivity|constructor].
Qed.

Lemma key_pending k q : Forall (fun c => pc_fun c <> None) q ->
  existsb (key_is k) q = true <-> exists id, In (Some k, id) (qids q).
Proof.
  induction 1 as [|c q Hc Hq IH].
  - cbn. split; [discriminate | intros [_ []]].
  - cbn [existsb]. rewrite orb_true_iff, IH. unfold qids. cbn [flat_map]. setoid_rewrite in_app_iff.
    unfold key_is, cids. destruct c as [[k'|] [[i b]|]]; cbn in *; try tauto.
    + rewrite Nat.eqb_eq. split.
      * intros [->|[id H]]; [exists i; auto | exists id; auto].
      * intros [id [[H|[]]|H]]; [left; congruence | right; eauto].
    + split; [intros [?|[id H]]; [discriminate | eauto] | intros [id [[H|[]]|H]]; [discriminate | eauto]].
Qed.

Lemma registration l s k id body s' : run_program l = Some s -> exec_top (AAddPost k id body) s = Some s' ->
  p_lock s' = p_lock s /\
  ((k <> None /\ (exists i, In (k, i) (pending (p_log s))) /\
     p_queue s' = p_queue s /\ p_log s' = p_log s ++ [EReg false k id false]) \/
   ((k = None \/ ~ exists i, In (k, i) (pending (p_log s))) /\
     p_log s' = p_log s ++ [EReg false k id true])).
Proof.
  intros E E'. rewrite (pending_queue _ _ E).
  destruct (top_live l p_init s E) as [Hs Hl]; [split; [reflexivity | constructor]|].
  injection E' as <-. unfold add_post, key_free. destruct k as [k|].
  - destruct (existsb (key_is k) (p_queue s)) eqn:K; cbn; rewrite Hs; split; auto.
    + left. split; [discriminate|]. split; [apply key_pending; auto|]. auto.
    + right. split; auto. right. rewrite <- (key_pending k _ Hl). congruence.
  - cbn. rewrite Hs. split; auto.
Qed.

Lemma outermost_unlock l s s' : run_program l = Some s -> p_lock s = 1 -> exec_top (AUnlock true) s = Some s' ->
  pending (p_log s') = [].
Proof.
  intros E H1 E'. assert (run_program (l ++ [AUnlock true]) = Some s') as E2.
  { unfold run_program. rewrite seq_app. unfold run_program in E. rewrite E, seq_cons.
    unfold exec_top in *. rewrite E'. reflexivity. }
  rewrite (pending_queue _ _ E2). destruct (program_inv _ _ E) as [Hs HI].
  cbn in E'. unfold unlock in E'. cbn in E'. rewrite H1, Hs in E'. cbn in E'.
  apply flush_inv in E'; [|exact HI]. destruct E' as [_ ->]. reflexivity.
Qed.

(** ** Lock depth *)
Section depth.
  Variable F : pstate -> option pstate.
  Definition QT (s : pstate) : Prop :=
    Forall (fun c => match pc_fun c with Some (_, b) => tidy_body b | None => True end) (p_queue s).
  Definition at0 (e : event) : Prop := match e with ERun _ _ d => d = 0 | _ => True end.
  (* depth changes by d, callbacks run at depth 0, queue stays tidy *)
  Definition RD (d : Z) (s s' : pstate) : Prop :=
    QT s -> QT s' /\ p_lock s' = p_lock s + d /\ exists evs, p_log s' = p_log s ++ evs /\ Forall at0 evs.
  Hypothesis HF : forall s s', p_lock s = 0 -> F s = Some s' -> RD 0 s s'.

  Lemma RD_trans d e s t u : RD d s t -> RD e t u -> RD (d + e) s u.
  Proof.
    intros H1 H2 Hs. destruct (H1 Hs) as (Ht & D1 & e1 & L1 & A1). destruct (H2 Ht) as (Hu & D2 & e2 & L2 & A2).
    split; auto. split; [lia|]. exists (e1 ++ e2). rewrite L2, L1, app_assoc. split; auto. apply Forall_app; auto.
  Qed.
  Lemma RD_refl s : RD 0 s s.
  Proof. intros H. split; auto. split; [lia|]. exists []. rewrite app_nil_r. auto. Qed.
  Lemma RD_bump d s : RD d s (bump d s).
  Proof. intros H. split; auto. split; [reflexivity|]. exists []. cbn. rewrite app_nil_r. auto. Qed.
  Lemma RD_note e s : at0 e -> RD 0 s (note e s).
  Proof. intros He H. split; auto. split; [cbn; lia|]. exists [e]. cbn. auto. Qed.
  Lemma RD_unlock r s s' : unlock F r s = Some s' -> RD (-1) s s'.
  Proof.
    unfold unlock. destruct (Z.eqb_spec (p_lock (bump (-1) s)) 0) as [H0|H0]; cbn [negb].
    - destruct (r && _).
      + intros E. change (-1) with (-1 + 0). eapply RD_trans; [apply RD_bump | apply HF; auto].
      + injection 1 as <-. apply RD_bump.
    - injection 1 as <-. apply RD_bump.
  Qed.
  Lemma RD_add k id b s : tidy_body b -> RD 0 s (add_post k id b s).
  Proof.
    intros Hb. unfold add_post. destruct (key_free _ _).
    - intros H. split; [|split; [cbn; lia|]].
      + unfold QT. cbn. apply Forall_app. split; [exact H|]. constructor; [exact Hb | constructor].
      + eexists. split; [reflexivity|]. repeat constructor.
    - apply RD_note. exact I.
  Qed.

  Lemma RD_seq l : Forall (fun a => tidy a -> forall s s', exec F a s = Some s' -> RD (net1 a) s s') l ->
    tidy_all l -> forall s s', seq (exec F) l s = Some s' -> RD (net l) s s'.
  Proof.
    induction 1 as [|a l Ha Hl IH]; intros Ht s s' E.
    - injection E as <-. apply RD_refl.
    - rewrite seq_cons in E. destruct (exec F a s) eqn:E1; [|discriminate]. inversion Ht; subst.
      cbn [net]. eapply RD_trans; eauto.
  Qed.
  Lemma RD_callback b : Forall (fun a => tidy a -> forall s s', exec F a s = Some s' -> RD (net1 a) s s') b ->
    tidy_body b -> forall s s', callback F b s = Some s' -> RD 0 s s'.
  Proof.
    intros H Hb s s' E. inversion Hb as [? Hn Ha]; subst. change 0 with (0 + 0).
    eapply RD_trans; [apply (RD_note (ECall (p_lock s))); exact I|]. rewrite <- Hn. eapply RD_seq; eauto.
  Qed.
  Lemma RD_callbacks c : Forall (Forall (fun a => tidy a -> forall s s', exec F a s = Some s' -> RD (net1 a) s s')) c ->
    tidy_bodies c -> forall s s', seq (callback F) c s = Some s' -> RD 0 s s'.
  Proof.
    induction 1 as [|b c Hb Hc IH]; intros Ht s s' E.
    - injection E as <-. apply RD_refl.
    - rewrite seq_cons in E. destruct (callback F b s) eqn:E1; [|discriminate]. inversion Ht; subst.
      change 0 with (0 + 0). eapply RD_trans; [eapply RD_callback; eauto | eauto].
  Qed.

  Lemma RD_exec a : tidy a -> forall s s', exec F a s = Some s' -> RD (net1 a) s s'.
  Proof.
    induction a using act_ind2; intros Ht s s' E; inversion Ht; subst; cbn [net1].
    - injection E as <-. apply RD_bump.
    - eapply RD_unlock. exact E.
    - injection E as <-. apply RD_add. auto.
    - rewrite exec_visit in E. destruct (seq (callback F) c (bump 1 s)) eqn:E1; [|discriminate].
      change 0 with (1 + (0 + -1)). eapply RD_trans; [apply RD_bump|].
      eapply RD_trans; [eapply RD_callbacks; [| |exact E1]; eassumption | eapply RD_unlock; eauto].
    - rewrite exec_bb in E. destruct (seq (callback F) c s) eqn:E1; [|discriminate].
      destruct (seq (callback F) d (bump 1 p)) eqn:E2; [|discriminate].
      change 0 with (0 + (1 + (0 + -1))). eapply RD_trans; [eapply RD_callbacks; [| |exact E1]; eassumption|].
      eapply RD_trans; [apply RD_bump|].
      eapply RD_trans; [eapply RD_callbacks; [| |exact E2]; eassumption | eapply RD_unlock; eauto].
    - destruct z; [injection E as <-; apply RD_refl|].
      rewrite exec_step in E. destruct (seq (callback F) c (bump 1 s)) eqn:E1; [|discriminate].
      destruct (unlock F false p) eqn:E2; [|discriminate].
      destruct (seq (callback F) d (bump 1 p0)) eqn:E3; [|discriminate].
      change 0 with (1 + (0 + (-1 + (1 + (0 + -1))))). eapply RD_trans; [apply RD_bump|].
      eapply RD_trans; [eapply RD_callbacks; [| |exact E1]; eassumption|]. eapply RD_trans; [eapply RD_unlock; eauto|].
      eapply RD_trans; [apply RD_bump|].
      eapply RD_trans; [eapply RD_callbacks; [| |exact E3]; eassumption | eapply RD_unlock; eauto].
    - cbn in E. destruct (0 <? p_lock s); [discriminate|]. injection E as <-. apply RD_refl.
    - injection E as <-. apply RD_note. exact I.
  Qed.
  Lemma RD_execs l : tidy_all l -> forall s s', seq (exec F) l s = Some s' -> RD (net l) s s'.
  Proof. apply RD_seq. apply Forall_forall. intros a _. apply RD_exec. Qed.
End depth.

Lemma HF_some s s' : p_lock s = 0 -> Some s = Some s' -> RD 0 s s'.
Proof. intros _ E. injection E as <-. apply RD_refl. Qed.

Lemma QT_nil_at i q :
  Forall (fun c => match pc_fun c with Some (_, b) => tidy_body b | None => True end) q ->
  Forall (fun c => match pc_fun c with Some (_, b) => tidy_body b | None => True end) (nil_at i q).
Proof.
  intros H. unfold nil_at. rewrite <- (firstn_skipn i q) in H. apply Forall_app in H. destruct H as [H1 H2].
  apply Forall_app. split; auto. destruct (skipn i q) as [|x r]; [constructor|]. inversion H2; subst. constructor; cbn; auto.
Qed.

Lemma RD_run_one i s s' : p_lock s = 0 -> run_one i s = Some s' -> RD 0 s s'.
Proof.
  intros H0 E HQ. unfold run_one in E.
  destruct (nth_error (p_queue s) i) as [c|] eqn:Ec; [|injection E as <-; apply RD_refl; auto].
  assert (Hc : match pc_fun c with Some (_, b) => tidy_body b | None => True end).
  { apply nth_error_In in Ec. unfold QT in HQ. rewrite Forall_forall in HQ. apply (HQ c Ec). }
  destruct (pc_fun c) as [[id b]|].
  - inversion Hc as [? Hn Ha]; subst.
    apply (RD_execs Some HF_some b Ha) in E. rewrite Hn in E.
    destruct E as (Q & D & evs & L & A); [apply QT_nil_at; exact HQ|].
    split; [exact Q|]. split; [exact D|]. cbn in L. exists (ERun (pc_key c) id (p_lock s) :: evs).
    rewrite L, <- app_assoc. split; [reflexivity|]. constructor; [exact H0 | exact A].
  - injection E as <-. split; [apply QT_nil_at; exact HQ|]. split; [cbn; lia|].
    exists []. cbn. rewrite app_nil_r. auto.
Qed.

Lemma RD_run_loop is : forall s s', p_lock s = 0 -> seq run_one is s = Some s' -> RD 0 s s'.
Proof.
  induction is as [|i is IH]; intros s s' H0 E.
  - injection E as <-. apply RD_refl.
  - rewrite seq_cons in E. destruct (run_one i s) as [s1|] eqn:E1; [|discriminate].
    intros HQ. pose proof (RD_run_one _ _ _ H0 E1) as R1. destruct (R1 HQ) as (_ & D & _).
    revert HQ. change 0 with (0 + 0). eapply RD_trans; [exact R1|]. apply IH; auto. lia.
Qed.

Lemma HF_flush s s' : p_lock s = 0 -> flush_queue s = Some s' -> RD 0 s s'.
Proof.
  intros H0 E HQ. unfold flush_queue in E.
  match type of E with match ?x with _ => _ end = _ => destruct x as [s2|] eqn:E2; [|discriminate] end.
  injection E as <-. apply RD_run_loop in E2; [|exact H0]. destruct E2 as (Q & D & evs & L & A); [exact HQ|].
  split; [constructor|]. split; [exact D|]. exists evs. auto.
Qed.

Lemma program_depth l s : tidy_all l -> run_program l = Some s ->
  QT s /\ p_lock s = net l /\ Forall at0 (p_log s).
Proof.
  intros Ht E. apply (RD_execs _ HF_flush l Ht) in E. destruct E as (Q & D & evs & L & A); [constructor|].
  cbn in D, L. rewrite L. auto.
Qed.

Lemma unlocked_when_run l s k id d : tidy_all l -> run_program l = Some s -> In (ERun k id d) (p_log s) -> d = 0.
Proof.
  intros Ht E H. destruct (program_depth _ _ Ht E) as (_ & _ & A). rewrite Forall_forall in A. apply (A _ H).
Qed.

Lemma balanced l s a s' : tidy_all l -> tidy a -> ~ raw a -> run_program l = Some s -> exec_top a s = Some s' ->
  p_lock s' = p_lock s.
Proof.
  intros Hl Ha Hr E E'. destruct (program_depth _ _ Hl E) as (Q & _ & _).
  apply (RD_exec _ HF_flush a Ha) in E'. destruct (E' Q) as (_ & D & _). rewrite D.
  destruct a; cbn in *; try lia; tauto.
Qed.

Lemma nesting l s : tidy_all l -> run_program l = Some s -> p_lock s = net l.
Proof. intros H E. apply (program_depth _ _ H E). Qed.


Lemma unlock_true_flush s s' : Inv s -> p_lock s' = 0 -> p_lock s = 1 ->
  unlock flush_queue true s = Some s' -> p_queue s' = [].
Proof.
  intros [Hs HI] H' H1 E. unfold unlock in E. cbn in E. rewrite Hs, H1 in E. cbn in E.
  apply flush_inv in E; [tauto | exact HI].
Qed.

Lemma callbacks_inv c s s' : seq (callback flush_queue) c s = Some s' -> Inv s -> Inv s'.
Proof.
  intros E Hs. revert s E Hs. induction c as [|b c IH]; intros s E Hs.
  - injection E as <-. auto.
  - rewrite seq_cons in E. destruct (callback flush_queue b s) eqn:E1; [|discriminate].
    apply (IH p); auto. refine (top_inv b _ _ E1 _). destruct Hs as [H1 H2].
    split; auto. cbn. rewrite ran_app, registered_app. cbn. rewrite !app_nil_r. auto.
Qed.

Lemma callbacks_depth c s s' : tidy_bodies c -> QT s -> seq (callback flush_queue) c s = Some s' ->
  p_lock s' = p_lock s /\ QT s'.
Proof.
  intros Ht HQ E. assert (Forall (Forall (fun a => tidy a -> forall s s', exec flush_queue a s = Some s' -> RD (net1 a) s s')) c) as HA.
  { apply Forall_forall. intros b _. apply Forall_forall. intros a _. apply RD_exec. apply HF_flush. }
  destruct (RD_callbacks _ c HA Ht s s' E HQ) as (Q & D & _). split; auto. lia.
Qed.

Lemma flushing_flushes l s a s' : tidy_all l -> tidy a -> flushing a -> run_program l = Some s -> p_lock s = 0 ->
  exec_top a s = Some s' -> pending (p_log s') = [].
Proof.
  intros Hl Ha Hf E H0 E'. assert (run_program (l ++ [a]) = Some s') as E2.
  { unfold run_program. rewrite seq_app. unfold run_program in E. rewrite E, seq_cons.
    unfold exec_top in *. rewrite E'. reflexivity. }
  rewrite (pending_queue _ _ E2). pose proof (program_inv _ _ E) as HI.
  destruct (program_depth _ _ Hl E) as (HQ & _).
  assert (D' : p_lock s' = 0).
  { apply (RD_exec _ HF_flush a Ha) in E'. destruct (E' HQ) as (_ & D & _). destruct a; cbn in Hf, D; lia. }
  enough (p_queue s' = []) as -> by reflexivity.
  destruct a; try contradiction; inversion Ha; subst.
  - unfold exec_top in E'. rewrite exec_visit in E'.
    destruct (seq (callback flush_queue) callbacks (bump 1 s)) eqn:E3; [|discriminate].
    destruct (callbacks_depth callbacks (bump 1 s) _ ltac:(assumption) HQ E3) as [D _]. cbn in D.
    apply unlock_true_flush with (s := p); auto; [|lia]. apply (callbacks_inv _ _ _ E3). exact HI.
  - unfold exec_top in E'. rewrite exec_bb in E'. destruct (seq (callback flush_queue) static s) eqn:E3; [|discriminate].
    destruct (seq (callback flush_queue) dynamic (bump 1 p)) eqn:E4; [|discriminate].
    destruct (callbacks_depth static s _ ltac:(assumption) HQ E3) as [D Q1]. destruct (callbacks_depth dynamic (bump 1 p) _ ltac:(assumption) Q1 E4) as [D2 _].
    cbn in D2. apply unlock_true_flush with (s := p0); auto; [|lia].
    apply (callbacks_inv _ _ _ E4). apply (callbacks_inv _ _ _ E3). exact HI.
  - destruct zero_dt; [contradiction|]. unfold exec_top in E'. rewrite exec_step in E'.
    destruct (seq (callback flush_queue) first (bump 1 s)) eqn:E3; [|discriminate].
    destruct (unlock flush_queue false p) eqn:E4; [|discriminate].
    destruct (seq (callback flush_queue) second (bump 1 p0)) eqn:E5; [|discriminate].
    destruct (callbacks_depth first (bump 1 s) _ ltac:(assumption) HQ E3) as [D Q1].
    pose proof (callbacks_inv _ _ _ E3 HI) as HI1.
    assert (p_lock p0 = p_lock p - 1 /\ QT p0 /\ Inv p0) as (D0 & Q0 & HI0).
    { unfold unlock in E4. cbn in E4. destruct (negb _) in E4; injection E4 as <-; cbn; split; auto; lia. }
    destruct (callbacks_depth second (bump 1 p0) _ ltac:(assumption) Q0 E5) as [D5 _]. cbn in D, D5.
    apply unlock_true_flush with (s := p1); auto; [|lia]. apply (callbacks_inv _ _ _ E5). exact HI0.
Qed.

(** ** Programs without Lock and Unlock calls of the user's own *)
Section plain.
  Variable F : pstate -> option pstate.
  Definition QP (s : pstate) : Prop :=
    Forall (fun c => match pc_fun c with Some (_, b) => plain_all b /\ nb_all b | None => True end) (p_queue s).
  Definition locked_call (e : event) : Prop := match e with ECall d => 1 <= d | _ => True end.
  Definition RP (d : Z) (s s' : pstate) : Prop :=
    QP s /\ 0 <= p_lock s -> QP s' /\ p_lock s' = p_lock s + d /\
      exists evs, p_log s' = p_log s ++ evs /\ Forall locked_call evs.
  Hypothesis HF : forall s s', p_lock s = 0 -> F s = Some s' -> RP 0 s s'.

  Lemma RP_trans0 d e s t u : 0 <= d -> RP d s t -> RP e t u -> RP (d + e) s u.
  Proof.
    intros Hd H1 H2 Hs. destruct (H1 Hs) as (Ht & D1 & e1 & L1 & A1).
    destruct H2 as (Hu & D2 & e2 & L2 & A2); [split; [auto|lia]|].
    split; auto. split; [lia|]. exists (e1 ++ e2). rewrite L2, L1, app_assoc. split; auto. apply Forall_app; auto.
  Qed.
  Lemma RP_refl s : RP 0 s s.
  Proof. intros [H ?]. split; auto. split; [lia|]. exists []. rewrite app_nil_r. auto. Qed.
  Lemma RP_bump s : RP 1 s (bump 1 s).
  Proof. intros [H ?]. split; auto. split; [reflexivity|]. exists []. cbn. rewrite app_nil_r. auto. Qed.
  Lemma RP_note e s : locked_call e -> RP 0 s (note e s).
  Proof. intros He [H ?]. split; auto. split; [cbn; lia|]. exists [e]. cbn. auto. Qed.
  Lemma RP_unlock r s s' : 1 <= p_lock s -> unlock F r s = Some s' -> RP (-1) s s'.
  Proof.
    intros Hp. unfold unlock. cbn zeta.
    assert (R1 : RP (-1) s (bump (-1) s)).
    { intros [H ?]. split; auto. split; [reflexivity|]. exists []. cbn. rewrite app_nil_r. auto. }
    destruct (Z.eqb_spec (p_lock (bump (-1) s)) 0) as [H0|H0]; cbn [negb].
    - destruct (r && _).
      + intros E [HQ HL]. destruct (R1 (conj HQ HL)) as (Q1 & D1 & e1 & L1 & A1).
        destruct (HF _ _ H0 E) as (Q2 & D2 & e2 & L2 & A2); [split; [exact Q1 | lia]|].
        split; auto. split; [lia|]. exists (e1 ++ e2). rewrite L2, L1, app_assoc. split; auto. apply Forall_app; auto.
      + injection 1 as <-. exact R1.
    - injection 1 as <-. exact R1.
  Qed.
  Lemma RP_add k id b s : plain_all b -> nb_all b -> RP 0 s (add_post k id b s).
  Proof.
    intros Hb Hn. unfold add_post. destruct (key_free _ _).
    - intros [H ?]. split; [|split; [cbn; lia|]].
      + unfold QP. cbn. apply Forall_app. split; [exact H|]. constructor; [split; assumption | constructor].
      + eexists. split; [reflexivity|]. repeat constructor.
    - apply RP_note. exact I.
  Qed.
  Let G (a : act) := plain a -> no_bbquery a -> forall s s', exec F a s = Some s' -> RP 0 s s'.

  Lemma RP_seq l : Forall G l -> plain_all l -> nb_all l ->
    forall s s', seq (exec F) l s = Some s' -> RP 0 s s'.
  Proof.
    induction 1 as [|a l Ha Hl IH]; intros Ht Hn s s' E.
    - injection E as <-. apply RP_refl.
    - rewrite seq_cons in E. destruct (exec F a s) eqn:E1; [|discriminate]. inversion Ht; inversion Hn; subst.
      change 0 with (0 + 0). eapply RP_trans0; [lia | apply Ha; eauto | apply IH; auto].
  Qed.
  Lemma RP_callbacks c : Forall (Forall G) c -> plain_bodies c -> nb_bodies c ->
    forall s s', 1 <= p_lock s -> seq (callback F) c s = Some s' -> RP 0 s s'.
  Proof.
    induction 1 as [|b c Hb Hc IH]; intros Ht Hn s s' H1 E.
    - injection E as <-. apply RP_refl.
    - rewrite seq_cons in E. destruct (callback F b s) as [p|] eqn:E1; [|discriminate]. inversion Ht; inversion Hn; subst.
      assert (R1 : RP 0 s p).
      { change 0 with (0 + 0). eapply RP_trans0; [lia | apply (RP_note (ECall (p_lock s))); exact H1|].
        apply (RP_seq b); auto. }
      intros HP. pose proof (R1 HP) as (_ & D & _). revert HP.
      change 0 with (0 + 0). eapply RP_trans0; [lia | exact R1 | apply IH; auto; lia].
  Qed.

  Lemma RP_locked c r s s1 s' : Forall (Forall G) c -> plain_bodies c -> nb_bodies c ->
    seq (callback F) c (bump 1 s) = Some s1 -> unlock F r s1 = Some s' -> RP 0 s s'.
  Proof.
    intros HG Hp Hn E1 E2 HP. assert (Hl : 1 <= p_lock (bump 1 s)) by (destruct HP; cbn; lia).
    pose proof (RP_trans0 1 0 _ _ _ ltac:(lia) (RP_bump s) (RP_callbacks c HG Hp Hn _ _ Hl E1)) as R1.
    pose proof (R1 HP) as (_ & D & _). assert (1 <= p_lock s1) as Hl1 by (destruct HP; lia).
    apply (RP_trans0 (1 + 0) (-1) _ _ _ ltac:(lia) R1 (RP_unlock _ _ _ Hl1 E2)). exact HP.
  Qed.

  Lemma RP_exec a : plain a -> no_bbquery a -> forall s s', exec F a s = Some s' -> RP 0 s s'.
  Proof.
    change (G a). induction a using act_ind2; intros Ht Hn s s' E; inversion Ht; inversion Hn; subst.
    - injection E as <-. apply RP_add; auto.
    - rewrite exec_visit in E. destruct (seq (callback F) c (bump 1 s)) eqn:E1; [|discriminate].
      eapply RP_locked; eauto.
    - destruct z; [injection E as <-; apply RP_refl|].
      rewrite exec_step in E. destruct (seq (callback F) c (bump 1 s)) eqn:E1; [|discriminate].
      destruct (unlock F false p) eqn:E2; [|discriminate].
      destruct (seq (callback F) d (bump 1 p0)) eqn:E3; [|discriminate].
      change 0 with (0 + 0). eapply RP_trans0; [lia | |].
      + eapply (RP_locked c); eauto.
      + eapply (RP_locked d); eauto.
    - cbn in E. destruct (0 <? p_lock s); [discriminate|]. injection E as <-. apply RP_refl.
    - injection E as <-. apply RP_note. exact I.
  Qed.
  Lemma RP_execs l : plain_all l -> nb_all l -> forall s s', seq (exec F) l s = Some s' -> RP 0 s s'.
  Proof. apply RP_seq. apply Forall_forall. intros a _. exact (RP_exec a). Qed.
End plain.

Lemma HP_some s s' : p_lock s = 0 -> Some s = Some s' -> RP 0 s s'.
Proof. intros _ E. injection E as <-. apply RP_refl. Qed.

Lemma QP_nil_at i q :
  Forall (fun c => match pc_fun c with Some (_, b) => plain_all b /\ nb_all b | None => True end) q ->
  Forall (fun c => match pc_fun c with Some (_, b) => plain_all b /\ nb_all b | None => True end) (nil_at i q).
Proof.
  intros H. unfold nil_at. rewrite <- (firstn_skipn i q) in H. apply Forall_app in H. destruct H as [H1 H2].
  apply Forall_app. split; auto. destruct (skipn i q) as [|x r]; [constructor|]. inversion H2; subst. constructor; cbn; auto.
Qed.

Lemma RP_run_one i s s' : run_one i s = Some s' -> RP 0 s s'.
Proof.
  intros E [HQ H0]. unfold run_one in E.
  destruct (nth_error (p_queue s) i) as [c|] eqn:Ec; [|injection E as <-; apply RP_refl; auto].
  assert (Hc : match pc_fun c with Some (_, b) => plain_all b /\ nb_all b | None => True end).
  { apply nth_error_In in Ec. unfold QP in HQ. rewrite Forall_forall in HQ. apply (HQ c Ec). }
  destruct (pc_fun c) as [[id b]|].
  - destruct Hc as [Hp Hn].
    apply (RP_execs Some HP_some b Hp Hn) in E.
    destruct E as (Q & D & evs & L & A); [split; [apply QP_nil_at; exact HQ | exact H0]|].
    split; [exact Q|]. split; [exact D|]. cbn in L. exists (ERun (pc_key c) id (p_lock s) :: evs).
    rewrite L, <- app_assoc. split; [reflexivity|]. constructor; [exact I | exact A].
  - injection E as <-. split; [apply QP_nil_at; exact HQ|]. split; [cbn; lia|].
    exists []. cbn. rewrite app_nil_r. auto.
Qed.

Lemma HP_flush s s' : p_lock s = 0 -> flush_queue s = Some s' -> RP 0 s s'.
Proof.
  intros H0 E HQ. unfold flush_queue in E.
  match type of E with match ?x with _ => _ end = _ => destruct x as [s2|] eqn:E2; [|discriminate] end.
  injection E as <-.
  assert (RP 0 (PState (p_lock s) true (p_queue s) (p_log s)) s2) as R.
  { revert E2. generalize (List.seq 0 (length (p_queue (PState (p_lock s) true (p_queue s) (p_log s))))).
    generalize (PState (p_lock s) true (p_queue s) (p_log s)). intros t is. revert t.
    induction is as [|i is IH]; intros t E.
    - injection E as <-. apply RP_refl.
    - rewrite seq_cons in E. destruct (run_one i t) as [s1|] eqn:E1; [|discriminate].
      change 0 with (0 + 0). eapply RP_trans0; [lia | exact (RP_run_one _ _ _ E1) | exact (IH _ E)]. }
  destruct (R HQ) as (Q & D & evs & L & A). split; [constructor|]. split; [exact D|]. exists evs. auto.
Qed.

Lemma called_locked l s d : plain_all l -> nb_all l -> run_program l = Some s -> In (ECall d) (p_log s) -> 1 <= d.
Proof.
  intros Hp Hn E H. apply (RP_execs _ HP_flush l Hp Hn) in E.
  destruct E as (_ & _ & evs & L & A); [split; [constructor | cbn; lia]|].
  cbn in L. rewrite L, Forall_forall in *. apply (A _ H).
Qed.

(* the same for visits alone, from any state: a ReindexShape in the body of a callback stops the program *)
Lemma plain_tidy a : plain a -> tidy a /\ net1 a = 0.
Proof.
  assert (HB : forall b, Forall (fun a => plain a -> tidy a /\ net1 a = 0) b -> plain_all b -> tidy_body b).
  { intros b Hb Hp. assert (net b = 0 /\ tidy_all b) as [? ?]; [|constructor; auto].
    induction Hb as [|x r Hx Hr IH]; [split; [reflexivity|constructor]|]. inversion Hp; subst.
    destruct (Hx H1) as [? N]. destruct (IH H2). cbn [net]. split; [lia | constructor; auto]. }
  assert (HC : forall c, Forall (Forall (fun a => plain a -> tidy a /\ net1 a = 0)) c -> plain_bodies c -> tidy_bodies c).
  { intros c Hc Hp. induction Hc as [|x r Hx Hr IH]; [constructor|]. inversion Hp; subst. constructor; auto. }
  induction a using act_ind2; intros Hp; inversion Hp; subst; split; try reflexivity; constructor; auto.
Qed.
Lemma plain_all_tidy l : plain_all l -> tidy_all l /\ net l = 0.
Proof.
  induction 1 as [|a l Ha Hl IH]; [split; [constructor|reflexivity]|].
  destruct (plain_tidy _ Ha). destruct IH. cbn [net]. split; [constructor; auto | lia].
Qed.
Lemma plain_bodies_tidy l : plain_bodies l -> tidy_bodies l.
Proof. induction 1; constructor; auto. destruct (plain_all_tidy _ H). constructor; auto. Qed.

Lemma body_refused b : plain_all b -> In AReindex b -> forall s, QT s -> 0 < p_lock s -> seq (exec flush_queue) b s = None.
Proof.
  induction 1 as [|a l Ha Hl IH]; intros Hin s HQ H0; [contradiction|].
  rewrite seq_cons. destruct Hin as [->|Hin].
  - cbn. destruct (Z.ltb_spec 0 (p_lock s)); [reflexivity | lia].
  - destruct (exec flush_queue a s) as [s1|] eqn:E; [|reflexivity].
    destruct (plain_tidy _ Ha) as [Ta N]. destruct (RD_exec _ HF_flush _ Ta _ _ E HQ) as (Q1 & D & _).
    apply IH; auto. lia.
Qed.
Lemma bodies_refused c b : plain_bodies c -> In b c -> In AReindex b ->
  forall s, QT s -> 0 < p_lock s -> seq (callback flush_queue) c s = None.
Proof.
  induction 1 as [|x l Hx Hl IH]; intros Hin Hr s HQ H0; [contradiction|].
  rewrite seq_cons. destruct Hin as [->|Hin].
  - unfold callback. rewrite body_refused; auto.
  - destruct (callback flush_queue x s) as [s1|] eqn:E; [|reflexivity].
    destruct (plain_all_tidy _ Hx) as [Tx N].
    assert (T1 : tidy_bodies [x]) by (constructor; [constructor; auto | constructor]).
    assert (S1 : seq (callback flush_queue) [x] s = Some s1) by (rewrite seq_cons, E; reflexivity).
    destruct (callbacks_depth [x] s s1 T1 HQ S1) as [D Q]. apply IH; auto. lia.
Qed.

(* a state reached by a program that leaves no lock open *)
Lemma visit_refused l s cbs b : plain_all l -> run_program l = Some s -> plain_bodies cbs -> In b cbs -> In AReindex b ->
  exec_top (AVisit cbs) s = None.
Proof.
  intros Hl E Hc Hb Hr. destruct (plain_all_tidy _ Hl) as [Ht N].
  destruct (program_depth _ _ Ht E) as (Q & D & _).
  unfold exec_top. rewrite exec_visit. rewrite (bodies_refused cbs b); auto. cbn. lia.
Qed.
Lemma step_refused l s c1 c2 b : plain_all l -> run_program l = Some s -> plain_bodies c1 -> plain_bodies c2 ->
  In b (c1 ++ c2) -> In AReindex b -> exec_top (AStep false c1 c2) s = None.
Proof.
  intros Hl E Hc1 Hc2 Hb Hr. destruct (plain_all_tidy _ Hl) as [Ht N].
  destruct (program_depth _ _ Ht E) as (Q & D & _).
  unfold exec_top. rewrite exec_step.
  destruct (seq (callback flush_queue) c1 (bump 1 s)) as [s1|] eqn:E1; [|reflexivity].
  apply in_app_or in Hb. destruct Hb as [Hb|Hb].
  - rewrite (bodies_refused c1 b) in E1; auto; [discriminate|]. cbn. lia.
  - destruct (callbacks_depth c1 (bump 1 s) s1 (plain_bodies_tidy _ Hc1) Q E1) as [D1 Q1].
    assert (unlock flush_queue false s1 = Some (bump (-1) s1)) as ->.
    { unfold unlock. cbn. destruct (negb _); reflexivity. }
    rewrite (bodies_refused c2 b); auto. cbn in *. lia.
Qed.
Lemma outside_allowed l s : plain_all l -> run_program l = Some s -> exec_top AReindex s = Some s.
Proof.
  intros Hl E. destruct (plain_all_tidy _ Hl) as [Ht N]. destruct (program_depth _ _ Ht E) as (_ & D & _).
  cbn. rewrite D, N. reflexivity.
Qed.

(** ** Witnesses *)
(* a callback registered by a post-step callback is accepted and never runs *)
Lemma ran_registered l s k id : run_program l = Some s -> In (k, id) (ran (p_log s)) -> In (k, id) (registered (p_log s)).
Proof. intros E H. rewrite (in_order _ _ E). apply in_or_app. auto. Qed.

Definition drop_prog : list act := [ALock; AAddPost None 1 [AAddPost None 2 []]; AUnlock true].

Lemma avoids_registered id l : avoids id l -> forall k, ~ In (k, id) (registered l).
Proof.
  induction l as [|[[] k i []|? ? ?|?|?] l IH]; cbn; intros H; auto; destruct H as [H1 H2]; auto.
  intros k' [E|E]; [congruence | eapply IH; eauto].
Qed.

Lemma dropped : exists p s id, run_program p = Some s /\ In (EReg true None id true) (p_log s) /\ p_lock s = 0 /\
  forall p' s', run_program (p ++ p') = Some s' -> avoids id (p_log s') -> forall k d, ~ In (ERun k id d) (p_log s').
Proof.
  eexists drop_prog, _, 2%nat. split; [reflexivity|]. split; [cbn; auto 10|]. split; [reflexivity|].
  intros p' s' E H k d Hin. apply (avoids_registered _ _ H k). eapply ran_registered; [exact E|].
  clear -Hin. induction (p_log s') as [|e l IH]; [contradiction|]. destruct Hin as [->|Hin]; [left; reflexivity|].
  destruct e; cbn; auto.
Qed.

Lemma mutation_while_locked : exists p s, plain_all p /\ run_program p = Some s /\ In (EMutate 1) (p_log s).
Proof.
  exists [AVisit [[AMutate]]]. eexists. split; [|split; [reflexivity | cbn; auto]].
  repeat constructor.
Qed.
Lemma bbquery_unlocked : exists p s, plain_all p /\ run_program p = Some s /\ In (ECall 0) (p_log s).
Proof.
  exists [ABBQuery [[AMutate]] []]. eexists. split; [|split; [reflexivity | cbn; auto]].
  repeat constructor.
Qed.
