From Coq Require Import ZArith Bool List Lia.
From Verif Require Import Collide CollideSpec CollideProofs.
Import ListNotations.

(** ** Consequences for the callbacks *)
Lemma alternates_app b l1 l2 : alternates b (l1 ++ l2) <->
  alternates b l1 /\ alternates (fold_left (fun b k => match k with KBegin => true | KSeparate => false | _ => b end) l1 b) l2.
Proof.
  revert b. induction l1 as [|k l1 IH]; intros b; cbn; [tauto|]. destruct k; cbn; rewrite ?IH; tauto.
Qed.
Lemma ref_alternates u v h : alternates false (snd (ref_run u v pst0 h)) /\
  contact_after (snd (ref_run u v pst0 h)) = r_in (fst (ref_run u v pst0 h)).
Proof.
  induction h as [|o h IH] using rev_ind; [now cbn|]. rewrite ref_run_snoc. cbn [fst snd]. destruct IH as [IA IC].
  set (l := snd (ref_run u v pst0 h)) in *. set (r := fst (ref_run u v pst0 h)) in *.
  unfold contact_after in *. rewrite fold_left_app. rewrite alternates_app, IC. clearbody l r. clear IC.
  enough (E : alternates (r_in r) (snd (ref_op u v r o)) /\
    fold_left (fun b k => match k with KBegin => true | KSeparate => false | _ => b end) (snd (ref_op u v r o)) (r_in r) = r_in (fst (ref_op u v r o))) by tauto.
  destruct o as [|t|a b|a b|still|s]; cbn [ref_op].
  - now cbn.
  - destruct (t_data t); [now cbn|]. destruct same_pair; [|now cbn].
    destruct (r_in r); cbn; [|destruct (negb (t_begin t) || t_begin_ignore t); now cbn]. destruct (r_ign r); now cbn.
  - destruct (same_pair u v a b && r_solved r); now cbn.
  - destruct (same_pair u v a b && r_asleep r); now cbn.
  - destruct (r_in r) eqn:R; cbn; [|destruct (r_solved r); now cbn].
    destruct (negb (r_recent r) && negb (r_asleep r) && negb (still u && still v)); cbn; rewrite ?R; [now cbn|]. destruct (r_solved r); now cbn.
  - destruct (Nat.eqb s u || Nat.eqb s v); [|now cbn]. destruct (r_in r); now cbn.
Qed.

Lemma callbacks_alternate pers u v h : 1 <= pers -> valid pers h -> alternates false (kinds u v (w_trace (run pers h))).
Proof. intros P V. rewrite (proj2 (run_sim pers u v h P V)). apply ref_alternates. Qed.

(** solver membership *)
Lemma sim_solved u v w r : sim u v w r -> (solved_in w u v <-> r_solved r = true).
Proof.
  intros S. assert (K : solved_in w u v <-> au u v w <> []).
  { unfold solved_in, au. split.
    - intros (a & b & I & E). intros N. assert (J : In (a, b) (filter (pair_is u v) (w_active w))) by (apply filter_In; auto). now rewrite N in J.
    - destruct (filter (pair_is u v) (w_active w)) as [|[a b] l] eqn:F; [congruence|]. intros _. exists a, b.
      assert (J : In (a, b) (filter (pair_is u v) (w_active w))) by (rewrite F; now left). apply filter_In in J. exact J. }
  rewrite K. destruct S as [ig rc C1 S1 A1|x ig rc C1 S1 A1 E1 L1|x act C1 S1 A1 E1 E2 L1 F1 P1|x rc C1 S1 A1 E1]; cbn.
  - rewrite A1. split; congruence.
  - rewrite A1. split; congruence.
  - destruct act; [destruct A1 as [p ->]; split; congruence|rewrite A1; split; congruence].
  - rewrite A1. split; congruence.
Qed.

(** postSolve of one Finish *)
Lemma post_iff pers u v h still : 1 <= pers -> valid pers (h ++ [Finish still]) ->
  exists l, kinds u v (w_trace (run pers (h ++ [Finish still]))) = kinds u v (w_trace (run pers h)) ++ l /\
            (solved_in (run pers h) u v -> l = [KPostSolve]) /\ (~ solved_in (run pers h) u v -> ~ In KPostSolve l).
Proof.
  intros P V. pose proof V as V'. apply valid_snoc in V'. destruct V' as [V' _].
  destruct (run_sim pers u v h P V') as [S T]. destruct (run_sim pers u v _ P V) as [_ T'].
  rewrite T', T, ref_run_snoc. cbn [snd]. eexists. split; [reflexivity|].
  pose proof (sim_solved _ _ _ _ S) as Q. set (r := fst (ref_run u v pst0 h)) in *. rewrite Q.
  cbn [ref_op]. split.
  - intros R. assert (RC : r_recent r = true).
    { destruct S; cbn in R |- *; try discriminate. subst act. apply Nat.eqb_eq. now apply H6. }
    rewrite RC, R. cbn. now rewrite andb_false_r.
  - intros R. destruct (r_solved r); [contradiction R; reflexivity|]. destruct (_ && _); cbn; intuition discriminate.
Qed.

(** ignored pairs *)
Definition quiet (l : list kind) : Prop := l = [] \/ exists l', l = KSeparate :: l'.
Lemma ref_run_cons u v r o h : ref_run u v r (o :: h) =
  (fst (ref_run u v (fst (ref_op u v r o)) h), snd (ref_op u v r o) ++ snd (ref_run u v (fst (ref_op u v r o)) h)).
Proof. cbn. destruct (ref_op u v r o). cbn. now destruct (ref_run u v p h). Qed.
Lemma ignored_quiet u v r h : r_in r = true -> r_ign r = true -> r_solved r = false -> r_asleep r = false ->
  until_separate (snd (ref_run u v r h)) = [] /\
  (~ In KSeparate (snd (ref_run u v r h)) -> r_solved (fst (ref_run u v r h)) = false).
Proof.
  revert r. induction h as [|o h IH]; intros r I G Sv As; [now cbn|].
  rewrite ref_run_cons. cbn [fst snd].
  assert (C : (snd (ref_op u v r o) = [KSeparate]) \/
     (snd (ref_op u v r o) = [] /\ r_in (fst (ref_op u v r o)) = true /\ r_ign (fst (ref_op u v r o)) = true /\
      r_solved (fst (ref_op u v r o)) = false /\ r_asleep (fst (ref_op u v r o)) = false)).
  { destruct o as [|t|a b|a b|still|s]; cbn [ref_op].
    - right. cbn. auto.
    - right. destruct (t_data t); [cbn; auto|]. destruct same_pair; [|cbn; auto]. rewrite I, G. cbn. auto.
    - right. rewrite Sv, andb_false_r. cbn. auto.
    - right. rewrite As, andb_false_r. cbn. auto.
    - destruct (_ && _); [left; reflexivity|right]. rewrite Sv. cbn. auto.
    - destruct (_ || _); [rewrite I; left; reflexivity|right]. cbn. auto. }
  destruct C as [-> | (-> & I' & G' & S' & A')].
  - cbn. split; [reflexivity|]. intros N. exfalso. apply N. now left.
  - cbn. now apply IH.
Qed.
Lemma ignored_until_separate pers u v h1 t h2 : 1 <= pers -> valid pers (h1 ++ TouchPair t :: h2) ->
  same_pair u v (t_a t) (t_b t) = true -> t_data t <> [] ->
  (exists l, kinds u v (w_trace (run pers (h1 ++ [TouchPair t]))) = kinds u v (w_trace (run pers h1)) ++ KBegin :: l) ->
  t_begin t = false \/ t_begin_ignore t = true ->
  exists l, kinds u v (w_trace (run pers (h1 ++ TouchPair t :: h2))) = kinds u v (w_trace (run pers h1)) ++ KBegin :: l /\
    until_separate l = [] /\ (~ In KSeparate l -> ~ solved_in (run pers (h1 ++ TouchPair t :: h2)) u v).
Proof.
  intros P V SP DN (l & B) IG.
  assert (E : h1 ++ TouchPair t :: h2 = (h1 ++ [TouchPair t]) ++ h2) by now rewrite <- app_assoc.
  assert (V1 : valid pers (h1 ++ [TouchPair t])).
  { intros a o b Eq. apply (V a o (b ++ h2)). rewrite E, Eq, <- app_assoc. reflexivity. }
  pose proof (proj1 (proj1 (valid_snoc _ _ _) V1)) as V0.
  destruct (run_sim pers u v h1 P V0) as [S0 T0]. destruct (run_sim pers u v _ P V1) as [S1 T1]. destruct (run_sim pers u v _ P V) as [S2 T2].
  rewrite T0. rewrite T1, T0, ref_run_snoc in B. cbn [snd] in B. apply app_inv_head in B.
  set (r := fst (ref_run u v pst0 h1)) in *.
  assert (RI : r_in r = false).
  { cbn [ref_op] in B. destruct (t_data t); [congruence|]. rewrite SP in B. cbn in B. destruct (r_in r); [|reflexivity]. cbn in B. destruct (r_ign r); discriminate. }
  assert (R1 : ref_op u v r (TouchPair t) = (Pst true true true false false, [KBegin])).
  { cbn [ref_op]. destruct (t_data t); [congruence|]. rewrite SP, RI. cbn.
    replace (negb (t_begin t) || t_begin_ignore t) with true by (destruct IG as [-> | ->]; destruct (t_begin t), (t_begin_ignore t); reflexivity).
    reflexivity. }
  rewrite E in T2, S2 |- *. rewrite ref_run_app, ref_run_snoc in T2, S2. cbn [fst snd] in T2, S2. fold r in T2, S2. rewrite R1 in T2, S2. cbn [fst snd] in T2, S2.
  destruct (ignored_quiet u v (Pst true true true false false) h2 eq_refl eq_refl eq_refl eq_refl) as [Q1 Q2].
  eexists. split; [rewrite T2, <- app_assoc; reflexivity|]. split; [exact Q1|].
  intros N. rewrite (sim_solved _ _ _ _ S2). rewrite (Q2 N). discriminate.
Qed.

(** Ignore called from preSolve *)
Lemma pre_ignored_until_separate pers u v h1 t h2 : 1 <= pers -> valid pers (h1 ++ TouchPair t :: h2) ->
  same_pair u v (t_a t) (t_b t) = true -> t_data t <> [] -> t_pre_ignore t = true ->
  exists l, kinds u v (w_trace (run pers (h1 ++ TouchPair t :: h2))) = kinds u v (w_trace (run pers (h1 ++ [TouchPair t]))) ++ l /\
    until_separate l = [] /\ (~ In KSeparate l -> ~ solved_in (run pers (h1 ++ TouchPair t :: h2)) u v).
Proof.
  intros P V SP DN IG.
  assert (E : h1 ++ TouchPair t :: h2 = (h1 ++ [TouchPair t]) ++ h2) by now rewrite <- app_assoc.
  assert (V1 : valid pers (h1 ++ [TouchPair t])).
  { intros a o b Eq. apply (V a o (b ++ h2)). rewrite E, Eq, <- app_assoc. reflexivity. }
  destruct (run_sim pers u v _ P V1) as [S1 T1]. destruct (run_sim pers u v _ P V) as [S2 T2].
  set (r := fst (ref_run u v pst0 (h1 ++ [TouchPair t]))) in *.
  assert (R1 : r = Pst true true true false false).
  { unfold r. rewrite ref_run_snoc. cbn [fst ref_op]. destruct (t_data t); [congruence|]. rewrite SP, IG. cbn. now rewrite orb_true_r. }
  rewrite E in T2, S2 |- *. rewrite ref_run_app in T2, S2. cbn [fst snd] in T2, S2. fold r in T2, S2. rewrite R1 in T2, S2.
  destruct (ignored_quiet u v (Pst true true true false false) h2 eq_refl eq_refl eq_refl eq_refl) as [Q1 Q2].
  eexists. split; [rewrite T2, <- T1; reflexivity|]. split; [exact Q1|].
  intros N. rewrite (sim_solved _ _ _ _ S2). rewrite (Q2 N). discriminate.
Qed.

(** sensors *)
Lemma sensor_ref u v h : (forall t, In (TouchPair t) h -> same_pair u v (t_a t) (t_b t) = true -> unsolvable t) ->
  r_solved (fst (ref_run u v pst0 h)) = false /\ r_asleep (fst (ref_run u v pst0 h)) = false /\ ~ In KPostSolve (snd (ref_run u v pst0 h)).
Proof.
  induction h as [|o h IH] using rev_ind; intros H; [now cbn|]. rewrite ref_run_snoc. cbn [fst snd].
  destruct IH as (I1 & I2 & I3). { intros t I. apply H, in_or_app. now left. }
  set (r := fst (ref_run u v pst0 h)) in *. rewrite in_app_iff.
  enough (K : r_solved (fst (ref_op u v r o)) = false /\ r_asleep (fst (ref_op u v r o)) = false /\ ~ In KPostSolve (snd (ref_op u v r o))) by tauto.
  destruct o as [|t|a b|a b|still|s]; cbn [ref_op].
  - cbn. auto.
  - destruct (t_data t); [cbn; auto|]. destruct (same_pair u v (t_a t) (t_b t)) eqn:D; [|cbn; auto].
    assert (U : unsolvable t) by (apply H; [apply in_or_app; right; now left|exact D]). cbn. split; [|split; [reflexivity|]].
    + destruct U as [-> | [-> | [-> ->]]]; cbn; rewrite ?orb_true_r, ?andb_false_r; reflexivity.
    + destruct (negb (r_in r)), (negb _); cbn; intuition discriminate.
  - rewrite I1, andb_false_r. cbn. auto.
  - rewrite I2, andb_false_r. cbn. auto.
  - destruct (_ && _); cbn; [intuition discriminate|]. rewrite I1. cbn. auto.
  - destruct (_ || _); cbn; [|auto]. destruct (r_in r); cbn; intuition discriminate.
Qed.
Lemma sensor_never_solved pers u v h : 1 <= pers -> valid pers h ->
  (forall t, In (TouchPair t) h -> same_pair u v (t_a t) (t_b t) = true -> unsolvable t) ->
  ~ solved_in (run pers h) u v /\ ~ In KPostSolve (kinds u v (w_trace (run pers h))).
Proof.
  intros P V H. destruct (sensor_ref u v h H) as (A & B & C). destruct (run_sim pers u v h P V) as [S T].
  rewrite T, (sim_solved _ _ _ _ S), A. split; [discriminate|exact C].
Qed.

(** solved exactly when touched with consent *)
Lemma touch_solved pers u v h t : 1 <= pers -> valid pers (h ++ [TouchPair t]) ->
  same_pair u v (t_a t) (t_b t) = true -> t_data t <> [] ->
  (solved_in (run pers (h ++ [TouchPair t])) u v <->
   kinds u v (w_trace (run pers (h ++ [TouchPair t]))) = kinds u v (w_trace (run pers h)) ++ (if contact_after (kinds u v (w_trace (run pers h))) then [] else [KBegin]) ++ [KPreSolve]
   /\ t_pre t = true /\ t_pre_ignore t = false /\ ~ unsolvable t).
Proof.
  intros P V SP DN. pose proof (proj1 (proj1 (valid_snoc _ _ _) V)) as V0.
  destruct (run_sim pers u v h P V0) as [S0 T0]. destruct (run_sim pers u v _ P V) as [S1 T1].
  rewrite (sim_solved _ _ _ _ S1), T1, T0, ref_run_snoc. cbn [fst snd].
  destruct (ref_alternates u v h) as [_ ->]. set (r := fst (ref_run u v pst0 h)) in *.
  cbn [ref_op]. destruct (t_data t); [congruence|]. rewrite SP. cbn [fst snd r_solved].
  unfold unsolvable. set (ig := if negb (r_in r) then _ else _). clearbody ig.
  split.
  - rewrite !andb_true_iff, !negb_true_iff, orb_false_iff. intros [[[[IG PI] PR] SE] IN].
    rewrite IG. apply orb_false_iff in SE. destruct SE as [-> ->]. apply andb_false_iff in IN. repeat split; auto.
    + f_equal. destruct (r_in r); reflexivity.
    + intros [?|[?|[? ?]]]; try discriminate. destruct IN; congruence.
  - intros (E & -> & -> & NU). apply app_inv_head in E.
    assert (IG : ig = false). { destruct (r_in r); cbn in E; destruct ig; cbn in E; congruence. }
    rewrite IG. cbn. destruct (t_sensorA t); [exfalso; apply NU; auto|]. destruct (t_sensorB t); [exfalso; apply NU; auto|].
    cbn. destruct (t_infA t), (t_infB t); try reflexivity. exfalso. apply NU. auto.
Qed.

(** edges *)
Lemma ref_touches u v r ts : r_solved r = false -> r_asleep r = false -> (forall ts1 t ts2, ts = ts1 ++ t :: ts2 -> True) ->
  let '(r', l) := ref_run u v r (map TouchPair ts) in
  r_asleep r' = false /\ r_in r' = r_in r || touching u v ts /\ r_recent r' = r_recent r || touching u v ts /\
  filter begin_or_separate l = if touching u v ts && negb (r_in r) then [KBegin] else [].
Proof.
  intros Sv As _. clear Sv. revert r As. induction ts as [|t ts IH]; intros r As.
  - cbn. rewrite !orb_false_r. auto.
  - cbn [map]. rewrite ref_run_cons. specialize (IH (fst (ref_op u v r (TouchPair t)))).
    destruct (ref_run u v (fst (ref_op u v r (TouchPair t))) (map TouchPair ts)) as [r' l]. cbn [fst snd]. rewrite filter_app.
    cbn [ref_op] in IH |- *. unfold touching in *. cbn [existsb]. destruct (t_data t) as [|d ds].
    + cbn in IH |- *. rewrite andb_false_r. cbn. apply IH, As.
    + destruct (same_pair u v (t_a t) (t_b t)) eqn:D; cbn [fst snd r_asleep r_in r_recent] in IH |- *; cbn [negb andb orb]; [|apply IH, As].
      specialize (IH eq_refl). destruct IH as (I1 & I2 & I3 & I4). cbn in I2, I3, I4. rewrite I2, I3, I4, !orb_true_r, andb_false_r. rewrite app_nil_r.
      repeat split; auto. rewrite filter_app. destruct (r_in r); cbn; destruct (negb _); reflexivity.
Qed.
Lemma edges_run u v steps r : r_asleep r = false ->
  filter begin_or_separate (snd (ref_run u v r (flat_map one_step steps))) = edges (r_in r) (map (touching u v) steps).
Proof.
  revert r. induction steps as [|ts steps IH]; intros r As; [reflexivity|].
  cbn [flat_map map edges]. unfold one_step at 1. cbn [app]. rewrite ref_run_cons. cbn [ref_op fst snd app].
  rewrite <- app_assoc, ref_run_app. cbn [snd]. rewrite filter_app.
  pose proof (ref_touches u v (Pst (r_in r) (r_ign r) false false (r_asleep r)) ts eq_refl As (fun _ _ _ _ => I)) as R.
  destruct (ref_run u v (Pst (r_in r) (r_ign r) false false (r_asleep r)) (map TouchPair ts)) as [r1 l1]. cbn [fst snd] in R |- *.
  destruct R as (R1 & R2 & R3 & R4). cbn in R2, R3, R4. rewrite R4.
  cbn [app]. rewrite ref_run_cons. cbn [snd ref_op]. rewrite filter_app, R1, R2, R3. cbn [negb andb orb]. rewrite !andb_true_r.
  f_equal. destruct (touching u v ts) eqn:Tc.
  - rewrite orb_true_r, andb_false_r. cbn [andb negb fst snd]. rewrite IH by exact R1. rewrite R2, orb_true_r. cbn.
    rewrite andb_false_r. destruct (r_solved r1); reflexivity.
  - cbn [negb]. rewrite ?orb_false_r, ?andb_true_r in *. destruct (r_in r) eqn:RI; cbn [fst snd].
    + rewrite IH by reflexivity. reflexivity.
    + rewrite IH by exact R1. rewrite ?R2. destruct (r_solved r1); reflexivity.
Qed.
Lemma edges_trace pers u v steps : 1 <= pers -> valid pers (flat_map one_step steps) ->
  filter begin_or_separate (kinds u v (w_trace (run pers (flat_map one_step steps)))) = edges false (map (touching u v) steps).
Proof. intros P V. rewrite (proj2 (run_sim pers u v _ P V)). now apply edges_run. Qed.
