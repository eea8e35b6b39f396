From Coq Require Import ZArith Bool List Lia.
From Verif Require Import Collide CollideSpec.
Import ListNotations.

(** ** Pairs *)
Lemma same_pair_spec a b a' b' : same_pair a b a' b' = true <-> (a = a' /\ b = b') \/ (b = a' /\ a = b').
Proof. unfold same_pair. rewrite orb_true_iff, !andb_true_iff, !Nat.eqb_eq. tauto. Qed.
Lemma same_pair_refl a b : same_pair a b a b = true.
Proof. apply same_pair_spec. auto. Qed.
Lemma same_pair_sym a b c d : same_pair a b c d = same_pair c d a b.
Proof. apply eq_true_iff_eq. rewrite !same_pair_spec. intuition. Qed.
Lemma same_pair_trans a b c d x y : same_pair a b c d = true -> same_pair a b x y = same_pair c d x y.
Proof. intros H. apply eq_true_iff_eq. rewrite !same_pair_spec in *. intuition congruence. Qed.
Definition pair_is (u v : shape) (p : shape * shape) : bool := same_pair u v (fst p) (snd p).

Lemma kinds_app u v l1 l2 : kinds u v (l1 ++ l2) = kinds u v l1 ++ kinds u v l2.
Proof. apply flat_map_app. Qed.

(** ** Filters commute with the projection on one pair *)
Section Proj.
Variables (u v : shape).
Definition respects (f : arb -> option arb * list event) : Prop :=
  forall x, (forall y, fst (f x) = Some y -> arb_is u v y = arb_is u v x) /\
            (arb_is u v x = false -> kinds u v (snd (f x)) = []).
Lemma filter_arbs_fst f l : respects f ->
  filter (arb_is u v) (fst (filter_arbs f l)) = fst (filter_arbs f (filter (arb_is u v) l)).
Proof.
  intros R. induction l as [|x l IH]; [reflexivity|]. cbn. destruct (R x) as [R1 R2].
  destruct (f x) as [o e1] eqn:E. destruct (filter_arbs f l) as [l' e2]. cbn in *.
  destruct o as [y|].
  - specialize (R1 y eq_refl). cbn. rewrite R1. destruct (arb_is u v x) eqn:A; [|exact IH].
    cbn. rewrite E. destruct (filter_arbs f (filter (arb_is u v) l)). cbn in *. now rewrite IH.
  - destruct (arb_is u v x) eqn:A; [|exact IH]. cbn. rewrite E. now destruct (filter_arbs f (filter (arb_is u v) l)).
Qed.
Lemma filter_arbs_snd f l : respects f ->
  kinds u v (snd (filter_arbs f l)) = kinds u v (snd (filter_arbs f (filter (arb_is u v) l))).
Proof.
  intros R. induction l as [|x l IH]; [reflexivity|]. cbn. destruct (R x) as [R1 R2].
  destruct (f x) as [o e1] eqn:E. destruct (filter_arbs f l) as [l' e2]. cbn [fst snd] in *. rewrite kinds_app, IH.
  destruct (arb_is u v x) eqn:A; [|now rewrite R2].
  cbn [filter_arbs]. rewrite E. destruct (filter_arbs f (filter (arb_is u v) l)). cbn [fst snd]. now rewrite kinds_app.
Qed.
Lemma respects_set pers stamp still : respects (set_filter pers stamp still).
Proof.
  intros x. unfold set_filter. destruct (still (a_A x) && still (a_B x)); [cbn; split; [now intros y [= <-]|auto]|].
  destruct (Nat.leb 1 _ && negb _); cbn; split.
  - intros y. destruct Nat.leb; [discriminate|]. now intros [= <-].
  - intros A. unfold arb_is in A. cbn. now rewrite A.
  - intros y. destruct Nat.leb; [discriminate|]. now intros [= <-].
  - auto.
Qed.
Lemma respects_remove s : respects (remove_filter s).
Proof.
  intros x. unfold remove_filter. destruct (Nat.eqb s (a_A x) || Nat.eqb s (a_B x)); cbn; split.
  - discriminate.
  - intros A. unfold arb_is in A. destruct astate_eqb; cbn; [reflexivity|]. now rewrite A.
  - now intros y [= <-].
  - auto.
Qed.
End Proj.

Lemma filter_and {A} (f g : A -> bool) l : (forall x, f x = true -> g x = true) -> filter f (filter g l) = filter f l.
Proof.
  intros H. induction l as [|x l IH]; [reflexivity|]. cbn. destruct (g x) eqn:G; cbn; [now rewrite IH|].
  destruct (f x) eqn:F; [|exact IH]. now rewrite (H x F) in G.
Qed.
Lemma filter_none {A} (f g : A -> bool) l : (forall x, f x = true -> g x = false) -> filter f (filter g l) = [].
Proof.
  intros H. induction l as [|x l IH]; [reflexivity|]. cbn. destruct (g x) eqn:G; cbn; [|exact IH].
  destruct (f x) eqn:F; [|exact IH]. now rewrite (H x F) in G.
Qed.
Lemma find_filter {A} (f : A -> bool) l : find f l = hd_error (filter f l).
Proof. induction l as [|x l IH]; [reflexivity|]. cbn. destruct (f x); [reflexivity|exact IH]. Qed.

(** ** The simulation, one pair at a time *)
Definition cu u v (w : cspace) := filter (arb_is u v) (w_cache w).
Definition su u v (w : cspace) := filter (arb_is u v) (w_asleep w).
Definition au u v (w : cspace) := filter (pair_is u v) (w_active w).

Inductive sim (u v : shape) (w : cspace) : pst -> Prop :=
  | sim_idle : forall ig rc, cu u v w = [] -> su u v w = [] -> au u v w = [] -> sim u v w (Pst false ig rc false false)
  | sim_cached : forall x ig rc, cu u v w = [x] -> su u v w = [] -> au u v w = [] -> a_state x = Cached -> a_stamp x < w_stamp w ->
      sim u v w (Pst false ig rc false false)
  | sim_in : forall x act, cu u v w = [x] -> su u v w = [] ->
      (if act : bool then exists p, au u v w = [p] else au u v w = []) ->
      a_state x <> Cached -> a_state x <> Invalidated -> a_stamp x <= w_stamp w ->
      (a_state x = FirstCollision -> act = true) ->
      (act = true -> a_state x <> Ignore /\ a_stamp x = w_stamp w) ->
      sim u v w (Pst true (astate_eqb (a_state x) Ignore) (Nat.eqb (a_stamp x) (w_stamp w)) act false)
  | sim_asleep : forall x rc, cu u v w = [] -> su u v w = [x] -> au u v w = [] ->
      (a_state x = FirstCollision \/ a_state x = Normal) -> sim u v w (Pst true false rc false true).

Lemma push_fresh_arbs pers w : w_cache (push_fresh pers w) = w_cache w /\ w_asleep (push_fresh pers w) = w_asleep w /\
  w_active (push_fresh pers w) = w_active w /\ w_stamp (push_fresh pers w) = w_stamp w /\ w_trace (push_fresh pers w) = w_trace w /\ w_mem (push_fresh pers w) = w_mem w.
Proof. unfold push_fresh. destruct w_head; [destruct Nat.ltb|]; cbn; auto 10. Qed.
Lemma get_array_arbs pers w : w_cache (get_array pers w) = w_cache w /\ w_asleep (get_array pers w) = w_asleep w /\
  w_active (get_array pers w) = w_active w /\ w_stamp (get_array pers w) = w_stamp w /\ w_trace (get_array pers w) = w_trace w /\ w_mem (get_array pers w) = w_mem w.
Proof. unfold get_array. destruct w_head; [destruct Nat.ltb; [apply push_fresh_arbs|]|]; auto 10. Qed.

Lemma cu_set u v w c : w_cache w = c -> cu u v w = filter (arb_is u v) c. Proof. now intros <-. Qed.

(** Start *)
Lemma filter_map_state u v (g : arb -> bool) s l :
  filter (arb_is u v) (map (fun x => if g x then set_state x s else x) l) = map (fun x => if g x then set_state x s else x) (filter (arb_is u v) l).
Proof.
  induction l as [|x l IH]; [reflexivity|]. cbn. assert (E : arb_is u v (if g x then set_state x s else x) = arb_is u v x) by (destruct (g x); reflexivity).
  rewrite E. destruct (arb_is u v x); cbn; now rewrite IH.
Qed.
Lemma in_active_proj u v l x : arb_is u v x = true -> in_active l x = existsb (fun _ => true) (filter (pair_is u v) l).
Proof.
  intros A. unfold in_active. induction l as [|p l IH]; [reflexivity|]. cbn.
  assert (E : arb_is (fst p) (snd p) x = pair_is u v p).
  { unfold arb_is, pair_is in *. rewrite (same_pair_sym (fst p)). rewrite <- (same_pair_trans u v _ _ _ _ A). reflexivity. }
  rewrite E, IH. now destruct (pair_is u v p).
Qed.
Lemma in_filter {A} (f : A -> bool) l x r : filter f l = x :: r -> f x = true.
Proof. intros H. assert (In x (filter f l)) as I by (rewrite H; now left). apply filter_In in I. tauto. Qed.

Definition trace_ok u v (w w' : cspace) (l : list kind) : Prop := kinds u v (w_trace w') = kinds u v (w_trace w) ++ l.

Lemma start_sim pers u v w r : sim u v w r ->
  sim u v (do_start pers w) (fst (ref_op u v r Start)) /\ trace_ok u v w (do_start pers w) (snd (ref_op u v r Start)).
Proof.
  intros S. unfold do_start.
  set (w1 := set_arbs _ _ _ _). destruct (push_fresh_arbs pers w1) as (C & Sl & A & St & T & _).
  assert (CU : cu u v (push_fresh pers w1) = map (fun x => if in_active (w_active w) x then set_state x Normal else x) (cu u v w)).
  { unfold cu. rewrite C. unfold w1. cbn. apply filter_map_state. }
  assert (SU : su u v (push_fresh pers w1) = su u v w) by (unfold su; now rewrite Sl).
  assert (AU : au u v (push_fresh pers w1) = []) by (unfold au; now rewrite A).
  assert (ST : w_stamp (push_fresh pers w1) = Datatypes.S (w_stamp w)) by (now rewrite St).
  split; [|unfold trace_ok; rewrite T; cbn; now rewrite app_nil_r].
  set (w' := push_fresh pers w1) in *. clearbody w'.
  destruct S as [ig rc C1 S1 A1|x ig rc C1 S1 A1 E1 L1|x act C1 S1 A1 E1 E2 L1 F1 P1|x rc C1 S1 A1 E1]; cbn.
  - apply sim_idle; congruence || (rewrite CU, C1; reflexivity).
  - eapply (sim_cached _ _ _ (if in_active (w_active w) x then set_state x Normal else x)); try congruence.
    + rewrite CU, C1. reflexivity.
    + pose proof (in_filter _ _ _ _ C1) as B. rewrite (in_active_proj u v _ _ B). fold (au u v w). rewrite A1. exact E1.
    + rewrite ST. destruct in_active; cbn; lia.
  - pose proof (in_filter _ _ _ _ C1) as B. rewrite C1 in CU. cbn in CU. rewrite (in_active_proj u v _ _ B) in CU. fold (au u v w) in CU.
    destruct act.
    + destruct A1 as [p A1]. rewrite A1 in CU. cbn in CU. destruct (P1 eq_refl) as [NI SE].
      pose proof (sim_in u v w' (set_state x Normal) false) as Z. cbn in Z.
      replace (astate_eqb (a_state x) Ignore) with false by (destruct (a_state x); congruence || reflexivity).
      replace false with (Nat.eqb (a_stamp x) (w_stamp w')) at 2 by (apply Nat.eqb_neq; lia).
      apply Z; auto; try congruence; lia.
    + rewrite A1 in CU. cbn in CU.
      pose proof (sim_in u v w' x false) as Z.
      replace false with (Nat.eqb (a_stamp x) (w_stamp w')) at 1 by (apply Nat.eqb_neq; lia).
      apply Z; auto; try congruence; lia.
  - eapply (sim_asleep _ _ _ x); auto; try congruence. rewrite CU, C1. reflexivity.
Qed.

(** Touch *)
Lemma arb_is_same u v a b x : same_pair u v a b = true -> arb_is u v x = arb_is a b x.
Proof. intros H. apply same_pair_trans, H. Qed.
Lemma sim_frame u v w w' r : cu u v w' = cu u v w -> su u v w' = su u v w -> au u v w' = au u v w -> w_stamp w' = w_stamp w ->
  sim u v w r -> sim u v w' r.
Proof.
  intros C S A T H. destruct H as [ig rc C1 S1 A1|x ig rc C1 S1 A1 E1 L1|x act C1 S1 A1 E1 E2 L1 F1 P1|x rc C1 S1 A1 E1]; rewrite <- ?T in *.
  - apply sim_idle; congruence.
  - eapply sim_cached; try congruence; eauto; congruence.
  - eapply sim_in; try congruence; eauto. destruct act; [destruct A1 as [p A1]; exists p|]; congruence.
  - eapply (sim_asleep _ _ _ x); congruence || auto.
Qed.

Lemma touch_other pers u v w r t : same_pair u v (t_a t) (t_b t) = false -> sim u v w r ->
  sim u v (do_touch pers t w) r /\ trace_ok u v w (do_touch pers t w) [].
Proof.
  intros D S. unfold do_touch, trace_ok. rewrite app_nil_r. destruct (get_array_arbs pers w) as (C & Sl & A & St & T & _).
  set (w0 := get_array pers w) in *.
  destruct (t_data t) as [|d0 ds] eqn:ED.
  - split; [|cbn; now rewrite T]. eapply sim_frame; [| | | |exact S]; unfold cu, su, au; cbn; congruence.
  - unfold extract. cbv zeta.
    set (first := astate_eqb _ FirstCollision). set (x1 := if first && _ then _ else _). set (pre := negb (astate_eqb (a_state x1) Ignore)).
    set (x2 := if pre && _ then _ else _). set (ok := pre && _ && _ && _ && _).
    assert (FR : forall x, arb_is (t_a t) (t_b t) x = true -> arb_is u v x = false).
    { intros x Hx. destruct (arb_is u v x) eqn:Hu; [|reflexivity]. rewrite <- D. unfold arb_is in *.
      symmetry. rewrite same_pair_sym in Hx. rewrite same_pair_sym in Hu. rewrite <- (same_pair_trans _ _ _ _ (t_a t) (t_b t) Hu). exact Hx. }
    assert (RS : filter (arb_is u v) (filter (fun x => negb (arb_is (t_a t) (t_b t) x)) (w_cache w)) = cu u v w).
    { apply filter_and. intros x Hx. destruct (arb_is (t_a t) (t_b t) x) eqn:E; [|reflexivity]. rewrite (FR x E) in Hx. discriminate. }
    assert (XN : forall s st c n g, arb_is u v (Arb (a_A x2) (a_B x2) s st c n g) = false).
    { intros. unfold arb_is. cbn. unfold x2, x1. destruct (pre && _), (first && _); cbn; exact D. }
    assert (TR : kinds u v ((if first then [EBegin (t_a t) (t_b t)] else []) ++ (if pre then [EPreSolve (t_a t) (t_b t)] else [])) = []).
    { destruct first, pre; cbn; rewrite ?D; reflexivity. }
    destruct ok; cbn [w_trace w_cache w_asleep w_active w_stamp set_arbs emit pop_contacts push_contacts set_num set_bufs set_mem].
    + split; [|now rewrite kinds_app, TR, T, app_nil_r].
      eapply sim_frame; [| | | |exact S]; unfold cu, su, au; cbn -[arb_is].
      * rewrite XN, C. exact RS.
      * now rewrite Sl.
      * rewrite A, filter_app. cbn. unfold pair_is at 2. cbn. rewrite D. apply app_nil_r.
      * exact St.
    + split; [|now rewrite kinds_app, TR, T, app_nil_r].
      eapply sim_frame; [| | | |exact S]; unfold cu, su, au; cbn -[arb_is].
      * rewrite XN, C. exact RS.
      * now rewrite Sl.
      * now rewrite A.
      * exact St.
Qed.

Lemma touch_same pers u v w r t : same_pair u v (t_a t) (t_b t) = true -> t_data t <> [] ->
  existsb (arb_is (t_a t) (t_b t)) (w_asleep w) = false -> r_solved r = false -> sim u v w r ->
  sim u v (do_touch pers t w) (fst (ref_op u v r (TouchPair t))) /\ trace_ok u v w (do_touch pers t w) (snd (ref_op u v r (TouchPair t))).
Proof.
  intros D Dn NA NS S. unfold do_touch, trace_ok, ref_op. destruct (get_array_arbs pers w) as (C & Sl & A & St & T & _).
  set (w0 := get_array pers w) in *.
  destruct (t_data t) as [|d0 ds] eqn:ED; [congruence|]. rewrite D. cbv zeta.
  assert (SU : su u v w = []).
  { unfold su. destruct (filter (arb_is u v) (w_asleep w)) as [|y l] eqn:E; [reflexivity|].
    assert (I : In y (filter (arb_is u v) (w_asleep w))) by (rewrite E; now left). apply filter_In in I. destruct I as [I1 I2].
    rewrite (arb_is_same u v _ _ y D) in I2. exfalso. enough (existsb (arb_is (t_a t) (t_b t)) (w_asleep w) = true) by congruence.
    apply existsb_exists. eauto. }
  unfold extract. cbn [w_cache set_arbs emit pop_contacts push_contacts set_num set_bufs set_mem]. rewrite find_filter.
  assert (FE : filter (arb_is (t_a t) (t_b t)) (w_cache w0) = cu u v w).
  { unfold cu. rewrite C. apply filter_ext. intros x. symmetry. now apply arb_is_same. }
  rewrite FE.
  set (x0 := match hd_error (cu u v w) with Some x => x | None => _ end).
  set (xu := arb_update x0 _ _ _ _).
  (* state after Update *)
  assert (FI : astate_eqb (a_state xu) FirstCollision = negb (r_in r) /\
               (r_in r = true -> astate_eqb (a_state xu) Ignore = r_ign r) /\ a_state xu <> Cached /\ a_state xu <> Invalidated /\ au u v w = []).
  { destruct S as [ig rc C1 S1 A1|x ig rc C1 S1 A1 E1 L1|x act C1 S1 A1 E1 E2 L1 F1 P1|x rc C1 S1 A1 E1]; unfold xu, x0; rewrite C1; cbn in *.
    - repeat split; auto; discriminate.
    - rewrite E1. cbn. repeat split; auto; discriminate.
    - subst act. destruct (a_state x) eqn:E; cbn; try congruence; repeat split; auto; try discriminate. now specialize (F1 eq_refl).
    - congruence. }
  destruct FI as (F1 & F2 & F3 & F4 & AU).
  assert (XA : a_A xu = t_a t /\ a_B xu = t_b t) by (split; reflexivity). destruct XA as [XA XB].
  clearbody xu. clear x0 FE. rewrite F1.
  set (begins := negb (r_in r)).
  set (ign := if begins then negb (t_begin t) || t_begin_ignore t else r_ign r).
  set (x1 := if begins && (negb (t_begin t) || t_begin_ignore t) then set_state xu Ignore else xu).
  assert (G1 : astate_eqb (a_state x1) Ignore = ign).
  { unfold x1, ign, begins in *. destruct (r_in r) eqn:R; cbn.
    - now apply F2.
    - destruct (negb (t_begin t) || t_begin_ignore t) eqn:B; cbn; [reflexivity|]. destruct (a_state xu); cbn in *; congruence. }
  assert (G2 : a_state x1 <> Cached /\ a_state x1 <> Invalidated) by (unfold x1; destruct (begins && _); cbn; split; congruence).
  assert (G3 : a_A x1 = t_a t /\ a_B x1 = t_b t) by (unfold x1; destruct (begins && _); cbn; auto).
  clearbody x1. clear F1 F2 F3 F4 XA XB xu. rewrite G1.
  set (x2 := if negb ign && t_pre_ignore t then set_state x1 Ignore else x1).
  assert (H1 : astate_eqb (a_state x2) Ignore = ign || t_pre_ignore t).
  { unfold x2. destruct ign; cbn; [exact G1|]. destruct (t_pre_ignore t); [reflexivity|exact G1]. }
  assert (H2 : a_state x2 <> Cached /\ a_state x2 <> Invalidated) by (unfold x2; destruct (negb ign && _); cbn; [split; congruence|auto]).
  assert (H3 : a_A x2 = t_a t /\ a_B x2 = t_b t) by (unfold x2; destruct (negb ign && _); cbn; auto).
  clearbody x2. clear G1 G2 G3 x1. rewrite H1.
  replace (negb ign && t_pre t && negb (ign || t_pre_ignore t) && negb (t_sensorA t || t_sensorB t) && negb (t_infA t && t_infB t))
    with (negb (ign || t_pre_ignore t) && t_pre t && negb (t_sensorA t || t_sensorB t) && negb (t_infA t && t_infB t))
    by (destruct ign, (t_pre_ignore t), (t_pre t); reflexivity).
  set (ok := negb (ign || t_pre_ignore t) && t_pre t && _ && _) in *.
  assert (OKI : ok = true -> ign || t_pre_ignore t = false) by (unfold ok; destruct (ign || t_pre_ignore t); [discriminate|auto]).
  clearbody ok.
  assert (RS : filter (arb_is u v) (filter (fun x => negb (arb_is (t_a t) (t_b t) x)) (w_cache w0)) = []).
  { apply filter_none. intros x Hx. rewrite (arb_is_same u v _ _ x D) in Hx. now rewrite Hx. }
  assert (XN : forall s st c n g, arb_is u v (Arb (a_A x2) (a_B x2) s st c n g) = true).
  { intros. unfold arb_is. cbn. destruct H3 as [-> ->]. exact D. }
  assert (TR : kinds u v ((if begins then [EBegin (t_a t) (t_b t)] else []) ++ (if negb ign then [EPreSolve (t_a t) (t_b t)] else [])) =
    (if begins then [KBegin] else []) ++ (if negb ign then [KPreSolve] else [])).
  { destruct begins, (negb ign); cbn; rewrite ?D; reflexivity. }
  destruct ok; cbn [fst snd w_trace w_cache w_asleep w_active w_stamp set_arbs emit pop_contacts push_contacts set_num set_bufs set_mem].
  - split; [|now rewrite kinds_app, TR, T].
    match goal with |- sim u v ?W _ => set (w' := W) end.
    pose proof (sim_in u v w' (Arb (a_A x2) (a_B x2) (a_state x2) (w_stamp w0) (a_contacts x2) (a_count x2) (a_ghost x2)) true) as Z.
    cbn [a_state a_stamp] in Z. rewrite H1 in Z. change (w_stamp w') with (w_stamp w0) in Z. rewrite Nat.eqb_refl in Z. apply Z; clear Z; auto; try tauto.
    + unfold cu, w'. cbn -[arb_is]. now rewrite XN, RS.
    + unfold su, w'. cbn. rewrite Sl. exact SU.
    + exists (t_a t, t_b t). unfold au, w'. cbn. rewrite A, filter_app. fold (au u v w). rewrite AU. cbn. unfold pair_is. cbn. now rewrite D.
    + intros _. split; [|reflexivity]. intros E. rewrite E in H1. cbn in H1. rewrite OKI in H1 by auto. discriminate.
  - split; [|now rewrite kinds_app, TR, T].
    match goal with |- sim u v ?W _ => set (w' := W) end.
    set (s := if ign || t_pre_ignore t then Ignore else Normal).
    pose proof (sim_in u v w' (Arb (a_A x2) (a_B x2) s (w_stamp w0) CNil 0 []) false) as Z.
    cbn [a_state a_stamp] in Z. change (w_stamp w') with (w_stamp w0) in Z. rewrite Nat.eqb_refl in Z.
    replace (astate_eqb s Ignore) with (ign || t_pre_ignore t) in Z by (unfold s; destruct (ign || t_pre_ignore t); reflexivity).
    apply Z; clear Z; auto; try (unfold s; destruct (ign || t_pre_ignore t); discriminate).
    + unfold cu, w'. cbn -[arb_is]. now rewrite XN, RS.
    + unfold su, w'. cbn. rewrite Sl. exact SU.
    + unfold au, w'. cbn. rewrite A. exact AU.
Qed.

(** Sleep *)
Lemma other_false u v a b x : same_pair u v a b = false -> arb_is a b x = true -> arb_is u v x = false.
Proof.
  intros D H. destruct (arb_is u v x) eqn:Hu; [|reflexivity]. rewrite <- D. unfold arb_is in *.
  rewrite same_pair_sym in H. rewrite same_pair_sym in Hu. rewrite <- (same_pair_trans _ _ _ _ a b Hu). now symmetry.
Qed.
Lemma filter_other u v a b l : same_pair u v a b = false ->
  filter (arb_is u v) (filter (fun x => negb (arb_is a b x)) l) = filter (arb_is u v) l.
Proof.
  intros D. apply filter_and. intros x Hx. destruct (arb_is a b x) eqn:E; [|reflexivity].
  now rewrite (other_false _ _ _ _ _ D E) in Hx.
Qed.
Lemma filter_same u v a b l : same_pair u v a b = true ->
  filter (arb_is u v) (filter (fun x => negb (arb_is a b x)) l) = [].
Proof. intros D. apply filter_none. intros x Hx. rewrite (arb_is_same u v _ _ x D) in Hx. now rewrite Hx. Qed.
Lemma find_proj u v a b l : same_pair u v a b = true -> find (arb_is a b) l = hd_error (filter (arb_is u v) l).
Proof. intros D. rewrite find_filter. f_equal. apply filter_ext. intros x. symmetry. now apply arb_is_same. Qed.

Lemma sleep_sim u v w r a b : existsb (fun p => same_pair a b (fst p) (snd p)) (w_active w) = true -> sim u v w r ->
  sim u v (do_sleep a b w) (fst (ref_op u v r (Sleep a b))) /\ trace_ok u v w (do_sleep a b w) (snd (ref_op u v r (Sleep a b))).
Proof.
  intros EX S. unfold do_sleep, extract, trace_ok. cbn [ref_op].
  destruct (same_pair u v a b) eqn:D.
  - rewrite (find_proj u v a b _ D). fold (cu u v w).
    assert (AU : exists p l, au u v w = p :: l).
    { apply existsb_exists in EX. destruct EX as (p & I & P). unfold au.
      assert (I' : In p (filter (pair_is u v) (w_active w))).
      { apply filter_In. split; [exact I|]. unfold pair_is. now rewrite (same_pair_trans u v a b). }
      destruct (filter (pair_is u v) (w_active w)); [destruct I'|eauto]. }
    destruct S as [ig rc C1 S1 A1|x ig rc C1 S1 A1 E1 L1|x act C1 S1 A1 E1 E2 L1 F1 P1|x rc C1 S1 A1 E1];
      try (destruct AU as (p & l & AU); congruence).
    destruct act; [|destruct AU as (p & l & AU); congruence]. destruct (P1 eq_refl) as [NI SE].
    rewrite C1. cbn [hd_error andb r_solved fst snd]. split; [|cbn; now rewrite app_nil_r]. cbn [r_in r_ign r_recent].
    replace (astate_eqb (a_state x) Ignore) with false by (destruct (a_state x); congruence || reflexivity).
    pose proof (in_filter _ _ _ _ C1) as B.
    eapply sim_asleep.
    + unfold cu. cbn. apply filter_same, D.
    + unfold su. cbn -[arb_is]. replace (arb_is u v (Arb _ _ _ _ _ _ _)) with true by (symmetry; exact B).
      unfold su in S1. now rewrite S1.
    + unfold au. cbn. apply filter_none. intros p Hp. unfold pair_is in Hp. rewrite (same_pair_trans u v a b _ _ D) in Hp. now rewrite Hp.
    + cbn. destruct (a_state x); auto; congruence.
  - cbn [andb fst snd]. destruct (find (arb_is a b) (w_cache w)) as [x|] eqn:F.
    + apply find_some in F. destruct F as [_ F]. pose proof (other_false _ _ _ _ _ D F) as N.
      split; [|cbn; now rewrite app_nil_r]. eapply sim_frame; [| | | |exact S]; unfold cu, su, au; cbn -[arb_is].
      * now apply filter_other.
      * replace (arb_is u v (Arb _ _ _ _ _ _ _)) with false by (symmetry; exact N). reflexivity.
      * apply filter_and. intros p Hp. unfold pair_is in Hp. destruct (same_pair a b (fst p) (snd p)) eqn:E; [|reflexivity].
        rewrite same_pair_sym in Hp. rewrite same_pair_sym in E. rewrite <- (same_pair_trans _ _ _ _ u v E) in D || idtac.
        rewrite (same_pair_sym u v), <- (same_pair_trans _ _ _ _ _ _ E) in D. congruence.
      * reflexivity.
    + split; [exact S|now rewrite app_nil_r].
Qed.

(** Wake *)
Lemma wake_sim pers u v w r a b : (r_asleep r = true -> same_pair u v a b = true -> True) -> sim u v w r ->
  sim u v (do_wake pers a b w) (fst (ref_op u v r (Wake a b))) /\ trace_ok u v w (do_wake pers a b w) (snd (ref_op u v r (Wake a b))).
Proof.
  intros _ S. unfold do_wake, extract, trace_ok. cbn [ref_op].
  destruct (get_array_arbs pers w) as (C & Sl & A & St & T & _). set (w0 := get_array pers w) in *.
  destruct (same_pair u v a b) eqn:D.
  - rewrite (find_proj u v a b _ D). fold (su u v w).
    destruct S as [ig rc C1 S1 A1|x ig rc C1 S1 A1 E1 L1|x act C1 S1 A1 E1 E2 L1 F1 P1|x rc C1 S1 A1 E1]; rewrite S1; cbn [hd_error andb r_asleep fst snd].
    + split; [now apply sim_idle|now rewrite app_nil_r].
    + split; [eapply sim_cached; eauto|now rewrite app_nil_r].
    + split; [eapply sim_in; eauto|now rewrite app_nil_r].
    + split; [|cbn; rewrite T; now rewrite app_nil_r]. cbn [r_in r_ign].
      match goal with |- sim u v ?W _ => set (w' := W) end.
      pose proof (in_filter _ _ _ _ S1) as B.
      pose proof (sim_in u v w' (Arb (a_A x) (a_B x) (a_state x) (w_stamp w0) (CRing (array_buf w0) (array_off w0)) (a_count x) (a_ghost x)) true) as Z.
      cbn [a_state a_stamp] in Z. change (w_stamp w') with (w_stamp w0) in Z. rewrite Nat.eqb_refl in Z.
      replace (astate_eqb (a_state x) Ignore) with false in Z by (destruct E1 as [-> | ->]; reflexivity).
      apply Z; auto; try (destruct E1 as [-> | ->]; discriminate).
      * unfold cu, w'. cbn -[arb_is]. replace (arb_is u v (Arb _ _ _ _ _ _ _)) with true by (symmetry; exact B).
        rewrite C. fold (cu u v w). now rewrite C1.
      * unfold su, w'. cbn -[arb_is]. now apply filter_same.
      * exists (a_A x, a_B x). unfold au, w'. cbn. rewrite A, filter_app. fold (au u v w). rewrite A1. cbn. unfold pair_is. cbn.
        unfold arb_is in B. now rewrite B.
      * intros _. split; [|reflexivity]. destruct E1 as [-> | ->]; discriminate.
  - cbn [andb fst snd]. destruct (find (arb_is a b) (w_asleep w)) as [x|] eqn:F.
    + apply find_some in F. destruct F as [_ F]. pose proof (other_false _ _ _ _ _ D F) as N.
      split; [|cbn; rewrite T; now rewrite app_nil_r]. eapply sim_frame; [| | | |exact S]; unfold cu, su, au; cbn -[arb_is].
      * replace (arb_is u v (Arb _ _ _ _ _ _ _)) with false by (symmetry; exact N). now rewrite C.
      * now apply filter_other.
      * rewrite A, filter_app. cbn. unfold pair_is at 2. cbn. unfold arb_is in N. rewrite N. apply app_nil_r.
      * exact St.
    + split; [exact S|now rewrite app_nil_r].
Qed.

(** Finish *)
Lemma kinds_post u v l : kinds u v (map (fun p => EPostSolve (fst p) (snd p)) l) = map (fun _ => KPostSolve) (filter (pair_is u v) l).
Proof. induction l as [|p l IH]; [reflexivity|]. cbn [map filter].
  transitivity (ev_kind u v (EPostSolve (fst p) (snd p)) ++ kinds u v (map (fun p => EPostSolve (fst p) (snd p)) l)); [reflexivity|].
  rewrite IH. unfold pair_is at 2. cbn. now destruct same_pair. Qed.
Lemma still_pair (still : shape -> bool) u v x : arb_is u v x = true -> still (a_A x) && still (a_B x) = still u && still v.
Proof. intros H. apply same_pair_spec in H. destruct H as [[-> ->]|[-> ->]]; [reflexivity|apply andb_comm]. Qed.

Lemma finish_sim pers u v w r still : 1 <= pers -> sim u v w r ->
  sim u v (do_finish pers still w) (fst (ref_op u v r (Finish still))) /\ trace_ok u v w (do_finish pers still w) (snd (ref_op u v r (Finish still))).
Proof.
  intros P S. unfold do_finish, trace_ok.
  pose proof (filter_arbs_fst u v _ (w_cache w) (respects_set u v pers (w_stamp w) still)) as HF.
  pose proof (filter_arbs_snd u v _ (w_cache w) (respects_set u v pers (w_stamp w) still)) as HS.
  fold (cu u v w) in HF, HS.
  destruct (filter_arbs (set_filter pers (w_stamp w) still) (w_cache w)) as [c evs]. cbn [fst snd] in HF, HS.
  set (w' := emit _ _).
  assert (CU : cu u v w' = fst (filter_arbs (set_filter pers (w_stamp w) still) (cu u v w))) by exact HF.
  assert (SU : su u v w' = su u v w) by reflexivity.
  assert (AU : au u v w' = au u v w) by reflexivity.
  assert (ST : w_stamp w' = w_stamp w) by reflexivity.
  assert (TR : kinds u v (w_trace w') = kinds u v (w_trace w) ++ kinds u v (snd (filter_arbs (set_filter pers (w_stamp w) still) (cu u v w))) ++ map (fun _ => KPostSolve) (au u v w)).
  { unfold w'. cbn [w_trace emit set_arbs]. rewrite !kinds_app, HS, kinds_post. reflexivity. }
  clearbody w'. clear HF HS c evs. rewrite TR.
  destruct S as [ig rc C1 S1 A1|x ig rc C1 S1 A1 E1 L1|x act C1 S1 A1 E1 E2 L1 F1 P1|x rc C1 S1 A1 E1]; rewrite C1 in *;
    try (rewrite A1; clear TR); cbn [filter_arbs fst snd ref_op r_in andb r_solved map app] in *.
  - split; [apply sim_idle; congruence|reflexivity].
  - pose proof (in_filter _ _ _ _ C1) as B. unfold set_filter in CU |- *. rewrite (still_pair still u v x B) in *.
    destruct (still u && still v); cbn in CU |- *.
    + split; [|reflexivity]. eapply sim_cached; eauto; congruence.
    + rewrite E1 in *. cbn in CU |- *. rewrite andb_false_r in *. cbn in CU |- *. split; [|reflexivity].
      destruct (Nat.leb pers _).
      * apply sim_idle; congruence.
      * eapply sim_cached; eauto; congruence.
  - pose proof (in_filter _ _ _ _ C1) as B. unfold set_filter in *. rewrite (still_pair still u v x B) in *. cbn [r_recent r_asleep negb].
    rewrite andb_true_r.
    destruct (Nat.eqb_spec (a_stamp x) (w_stamp w)) as [SE|SN].
    + (* touched in this step *)
      rewrite SE, Nat.sub_diag in *. replace (Nat.leb pers 0) with false in * by (symmetry; apply Nat.leb_gt; lia). cbn [negb andb fst snd Nat.leb] in *.
      assert (CU' : cu u v w' = [x]) by (destruct (still u && still v); exact CU).
      split.
      * pose proof (sim_in u v w' x act) as Z. rewrite ST, SE, Nat.eqb_refl in Z. apply Z; auto; try congruence; try lia.
        destruct act; [destruct A1 as [p A1]; exists p|]; congruence.
      * f_equal. destruct act; [destruct A1 as [p A1]|]; rewrite A1; destruct (still u && still v); reflexivity.
    + assert (AF : act = false) by (destruct act; [destruct (P1 eq_refl); contradiction|reflexivity]). subst act. rewrite A1. cbn [negb andb fst snd map].
      assert (L : Nat.leb 1 (w_stamp w - a_stamp x) = true) by (apply Nat.leb_le; lia). rewrite L in *.
      assert (NC : negb (astate_eqb (a_state x) Cached) = true) by (destruct (a_state x); congruence || reflexivity). rewrite NC in *.
      destruct (still u && still v); cbn [negb andb fst snd map app] in *.
      * split; [|reflexivity].
        replace false with (Nat.eqb (a_stamp x) (w_stamp w')) at 1 by (apply Nat.eqb_neq; lia).
        eapply (sim_in u v w' x false); auto; try congruence; try lia.
      * split.
        -- destruct (Nat.leb pers _).
           ++ apply sim_idle; congruence.
           ++ eapply sim_cached; eauto; try congruence. rewrite ST. cbn. lia.
        -- unfold arb_is in B. cbn. rewrite B. now rewrite ?app_nil_r.
  - cbn [r_recent r_asleep negb]. rewrite andb_false_r. split; [|reflexivity]. eapply (sim_asleep u v w' x); auto; congruence.
Qed.

(** Remove *)
Lemma remove_sim u v w r s : (forall x, In x (w_asleep w) -> s <> a_A x /\ s <> a_B x) -> sim u v w r ->
  sim u v (do_remove s w) (fst (ref_op u v r (Remove s))) /\ trace_ok u v w (do_remove s w) (snd (ref_op u v r (Remove s))).
Proof.
  intros NA S. unfold do_remove, trace_ok.
  pose proof (filter_arbs_fst u v _ (w_cache w) (respects_remove u v s)) as HF.
  pose proof (filter_arbs_snd u v _ (w_cache w) (respects_remove u v s)) as HS.
  fold (cu u v w) in HF, HS.
  destruct (filter_arbs (remove_filter s) (w_cache w)) as [c evs]. cbn [fst snd] in HF, HS.
  set (w' := emit _ _).
  assert (CU : cu u v w' = fst (filter_arbs (remove_filter s) (cu u v w))) by exact HF.
  assert (SU : su u v w' = su u v w) by reflexivity.
  assert (AU : au u v w' = if Nat.eqb s u || Nat.eqb s v then [] else au u v w).
  { unfold au, w'. cbn [w_active emit set_arbs]. destruct (Nat.eqb s u || Nat.eqb s v) eqn:E.
    - apply filter_none. intros [p1 p2] Hp. apply same_pair_spec in Hp. cbn [fst snd] in *. apply negb_false_iff.
      destruct Hp as [[E1 E2]|[E1 E2]]; rewrite <- E1, <- E2; [exact E|rewrite orb_comm; exact E].
    - apply filter_and. intros [p1 p2] Hp. apply same_pair_spec in Hp. cbn [fst snd] in *. apply negb_true_iff.
      destruct Hp as [[E1 E2]|[E1 E2]]; rewrite <- E1, <- E2; [exact E|rewrite orb_comm; exact E]. }
  assert (ST : w_stamp w' = w_stamp w) by reflexivity.
  assert (TR : kinds u v (w_trace w') = kinds u v (w_trace w) ++ kinds u v (snd (filter_arbs (remove_filter s) (cu u v w)))).
  { unfold w'. cbn [w_trace emit set_arbs]. rewrite !kinds_app, HS. reflexivity. }
  clearbody w'. clear HF HS c evs. rewrite TR. cbn [ref_op].
  assert (XE : forall x, arb_is u v x = true -> Nat.eqb s (a_A x) || Nat.eqb s (a_B x) = Nat.eqb s u || Nat.eqb s v).
  { intros x H. apply same_pair_spec in H. destruct H as [[-> ->]|[-> ->]]; [reflexivity|apply orb_comm]. }
  destruct S as [ig rc C1 S1 A1|x ig rc C1 S1 A1 E1 L1|x act C1 S1 A1 E1 E2 L1 F1 P1|x rc C1 S1 A1 E1]; rewrite C1 in *; cbn [filter_arbs fst snd r_in] in *.
  - destruct (Nat.eqb s u || Nat.eqb s v); split; try reflexivity; apply sim_idle; congruence.
  - pose proof (in_filter _ _ _ _ C1) as B. unfold remove_filter in *. rewrite (XE x B) in *. destruct (Nat.eqb s u || Nat.eqb s v); cbn [fst snd] in *.
    + rewrite E1. split; [apply sim_idle; congruence|reflexivity].
    + split; [eapply sim_cached; eauto; congruence|reflexivity].
  - pose proof (in_filter _ _ _ _ C1) as B. unfold remove_filter in *. rewrite (XE x B) in *. destruct (Nat.eqb s u || Nat.eqb s v); cbn [fst snd] in *.
    + split; [apply sim_idle; congruence|]. replace (astate_eqb (a_state x) Cached) with false by (destruct (a_state x); congruence || reflexivity).
      unfold arb_is in B. cbn. rewrite B. now rewrite ?app_nil_r.
    + split; [|reflexivity]. rewrite <- ST. eapply (sim_in u v w' x act); auto; try congruence; try lia.
      * destruct act; [destruct A1 as [p A1]; exists p|]; congruence.
      * rewrite ST. exact P1.
  - pose proof (in_filter _ _ _ _ S1) as B. assert (I : In x (w_asleep w)).
    { assert (In x (su u v w)) as J by (rewrite S1; now left). apply filter_In in J. tauto. }
    destruct (NA x I) as [N1 N2]. apply Nat.eqb_neq in N1, N2. pose proof (XE x B) as X. rewrite N1, N2 in X. cbn in X. rewrite <- X in *.
    cbn. split; [|reflexivity]. eapply (sim_asleep u v w' x); auto; congruence.
Qed.

(** ** Whole histories *)
Lemma ref_run_app u v r h1 h2 :
  ref_run u v r (h1 ++ h2) = (fst (ref_run u v (fst (ref_run u v r h1)) h2), snd (ref_run u v r h1) ++ snd (ref_run u v (fst (ref_run u v r h1)) h2)).
Proof.
  revert r. induction h1 as [|o h1 IH]; intros r; cbn [app ref_run].
  - cbn. now destruct (ref_run u v r h2).
  - destruct (ref_op u v r o) as [r1 l1]. rewrite IH. destruct (ref_run u v r1 h1) as [r2 l2]. cbn. now rewrite app_assoc.
Qed.
Lemma ref_run_snoc u v h o : ref_run u v pst0 (h ++ [o]) =
  (fst (ref_op u v (fst (ref_run u v pst0 h)) o), snd (ref_run u v pst0 h) ++ snd (ref_op u v (fst (ref_run u v pst0 h)) o)).
Proof. rewrite ref_run_app. cbn. destruct (ref_op u v (fst (ref_run u v pst0 h)) o). cbn. now rewrite app_nil_r. Qed.
Lemma run_snoc pers h o : run pers (h ++ [o]) = step_op pers (run pers h) o.
Proof. unfold run. rewrite fold_left_app. reflexivity. Qed.
Lemma since_snoc h o : since (h ++ [o]) = match o with Start => [] | _ => since h ++ [o] end.
Proof. unfold since. rewrite fold_left_app. reflexivity. Qed.
Lemma valid_snoc pers h o : valid pers (h ++ [o]) <-> valid pers h /\ ok_op pers h o.
Proof.
  split.
  - intros V. split.
    + intros h1 o' h2 E. apply (V h1 o' (h2 ++ [o])). rewrite E, <- app_assoc. reflexivity.
    + apply (V h o []). reflexivity.
  - intros [V O] h1 o' h2 E. destruct h2 as [|y h2] using rev_ind.
    + apply app_inj_tail in E. destruct E as [-> ->]. exact O.
    + clear IHh2. rewrite app_comm_cons, app_assoc in E. apply app_inj_tail in E. destruct E as [E ->]. now apply (V h1 o' h2).
Qed.

(** A solved pair has been touched or woken since the step started. *)
Lemma solved_concerns pers u v h : valid pers h -> r_solved (fst (ref_run u v pst0 h)) = true -> exists o, In o (since h) /\ concerns u v o.
Proof.
  induction h as [|o h IH] using rev_ind; [discriminate|]. intros V. apply valid_snoc in V. destruct V as [V O].
  rewrite ref_run_snoc, since_snoc. cbn [fst]. set (r := fst (ref_run u v pst0 h)) in *. specialize (IH V). clearbody r.
  assert (K : o <> Start -> r_solved r = true -> exists o', In o' (since h ++ [o]) /\ concerns u v o').
  { intros _ R. destruct (IH R) as (o' & I & C). exists o'. split; [apply in_or_app; now left|exact C]. }
  destruct o as [|t|a b|a b|still|s]; cbn [ref_op].
  - discriminate.
  - destruct (t_data t) as [|d l] eqn:ED; cbn; [apply K; discriminate|].
    destruct (same_pair u v (t_a t) (t_b t)) eqn:D; cbn; [|apply K; discriminate].
    intros _. exists (TouchPair t). split; [apply in_or_app; right; now left|]. cbn. rewrite ED. split; [discriminate|exact D].
  - destruct (same_pair u v a b && r_solved r); cbn; [discriminate|apply K; discriminate].
  - destruct (same_pair u v a b && r_asleep r) eqn:E; cbn; [|apply K; discriminate].
    intros _. exists (Wake a b). split; [apply in_or_app; right; now left|]. apply andb_prop in E. apply E.
  - destruct (r_in r && negb (r_recent r) && negb (r_asleep r) && negb (still u && still v)); cbn; [discriminate|apply K; discriminate].
  - destruct (Nat.eqb s u || Nat.eqb s v); cbn; [discriminate|apply K; discriminate].
Qed.

Lemma run_sim pers u v h : 1 <= pers -> valid pers h ->
  sim u v (run pers h) (fst (ref_run u v pst0 h)) /\ kinds u v (w_trace (run pers h)) = snd (ref_run u v pst0 h).
Proof.
  intros P. induction h as [|o h IH] using rev_ind; intros V.
  - cbn. split; [apply sim_idle|]; reflexivity.
  - apply valid_snoc in V. destruct V as [V O]. specialize (IH V). destruct IH as [S T].
    rewrite run_snoc, ref_run_snoc. cbn [fst snd]. rewrite <- T.
    pose proof (solved_concerns pers u v h V) as SC.
    set (w := run pers h) in *. set (r := fst (ref_run u v pst0 h)) in *. clearbody r.
    destruct o as [|t|a b|a b|still|s]; cbn [step_op].
    + apply start_sim, S.
    + destruct O as (_ & NE & _ & NAS & NC). fold w in NAS.
      destruct (same_pair u v (t_a t) (t_b t)) eqn:D.
      * destruct (t_data t) as [|d l] eqn:ED.
        -- cbn [ref_op]. rewrite ED. cbn [fst snd]. unfold do_touch. rewrite ED.
           destruct (get_array_arbs pers w) as (C & Sl & A & St & Tr & _).
           split; [|cbn; rewrite Tr; now rewrite app_nil_r]. eapply sim_frame; [| | | |exact S]; unfold cu, su, au; cbn; congruence.
        -- apply touch_same; auto; [rewrite ED; discriminate|]. destruct (r_solved r); [|reflexivity].
           destruct (SC eq_refl) as (o & I & Co). exfalso. apply (NC o I).
           destruct o; cbn in Co |- *; try contradiction.
           ++ destruct Co as [Co1 Co2]. split; [exact Co1|]. now rewrite <- (same_pair_trans u v _ _ _ _ D).
           ++ now rewrite <- (same_pair_trans u v _ _ _ _ D).
      * cbn [ref_op]. rewrite D. replace (match t_data t with [] => (r, []) | _ => (r, []) end) with (r, @nil kind) by (destruct (t_data t); reflexivity).
        apply touch_other; auto.
    + apply sleep_sim; auto.
    + apply wake_sim; auto.
    + apply finish_sim; auto.
    + apply remove_sim; auto.
Qed.
