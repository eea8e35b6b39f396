(** Proofs of C68: the step and any number of steps. *)
From Coq Require Import ZArith NArith Bool Reals List Lra Lia Arith FunctionalExtensionality.
From Verif Require Import Num NumReal Vec VecReal BB Transform Body BodySpec BodyProofs Solver SolverSpec SolverProofs SolverProofs2 Joints JointsSpec JointsProofs
  Narrow Persist PersistProofs ArbView ArbViewSpec ArbViewProofs ArbViewProofs2 EquilSpec EquilProofs EquilProofs2.
Import ListNotations.
Local Open Scope R_scope.

Lemma hframe_sym (H H' : Rheap) : hframe H H' -> hframe H' H.
Proof. intros F i. destruct (F i) as (A & B & C & D & E & G & I & J & K & L & M). repeat split; congruence. Qed.
(** Bias velocities are written only by contacts being solved. *)
Definition biases (H H' : Rheap) : Prop := forall i, b_vbias (H' i) = b_vbias (H i) /\ b_wbias (H' i) = b_wbias (H i).
Lemma biases_refl H : biases H H. Proof. intros i. auto. Qed.
Lemma biases_trans H1 H2 H3 : biases H1 H2 -> biases H2 H3 -> biases H1 H3.
Proof. intros A B i. destruct (A i), (B i). split; congruence. Qed.
Lemma biases_upd (H : Rheap) i b : b_vbias b = b_vbias (H i) -> b_wbias b = b_wbias (H i) -> biases H (upd H i b).
Proof. intros A B k. unfold upd. destruct (Nat.eqb_spec k i); subst; auto. Qed.
Lemma imp_biases (H : Rheap) a b r1 r2 j : biases H (apply_impulses H a b r1 r2 j).
Proof. unfold apply_impulses. cbv zeta. eapply biases_trans; apply biases_upd; reflexivity. Qed.
Lemma torque_biases (H : Rheap) a b j : biases H (apply_torque H a b j).
Proof. unfold apply_torque. cbv zeta. eapply biases_trans; apply biases_upd; reflexivity. Qed.
Lemma gear_biases (H : Rheap) a b j r : biases H (apply_gear H a b j r).
Proof. unfold apply_gear. cbv zeta. eapply biases_trans; apply biases_upd; reflexivity. Qed.
Lemma prestep_biases slop bias dt (w : Rworld) : biases (w_heap w) (w_heap (prestep_all slop bias dt w)).
Proof.
  exact (proj1 (prestep_all_Q biases Dall biases_refl biases_trans (fun H a b r1 r2 j _ => imp_biases H a b r1 r2 j) (fun H a b j _ => torque_biases H a b j) slop bias dt w (inD_all w))).
Qed.
Lemma cached_biases dt (w : Rworld) : biases (w_heap w) (w_heap (cached_all dt w)).
Proof.
  exact (proj1 (cached_all_Q biases Dall biases_refl biases_trans (fun H a b r1 r2 j _ => imp_biases H a b r1 r2 j) (fun H a b j _ => torque_biases H a b j)
    (fun H a b j r _ => gear_biases H a b j r) dt w (inD_all w))).
Qed.

(** ** The joints *)
Definition firm_joint (d dt : R) (H : Rheap) (ck : Rjoint) : Prop :=
  carries d dt H (fst ck) (snd ck) /\ solvable H (fst ck) (snd ck) /\ bearing dt (fst ck) (snd ck) /\
  (forall i px py pa, springy ck = true -> d = 1 \/ Jnt i px py pa ck = 0).
Definition load_joint (ck ck' : Rjoint) : Prop := fst ck' = fst ck /\ same_load (fst ck) (snd ck) (snd ck').
Lemma joints_carry (H : Rheap) d dt l : (forall i, coherent (H i)) -> (forall c k, In (c, k) l -> carries d dt H c k /\ solvable H c k) ->
  forall H1, hframe H H1 -> let '(H2, l') := joints_prestep H1 dt l in Forall (firm_joint d dt H) l' /\ Forall2 load_joint l l'.
Proof.
  intros C. induction l as [|[c k] l IH]; intros CS H1 F; cbn [joints_prestep]; [split; constructor|].
  destruct (CS c k (or_introl eq_refl)) as [S V].
  pose proof (carry_prestep H1 c d dt k (frame_coherent _ _ (F _) (C _)) (frame_coherent _ _ (F _) (C _)) (carries_frame _ _ _ _ _ _ F S) (solvable_frame _ _ _ _ F V)) as X. cbv zeta in X.
  pose proof (joint_prestep_frame H1 c dt k) as F1. destruct (joint_prestep H1 c dt k) as [H2 k']. cbn [fst snd] in X, F1.
  pose proof (IH (fun c k i => CS c k (or_intror i)) H2 (hframe_trans _ _ _ F F1)) as Y. destruct (joints_prestep H2 dt l) as [H3 l']. destruct Y as [Y1 Y2].
  destruct X as (X1 & X2 & X3 & X4 & X5). pose proof (hframe_sym _ _ F) as G.
  split; constructor; auto; [|split; auto]. split; [exact (carries_frame _ _ _ _ _ _ G X2)|]. split; [exact (solvable_frame _ _ _ _ G X3)|]. split; [exact X4|]. intros. now apply X5.
Qed.
Lemma joints_firm (H : Rheap) d (dt : R) l : 0 <= dt -> (forall i, still (H i)) -> Forall (firm_joint d dt H) l -> joints_apply H dt l = (H, l).
Proof.
  intros D S. induction l as [|[c k] l IH]; intros F; cbn [joints_apply]; auto. inversion F as [|x y (_ & V & B & _) F']; subst. cbn [fst snd] in *.
  destruct (solvable_limits _ _ _ V) as (MF & _). rewrite bearing_apply; auto; [|apply Rmult_le_pos; auto]. now rewrite IH.
Qed.
Lemma load_sum i px py pa l l' : Forall2 load_joint l l' -> Rsum (Jnt i px py pa) l' = Rsum (Jnt i px py pa) l.
Proof.
  intros F. induction F as [|[c k] [c' k'] l l' [E S] _ IH]; [reflexivity|]. cbn [fst snd] in *. subst c'. rewrite !Rsum_cons, IH. f_equal. apply S.
Qed.
Lemma iterations_firm n d (dt : R) (w : Rworld) : 0 <= dt -> (forall i, still (w_heap w i)) -> Forall firm (w_arbs w) -> Forall (firm_joint d dt (w_heap w)) (w_joints w) -> iterations n dt w = w.
Proof.
  intros D S Q J. induction n; cbn [iterations]; auto. replace (iteration (N := RNum) dt w) with w; auto. symmetry. unfold iteration. rewrite arbs_firm, (joints_firm _ d); auto. destruct w; reflexivity.
Qed.

(** ** The contacts *)
Lemma found_ok slop dt bias (H : Rheap) ts : forall arbs, (forall i, still (H i)) -> Forall2 (presses slop H) ts arbs ->
  let arbs' := map (arb_prestep H dt slop bias) (found_again H ts arbs) in
  Forall2 (presses slop H) ts arbs' /\ Forall firm arbs' /\ Forall (fun s => s_first s = false /\ s_cached s = false /\ s_a s <> s_b s) arbs' /\
  (forall i px py pa, Rsum (Arb i px py pa) arbs' = Rsum (Arb i px py pa) arbs).
Proof.
  intros arbs ST F. cbv zeta. unfold found_again. induction F as [|t s ts arbs P F IH]; cbn [combine map].
  - repeat split; constructor.
  - destruct IH as (I1 & I2 & I3 & I4). pose proof (update_again slop H t s P) as A. destruct (prestep_again slop dt bias H t s _ ST P A) as (B1 & B2 & B3).
    split; [constructor; assumption|]. split; [constructor; assumption|]. split.
    + constructor; [|exact I3]. destruct B2 as (X1 & X2 & X3 & _ & X4 & X5 & _). repeat split; assumption.
    + intros i px py pa. rewrite !Rsum_cons, I4. f_equal. destruct P as (Pa & Pb & _ & Pn & _). now apply (again_arb t).
Qed.
Lemma presses_pairs slop H ts arbs : Forall2 (presses slop H) ts arbs -> forall s, In s arbs -> s_a s <> s_b s /\ s_cached s = false.
Proof.
  intros F. induction F as [|t s ts arbs P F IH]; [contradiction|]. intros s' [<-|Hs]; [|now apply IH]. destruct P as (X1 & X2 & X3 & _ & _ & X5 & _). now rewrite X1, X2.
Qed.

(** ** The balance in one scalar *)
Lemma balance_scalar slop g dt ts (w : Rworld) i px py pa : Forall2 (presses slop (w_heap w)) ts (w_arbs w) -> balanced g dt w i -> (pa = 0 \/ b_iinv (w_heap w i) <> 0) ->
  Rsum (Arb i px py pa) (w_arbs w) + Rsum (Jnt i px py pa) (w_joints w) + dt * (b_mass (w_heap w i) * (px * vx g + py * vy g)) = 0.
Proof.
  intros F [B1 B2] Q. rewrite (view_sum i (w_arbs w) (presses_pairs _ _ _ _ F)), push_sum in B1. unfold rvec, vadd, vscale, vzero in B1. cbn [vx vy] in B1. injection B1. intros Y X. revert X Y. unR. intros X Y.
  assert (LA : forall s, Arb i px py pa s = px * Arb i 1 0 0 s + py * Arb i 0 1 0 s + pa * Arb i 0 0 1 s).
  { intros s. unfold Arb. rewrite !Rsum_scale. induction (s_contacts s) as [|c l IH]; [cbn; lra|]. rewrite !Rsum_cons, IH. unfold Con, Imp, sides, eff. destruct (Nat.eqb i (s_a s)), (Nat.eqb i (s_b s)); ring. }
  assert (LJ : forall ck, Jnt i px py pa ck = px * Jnt i 1 0 0 ck + py * Jnt i 0 1 0 ck + pa * Jnt i 0 0 1 ck).
  { intros [c k]. unfold Jnt, Imp, sides, eff. destruct k, (Nat.eqb i (c_a c)), (Nat.eqb i (c_b c)); ring. }
  assert (SA : forall l, Rsum (Arb i px py pa) l = px * Rsum (Arb i 1 0 0) l + py * Rsum (Arb i 0 1 0) l + pa * Rsum (Arb i 0 0 1) l) by (induction l as [|s l IH]; [cbn; lra|rewrite !Rsum_cons, IH, LA; lra]).
  assert (SJ : forall l, Rsum (Jnt i px py pa) l = px * Rsum (Jnt i 1 0 0) l + py * Rsum (Jnt i 0 1 0) l + pa * Rsum (Jnt i 0 0 1) l) by (induction l as [|s l IH]; [cbn; lra|rewrite !Rsum_cons, IH, LJ; lra]).
  rewrite SA, SJ. assert (T : pa * (Rsum (Arb i 0 0 1) (w_arbs w) + Rsum (Jnt i 0 0 1) (w_joints w)) = 0).
  { destruct Q as [->|Q]; [ring|]. destruct B2 as [B2|B2]; [contradiction|].
    rewrite (Rsum_ext (Arb i 0 0 1) (arb_twist i)) by (intros; apply twist_arb). rewrite (Rsum_ext (Jnt i 0 0 1) (joint_twist i)) by (intros; apply twist_joint). rewrite B2. ring. }
  transitivity (px * (Rsum (Arb i 1 0 0) (w_arbs w) + Rsum (Jnt i 1 0 0) (w_joints w) + vx g * (b_mass (w_heap w i) * dt)) +
     py * (Rsum (Arb i 0 1 0) (w_arbs w) + Rsum (Jnt i 0 1 0) (w_joints w) + vy g * (b_mass (w_heap w i) * dt)) + pa * (Rsum (Arb i 0 0 1) (w_arbs w) + Rsum (Jnt i 0 0 1) (w_joints w))); [ring|].
  rewrite T. rewrite X, Y. ring.
Qed.
Lemma scalar_balance slop g dt ts (w w' : Rworld) i : w_heap w' = w_heap w -> Forall2 (presses slop (w_heap w)) ts (w_arbs w) -> Forall2 (presses slop (w_heap w)) ts (w_arbs w') ->
  (forall px py pa, Rsum (Arb i px py pa) (w_arbs w') = Rsum (Arb i px py pa) (w_arbs w)) -> (forall px py pa, Rsum (Jnt i px py pa) (w_joints w') = Rsum (Jnt i px py pa) (w_joints w)) ->
  balanced g dt w i -> balanced g dt w' i.
Proof.
  intros EH P P' EA EJ. unfold balanced. cbv zeta. rewrite EH, (view_sum i (w_arbs w) (presses_pairs _ _ _ _ P)), (view_sum i (w_arbs w') (presses_pairs _ _ _ _ P')), !push_sum, !EA, !EJ.
  rewrite <- !(Rsum_ext (Arb i 0 0 1) (arb_twist i)) by (intros; apply twist_arb). rewrite <- !(Rsum_ext (Jnt i 0 0 1) (joint_twist i)) by (intros; apply twist_joint). now rewrite EA, EJ.
Qed.

(** ** The step *)
Lemma body_eq (b b' : Rbody) : bframe b b' -> b_vel b' = b_vel b -> b_w b' = b_w b -> b_vbias b' = b_vbias b -> b_wbias b' = b_wbias b -> b' = b.
Proof. intros (A & B & C & D & E & G & I & J & K & L & M). destruct b, b'. cbn in *. intros. subst. reflexivity. Qed.
Lemma springs_damped i px py pa d l : Forall (fun ck : Rjoint => forall i px py pa, springy ck = true -> d = 1 \/ Jnt i px py pa ck = 0) l ->
  d * Rsum (fun ck => if springy ck then Jnt i px py pa ck else 0) l + Rsum (fun ck => (if springy ck then 0 else 1) * Jnt i px py pa ck) l = Rsum (Jnt i px py pa) l.
Proof.
  intros F. induction F as [|ck l P _ IH]; [cbn; lra|]. rewrite !Rsum_cons. destruct (springy ck) eqn:E; [|lra]. destruct (P i px py pa eq_refl) as [->|Z]; [|rewrite Z]; lra.
Qed.
Theorem equilibrium_step q ts w n bias : equilibrium q ts w -> let w' := space_step q ts w (n, bias) in
  w_heap w' = w_heap w /\ equilibrium q ts w' /\
  (forall i px py pa, Rsum (Arb i px py pa) (w_arbs w') = Rsum (Arb i px py pa) (w_arbs w)) /\ Forall2 load_joint (w_joints w) (w_joints w').
Proof.
  intros [TM ND MV OT ST HI CT PR JT]. cbv zeta. set (H := w_heap w) in *.
  assert (CO : forall i, coherent (H i)) by (intros i; destruct (HI i) as (m & j & ops & ->); apply history_coherent).
  unfold space_step. cbn [fst snd]. fold H. rewrite (move_rest H (q_dt q) (q_dyn q) ST CO). unfold full_step. fold H. rewrite (move_rest H (q_dt q) (q_dyn q) ST CO).
  destruct (found_ok (q_slop q) (q_dt q) bias H ts (w_arbs w) ST CT) as (A1 & A2 & A3 & A4). cbv zeta in *.
  pose proof (joints_carry H (q_d q) (q_dt q) (w_joints w) CO JT H (hframe_refl H)) as J1.
  unfold solve. cbv zeta. match goal with |- context [cached_all ?x _] => assert (DT : x = 1) end.
  { replace (neqb (Num := RNum) (q_dt q) n0) with false by (symmetry; unR; rcases; auto; lra). cbn [negb]. unR. field. lra. }
  rewrite DT. clear DT.
  set (w0 := World H (found_again H ts (w_arbs w)) (w_joints w)). set (w1 := prestep_all (N := RNum) (q_slop q) bias (q_dt q) w0).
  pose proof (prestep_biases (q_slop q) bias (q_dt q) w0) as BP. pose proof (prestep_immobile (q_slop q) bias (q_dt q) w0) as IP. fold w1 in BP, IP. change (w_heap w0) with H in BP, IP.
  assert (W1 : w_arbs w1 = map (arb_prestep H (q_dt q) (q_slop q) bias) (found_again H ts (w_arbs w)) /\ Forall (firm_joint (q_d q) (q_dt q) H) (w_joints w1) /\ Forall2 load_joint (w_joints w) (w_joints w1) /\
    (forall i px py pa, good i px py pa H -> Mom i px py pa (w_heap w1) = Mom i px py pa H + Rsum (fun ck => if springy ck then Jnt i px py pa ck else 0) (w_joints w1))).
  { unfold w1, prestep_all, w0. cbn [w_heap w_arbs w_joints]. assert (X : forall i px py pa, good i px py pa H -> let '(H', l') := joints_prestep H (q_dt q) (w_joints w) in
      Mom i px py pa H' = Mom i px py pa H + Rsum (fun ck => if springy ck then Jnt i px py pa ck else 0) l').
    { intros i px py pa G. pose proof (joints_prestep_mom i px py pa (q_dt q) (w_joints w) H G) as X. destruct (joints_prestep H (q_dt q) (w_joints w)). apply X. }
    destruct (joints_prestep H (q_dt q) (w_joints w)) as [H1 l1]. destruct J1 as [J1 J2]. cbn [w_heap w_arbs w_joints]. auto. }
  clearbody w1. destruct W1 as (WA & WJ & WL & WM). clear J1. set (w2 := integrate_all (N := RNum) (q_g q) (q_d q) (q_dt q) (q_dyn q) w1). set (w3 := cached_all (N := RNum) 1 w2).
  pose proof (cached_biases 1 w2) as BC. pose proof (cached_immobile 1 w2) as IC. fold w3 in BC, IC.
  assert (W2 : forall i, (In i (q_dyn q) -> w_heap w2 i = update_velocity (w_heap w1 i) (q_g q) (q_d q) (q_dt q)) /\ (~ In i (q_dyn q) -> w_heap w2 i = w_heap w1 i)).
  { intros i. exact (fold_upd (fun b => update_velocity b (q_g q) (q_d q) (q_dt q)) (q_dyn q) ND (w_heap w1) i). }
  assert (EH : w_heap w3 = H).
  { extensionality i. destruct (ST i) as (S1 & S2 & S3 & S4 & S5 & S6). destruct IP as [FP IP]. destruct IC as [FC IC].
    destruct (In_dec Nat.eq_dec i (q_dyn q)) as [Hi|Hi].
    - destruct (MV i Hi) as [(MT & MM & MI) BL]. pose proof (proj1 (W2 i) Hi) as E2. pose proof (FP i) as Fi. pose proof (FC i) as Fc. pose proof (type_frame _ _ Fi) as TF. rewrite MT in TF.
      unfold update_velocity in E2. rewrite TF in E2.
      assert (G2 : bframe (H i) (w_heap w2 i) /\ b_vbias (w_heap w2 i) = b_vbias (w_heap w1 i) /\ b_wbias (w_heap w2 i) = b_wbias (w_heap w1 i)).
      { rewrite E2. unfold set_force_fields, set_vel_fields. destruct Fi as (F1 & F2 & F3 & F4 & F5 & F6 & F7 & F8 & F9 & F10 & F11). unfold bframe. cbn. rewrite S3, S4. repeat split; assumption. }
      destruct G2 as (G2 & G3 & G4).
      assert (FR : bframe (H i) (w_heap w3 i)) by (destruct G2 as (?&?&?&?&?&?&?&?&?&?&?), Fc as (?&?&?&?&?&?&?&?&?&?&?); repeat split; congruence).
      assert (MO : forall px py pa, (pa = 0 \/ b_iinv (H i) <> 0) -> Mom i px py pa (w_heap w3) = 0).
      { intros px py pa Hp. assert (G : good i px py pa H). { split; [right; exact MM|]. destruct Hp as [Hp|Hp]; [now left|]. destruct MI as [MI|MI]; [contradiction|now right]. }
        pose proof (WM i px py pa G) as M1. assert (GW1 : good i px py pa (w_heap w1)) by (eapply good_frame; [exact FP|exact G]).
        destruct (integrate_mom i px py pa (q_g q) (q_d q) (q_dt q) (q_dyn q) w1 ND Hi GW1 TF) as [GW2 M2]. cbv zeta in GW2, M2. fold w2 in GW2, M2.
        unfold w3, cached_all. cbn [w_heap]. destruct (arbs_cached_mom i px py pa 1 (w_arbs w2) (w_heap w2) GW2) as [GW3 M3]. destruct (joints_cached_mom i px py pa 1 (w_joints w2) _ GW3) as [_ M4].
        rewrite M4, M3. change (w_arbs w2) with (w_arbs w1). change (w_joints w2) with (w_joints w1). rewrite M2, M1.
        replace (Rsum (fun s => (if s_first s then 0 else 1) * Arb i px py pa s) (w_arbs w1)) with (Rsum (Arb i px py pa) (w_arbs w)).
        2:{ rewrite WA, <- (A4 i px py pa). apply Rsum_ext. intros s Hs. rewrite Forall_forall in A3. destruct (A3 s Hs) as (-> & _). ring. }
        pose proof (springs_damped i px py pa (q_d q) (w_joints w1)) as SD. rewrite (load_sum i px py pa _ _ WL) in SD.
        assert (FS : Forall (fun ck : Rjoint => forall i px py pa, springy ck = true -> q_d q = 1 \/ Jnt i px py pa ck = 0) (w_joints w1)) by (revert WJ; apply Forall_impl; intros ck X; apply X).
        specialize (SD FS). pose proof (balance_scalar (q_slop q) (q_g q) (q_dt q) ts w i px py pa CT BL Hp) as BS. fold H in BS.
        assert (M0 : Mom i px py pa H = 0) by (unfold Mom; rewrite S1, S2; unfold vzero; cbn [vx vy]; unR; ring).
        assert (FF : frc px py pa (q_g q) (w_heap w1 i) = b_mass (H i) * (px * vx (q_g q) + py * vy (q_g q))).
        { unfold frc. destruct Fi as (-> & _ & _ & _ & _ & -> & _ & _ & -> & _). rewrite S3, S4. unfold vzero. cbn [vx vy]. unR. ring. }
        rewrite M0, FF. lra. }
      assert (NM : b_mass (H i) <> 0) by (intros Z; rewrite Z in MM; lra).
      apply body_eq; auto.
      + rewrite S1. pose proof (MO 1 0 0 (or_introl eq_refl)) as X. pose proof (MO 0 1 0 (or_introl eq_refl)) as Y. unfold Mom in X, Y. destruct FR as (FM & _). rewrite FM in X, Y.
        apply vec_ext; unfold vzero; cbn [vx vy]; [apply (Rmult_eq_reg_l (b_mass (H i))); [unR; lra|exact NM]|apply (Rmult_eq_reg_l (b_mass (H i))); [unR; lra|exact NM]].
      + destruct (Req_dec (b_iinv (H i)) 0) as [Z|Z].
        * destruct (IP i) as [_ I1]. destruct (I1 Z) as [I2 _]. destruct G2 as (_ & _ & _ & Gi & _). destruct (IC i) as [_ I3]. rewrite Gi in I3. destruct (I3 Z) as [I4 _]. rewrite I4, E2.
          unfold set_force_fields, set_vel_fields. cbn. destruct Fi as (_ & _ & _ & -> & _). rewrite I2, S2, Z. unR. ring.
        * destruct MI as [MI|MI]; [contradiction|]. pose proof (MO 0 0 1 (or_intror Z)) as X. unfold Mom in X. destruct FR as (_ & _ & FM & _). rewrite FM in X. rewrite S2.
          apply (Rmult_eq_reg_l (b_moi (H i))); [unR; lra|]. intros Q. rewrite Q in MI. lra.
      + destruct (BC i) as [-> _]. rewrite G3. apply BP.
      + destruct (BC i) as [_ ->]. rewrite G4. apply BP.
    - destruct (OT i Hi) as [O1 O2]. pose proof (proj2 (W2 i) Hi) as E2. specialize (IP i). specialize (IC i). specialize (FC i). rewrite E2 in IC, FC. pose proof (FP i) as Fi.
      destruct Fi as (?&Fm&?&Fn&?&?&?&?&?&?&?), FC as (?&?&?&?&?&?&?&?&?&?&?). rewrite Fm, Fn in IC. destruct IP as [P1 P2], IC as [C1 C2]. destruct (P1 O1), (P2 O2), (C1 O1), (C2 O2).
      apply body_eq; [repeat split; congruence| | | |]; congruence. }
  assert (IT : iterations n (q_dt q) w3 = w3).
  { apply (iterations_firm n (q_d q)); [lra| | |].
    - rewrite EH. exact ST.
    - change (w_arbs w3) with (w_arbs w1). rewrite WA. exact A2.
    - rewrite EH. exact WJ. }
  rewrite IT. split; [exact EH|].
  assert (SA : forall i px py pa, Rsum (Arb i px py pa) (w_arbs w3) = Rsum (Arb i px py pa) (w_arbs w)) by (intros; change (w_arbs w3) with (w_arbs w1); rewrite WA; apply A4).
  assert (SJ : Forall2 load_joint (w_joints w) (w_joints w3)) by exact WL.
  assert (PC : Forall2 (presses (q_slop q) H) ts (w_arbs w3)) by (change (w_arbs w3) with (w_arbs w1); rewrite WA; exact A1).
  split; [|split; assumption].
  constructor; rewrite ?EH; auto.
  - intros i Hi. destruct (MV i Hi) as [M B]. split; [exact M|]. apply (scalar_balance (q_slop q) (q_g q) (q_dt q) ts w w3 i EH CT PC); auto. intros. now apply load_sum.
  - intros c k Hk. change (w_joints w3) with (w_joints w1) in Hk. rewrite Forall_forall in WJ. destruct (WJ _ Hk) as (X1 & X2 & _). auto.
Qed.

(** ** Any number of steps *)
Definition same_reading (ck ck' : Rjoint) : Prop := fst ck' = fst ck /\ forall i, joint_push i ck' = joint_push i ck /\ joint_twist i ck' = joint_twist i ck.
Lemma load_reading ck ck' : load_joint ck ck' -> same_reading ck ck'.
Proof.
  destruct ck as [c k], ck' as [c' k']. intros [E S]. cbn [fst snd] in *. subst c'. split; [reflexivity|]. intros i. split.
  - pose proof (push_sum i [(c, k)]) as A. pose proof (push_sum i [(c, k')]) as B. unfold Vsum in A, B.
    pose proof (f_equal (@vx RNum) A) as A1. pose proof (f_equal (@vy RNum) A) as A2. pose proof (f_equal (@vx RNum) B) as B1. pose proof (f_equal (@vy RNum) B) as B2. clear A B.
    unfold rvec in *. cbn [vx vy] in *. rewrite !Rsum_cons in A1, A2, B1, B2. rewrite (S i 1 0 0) in B1. rewrite (S i 0 1 0) in B2. apply vec_ext; lra.
  - rewrite <- !twist_joint. apply S.
Qed.
Lemma load_trans l1 l2 l3 : Forall2 load_joint l1 l2 -> Forall2 load_joint l2 l3 -> Forall2 load_joint l1 l3.
Proof.
  intros F. revert l3. induction F as [|x y l1 l2 [E S] F IH]; intros l3 G; inversion G as [|? z ? ? [E' S'] G']; subst; constructor; auto. rewrite E in S'. split; [congruence|].
  intros i px py pa. rewrite S'. apply S.
Qed.
Theorem equilibrium_lasts q ts : forall nbs w, equilibrium q ts w -> let w' := fold_left (space_step q ts) nbs w in
  w_heap w' = w_heap w /\ equilibrium q ts w' /\
  (forall i, Vsum total_impulse (each_view i (w_arbs w')) = Vsum total_impulse (each_view i (w_arbs w))) /\ Forall2 same_reading (w_joints w) (w_joints w').
Proof.
  cut (forall nbs w, equilibrium q ts w -> let w' := fold_left (space_step q ts) nbs w in
    w_heap w' = w_heap w /\ equilibrium q ts w' /\ (forall i px py pa, Rsum (Arb i px py pa) (w_arbs w') = Rsum (Arb i px py pa) (w_arbs w)) /\ Forall2 load_joint (w_joints w) (w_joints w')).
  { intros X nbs w E. destruct (X nbs w E) as (A & B & C & D). split; [exact A|]. split; [exact B|]. split.
    - intros i. rewrite (view_sum i (w_arbs w) (presses_pairs _ _ _ _ (e_contacts _ _ _ E))), (view_sum i _ (presses_pairs _ _ _ _ (e_contacts _ _ _ B))). now rewrite !C.
    - revert D. apply forall2_impl. exact load_reading. }
  induction nbs as [|[n bias] nbs IH]; intros w E; cbn [fold_left]; cbv zeta.
  - split; [reflexivity|]. split; [exact E|]. split; [reflexivity|]. clear. induction (w_joints w) as [|[c k] l IH]; constructor; auto. split; [reflexivity|]. intros ? ? ? ?. reflexivity.
  - destruct (equilibrium_step q ts w n bias E) as (A & B & C & D). cbv zeta in *. destruct (IH _ B) as (A' & B' & C' & D'). split; [now rewrite A'|]. split; [exact B'|]. split; [intros; now rewrite C'|].
    eapply load_trans; eauto.
Qed.
