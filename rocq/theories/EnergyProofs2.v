(** Proofs for C62 and C63: a bouncing contact, springs alone, groove joints. *)
From Coq Require Import ZArith Bool Reals List Lra Lia Psatz.
From Verif Require Import Num NumReal Vec VecReal BB Transform Body BodySpec BodyProofs Solver SolverSpec SolverProofs SolverProofs2 SolverProofs3 SolverProofs4 SolverProofs5 SolverProofs6 Joints JointsSpec JointsProofs EnergySpec EnergyProofs.
Import ListNotations.
Local Open Scope R_scope.

(** ** A bouncing contact *)
Lemma bias_relvel (H : Rheap) a b r1 r2 j a' b' x y : relative_velocity (apply_bias_impulses H a b r1 r2 j a') (apply_bias_impulses H a b r1 r2 j b') x y = relative_velocity (H a') (H b') x y.
Proof. unfold relative_velocity. destruct (bias_same H a b r1 r2 j a') as (_ & _ & -> & -> & _). destruct (bias_same H a b r1 r2 j b') as (_ & _ & -> & -> & _). reflexivity. Qed.
Lemma contact_smooth (H : Rheap) s c : s_u s = 0 -> k_jt c = 0 -> vdot (s_svr s) (s_n s) = 0 ->
  let v := normal_relative_velocity (H (s_a s)) (H (s_b s)) (k_r1 c) (k_r2 c) (s_n s) in
  let j := Rmax (k_jn c + - (k_bounce c + v) * k_nmass c) 0 in
  exists jb c', contact_apply H s c = (apply_impulses (apply_bias_impulses H (s_a s) (s_b s) (k_r1 c) (k_r2 c) jb) (s_a s) (s_b s) (k_r1 c) (k_r2 c) (vscale (N := RNum) (s_n s) (j - k_jn c)), c') /\
    k_r1 c' = k_r1 c /\ k_r2 c' = k_r2 c /\ k_nmass c' = k_nmass c /\ k_bounce c' = k_bounce c /\ k_jn c' = j /\ k_jt c' = 0.
Proof.
  intros U T SN v j. unfold contact_apply. cbv zeta.
  assert (EJ : nmax (Num := RNum) (k_jn c + - (k_bounce c + vdot (vadd (relative_velocity (H (s_a s)) (H (s_b s)) (k_r1 c) (k_r2 c)) (s_svr s)) (s_n s)) * k_nmass c)%num n0 = j).
  { unfold j, v, normal_relative_velocity. change (nmax (Num := RNum)) with Rmax. unR. f_equal. f_equal. f_equal. f_equal. f_equal. set (vr := relative_velocity _ _ _ _). revert SN. unV. cbn. unR. lra. }
  rewrite EJ. clear EJ. assert (EC : forall x, nclamp (N := RNum) x (- (s_u s * j))%num (s_u s * j)%num = 0) by (intros x; rewrite U; rewrite RnclampE; unR; [rcases; lra|lra]). rewrite EC. rewrite T.
  match goal with |- context [vrotate (s_n s) ?q] => replace (vrotate (s_n s) q) with (vscale (N := RNum) (s_n s) (j - k_jn c)) by (unV; cbn; unR; f_equal; ring) end.
  eexists. eexists. split; [reflexivity|cbn; auto 10].
Qed.
Lemma energy_along L (H : Rheap) a b r1 r2 (n : Rvec) (x : R) : all_weighed H -> NoDup L -> In a L -> In b L -> a <> b -> vdot n n = 1 ->
  energy L (apply_impulses H a b r1 r2 (vscale (N := RNum) n x)) = energy L H + x * normal_relative_velocity (H a) (H b) r1 r2 n + / 2 * (x * x * kscalar (H a) (H b) r1 r2 n).
Proof.
  intros W ND Ia Ib Ne U. rewrite energy_imp; auto. unfold normal_relative_velocity. set (v := relative_velocity _ _ _ _). clearbody v. f_equal; [f_equal; unV; cbn; unR; ring|]. f_equal.
  unfold work, kscalar, kscalar_body. replace (vdot (vscale n x) (vscale n x)) with (x * x * vdot n n) by (unV; cbn; unR; ring). rewrite U. 
  replace (vcross r1 (vscale n x)) with (x * vcross r1 n) by (unV; cbn; unR; ring). replace (vcross r2 (vscale n x)) with (x * vcross r2 n) by (unV; cbn; unR; ring). unR. ring.
Qed.
Lemma bias_kscalar (H : Rheap) a b r1 r2 j a' b' x y n : kscalar (apply_bias_impulses H a b r1 r2 j a') (apply_bias_impulses H a b r1 r2 j b') x y n = kscalar (H a') (H b') x y n.
Proof. apply kscalar_frame, bias_frame. Qed.
Lemma one_iteration (dt : R) (H : Rheap) s c : iteration dt (World H [with_contacts s [c]] []) =
  World (fst (contact_apply H (with_contacts s [c]) c)) [with_contacts s [snd (contact_apply H (with_contacts s [c]) c)]] [].
Proof.
  unfold iteration. cbn [w_heap w_arbs w_joints arbs_apply]. unfold arb_apply. cbn [with_contacts s_contacts contacts_apply].
  destruct (contact_apply _ _ _) as [H' c']. cbn [joints_apply fst snd]. reflexivity.
Qed.
(** One contact in a world of its own, once it has settled. *)
Definition settled (L : list nat) (H0 : Rheap) (s : Rsarb) (E1 : R) (w : Rworld) : Prop :=
  exists H c, w = World H [with_contacts s [c]] [] /\ energy L H = E1 /\ k_jt c = 0 /\
    Rmax (k_jn c + - (k_bounce c + normal_relative_velocity (H (s_a s)) (H (s_b s)) (k_r1 c) (k_r2 c) (s_n s)) * k_nmass c) 0 = k_jn c.
Lemma settled_stays L H0 s E1 (dt : R) w : s_u s = 0 -> vdot (s_svr s) (s_n s) = 0 -> settled L H0 s E1 w -> settled L H0 s E1 (iteration dt w).
Proof.
  intros U SN (H & c & -> & E & T & M). rewrite one_iteration. destruct (contact_smooth H (with_contacts s [c]) c U T SN) as (jb & c' & X & A1 & A2 & A3 & A4 & A5 & A6). cbn [with_contacts s_a s_b s_n s_svr] in *.
  rewrite X. cbn [fst snd]. rewrite M in *. replace (vscale (N := RNum) (s_n s) (k_jn c - k_jn c)) with (@vzero RNum) by (unV; cbn; unR; f_equal; ring). rewrite impulses_zero.
  eexists. exists c'. split; [reflexivity|]. rewrite energy_bias. split; [exact E|]. split; [exact A6|]. rewrite A1, A2, A3, A4, A5. unfold normal_relative_velocity. rewrite bias_relvel. exact M.
Qed.
Lemma settled_iterations L H0 s E1 (dt : R) n : s_u s = 0 -> vdot (s_svr s) (s_n s) = 0 -> forall w, settled L H0 s E1 w -> settled L H0 s E1 (iterations n dt w).
Proof. intros U SN. induction n; intros w S; cbn [iterations]; auto. apply IHn, settled_stays; auto. Qed.
Lemma first_bounce L (dt : R) (H : Rheap) s c (e : R) : NoDup L -> all_weighed H -> In (s_a s) L -> In (s_b s) L -> pushable H (s_a s) (s_b s) -> vdot (s_n s) (s_n s) = 1 -> vdot (s_svr s) (s_n s) = 0 -> s_u s = 0 -> 0 <= e ->
  let v := normal_relative_velocity (H (s_a s)) (H (s_b s)) (k_r1 c) (k_r2 c) (s_n s) in let k := kscalar (H (s_a s)) (H (s_b s)) (k_r1 c) (k_r2 c) (s_n s) in
  k_jn c = 0 -> k_jt c = 0 -> k_bounce c = v * e -> k_nmass c * k = 1 ->
  settled L H s (energy L H - (1 - e * e) * (Rmin v 0 * Rmin v 0) / (2 * k)) (iteration dt (World H [with_contacts s [c]] [])).
Proof.
  intros ND W Ia Ib P N1 SN U He v k J T B K. rewrite one_iteration. destruct (contact_smooth H (with_contacts s [c]) c U T SN) as (jb & c' & X & A1 & A2 & A3 & A4 & A5 & A6). cbn [with_contacts s_a s_b s_n s_svr] in *.
  rewrite X. cbn [fst snd]. pose proof (kscalar_pos _ _ (k_r1 c) (k_r2 c) (s_n s) (pushable_pair _ _ _ P)) as PK. fold v in A5, X |- *. fold k in PK. rewrite J, B in *. 
  set (j := Rmax _ _) in *. set (H1 := apply_bias_impulses _ _ _ _ _ _) in *. 
  assert (V1 : normal_relative_velocity (H1 (s_a s)) (H1 (s_b s)) (k_r1 c) (k_r2 c) (s_n s) = v) by (unfold normal_relative_velocity, H1; now rewrite bias_relvel).
  assert (K1 : kscalar (H1 (s_a s)) (H1 (s_b s)) (k_r1 c) (k_r2 c) (s_n s) = k) by apply bias_kscalar.
  assert (W1 : all_weighed H1) by (apply bias_weighed; auto). assert (E1 : energy L H1 = energy L H) by apply energy_bias. clearbody H1.
  assert (KM : k_nmass c = / k) by (apply (Rmult_eq_reg_r k); [|lra]; rewrite K; field; lra).
  assert (KP : 0 < / k) by (apply Rinv_0_lt_compat; auto).
  assert (JE : j = - (1 + e) * Rmin v 0 * / k).
  { unfold j. rewrite KM. replace (0 + - (v * e + v) * / k) with (- (1 + e) * v * / k) by ring. unfold Rmin. destruct (Rle_dec v 0) as [Z|Z]; [apply Rmax_left|rewrite Rmax_right; [ring|]].
    - assert (0 <= (1 + e) * (- v) * / k) by (apply Rmult_le_pos; [apply Rmult_le_pos|]; lra). lra.
    - assert (0 <= (1 + e) * v * / k) by (apply Rmult_le_pos; [apply Rmult_le_pos|]; lra). lra. }
  eexists. exists c'. split; [reflexivity|]. split; [|split; [exact A6|]].
  - rewrite energy_along; auto; [|apply P]. rewrite V1, K1, E1. replace (j - 0) with j by ring. rewrite JE. unfold Rmin. destruct (Rle_dec v 0); unR; field; lra.
  - rewrite A1, A2, A3, A4, A5. rewrite (relvel_n_after H1 _ _ _ _ _ _ (proj1 P) N1). rewrite V1, K1. rewrite KM, JE. unR. unfold Rmin. destruct (Rle_dec v 0) as [Z|Z].
    + replace (- (1 + e) * v * / k + - (v * e + (v + (- (1 + e) * v * / k - 0) * k)) * / k) with (- (1 + e) * v * / k) by (field; lra). apply Rmax_left.
      assert (0 <= (1 + e) * (- v) * / k) by (apply Rmult_le_pos; [apply Rmult_le_pos|]; lra). lra.
    + replace (- (1 + e) * 0 * / k + - (v * e + (v + (- (1 + e) * 0 * / k - 0) * k)) * / k) with (- ((1 + e) * v * / k)) by (field; lra). replace (- (1 + e) * 0 * / k) with 0 by ring. apply Rmax_right.
      assert (0 <= (1 + e) * v * / k) by (apply Rmult_le_pos; [apply Rmult_le_pos|]; lra). lra.
Qed.
Lemma idle_velocity (b : Rbody) (dt : R) : unforced b -> b_vel (update_velocity b vzero 1 dt) = b_vel b /\ b_w (update_velocity b vzero 1 dt) = b_w b.
Proof. intros [F T]. unfold update_velocity. destruct (b_type b); auto; destruct b; cbn in *; subst; split; try (destruct b_vel; unV; cbn; unR; f_equal; ring); unR; ring. Qed.
Lemma idle_integrate (dt : R) dyn : forall H : Rheap, (forall i, unforced (H i)) ->
  let H' := fold_left (fun H i => upd H i (update_velocity (H i) vzero 1 dt)) dyn H in forall i, b_vel (H' i) = b_vel (H i) /\ b_w (H' i) = b_w (H i) /\ bframe (H i) (H' i).
Proof.
  induction dyn as [|j dyn IH]; intros H U; cbn [fold_left]; cbv zeta; intros i.
  - split; [auto|]. split; [auto|apply bframe_refl].
  - assert (F : forall i, let H1 := upd H j (update_velocity (H j) vzero 1 dt) in b_vel (H1 i) = b_vel (H i) /\ b_w (H1 i) = b_w (H i) /\ bframe (H i) (H1 i)).
    { intros x. cbv zeta. unfold upd. destruct (Nat.eqb x j) eqn:E; [apply Nat.eqb_eq in E; subst; destruct (idle_velocity (H j) dt (U j)); split; auto; split; auto; apply slow_frame, U|split; auto; split; auto; apply bframe_refl]. }
    assert (U1 : forall i, unforced (upd H j (update_velocity (H j) vzero 1 dt) i)).
    { intros x. destruct (F x) as (_ & _ & (_ & _ & _ & _ & _ & B & _ & _ & B' & _)). unfold unforced. rewrite B, B'. apply U. }
    specialize (IH _ U1 i). cbv zeta in IH. destruct IH as (I1 & I2 & I3). destruct (F i) as (F1 & F2 & F3). cbv zeta in *. rewrite I1, I2. split; [auto|]. split; [auto|]. eapply bframe_trans; eauto.
Qed.
Lemma solve_bounce L n slop bias (dt prevdt : R) dyn (H : Rheap) s c : NoDup L -> (forall i, weighed (H i) /\ unforced (H i)) -> In (s_a s) L -> In (s_b s) L -> pushable H (s_a s) (s_b s) ->
  vdot (s_n s) (s_n s) = 1 -> vdot (s_svr s) (s_n s) = 0 -> s_u s = 0 -> 0 <= s_e s -> s_contacts s = [c] -> k_jn c = 0 -> k_jt c = 0 ->
  let v := normal_relative_velocity (H (s_a s)) (H (s_b s)) (k_r1 c) (k_r2 c) (s_n s) in let k := kscalar (H (s_a s)) (H (s_b s)) (k_r1 c) (k_r2 c) (s_n s) in
  energy L (w_heap (solve (S n) slop bias vzero 1 dt prevdt dyn (World H [s] []))) = energy L H - (1 - s_e s * s_e s) * (Rmin v 0 * Rmin v 0) / (2 * k).
Proof.
  intros ND WU Ia Ib P N1 SN U He Cs J T v k. unfold solve. set (dc := if negb _ then _ else _). clearbody dc. unfold prestep_all, integrate_all, cached_all. cbn [w_heap w_arbs w_joints map joints_prestep].
  pose proof (idle_integrate dt dyn H (fun i => proj2 (WU i))) as I. cbv zeta in I. cbn [w_heap w_arbs w_joints]. change (fold_left _ dyn H) with (fold_left (fun H i => upd H i (update_velocity (H i) (@vzero RNum) 1 dt)) dyn H). set (H1 := fold_left _ dyn H) in *. clearbody H1.
  set (s1 := arb_prestep H dt slop bias s). set (c1 := contact_prestep H s dt slop bias c).
  assert (S1 : s1 = with_contacts s [c1]) by (unfold s1, arb_prestep; rewrite Cs; reflexivity).
  rewrite cached_same; [|constructor; [|constructor]; rewrite S1; cbn [with_contacts s_contacts]; constructor; [|constructor]; unfold c1, contact_prestep; cbn; auto].
  cbn [fold_left w_heap w_arbs w_joints]. rewrite S1. cbn [iterations].
  assert (F : hframe H H1) by (intros i; apply I).
  assert (W1 : all_weighed H1). { intros i. destruct (WU i) as [(M1 & M2) _]. destruct (I i) as (V1 & V2 & (B1 & B2 & B3 & B4 & _)). unfold weighed. rewrite V1, V2, B1, B2, B3, B4. auto. }
  assert (RV : normal_relative_velocity (H1 (s_a s)) (H1 (s_b s)) (k_r1 c) (k_r2 c) (s_n s) = v). { unfold v, normal_relative_velocity, relative_velocity. destruct (I (s_a s)) as (-> & -> & _). destruct (I (s_b s)) as (-> & -> & _). reflexivity. }
  assert (KK : kscalar (H1 (s_a s)) (H1 (s_b s)) (k_r1 c) (k_r2 c) (s_n s) = k) by (apply kscalar_frame; auto).
  assert (E1 : energy L H1 = energy L H). { unfold energy. apply Rsum_ext. intros i _. unfold kinetic. destruct (I i) as (-> & -> & (-> & _ & -> & _)). reflexivity. }
  pose proof (first_bounce L dt H1 s c1 (s_e s) ND W1 Ia Ib (pushable_frame _ _ _ _ F P) N1 SN U He) as X. cbv zeta in X. unfold c1 in X. unfold contact_prestep in X. cbv zeta in X. cbn [k_r1 k_r2 k_jn k_jt k_bounce k_nmass] in X. fold v k in X. rewrite RV, KK, E1 in X.
  specialize (X J T eq_refl). destruct (settled_iterations L H1 s _ dt n U SN _ (X ltac:(unR; pose proof (kscalar_pos _ _ (k_r1 c) (k_r2 c) (s_n s) (pushable_pair _ _ _ P)); fold k in H0; field; lra))) as (H2 & c2 & E2 & E3 & _).
  unfold c1, contact_prestep. cbv zeta. fold k v in E2 |- *. rewrite E2. exact E3.
Qed.

(** ** Springs on their own *)
Lemma kscalar_unit_exact (H : Rheap) a b r1 r2 (n : Rvec) (x : R) : a <> b -> vdot n n = 1 -> movable_pair (H a) (H b) ->
  normal_relative_velocity (apply_impulses H a b r1 r2 (vscale (N := RNum) n (x * (1 / kscalar (H a) (H b) r1 r2 n))%R) a) (apply_impulses H a b r1 r2 (vscale (N := RNum) n (x * (1 / kscalar (H a) (H b) r1 r2 n))%R) b) r1 r2 n =
  normal_relative_velocity (H a) (H b) r1 r2 n + x.
Proof. intros Ne U P. rewrite (relvel_n_after H a b r1 r2 n _ Ne U). unR. f_equal. pose proof (kscalar_pos _ _ r1 r2 n P). field. lra. Qed.
Lemma scaled_unit (z : Rvec) : vmag z <> 0 -> vdot (vscale (N := RNum) z (1 / vmag z)%R) (vscale (N := RNum) z (1 / vmag z)%R) = 1.
Proof.
  intros Nd. assert (S : 0 <= vdot z z) by (destruct z; unV; cbn; unR; nra). assert (M : vmag z * vmag z = vdot z z) by (unfold vmag; unR; apply sqrt_sqrt; exact S).
  set (m := vmag z) in *. clearbody m. replace (vdot (vscale (N := RNum) z (1 / m)%R) (vscale (N := RNum) z (1 / m)%R)) with (vdot z z * / (m * m)) by (destruct z; unV; cbn; rfield; exact Nd). rewrite <- M. rfield. exact Nd.
Qed.
Definition sprung (c : Rcstr) (H0 : Rheap) (p0 : spring) (v : R) (w : Rworld) : Prop :=
  exists H p, w = World H [] [(c, JSpring p)] /\ hframe H0 H /\ sp_r1 p = sp_r1 p0 /\ sp_r2 p = sp_r2 p0 /\ sp_n p = sp_n p0 /\ sp_nmass p = sp_nmass p0 /\ sp_vcoef p = sp_vcoef p0 /\
    normal_relative_velocity (H (c_a c)) (H (c_b c)) (sp_r1 p0) (sp_r2 p0) (sp_n p0) = v /\ sp_target p = v.
Lemma spring_iteration (dt : R) (H : Rheap) c p : iteration dt (World H [] [(c, JSpring p)]) = World (fst (spring_apply H c dt p)) [] [(c, JSpring (snd (spring_apply H c dt p)))].
Proof. unfold iteration. cbn [w_heap w_arbs w_joints arbs_apply joints_apply joint_apply]. destruct (spring_apply H c dt p). reflexivity. Qed.
Lemma sprung_stays c H0 p0 v (dt : R) w : sprung c H0 p0 v w -> sprung c H0 p0 v (iteration dt w).
Proof.
  intros (H & p & -> & F & E1 & E2 & E3 & E4 & E5 & Ev & Et). rewrite spring_iteration. unfold spring_apply. cbn [fst snd]. rewrite E1, E2, E3, Ev, Et.
  assert (Z : ((v - v) * sp_vcoef p)%num = (0 : num (Num := RNum))) by (unR; ring). rewrite Z. replace (vscale (N := RNum) (sp_n p0) (nmul (Num := RNum) 0%R (sp_nmass p))) with (@vzero RNum) by (unV; cbn; unR; f_equal; ring). rewrite impulses_zero.
  eexists. eexists. split; [reflexivity|]. cbn [sp_r1 sp_r2 sp_n sp_nmass sp_vcoef sp_target]. repeat (split; [assumption || reflexivity|]). unR. ring.
Qed.
Lemma sprung_iterations c H0 p0 v (dt : R) n : forall w, sprung c H0 p0 v w -> sprung c H0 p0 v (iterations n dt w).
Proof. induction n; intros w S; cbn [iterations]; auto. apply IHn, sprung_stays, S. Qed.
Lemma unforced_frame (H H' : Rheap) : hframe H H' -> (forall i, unforced (H i)) -> forall i, unforced (H' i).
Proof. intros F U i. destruct (F i) as (_ & _ & _ & _ & _ & B & _ & _ & B' & _). unfold unforced. rewrite B, B'. apply U. Qed.
Lemma spring_alone n slop bias (dt prevdt : R) dyn (H : Rheap) c p : (forall i, unforced (H i)) -> c_a c <> c_b c -> movable_pair (H (c_a c)) (H (c_b c)) ->
  let r1 := anchor_arm (H (c_a c)) (sp_anchA p) in let r2 := anchor_arm (H (c_b c)) (sp_anchB p) in
  let delta := vsub (vadd (b_pos (H (c_b c))) r2) (vadd (b_pos (H (c_a c))) r1) in let dist := vmag delta in let u := vscale (N := RNum) delta (1 / dist)%R in let k := kscalar (H (c_a c)) (H (c_b c)) r1 r2 u in
  dist <> 0 ->
  let H' := w_heap (solve (S n) slop bias vzero 1 dt prevdt dyn (World H [] [(c, JSpring p)])) in
  normal_relative_velocity (H' (c_a c)) (H' (c_b c)) r1 r2 u = (normal_relative_velocity (H (c_a c)) (H (c_b c)) r1 r2 u + sp_force p dist * dt * k) * exp (- (sp_damping p * dt * k)).
Proof.
  intros U Ne P r1 r2 delta dist u k Nd. cbv zeta. assert (U1 : vdot u u = 1) by (apply scaled_unit; exact Nd).
  unfold solve. set (dc := if negb _ then _ else _). clearbody dc. unfold prestep_all. cbn [w_heap w_arbs w_joints map joints_prestep joint_prestep]. unfold spring_prestep. cbv zeta. fold r1 r2. fold delta. fold dist.
  assert (Eq : negb (dist =? n0)%num = true) by (change (neqb dist n0) with (Reqb dist 0); destruct (Reqb_spec dist 0); [contradiction|reflexivity]). rewrite Eq. change (vscale delta (n1 / dist)%num) with u. fold k. set (j := (sp_force p dist * dt)%num).
  set (p1 := Spring _ _ _ _ _ _ _ _ _ _ _). set (H1 := apply_impulses H (c_a c) (c_b c) r1 r2 (vscale u j)).
  unfold integrate_all, cached_all. cbn [w_heap w_arbs w_joints fold_left joint_cached fst snd]. pose proof (imp_frame H (c_a c) (c_b c) r1 r2 (vscale u j)) as F1. fold H1 in F1.
  pose proof (idle_integrate dt dyn H1 (unforced_frame _ _ F1 U)) as I. cbv zeta in I. change (fold_left _ dyn H1) with (fold_left (fun H i => upd H i (update_velocity (H i) (@vzero RNum) 1 dt)) dyn H1). set (H2 := fold_left _ dyn H1) in *.
  assert (V2 : normal_relative_velocity (H2 (c_a c)) (H2 (c_b c)) r1 r2 u = normal_relative_velocity (H (c_a c)) (H (c_b c)) r1 r2 u + j * k).
  { unfold normal_relative_velocity, relative_velocity. destruct (I (c_a c)) as (-> & -> & _). destruct (I (c_b c)) as (-> & -> & _). exact (relvel_n_after H (c_a c) (c_b c) r1 r2 u j Ne U1). }
  assert (F2 : hframe H H2) by (eapply hframe_trans; [exact F1|]; intros i; apply I). clearbody H2. clear I F1. cbn [iterations]. rewrite spring_iteration.
  set (v := normal_relative_velocity (H (c_a c)) (H (c_b c)) r1 r2 u) in *. set (q := (v + j * k) * exp (- (sp_damping p * dt * k))).
  assert (S : sprung c H2 p1 q (World (fst (spring_apply H2 c dt p1)) [] [(c, JSpring (snd (spring_apply H2 c dt p1)))])).
  { eexists. eexists. split; [reflexivity|]. unfold spring_apply. cbn [fst snd sp_r1 sp_r2 sp_n sp_nmass sp_vcoef sp_target]. split; [apply imp_frame|]. repeat (split; [reflexivity|]). cbn [p1 sp_r1 sp_r2 sp_n sp_nmass sp_vcoef sp_target]. rewrite V2.
    assert (K2 : kscalar (H2 (c_a c)) (H2 (c_b c)) r1 r2 u = k) by (apply kscalar_frame; auto). pose proof (pair_frame H H2 _ _ F2 P) as P2.
    assert (X : v + j * k + (0 - (v + j * k)) * (1 - exp (- sp_damping p * dt * k)) = q) by (unfold q; replace (- sp_damping p * dt * k) with (- (sp_damping p * dt * k)) by ring; ring).
    split; [|exact X]. rewrite <- K2 at 3 6. etransitivity; [exact (kscalar_unit_exact H2 (c_a c) (c_b c) r1 r2 u _ Ne U1 P2)|]. rewrite V2. exact X. }
  destruct (sprung_iterations c H2 p1 q dt n _ S) as (H3 & p3 & E3 & _ & _ & _ & _ & _ & _ & R3 & _). rewrite E3. exact R3.
Qed.
Definition twisted (c : Rcstr) (v : R) (w : Rworld) : Prop := exists H p, w = World H [] [(c, JRSpring p)] /\ b_w (H (c_a c)) - b_w (H (c_b c)) = v /\ rs_target p = v.
Lemma rspring_iteration (dt : R) (H : Rheap) c p : iteration dt (World H [] [(c, JRSpring p)]) = World (fst (rspring_apply H c dt p)) [] [(c, JRSpring (snd (rspring_apply H c dt p)))].
Proof. unfold iteration. cbn [w_heap w_arbs w_joints arbs_apply joints_apply joint_apply]. destruct (rspring_apply H c dt p). reflexivity. Qed.
Lemma damp_w (H : Rheap) a b (j : R) : a <> b -> b_w (apply_damp (N := RNum) H a b j a) - b_w (apply_damp (N := RNum) H a b j b) = b_w (H a) - b_w (H b) + j * (b_iinv (H a) + b_iinv (H b)).
Proof.
  intros Ne. unfold apply_damp. cbv zeta. unfold upd. rewrite (proj2 (Nat.eqb_neq a b) Ne), Nat.eqb_refl. rewrite (proj2 (Nat.eqb_neq b a)) by auto. rewrite Nat.eqb_refl. cbn [set_w set_vel_fields b_w]. unR. ring.
Qed.
Lemma twisted_stays c v (dt : R) w : c_a c <> c_b c -> twisted c v w -> twisted c v (iteration dt w).
Proof.
  intros Ne (H & p & -> & E & T). rewrite rspring_iteration. eexists. eexists. split; [reflexivity|]. unfold rspring_apply. cbn [fst snd rs_target]. change (b_w (H (c_a c)) - b_w (H (c_b c)))%num with (b_w (H (c_a c)) - b_w (H (c_b c))). rewrite E, T.
  split; [|unR; ring]. etransitivity; [exact (damp_w H _ _ _ Ne)|]. rewrite E. unR. ring.
Qed.
Lemma twisted_iterations c v (dt : R) n : c_a c <> c_b c -> forall w, twisted c v w -> twisted c v (iterations n dt w).
Proof. intros Ne. induction n; intros w S; cbn [iterations]; auto. apply IHn, twisted_stays; auto. Qed.
Lemma rspring_alone n slop bias (dt prevdt : R) dyn (H : Rheap) c p : (forall i, unforced (H i)) -> c_a c <> c_b c -> b_iinv (H (c_a c)) + b_iinv (H (c_b c)) <> 0 ->
  let k := b_iinv (H (c_a c)) + b_iinv (H (c_b c)) in
  let H' := w_heap (solve (S n) slop bias vzero 1 dt prevdt dyn (World H [] [(c, JRSpring p)])) in
  b_w (H' (c_a c)) - b_w (H' (c_b c)) = (b_w (H (c_a c)) - b_w (H (c_b c)) - rs_torque p (b_angle (H (c_a c)) - b_angle (H (c_b c)))%R * dt * k) * exp (- (rs_damping p * dt * k)).
Proof.
  intros U Ne K k. cbv zeta. unfold solve. set (dc := if negb _ then _ else _). clearbody dc. unfold prestep_all. cbn [w_heap w_arbs w_joints map joints_prestep joint_prestep]. unfold rspring_prestep. cbv zeta.
  set (j := nmul (Num := RNum) (rs_torque p _) dt). set (p1 := RSpring _ _ _ _ _ _). set (H1 := apply_torque H (c_a c) (c_b c) j).
  unfold integrate_all, cached_all. cbn [w_heap w_arbs w_joints fold_left joint_cached fst snd]. pose proof (torque_frame H (c_a c) (c_b c) j) as F1. fold H1 in F1.
  pose proof (idle_integrate dt dyn H1 (unforced_frame _ _ F1 U)) as I. cbv zeta in I. change (fold_left _ dyn H1) with (fold_left (fun H i => upd H i (update_velocity (H i) (@vzero RNum) 1 dt)) dyn H1). set (H2 := fold_left _ dyn H1) in *.
  assert (V2 : b_w (H2 (c_a c)) - b_w (H2 (c_b c)) = b_w (H (c_a c)) - b_w (H (c_b c)) - j * k).
  { destruct (I (c_a c)) as (_ & -> & _). destruct (I (c_b c)) as (_ & -> & _). unfold H1, apply_torque. cbv zeta. unfold upd. rewrite (proj2 (Nat.eqb_neq (c_a c) (c_b c)) Ne), Nat.eqb_refl. rewrite (proj2 (Nat.eqb_neq (c_b c) (c_a c))) by auto. rewrite Nat.eqb_refl. cbn [set_w set_vel_fields b_w]. unfold k. unR. ring. }
  assert (F2 : hframe H H2) by (eapply hframe_trans; [exact F1|]; intros i; apply I). clearbody H2. clear I F1. cbn [iterations]. rewrite rspring_iteration.
  assert (S : twisted c ((b_w (H (c_a c)) - b_w (H (c_b c)) - j * k) * exp (- (rs_damping p * dt * k))) (World (fst (rspring_apply H2 c dt p1)) [] [(c, JRSpring (snd (rspring_apply H2 c dt p1)))])).
  { eexists. eexists. split; [reflexivity|]. unfold rspring_apply. cbn [fst snd rs_target p1 rs_wcoef rs_isum]. change (b_w (H2 (c_a c)) - b_w (H2 (c_b c)))%num with (b_w (H2 (c_a c)) - b_w (H2 (c_b c))). rewrite V2.
    assert (X : forall z, z + (0 - z) * (1 - exp (- rs_damping p * dt * k)) = z * exp (- (rs_damping p * dt * k))) by (intros z; replace (- rs_damping p * dt * k) with (- (rs_damping p * dt * k)) by ring; ring).
    split; [|exact (X _)]. etransitivity; [exact (damp_w H2 _ _ _ Ne)|]. rewrite V2. destruct (frame_minv _ _ (c_a c) F2) as [_ ->]. destruct (frame_minv _ _ (c_b c) F2) as [_ ->]. fold k. etransitivity; [|exact (X _)]. unR. unfold k in *. change (nexp (Elem := RElem)) with exp. field. exact K. }
  destruct (twisted_iterations c _ dt n Ne _ S) as (H3 & p3 & E3 & R3 & _). rewrite E3. exact R3.
Qed.

(** ** Groove joints *)
Lemma groove_exact (H0 H : Rheap) c (dt : R) (p : groove) : hframe H0 H -> c_a c <> c_b c -> movable_pair (H0 (c_a c)) (H0 (c_b c)) -> 0 <= c_maxforce c * dt ->
  let p1 := groove_prestep H0 c dt p in let n := gv_tn p1 in
  vdot n n = 1 -> gv_clamp p1 = 0 ->
  b_iinv (H0 (c_a c)) * (vdot (gv_r1 p1) n * vcross (gv_r1 p1) n) + b_iinv (H0 (c_b c)) * (vdot (gv_r2 p1) n * vcross (gv_r2 p1) n) = 0 ->
  let '(H', p2) := groove_apply H c dt p1 in
  vmag (gv_j p2) < c_maxforce c * dt ->
  normal_relative_velocity (H' (c_a c)) (H' (c_b c)) (gv_r1 p1) (gv_r2 p1) n = vdot (gv_bias p1) n.
Proof.
  intros F Ne P M p1 n U C Q. unfold groove_apply. intros Lt. cbn [gv_j] in Lt.
  assert (K1 : gv_k p1 = ktensor (H (c_a c)) (H (c_b c)) (gv_r1 p1) (gv_r2 p1)).
  { rewrite (ktensor_frame H0 H _ _ _ _ F). unfold p1, groove_prestep. cbv zeta. destruct (_ <=? _)%num; [reflexivity|]. destruct (_ <=? _)%num; reflexivity. }
  rewrite K1 in *. pose proof (ktensor_exact H (c_a c) (c_b c) (gv_r1 p1) (gv_r2 p1) (gv_bias p1) Ne (pair_frame _ _ _ _ F P)) as X. cbv zeta in X.
  set (j := mat2_transform _ _) in *. clearbody j. destruct (relvel_after H (c_a c) (c_b c) (gv_r1 p1) (gv_r2 p1) j Ne) as [X1 X2]. cbv zeta in X1, X2. rewrite X in X1, X2. clear X K1.
  unfold groove_constrain in *. cbv zeta in *. fold n in Lt |- *. rewrite C in *. assert (B : (n0 <? 0 * vcross (vadd (gv_j p1) j) n)%num = false) by (apply Rltb_false; unR; lra).
  rewrite B in *. pose proof (clampmag_unclamped _ _ M Lt) as E. unR. rewrite E in *. clear Lt B E.
  unfold vproject. set (z := vadd (gv_j p1) j). set (q := vsub (vscale (N := RNum) n _) _).
  destruct (relvel_after H (c_a c) (c_b c) (gv_r1 p1) (gv_r2 p1) q Ne) as [Y1 Y2]. cbv zeta in Y1, Y2. unfold normal_relative_velocity. set (v := relative_velocity (H (c_a c)) (H (c_b c)) _ _) in *. set (v' := relative_velocity (apply_impulses _ _ _ _ _ _ _) _ _ _) in *. clearbody v v'.
  destruct (frame_minv _ _ (c_a c) F) as [Fa Fa']. destruct (frame_minv _ _ (c_b c) F) as [Fb Fb']. rewrite Fa, Fa', Fb, Fb' in *. clear Fa Fa' Fb Fb'.
  assert (Q1 : vx q = vx n * (vdot z n) - vx (gv_j p1)) by (unfold q; cbn [vsub vscale vx]; rewrite U; unR; field).
  assert (Q2 : vy q = vy n * (vdot z n) - vy (gv_j p1)) by (unfold q; cbn [vsub vscale vy]; rewrite U; unR; field).
  rewrite Q1, Q2 in *. clear Q1 Q2. clearbody q.
  assert (L1 : vdot v' n = vx v' * vx n + vy v' * vy n) by reflexivity. assert (L2 : vdot (gv_bias p1) n = vx (gv_bias p1) * vx n + vy (gv_bias p1) * vy n) by reflexivity.
  rewrite L1, L2, Y1, Y2, X1, X2. clear L1 L2 Y1 Y2 X1 X2. revert U Q. unfold z. set (o := gv_j p1). set (r1 := gv_r1 p1). set (r2 := gv_r2 p1). clearbody n o r1 r2.
  set (ma := b_minv (H0 (c_a c))). set (mb := b_minv (H0 (c_b c))). set (ia := b_iinv (H0 (c_a c))). set (ib := b_iinv (H0 (c_b c))). clearbody ma mb ia ib.
  destruct n as [nx ny], o as [ox oy], r1 as [x1 y1], r2 as [x2 y2], j as [jx jy], v as [p0 q0]. unV. cbn [vx vy]. unR. intros U Q.
  remember ((ox + jx) * nx + (oy + jy) * ny) as s eqn:Es. remember (- (ox + jx) * ny + (oy + jy) * nx) as tq eqn:Et.
  assert (Jx : jx = s * nx - tq * ny - ox) by (transitivity ((ox + jx) * (nx * nx + ny * ny) - ox); [rewrite U; ring|subst; ring]).
  assert (Jy : jy = s * ny + tq * nx - oy) by (transitivity ((oy + jy) * (nx * nx + ny * ny) - oy); [rewrite U; ring|subst; ring]).
  clear Es Et. subst jx jy. apply Rminus_diag_uniq.
  match type of Q with ?e = 0 => transitivity (- tq * e); [ring|rewrite Q; ring] end.
Qed.
