(** Concrete worlds for C69. *)
From Coq Require Import ZArith NArith Bool Reals List Lra Lia Arith.
From Verif Require Import Num NumReal Vec VecReal BB BBProofs Transform Body BodySpec BodyProofs Shapes Solver SolverSpec SolverProofs SolverProofs2 SolverProofs5 SolverProofs6 Joints JointsSpec JointsProofs
  Narrow Persist ArbViewEx EquilProofs EquilEx DecaySpec DecayProofs DecayProofs2.
Import ListNotations.
Local Open Scope R_scope.

(** Two unit balls of radius 1 whose centres are 1 apart. *)
Definition ball1 : @circle RNum := Circle (BB.rvec 0 0) (BB.rvec 0 0) 1.
Definition two_balls : balls := Balls 1 2 ball1 ball1 plain plain.
Definition two_world : Rworld := World (fun i => match i with 1%nat => unit_at 0 0 | 2%nat => unit_at 1 0 | _ => ground end) [] [].
Definition two_pushing : pushing := Pushing (1 / 10) (1 / 2) 1 1 [1; 2]%nat.
Lemma unit_still x y : still (unit_at x y) /\ b_cog (unit_at x y) = BB.rvec 0 0 /\ b_minv (unit_at x y) = 1 /\ b_iinv (unit_at x y) = 1 /\ b_pos (unit_at x y) = BB.rvec x y.
Proof. rewrite unit_ub. repeat split. Qed.
Lemma two_ok : ball_ok two_pushing (w_heap two_world 1%nat) 1 ball1 /\ ball_ok two_pushing (w_heap two_world 2%nat) 2 ball1 /\
  0 < b_minv (w_heap two_world 1%nat) + b_minv (w_heap two_world 2%nat) /\ overlap two_balls (w_heap two_world) = 1.
Proof.
  cbn [two_world w_heap]. destruct (unit_still 0 0) as (A1 & A2 & A3 & A4 & A5), (unit_still 1 0) as (B1 & B2 & B3 & B4 & B5). unfold ball_ok. split; [|split; [|split]].
  - split; [exact A1|]. split; [eexists _, _, _; reflexivity|]. rewrite A2, A3. split; [reflexivity|]. split; [lra|]. left. cbn. auto.
  - split; [exact B1|]. split; [eexists _, _, _; reflexivity|]. rewrite B2, B3. split; [reflexivity|]. split; [lra|]. left. cbn. auto.
  - rewrite A3, B3. lra.
  - unfold overlap. cbn [two_balls l_a l_b l_ca l_cb ball1 ci_r w_heap two_world]. rewrite A5, B5. replace (vdist (BB.rvec 0 0) (BB.rvec 1 0)) with 1; [lra|].
    unfold vdist, vmag, vsub, vdot, BB.rvec. cbn. unR. replace ((0 - 1) * (0 - 1) + (0 - 0) * (0 - 0)) with 1 by ring. now rewrite sqrt_1.
Qed.

(** A body and one that cannot move, and a joint between them. *)
Definition with_one (b : Rbody) : Rheap := fun i => match i with 1%nat => b | _ => ground end.
Definition pulls (dt : R) : pulling := Pulling vzero 1 dt [1%nat].
Definition pull_cstr : Rcstr := @Cstr RNum 0%nat 1%nat 100 (1 / 2) 100.
Definition integrated (q : pulling) (H : Rheap) : Rheap := fold_left (fun H i => upd H i (update_velocity (N := RNum) (H i) (u_g q) (u_damping q) (u_dt q))) (u_dyn q) H.
Lemma first_pull q (w : Rworld) c k prev : no_spring k -> w_joints w = [(c, k)] -> let H0 := move_all (u_dt q) (u_dyn q) (w_heap w) in exists d,
  let k1 := snd (joint_prestep H0 c (u_dt q) k) in
  w_joints (pull_step q w (1%nat, prev)) = [(c, snd (joint_apply (joint_cached (integrated q H0) c d k1) c (u_dt q) k1))].
Proof.
  intros NS J H0. unfold pull_step, full_step. cbn [fst snd]. fold H0. rewrite J. unfold solve. cbv zeta. unfold prestep_all. cbn [w_heap w_arbs w_joints map joints_prestep].
  pose proof (prestep_nothing H0 c (u_dt q) k NS) as P. destruct (joint_prestep H0 c (u_dt q) k) as [H1 k1] eqn:E1. cbn [fst snd] in *. subst H1. unfold integrate_all. cbn [w_heap w_arbs w_joints].
  unfold cached_all. cbn [w_heap w_arbs w_joints fold_left fst snd iterations]. match goal with |- context [joint_cached _ c ?d k1] => exists d end. unfold iteration. cbn [w_heap w_arbs w_joints arbs_apply joints_apply]. fold (integrated q H0).
  match goal with |- context [joint_cached _ c ?d k1] => destruct (joint_apply (joint_cached (integrated q H0) c d k1) c (u_dt q) k1) end. reflexivity.
Qed.
Lemma rate1 (dt : R) : dt = 1 -> npow (N := RNum) (1 / 2) dt = 1 / 2.
Proof. intros ->. assert (P : (0 < 1 / 2)%R) by lra. rewrite (pow_pos _ _ P). exact (Rpower_1 _ P). Qed.
Lemma ground_zero : b_angle ground = 0 /\ b_w ground = 0 /\ b_iinv ground = 0 /\ b_minv ground = 0 /\ b_vel ground = vzero /\ b_pos ground = BB.rvec 0 0 /\ b_cog ground = BB.rvec 0 0.
Proof. rewrite ground_is. repeat split. Qed.

(** A gear that is out of phase by 1. *)
Definition turned : Rbody := history 1 1 [OpSetAngle 1].
Lemma turned_fields : b_angle turned = 1 /\ b_w turned = 0 /\ b_iinv turned = 1 /\ b_torque turned = 0 /\ b_wbias turned = 0.
Proof. unfold turned, history. cbn [fold_left bstep]. rewrite new_unit. unfold set_angle. rewrite activate_idle by reflexivity. repeat split. Qed.
Definition gear1 : @gear RNum := new_gear (N := RNum) 0 1.
Definition gear_world : Rworld := World (with_one turned) [] [(pull_cstr, JGear gear1)].
Lemma spin_moved (b : Rbody) dt : b_w b = 0 -> b_wbias b = 0 -> b_torque b = 0 -> let b' := update_velocity (update_position b dt) vzero 1 dt in
  b_w b' = 0 /\ b_angle (update_position b dt) = b_angle b /\ b_iinv b' = b_iinv b /\ b_iinv (update_position b dt) = b_iinv b.
Proof.
  intros W B T. cbv zeta. assert (U : b_w (update_position b dt) = 0 /\ b_torque (update_position b dt) = 0 /\ b_angle (update_position b dt) = b_angle b /\ b_iinv (update_position b dt) = b_iinv b).
  { unfold update_position, set_transform. unB. rewrite W, B. repeat split; auto. symmetry. unR. set (x := b_angle b : R). transitivity (x + 0 * dt)%R; [apply stay_put|]. f_equal. f_equal. symmetry. apply Rplus_0_r. }
  destruct U as (U1 & U2 & U3 & U4). split; [|split; [exact U3|split; [|exact U4]]].
  - unfold update_velocity. destruct (b_type _); try exact U1; unB; rewrite U1, U2; unR; ring.
  - destruct (velocity_spot (update_position b dt) vzero 1 dt) as ((_ & X & _) & _). rewrite X. exact U4.
Qed.
Lemma gear_first (dt prev : R) : dt = 1 -> let w1 := pull_step (pulls dt) gear_world (1%nat, prev) in weak (pulls dt) w1 /\ gear_error pull_cstr gear1 (w_heap w1) = 1.
Proof.
  intros D. cbv zeta. destruct turned_fields as (T1 & T2 & T3 & T4 & T5). destruct ground_zero as (G1 & G2 & G3 & _). destruct (spin_moved turned dt T2 T5 T4) as (S1 & S2 & S3 & S4). cbv zeta in *. split.
  - destruct (first_pull (pulls dt) gear_world pull_cstr (JGear gear1) prev I eq_refl) as (d & E). cbv zeta in E. unfold weak. rewrite E. constructor; [|constructor]. unfold below_limit. clear E.
    unfold integrated. cbn [pulls u_g u_damping u_dt u_dyn w_heap gear_world]. unfold move_all. cbn [fold_left fst snd pull_cstr c_maxforce joint_prestep joint_cached joint_apply].
    set (t2 := update_velocity _ _ _ _). change (b_w t2 = 0) in S1. change (b_iinv t2 = b_iinv turned) in S3. set (H0 := upd (with_one turned) 1 _). set (H2 := upd H0 1 _).
    unfold gear_prestep. cbv zeta. cbn [pull_cstr c_a c_b c_errorbias c_maxbias]. change (H0 1%nat) with (update_position (N := RNum) turned dt). change (H0 0%nat) with ground. rewrite S2, S4, G1, G3, T1, T3.
    unfold bias_coef. rewrite (rate1 dt D). cbn [gear1 new_gear ge_phase ge_ratio ge_ratioinv ge_isum ge_bias ge_j].
    unfold gear_cached, gear_apply. cbv zeta. cbn [pull_cstr c_a c_b c_maxforce ge_phase ge_ratio ge_ratioinv ge_isum ge_bias ge_j joint_impulse snd]. unfold apply_gear, upd.
    cbn [Nat.eqb]. change (H2 1%nat) with t2. change (H2 0%nat) with ground. cbn [b_w set_w set_vel_fields b_iinv]. rewrite S1, S3, T3, G2, G3. subst dt.
    rewrite (clamp_in _ 100) by (unR; rewrite Rabs_left; lra). match goal with |- context [nclamp ?x _ _] => replace x with (- (1 / 2))%R by (unR; field) end.
    rewrite (clamp_in _ (100 * 1)%R) by (unR; rewrite Rabs_left; lra). unR. rewrite Rabs_left; lra.
  - pose proof (placed (pulls dt) gear_world pull_cstr (JGear gear1) 0 prev I eq_refl) as PL. destruct (PL 0%nat) as (_ & _ & A & _), (PL 1%nat) as (_ & _ & B & _). unfold gear_error. cbn [pull_cstr c_a c_b]. rewrite A, B.
    cbn [pulls u_dt u_dyn gear_world w_heap]. unfold move_all. cbn [fold_left]. change (upd (with_one turned) 1 ?x 1%nat) with x. change (upd (with_one turned) 1 ?x 0%nat) with ground.
    change (with_one turned 1%nat) with turned. rewrite S2, T1, G1. cbn. unR. ring.
Qed.
Lemma gear_ok (dt : R) : NoDup (u_dyn (pulls dt)) /\ b_iinv (w_heap gear_world (c_a pull_cstr)) * ge_ratioinv gear1 + ge_ratio gear1 * b_iinv (w_heap gear_world (c_b pull_cstr)) <> 0 /\
  carried (pulls dt) (w_heap gear_world (c_a pull_cstr)) (c_a pull_cstr) /\ carried (pulls dt) (w_heap gear_world (c_b pull_cstr)) (c_b pull_cstr).
Proof.
  destruct turned_fields as (T1 & T2 & T3 & T4 & T5). destruct ground_zero as (G1 & G2 & G3 & G4 & G5 & _). cbn [pull_cstr c_a c_b gear_world w_heap with_one gear1 new_gear ge_ratio ge_ratioinv pulls u_dyn]. split; [repeat constructor; cbn; tauto|].
  split; [rewrite T3, G3; unR; lra|]. split; [right; auto|]. left. cbn. auto.
Qed.
(** A step eight times as long follows: the gear is then out of phase by -3. *)
Theorem longer_step : exists q1 q2 c p w prev, u_dyn q1 = u_dyn q2 /\ 0 < u_dt q1 /\ 0 < u_dt q2 /\ w_joints w = [(c, JGear p)] /\ 0 < c_errorbias c <= 1 /\
  let w1 := pull_step q1 w (1%nat, prev) in weak q1 w1 /\ gear_error c p (w_heap w1) = 1 /\ forall n, gear_error c p (w_heap (pull_step q2 w1 (S n, u_dt q1))) = -3.
Proof.
  exists (pulls 1), (pulls 8), pull_cstr, gear1, gear_world, 1. destruct (gear_first 1 1 eq_refl) as [W E]. destruct (gear_ok 1) as (ND & NZ & CA & CB). split; [reflexivity|]. split; [cbn; lra|]. split; [cbn; lra|]. split; [reflexivity|].
  split; [cbn; lra|]. cbv zeta. split; [exact W|]. split; [exact E|]. intros n.
  destruct (geared_next (pulls 1) pull_cstr gear1 ND ltac:(discriminate) ltac:(cbn; lra) ltac:(cbn; lra) (pulls 8) gear_world 0 1 eq_refl) as [_ X].
  { exists gear1. auto 10. }
  cbv zeta in X. change (u_dt (pulls 1)) with 1. rewrite (X W) with (n := n) (pr := 1).
  - rewrite E. change (1 * (1 - (1 - Rpower (1 / 2) 1) * (8 / 1)) = -3). assert (P : (0 < 1 / 2)%R) by lra. rewrite (Rpower_1 _ P). lra.
  - rewrite E. cbn [pulls u_dt pull_cstr c_errorbias c_maxbias]. rewrite (rate1 1 eq_refl), Rabs_R1. lra.
Qed.

(** A pivot joint between bodies 1 apart. *)
Definition pivot1 : @pivot RNum := @Pivot RNum (BB.rvec 0 0) (BB.rvec 0 0) vzero vzero (Mat2 0 0 0 0) vzero vzero.
Definition pivot_world : Rworld := World (with_one (unit_at 1 0)) [] [(pull_cstr, JPivot pivot1)].
Lemma unit_moved (dt : R) : let b := ub 1 0 0 0 0 in let b' := update_velocity b vzero 1 dt in
  update_position b dt = b /\ b_minv b' = 1 /\ b_iinv b' = 1 /\ b_vel b' = vzero /\ b_w b' = 0.
Proof.
  cbv zeta. split.
  - rewrite <- unit_ub. apply position_rest; [apply unit_still|]. apply history_coherent.
  - unfold update_velocity. rewrite ub_dynamic. unfold ub, BB.rvec, vzero. unB. cbn. split; [reflexivity|]. split; [reflexivity|]. split; [apply vec_ext; unfold vadd, vscale; cbn; unR; ring|unR; ring].
Qed.
Lemma one_ub : with_one (unit_at 1 0) 1%nat = ub 1 0 0 0 0. Proof. apply unit_ub. Qed.
Lemma pivot_first (dt prev : R) : dt = 1 -> let w1 := pull_step (pulls dt) pivot_world (1%nat, prev) in weak (pulls dt) w1 /\ gap pull_cstr (w_heap w1) = BB.rvec 1 0.
Proof.
  intros D. cbv zeta. destruct (unit_moved dt) as (U1 & U2 & U3 & U4 & U5). cbv zeta in *. destruct ground_zero as (G1 & G2 & G3 & G4 & G5 & G6 & G7). split.
  - destruct (first_pull (pulls dt) pivot_world pull_cstr (JPivot pivot1) prev I eq_refl) as (d & E). cbv zeta in E. unfold weak. rewrite E. constructor; [|constructor]. unfold below_limit. clear E.
    unfold integrated. cbn [pulls u_g u_damping u_dt u_dyn w_heap pivot_world]. unfold move_all. cbn [fold_left fst snd pull_cstr c_maxforce joint_prestep joint_cached joint_apply].
    rewrite one_ub, U1. set (H0 := upd (with_one (unit_at 1 0)) 1 _). change (H0 1%nat) with (ub 1 0 0 0 0). set (t2 := update_velocity _ _ _ _) in *. set (H2 := upd H0 1 _).
    unfold pivot_prestep. cbv zeta. cbn [pull_cstr c_a c_b c_errorbias c_maxbias pivot1 pv_anchA pv_anchB pv_j]. change (H0 1%nat) with (ub 1 0 0 0 0). change (H0 0%nat) with ground.
    assert (A1 : anchor_arm ground (BB.rvec 0 0) = vzero) by (rewrite <- G7; apply no_arm). assert (A2 : anchor_arm (ub 1 0 0 0 0) (BB.rvec 0 0) = vzero) by (apply (no_arm (ub 1 0 0 0 0))). rewrite A1, A2.
    unfold bias_coef. rewrite (rate1 dt D), G6. cbn [ub b_pos].
    set (K := ktensor _ _ _ _). assert (EK : K = Mat2 1 0 0 1) by (unfold K, ktensor; cbn [ub b_minv b_iinv vzero vx vy]; rewrite G3, G4; cbn; unR; f_equal; field). rewrite EK. clear K EK.
    subst dt. rewrite (clampmag_in _ 100).
    2:{ rewrite mag_scale. replace (vsub _ _) with (BB.rvec 1 0) by (apply vec_ext; unV; cbn; unR; ring). unR. rewrite Rabs_left by lra. replace (vmag (BB.rvec 1 0)) with 1; [lra|]. unfold vmag, vdot, BB.rvec. cbn. unR. replace (1 * 1 + 0 * 0) with 1 by ring. now rewrite sqrt_1. }
    unfold pivot_cached, pivot_apply. cbv zeta. cbn [pull_cstr c_a c_b c_maxforce pv_r1 pv_r2 pv_k pv_bias pv_j joint_impulse snd].
    set (H3 := apply_impulses H2 0 1 vzero vzero _).
    assert (H3v : relative_velocity (H3 0%nat) (H3 1%nat) vzero vzero = vzero).
    { unfold H3, apply_impulses, upd. cbn [Nat.eqb]. change (H2 1%nat) with t2. change (H2 0%nat) with ground. clear - U2 U3 U4 U5 G2 G3 G4 G5. clearbody t2. revert G2 G3 G4 G5. generalize ground. intros gr G2 G3 G4 G5. unfold relative_velocity, kick. apply vec_ext; unV; cbn; rewrite ?U2, ?U3, ?U4, ?U5, ?G2, ?G3, ?G4, ?G5; cbn; unR; ring. }
    rewrite H3v. set (j := vadd vzero _). assert (Ej : j = BB.rvec (- (1 / 2)) 0) by (unfold j; apply vec_ext; unfold mat2_transform; unV; cbn; unR; field). rewrite Ej.
    assert (M : vmag (BB.rvec (- (1 / 2)) 0) = 1 / 2) by (unfold vmag, vdot, BB.rvec; cbn; unR; replace (- (1 / 2) * - (1 / 2) + 0 * 0) with ((1 / 2) * (1 / 2)) by ring; apply sqrt_square; lra).
    rewrite clampmag_in; rewrite M; unR; lra.
  - pose proof (placed (pulls dt) pivot_world pull_cstr (JPivot pivot1) 0 prev I eq_refl) as PL. destruct (PL 0%nat) as (_ & _ & _ & _ & A & _), (PL 1%nat) as (_ & _ & _ & _ & B & _). unfold gap. cbn [pull_cstr c_a c_b]. rewrite A, B.
    cbn [pulls u_dt u_dyn pivot_world w_heap]. unfold move_all. cbn [fold_left]. rewrite one_ub, U1. set (H0 := upd _ _ _). change (H0 1%nat) with (ub 1 0 0 0 0). change (H0 0%nat) with ground. rewrite G6. cbn [ub b_pos]. apply vec_ext; unV; cbn; unR; ring.
Qed.
Lemma pivot_ok (dt : R) : NoDup (u_dyn (pulls dt)) /\ pv_anchA pivot1 = b_cog (w_heap pivot_world (c_a pull_cstr)) /\ pv_anchB pivot1 = b_cog (w_heap pivot_world (c_b pull_cstr)) /\
  movable_pair (w_heap pivot_world (c_a pull_cstr)) (w_heap pivot_world (c_b pull_cstr)) /\
  carried (pulls dt) (w_heap pivot_world (c_a pull_cstr)) (c_a pull_cstr) /\ carried (pulls dt) (w_heap pivot_world (c_b pull_cstr)) (c_b pull_cstr).
Proof.
  destruct ground_zero as (G1 & G2 & G3 & G4 & G5 & G6 & G7). destruct (unit_still 1 0) as (A1 & A2 & A3 & A4 & A5). cbn [pull_cstr c_a c_b pivot_world w_heap with_one pivot1 pv_anchA pv_anchB pulls u_dyn]. split; [repeat constructor; cbn; tauto|].
  unfold movable_pair. rewrite A2, A3, A4, G3, G4, G7. split; [reflexivity|]. split; [reflexivity|]. split; [lra|]. split; [right; auto|]. left. cbn. auto.
Qed.
