(** Proofs of C68. *)
From Coq Require Import ZArith NArith Bool Reals List Lra Lia Arith FunctionalExtensionality.
From Verif Require Import Num NumReal Vec VecReal BB Transform Body BodySpec BodyProofs Solver SolverSpec SolverProofs SolverProofs2 Joints JointsSpec JointsProofs
  Narrow Persist PersistProofs ArbView ArbViewSpec ArbViewProofs ArbViewProofs2 EquilSpec.
Import ListNotations.
Local Open Scope R_scope.

(** ** Joints under load *)
Lemma arm_anchor (b : Rbody) p : coherent b -> anchor_arm b p = arm b p.
Proof. intros C. unfold arm. rewrite <- arm_place by exact C. destruct (b_pos b), (anchor_arm b p). unfold vsub, vadd. cbn. unR. f_equal; ring. Qed.
Lemma frame_coherent (b b' : Rbody) : bframe b b' -> coherent b -> coherent b'.
Proof. intros (_ & _ & _ & _ & A & _ & C & P & _ & T & _). unfold coherent, set_transform. cbn [b_tf set_tf_field]. now rewrite A, C, P, T. Qed.
Lemma frame_world (b b' : Rbody) p : bframe b b' -> local_to_world b' p = local_to_world b p.
Proof. intros (_ & _ & _ & _ & A & _ & C & P & _ & T & _). unfold local_to_world. now rewrite T. Qed.
Lemma frame_arm (b b' : Rbody) p : bframe b b' -> arm b' p = arm b p.
Proof. intros F. unfold arm. rewrite (frame_world _ _ _ F). destruct F as (_ & _ & _ & _ & A & _ & C & P & _). now rewrite P. Qed.
Lemma frame_apart (a b a' b' : Rbody) p q : bframe a a' -> bframe b b' -> apart a' b' p q = apart a b p q.
Proof. intros F G. unfold apart. now rewrite (frame_world _ _ _ F), (frame_world _ _ _ G). Qed.
Lemma frame_angle (b b' : Rbody) : bframe b b' -> b_angle b' = b_angle b.
Proof. now intros (_ & _ & _ & _ & A & _). Qed.
Lemma satisfied_frame (H H' : Rheap) c k : hframe H H' -> satisfied H c k -> satisfied H' c k.
Proof.
  intros F. pose proof (F (c_a c)) as A. pose proof (F (c_b c)) as B. unfold satisfied. cbv zeta.
  destruct k; rewrite ?(frame_world _ _ _ A), ?(frame_world _ _ _ B), ?(frame_apart _ _ _ _ _ _ A B), ?(frame_angle _ _ A), ?(frame_angle _ _ B); auto.
  intros (X & Y & Z & t & T & U). repeat (split; [assumption|]). exists t. split; [exact T|]. now rewrite (frame_world _ _ _ A).
Qed.
Lemma carries_frame d dt (H H' : Rheap) c k : hframe H H' -> carries d dt H c k -> carries d dt H' c k.
Proof.
  intros F. pose proof (F (c_a c)) as A. pose proof (F (c_b c)) as B. pose proof (satisfied_frame H H' c k F) as S. unfold carries. cbv zeta.
  destruct k; rewrite ?(frame_world _ _ _ A), ?(frame_world _ _ _ B), ?(frame_apart _ _ _ _ _ _ A B), ?(frame_arm _ _ _ A), ?(frame_arm _ _ _ B), ?(frame_angle _ _ A), ?(frame_angle _ _ B); auto; intros [X Y]; auto.
Qed.
Lemma solvable_frame (H H' : Rheap) c k : hframe H H' -> solvable H c k -> solvable H' c k.
Proof.
  intros F. destruct (F (c_a c)) as (_ & A & _ & A' & _). destruct (F (c_b c)) as (_ & B & _ & B' & _). unfold solvable. cbv zeta. now rewrite A, A', B, B'.
Qed.

(** A loaded joint after PreStep. *)
Definition bearing (dt : R) (c : Rcstr) (k : @jclass RNum) : Prop :=
  match k with
  | JPivot p => pv_bias p = vzero /\ vmag (pv_j p) <= c_maxforce c * dt
  | JPin p => pn_bias p = 0 /\ Rabs (pn_j p) <= c_maxforce c * dt
  | JSlide p => sl_n p = vzero
  | JGroove p => gv_j p = vzero /\ gv_bias p = vzero
  | JGear p => ge_bias p = 0 /\ Rabs (ge_j p) <= c_maxforce c * dt
  | JMotor p => mo_rate p = 0 /\ Rabs (mo_j p) <= c_maxforce c * dt
  | JRLimit p => rl_bias p = 0
  | JRatchet p => ra_bias p = 0
  | JSpring p => sp_target p = 0
  | JRSpring p => rs_target p = 0
  end.
Lemma clamp_in (x l : R) : Rabs x <= l -> nclamp (N := RNum) x (- l) l = x.
Proof.
  intros L. assert (B : - l <= x <= l) by (revert L; unfold Rabs; destruct (Rcase_abs x); intros; split; lra).
  unfold nclamp. unR. rcases; unfold Rmin; destruct Rle_dec; lra.
Qed.
Lemma clampmag_in (v : Rvec) (l : R) : vmag v <= l -> vclampmag v l = v.
Proof.
  intros L. unfold vclampmag. pose proof (mag_nonneg v) as P. pose proof (mag_sq v) as S.
  destruct (nltb _ _) eqn:E; [|reflexivity]. exfalso. revert E. unR. rcases; try discriminate. intros _. nra.
Qed.
Lemma add_zero_r (v : Rvec) : vadd v vzero = v. Proof. destruct v. unV. cbn. unR. f_equal; ring. Qed.
Lemma bearing_apply (H : Rheap) c (dt : R) k : still (H (c_a c)) -> still (H (c_b c)) -> bearing dt c k -> 0 <= c_maxforce c * dt -> joint_apply H c dt k = (H, k).
Proof.
  intros SA SB Y M. pose proof (fun r1 r2 => relative_still _ _ r1 r2 SA SB) as RV.
  assert (CASE : ready k \/ match k with JPivot _ | JPin _ | JGear _ | JMotor _ | JSlide _ | JRLimit _ | JRatchet _ | JSpring _ | JRSpring _ => True | _ => False end) by (destruct k; cbn in *; tauto).
  destruct CASE as [CASE|CASE]; [apply ready_apply; auto|].
  pose proof (proj1 (proj2 SA)) as WA. pose proof (proj1 (proj2 SB)) as WB.
  destruct k; cbn [bearing joint_apply] in *; try contradiction.
  - destruct Y as [Y1 Y2]. unfold pivot_apply. rewrite RV, Y1, sub_zero, transform_zero, add_zero_r, clampmag_in, sub_zero, impulses_zero by exact Y2. repeat f_equal. destruct p; cbn in *; congruence.
  - destruct Y as [Y1 Y2]. unfold pin_apply, normal_relative_velocity. cbv zeta. rewrite RV, dot_zero, Y1.
    replace (nadd (Num := RNum) (pn_j p) _) with (pn_j p : R) by (unR; rring). unR. rewrite clamp_in by exact Y2. rewrite scale_zero by lra. rewrite impulses_zero. repeat f_equal. destruct p; cbn in *; congruence.
  - unfold slide_apply. rewrite Y. replace (veqb (@vzero RNum) vzero) with true; auto. symmetry. unfold veqb, vzero. cbn [vx vy]. unR. rcases; auto; lra.
  - destruct Y as [Y1 Y2]. unfold gear_apply. cbv zeta. rewrite Y1, WA, WB. replace (nadd (Num := RNum) (ge_j p) _) with (ge_j p : R) by (unR; rring). unR. rewrite clamp_in by exact Y2.
    replace (ge_j p - ge_j p) with 0 by ring. rewrite gear_zero. repeat f_equal. destruct p; cbn in *; congruence.
  - destruct Y as [Y1 Y2]. unfold motor_apply. cbv zeta. rewrite Y1, WA, WB. replace (nadd (Num := RNum) (mo_j p) (nmul (Num := RNum) _ _)) with (mo_j p : R) by (unR; rring). unR. rewrite clamp_in by exact Y2.
    replace (mo_j p - mo_j p) with 0 by ring. rewrite torque_zero. repeat f_equal. destruct p; cbn in *; congruence.
  - unfold rlimit_apply. rewrite Y. replace (neqb (Num := RNum) 0 n0) with true; auto. symmetry. unR. rcases; auto; lra.
  - unfold ratchet_apply. rewrite Y. replace (neqb (Num := RNum) 0 n0) with true; auto. symmetry. unR. rcases; auto; lra.
  - unfold spring_apply, normal_relative_velocity. cbv zeta. rewrite RV, dot_zero, Y. rewrite scale_zero by (unR; rring). rewrite impulses_zero. destruct p; cbn in *. subst. repeat f_equal; unR; rring.
  - unfold rspring_apply. cbv zeta. rewrite WA, WB, Y. replace (nmul (Num := RNum) (nmul (Num := RNum) _ _) _) with (0 : R) by (unR; rring). rewrite damp_zero. destruct p; cbn in *. subst. repeat f_equal; unR; rring.
Qed.

Definition same_load (c : Rcstr) (k k' : @jclass RNum) : Prop := forall i px py pa, Jnt i px py pa (c, k') = Jnt i px py pa (c, k).
Lemma spring_axis (delta n : Rvec) (l : R) : 0 < l -> vmag delta = l -> vscale n l = delta ->
  (if negb (neqb (vmag delta) (@n0 RNum)) then vscale delta (ndiv (Num := RNum) n1 (vmag delta)) else vscale delta (ndiv (Num := RNum) n1 ninf)) = n.
Proof.
  intros P M E. rewrite M. replace (neqb (Num := RNum) l n0) with false by (symmetry; unR; rcases; auto; lra). cbn [negb]. rewrite <- E. destruct n. unV. cbn. unR. f_equal; field; lra.
Qed.
Lemma jnt_zero_slide i px py pa c (p : @slide RNum) : sl_j p = 0 -> Jnt i px py pa (c, JSlide p) = 0.
Proof. intros Z. cbn [Jnt]. rewrite imp_scale, Z. ring. Qed.
Lemma jnt_zero_groove i px py pa c (p : @groove RNum) : gv_j p = vzero -> Jnt i px py pa (c, JGroove p) = 0.
Proof. intros Z. cbn [Jnt]. rewrite Z. unfold Imp, sides, eff, cross, vzero. cbn [vx vy]. unR. destruct (Nat.eqb i (c_a c)), (Nat.eqb i (c_b c)); ring. Qed.
Lemma sides_zero i pa a b x : x = 0 -> sides i a b (pa * x) (pa * x) = 0.
Proof. intros ->. unfold sides. destruct (Nat.eqb i a), (Nat.eqb i b); ring. Qed.
Lemma carry_prestep (H : Rheap) c (d dt : R) k : coherent (H (c_a c)) -> coherent (H (c_b c)) -> carries d dt H c k -> solvable H c k ->
  let k' := snd (joint_prestep H c dt k) in
  same_load c k k' /\ carries d dt H c k' /\ solvable H c k' /\ bearing dt c k' /\
  (forall i px py pa, springy (c, k') = true -> d = 1 \/ Jnt i px py pa (c, k') = 0).
Proof.
  intros CA CB S V. cbv zeta. destruct (solvable_limits _ _ _ V) as (MF & MB & RO).

  destruct k.
  - cbn [carries] in S. destruct S as (S1 & S2 & S3 & S4). cbn [joint_prestep snd]. unfold pivot_prestep. cbv zeta. rewrite arm_gap, S1, sub_zero, zero_scale, clampmag_zero, !arm_anchor by auto.
    split; [intros i px py pa; cbn [Jnt pv_r1 pv_r2 pv_j]; now rewrite S2, S3|]. split; [cbn [carries pv_anchA pv_anchB pv_r1 pv_r2 pv_j]; auto|]. split; [exact V|]. split; [split; [reflexivity|exact S4]|discriminate].
  - cbn [carries] in S. destruct S as (S1 & S2 & S3 & S4 & S5 & S6). cbn [joint_prestep snd]. unfold pin_prestep. cbv zeta.
    match goal with |- context [if negb ?b then ?x else ?y] => set (ax := if negb b then x else y) end. assert (AX : ax = pn_n p).
    { unfold ax. apply (spring_axis _ _ (pn_dist p)); auto; [|rewrite arm_gap'; auto]. rewrite gap_mag'; auto. }
    clearbody ax. subst ax. rewrite gap_mag', S1, !arm_anchor by auto.
    split; [intros i px py pa; cbn [Jnt pn_r1 pn_r2 pn_j pn_n]; now rewrite S3, S4|]. split; [cbn [carries pn_anchA pn_anchB pn_r1 pn_r2 pn_j pn_n pn_dist]; auto 10|]. split; [exact V|].
    split; [split; [cbn [pn_bias]; apply clamp_bias3; [exact MB|unR; lra]|exact S6]|discriminate].
  - cbn [carries] in S. destruct S as [S Z]. destruct (prestep_ready H c dt (JSlide p) CA CB MB S RO) as (k' & E & Rd & S' & V'). specialize (V' V). rewrite E. cbn [snd].
    cbn [joint_prestep] in E. injection E as E. subst k'. set (p' := slide_prestep _ _ _ _) in *. clearbody p'. destruct Rd as [R1 R2].
    split; [intros i px py pa; now rewrite !jnt_zero_slide|]. split; [split; auto|]. split; [exact V'|]. split; [exact R1|discriminate].
  - cbn [carries] in S. destruct (prestep_ready H c dt (JGroove p) CA CB MB S RO) as (k' & E & Rd & S' & V'). specialize (V' V). rewrite E. cbn [snd].
    cbn [joint_prestep] in E. injection E as E. subst k'. set (p' := groove_prestep _ _ _ _) in *. clearbody p'.
    split; [intros i px py pa; rewrite !jnt_zero_groove; auto; [apply S|apply Rd]|]. split; [exact S'|]. split; [exact V'|]. split; [exact Rd|discriminate].
  - cbn [carries] in S. destruct S as [S Z]. cbn [joint_prestep snd]. unfold gear_prestep. cbv zeta.
    split; [intros i px py pa; reflexivity|]. split; [split; assumption|]. split; [exact V|]. split; [split; [cbn [ge_bias]; apply clamp_bias3; [exact MB|unR; lra]|exact Z]|discriminate].
  - cbn [carries] in S. destruct S as [S Z]. cbn [joint_prestep snd]. unfold motor_prestep. cbv zeta.
    split; [intros i px py pa; reflexivity|]. split; [split; assumption|]. split; [exact V|]. split; [split; assumption|discriminate].
  - cbn [carries] in S. destruct S as [S Z]. destruct (prestep_ready H c dt (JRLimit p) CA CB MB S RO) as (k' & E & Rd & S' & V'). specialize (V' V). rewrite E. cbn [snd].
    cbn [joint_prestep] in E. injection E as E. subst k'. set (p' := rlimit_prestep _ _ _ _) in *. clearbody p'. destruct Rd as [R1 R2].
    split; [intros i px py pa; cbn [Jnt]; now rewrite !sides_zero|]. split; [split; auto|]. split; [exact V'|]. split; [exact R1|discriminate].
  - cbn [carries] in S. destruct S as [S Z]. destruct (prestep_ready H c dt (JRatchet p) CA CB MB S RO) as (k' & E & Rd & S' & V'). specialize (V' V). rewrite E. cbn [snd].
    cbn [joint_prestep] in E. injection E as E. subst k'. set (p' := ratchet_prestep _ _ _ _) in *. clearbody p'. destruct Rd as [R1 R2].
    split; [intros i px py pa; cbn [Jnt]; now rewrite !sides_zero|]. split; [split; auto|]. split; [exact V'|]. split; [exact R1|discriminate].
  - cbn [carries] in S. cbv zeta in S. destruct S as (S1 & S2 & S3 & S4 & S5 & S6). cbn [joint_prestep]. unfold spring_prestep. cbv zeta. cbn [snd].
    match goal with |- context [if negb ?b then ?x else ?y] => set (ax := if negb b then x else y) end. assert (AX : ax = sp_n p).
    { unfold ax. apply (spring_axis _ _ (apart (H (c_a c)) (H (c_b c)) (sp_anchA p) (sp_anchB p))); auto; [|rewrite arm_gap; auto]. rewrite gap_mag; auto. }
    clearbody ax. subst ax. rewrite gap_mag, !arm_anchor by auto.
    split; [intros i px py pa; cbn [Jnt sp_r1 sp_r2 sp_j sp_n]; now rewrite S2, S3, S5|].
    split; [cbn [carries sp_anchA sp_anchB sp_r1 sp_r2 sp_j sp_n sp_force]; auto 10|]. split; [exact V|].
    split; [reflexivity|]. intros i px py pa _. destruct S6 as [S6|S6]; [now left|right]. cbn [Jnt sp_n sp_j sp_r1 sp_r2]. rewrite imp_scale, S6. unR. ring.
  - cbn [carries] in S. destruct S as [S S6]. cbn [joint_prestep]. unfold rspring_prestep. cbv zeta. cbn [snd].
    split; [intros i px py pa; cbn [Jnt rs_j]; now rewrite S|]. split; [cbn [carries rs_j rs_torque]; auto|]. split; [exact V|].
    split; [reflexivity|]. intros i px py pa _. destruct S6 as [S6|S6]; [now left|right]. cbn [Jnt rs_j]. apply sides_zero. change (rs_torque p (b_angle (H (c_a c)) - b_angle (H (c_b c))) * dt = 0). rewrite S6. ring.
Qed.
