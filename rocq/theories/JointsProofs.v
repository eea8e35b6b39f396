(** A world at rest stays at rest; new joints are satisfied (C61). *)
From Coq Require Import ZArith Bool Reals List Lra Lia Arith FunctionalExtensionality.
From Verif Require Import Num NumReal Vec VecReal BB Transform Body BodySpec BodyProofs Solver SolverSpec Joints JointsSpec.
Import ListNotations.
Local Open Scope R_scope.

Lemma upd_id (H : Rheap) i : upd H i (H i) = H.
Proof. extensionality k. unfold upd. destruct (Nat.eqb_spec k i) as [->|]; reflexivity. Qed.
Lemma vec_eta (v : Rvec) (x y : R) : x = vx v -> y = vy v -> @V RNum x y = v.
Proof. destruct v. cbn. intros -> ->. reflexivity. Qed.
Lemma kick_zero (b : Rbody) r : kick b r vzero = b.
Proof. unfold kick, set_vel_fields. destruct b. cbn. unV. unR. f_equal; [|apply vec_eta; cbn]; unR; rring. Qed.
Lemma kick_bias_zero (b : Rbody) r : kick_bias b r vzero = b.
Proof. unfold kick_bias, set_bias_fields. destruct b. cbn. unV. unR. f_equal; [apply vec_eta; cbn|]; unR; rring. Qed.
Lemma neg_zero : @V RNum (- vx (@vzero RNum)) (- vy (@vzero RNum)) = vzero.
Proof. unfold vzero. cbn [vx vy]. f_equal; unR; rring. Qed.
Lemma impulses_zero (H : Rheap) a b r1 r2 : apply_impulses H a b r1 r2 vzero = H.
Proof. unfold apply_impulses. cbv zeta. rewrite kick_zero, upd_id. change (@V RNum _ _) with (@V RNum (- vx (@vzero RNum)) (- vy (@vzero RNum))). rewrite neg_zero, kick_zero. apply upd_id. Qed.
Lemma bias_zero (H : Rheap) a b r1 r2 : apply_bias_impulses H a b r1 r2 vzero = H.
Proof. unfold apply_bias_impulses. cbv zeta. rewrite kick_bias_zero, upd_id. change (@V RNum _ _) with (@V RNum (- vx (@vzero RNum)) (- vy (@vzero RNum))). rewrite neg_zero, kick_bias_zero. apply upd_id. Qed.
Lemma set_w_same (b : Rbody) (w : R) : w = b_w b -> set_w b w = b.
Proof. intros ->. unfold set_w, set_vel_fields. destruct b. reflexivity. Qed.
Lemma torque_zero (H : Rheap) a b : apply_torque H a b (0 : R) = H.
Proof. unfold apply_torque. cbv zeta. rewrite (set_w_same (H a)) by (unR; rring). rewrite upd_id, (set_w_same (H b)) by (unR; rring). apply upd_id. Qed.
Lemma gear_zero (H : Rheap) a b r : apply_gear H a b (0 : R) r = H.
Proof. unfold apply_gear. cbv zeta. rewrite (set_w_same (H a)) by (unR; rring). rewrite upd_id, (set_w_same (H b)) by (unR; rring). apply upd_id. Qed.
Lemma damp_zero (H : Rheap) a b : apply_damp H a b (0 : R) = H.
Proof. unfold apply_damp. cbv zeta. rewrite (set_w_same (H a)) by (unR; rring). rewrite upd_id, (set_w_same (H b)) by (unR; rring). apply upd_id. Qed.
Lemma relative_still (a b : Rbody) r1 r2 : still a -> still b -> relative_velocity a b r1 r2 = vzero.
Proof. intros (A & B & _) (C & D & _). unfold relative_velocity. rewrite A, B, C, D. unV. veq. Qed.
Lemma clampmag_zero (l : R) : vclampmag (@vzero RNum) l = vzero.
Proof. unfold vclampmag. unV. unR. rcases; auto. exfalso. cbn in *. nra. Qed.
Lemma clamp_zero (l : R) : 0 <= l -> nclamp (N := RNum) 0 (- l) l = 0.
Proof. intros L. unfold nclamp. unR. rcases; unfold Rmin; destruct Rle_dec; lra. Qed.

(** ** Joints *)
(** A joint after PreStep in a world at rest. *)
Definition ready (k : @jclass RNum) : Prop :=
  match k with
  | JPivot p => pv_j p = vzero /\ pv_bias p = vzero
  | JPin p => pn_j p = 0 /\ pn_bias p = 0
  | JSlide p => sl_n p = vzero /\ sl_j p = 0
  | JGroove p => gv_j p = vzero /\ gv_bias p = vzero
  | JGear p => ge_j p = 0 /\ ge_bias p = 0
  | JMotor p => mo_rate p = 0 /\ mo_j p = 0
  | JRLimit p => rl_bias p = 0 /\ rl_j p = 0
  | JRatchet p => ra_bias p = 0 /\ ra_j p = 0
  | JSpring p => sp_target p = 0 /\ sp_j p = 0
  | JRSpring p => rs_target p = 0 /\ rs_j p = 0
  end.
Lemma scale_zero (v : Rvec) (x : R) : x = 0 -> vscale v x = vzero.
Proof. intros ->. unV. veq. Qed.
Lemma zero_scale (x : R) : vscale (@vzero RNum) x = vzero.
Proof. unV. veq. Qed.
Lemma dot_zero (v : Rvec) : vdot (@vzero RNum) v = 0.
Proof. unV. cbn. unR. rring. Qed.
Lemma ready_cached (H : Rheap) c (d : R) k : ready k -> joint_cached H c d k = H.
Proof.
  destruct k; cbn [ready joint_cached]; intros Y; auto.
  - destruct Y as [Y _]. unfold pivot_cached. rewrite Y, zero_scale. apply impulses_zero.
  - destruct Y as [Y _]. unfold pin_cached. rewrite scale_zero by (rewrite Y; unR; rring). apply impulses_zero.
  - destruct Y as [Y _]. unfold slide_cached. rewrite Y, zero_scale. apply impulses_zero.
  - destruct Y as [Y _]. unfold groove_cached. rewrite Y, zero_scale. apply impulses_zero.
  - destruct Y as [Y _]. unfold gear_cached. rewrite Y. replace (nmul (Num := RNum) 0 d) with (0 : R) by (unR; rring). apply gear_zero.
  - destruct Y as [_ Y]. unfold motor_cached. rewrite Y. replace (nmul (Num := RNum) 0 d) with (0 : R) by (unR; rring). apply torque_zero.
  - destruct Y as [_ Y]. unfold rlimit_cached. rewrite Y. replace (nmul (Num := RNum) 0 d) with (0 : R) by (unR; rring). apply torque_zero.
  - destruct Y as [_ Y]. unfold ratchet_cached. rewrite Y. replace (nmul (Num := RNum) 0 d) with (0 : R) by (unR; rring). apply torque_zero.
Qed.
Lemma pivot_same (p : @pivot RNum) j : j = pv_j p -> Pivot (pv_anchA p) (pv_anchB p) (pv_r1 p) (pv_r2 p) (pv_k p) j (pv_bias p) = p.
Proof. intros ->. destruct p. reflexivity. Qed.
Lemma transform_zero (m : @mat2 RNum) : mat2_transform m vzero = vzero.
Proof. unfold mat2_transform. unV. veq. Qed.
Lemma sub_zero (v : Rvec) : vsub v v = vzero. Proof. unV. veq. Qed.
Lemma add_zero : vadd (@vzero RNum) vzero = vzero. Proof. unV. veq. Qed.
Lemma project_zero (n : Rvec) : vproject (@vzero RNum) n = vzero.
Proof. unfold vproject. apply scale_zero. rewrite dot_zero. unR. unfold Rdiv. ring. Qed.
Lemma ready_apply (H : Rheap) c (dt : R) k : still (H (c_a c)) -> still (H (c_b c)) -> 0 <= c_maxforce c * dt -> ready k -> joint_apply H c dt k = (H, k).
Proof.
  intros SA SB M. pose proof (fun r1 r2 => relative_still _ _ r1 r2 SA SB) as RV. destruct SA as (_ & WA & _), SB as (_ & WB & _). pose proof (clamp_zero _ M) as CZ.
  destruct k; cbn [ready joint_apply]; intros Y.
  - destruct Y as [Y1 Y2]. unfold pivot_apply. rewrite RV, Y1, Y2, sub_zero, transform_zero, add_zero, clampmag_zero, sub_zero, impulses_zero. repeat f_equal. destruct p; cbn in *; congruence.
  - destruct Y as [Y1 Y2]. unfold pin_apply, normal_relative_velocity. cbv zeta. rewrite RV, dot_zero, Y1, Y2.
    replace (nadd (Num := RNum) 0 _) with (0 : R) by (unR; rring). unR. rewrite CZ. rewrite scale_zero by lra. rewrite impulses_zero. repeat f_equal. destruct p; cbn in *; congruence.
  - destruct Y as [Y _]. unfold slide_apply. rewrite Y. replace (veqb (@vzero RNum) vzero) with true; auto. symmetry. unfold veqb, vzero. cbn [vx vy]. unR. rcases; auto; lra.
  - destruct Y as [Y1 Y2]. unfold groove_apply, groove_constrain. cbv zeta. rewrite RV, Y1, Y2, sub_zero, transform_zero, add_zero, project_zero.
    match goal with |- context [if ?b then vzero else vzero] => replace (if b then (@vzero RNum) else vzero) with (@vzero RNum) by (destruct b; reflexivity) end.
    rewrite clampmag_zero, sub_zero, impulses_zero. repeat f_equal. destruct p; cbn in *; congruence.
  - destruct Y as [Y1 Y2]. unfold gear_apply. cbv zeta. rewrite Y1, Y2, WA, WB. replace (nadd (Num := RNum) 0 _) with (0 : R) by (unR; rring). unR. rewrite CZ.
    replace (0 - 0) with 0 by ring. rewrite gear_zero. repeat f_equal. destruct p; cbn in *; congruence.
  - destruct Y as [Y1 Y2]. unfold motor_apply. cbv zeta. rewrite Y1, Y2, WA, WB. replace (nadd (Num := RNum) 0 (nmul (Num := RNum) _ _)) with (0 : R) by (unR; rring). unR. rewrite CZ.
    replace (0 - 0) with 0 by ring. rewrite torque_zero. repeat f_equal. destruct p; cbn in *; congruence.
  - destruct Y as [Y1 Y2]. unfold rlimit_apply. rewrite Y1. replace (neqb (Num := RNum) 0 n0) with true; auto. symmetry. unR. rcases; auto; lra.
  - destruct Y as [Y1 Y2]. unfold ratchet_apply. rewrite Y1. replace (neqb (Num := RNum) 0 n0) with true; auto. symmetry. unR. rcases; auto; lra.
  - destruct Y as [Y _]. unfold spring_apply, normal_relative_velocity. cbv zeta. rewrite RV, dot_zero, Y. rewrite scale_zero by (unR; rring). rewrite impulses_zero. destruct p; cbn in *. subst. repeat f_equal; unR; rring.
  - destruct Y as [Y _]. unfold rspring_apply. cbv zeta. rewrite WA, WB, Y. replace (nmul (Num := RNum) (nmul (Num := RNum) _ _) _) with (0 : R) by (unR; rring). rewrite damp_zero. destruct p; cbn in *. subst. repeat f_equal; unR; rring.
Qed.
Lemma arm_place (b : Rbody) p : coherent b -> vadd (b_pos b) (anchor_arm b p) = local_to_world b p.
Proof. intros C. unfold anchor_arm, local_to_world. rewrite C. unfold set_transform. cbn [b_tf set_tf_field]. unfold tf_apply_vector, tf_apply, tf_new. cbn. unV. veq. Qed.
Lemma arm_gap (a b : Rbody) p q : coherent a -> coherent b ->
  vsub (vadd (b_pos b) (anchor_arm b q)) (vadd (b_pos a) (anchor_arm a p)) = vsub (local_to_world b q) (local_to_world a p).
Proof. intros A B. rewrite !arm_place; auto. Qed.
Lemma arm_gap' (a b : Rbody) p q : coherent a -> coherent b ->
  vadd (b_pos b) (vsub (anchor_arm b q) (vadd (b_pos a) (anchor_arm a p))) = vsub (local_to_world b q) (local_to_world a p).
Proof. intros A B. rewrite <- !arm_place; auto. generalize (anchor_arm a p), (anchor_arm b q). intros. unV. veq. Qed.
Lemma clamp_bias (x y m : R) : 0 <= m -> y = 0 -> nclamp (N := RNum) (nmul (Num := RNum) x y) (- m) m = 0.
Proof. intros M ->. unR. rewrite Rmult_0_r. apply clamp_zero, M. Qed.
Lemma clamp_bias3 (x y z m : R) : 0 <= m -> y = 0 -> nclamp (N := RNum) (ndiv (Num := RNum) (nmul (Num := RNum) x y) z) (- m) m = 0.
Proof. intros M ->. unR. unfold Rdiv. rewrite Rmult_0_r, Rmult_0_l. apply clamp_zero, M. Qed.
Lemma floor_le (x : R) : IZR (Int_part x) <= x.
Proof. destruct (base_Int_part x). auto. Qed.
Lemma on_groove (ta U q : Rvec) (t L : R) : vdot U U = 1 -> 0 < L -> 0 <= t <= 1 -> q = vadd ta (vscale U (t * L)) ->
  (if nleb (vcross q (vperp U)) (vcross ta (vperp U)) then q = ta
   else if nleb (vcross (vadd ta (vscale U L)) (vperp U)) (vcross q (vperp U)) then q = vadd ta (vscale U L)
   else vadd (vscale (vperp (vperp U)) (- vcross q (vperp U))%num) (vscale (vperp U) (vdot ta (vperp U))) = q).
Proof.
  intros UU Lp T ->. destruct ta as [x y], U as [u v]. revert UU. unV. cbn. unR. intros UU.
  assert (E1 : (x + u * (t * L)) * u - (y + v * (t * L)) * - v = x * u - y * - v + t * L) by (replace (t * L) with ((u * u + v * v) * (t * L)) at 3 by (rewrite UU; ring); ring).
  assert (E2 : (x + u * L) * u - (y + v * L) * - v = x * u - y * - v + L) by (replace L with ((u * u + v * v) * L) at 3 by (rewrite UU; ring); ring).
  rewrite E1, E2. destruct (Rleb _ _) eqn:A.
  - apply Rleb_true in A. assert (t = 0) by nra. subst. f_equal; ring.
  - destruct (Rleb (_ + L) _) eqn:B.
    + apply Rleb_true in B. assert (t = 1) by nra. subst. f_equal; ring.
    + f_equal.
      * transitivity ((u * u + v * v) * x + u * (t * L)); [ring|rewrite UU; ring].
      * transitivity ((u * u + v * v) * y + v * (t * L)); [ring|rewrite UU; ring].
Qed.
Lemma groove_delta (a : Rbody) (ga gb q : Rvec) (t : R) : ga <> gb -> coherent a -> 0 <= t <= 1 ->
  q = local_to_world a (vlerp ga gb t) -> let n := tf_apply_vector (b_tf a) (vperp (vunit (vsub gb ga))) in
  let ta := tf_apply (b_tf a) ga in let tb := tf_apply (b_tf a) gb in
  (if nleb (vcross q n) (vcross ta n) then q = ta else if nleb (vcross tb n) (vcross q n) then q = tb else
   vadd (vscale (vperp n) (- vcross q n)%num) (vscale n (vdot ta n)) = q).
Proof.
  intros D C T Q. cbv zeta. set (L := vmag (vsub gb ga)). set (u := vunit (vsub gb ga)).
  assert (Z : vsub gb ga <> vzero).
  { intros X. apply D. destruct ga as [x y], gb as [z w]. revert X. unV. cbn. unR. intros X. injection X. intros. f_equal; lra. }
  assert (Lp : 0 < L) by (apply mag_pos, Z). pose proof (unit_dot _ Z) as UU. fold u in UU. pose proof (unit_scale _ Z) as US. fold u L in US. clearbody u L.
  set (U := tf_apply_vector (b_tf a) u). assert (UU' : vdot U U = 1).
  { unfold U. rewrite C. unfold set_transform. cbn [b_tf set_tf_field]. unfold tf_apply_vector, tf_new. revert UU. unV. destruct u as [x y]. cbn. unR. intros UU.
    pose proof (sin2_cos2 (b_angle a)) as SC. unfold Rsqr in SC. rewrite <- UU. transitivity ((sin (b_angle a) * sin (b_angle a) + cos (b_angle a) * cos (b_angle a)) * (x * x + y * y)); [ring|rewrite SC; ring]. }
  assert (Np : tf_apply_vector (b_tf a) (vperp u) = vperp U).
  { unfold U. rewrite C. unfold set_transform. cbn [b_tf set_tf_field]. unfold tf_apply_vector, tf_new. destruct u as [x y]. unV. cbn. unR. f_equal; ring. }
  assert (Tb : tf_apply (b_tf a) gb = vadd (tf_apply (b_tf a) ga) (vscale U L)).
  { unfold U. assert (E : gb = vadd ga (vscale u L)) by (rewrite US; destruct ga, gb; unV; cbn; unR; f_equal; ring). rewrite E. clear. destruct (b_tf a), ga, u. unfold tf_apply, tf_apply_vector. unV. cbn. unR. f_equal; ring. }
  assert (Qe : q = vadd (tf_apply (b_tf a) ga) (vscale U (t * L)%R)).
  { rewrite Q. unfold local_to_world, U. assert (vlerp ga gb t = vadd ga (vscale u (t * L)%R)) as ->.
    { replace (vscale u (t * L)%R) with (vscale (vscale u L) t) by (destruct u; unV; cbn; unR; f_equal; ring). rewrite US. destruct ga, gb; unfold vlerp; unV; cbn; unR; f_equal; ring. }
    destruct (b_tf a), ga, u. unfold tf_apply, tf_apply_vector. unV. cbn. unR. f_equal; ring. }
  rewrite Np, Tb. apply (on_groove _ U q t L); auto.
Qed.
Lemma gap_mag (a b : Rbody) p q : coherent a -> coherent b -> vmag (vsub (vadd (b_pos b) (anchor_arm b q)) (vadd (b_pos a) (anchor_arm a p))) = apart a b p q.
Proof. intros A B. unfold apart. rewrite arm_gap; auto. Qed.
Lemma gap_mag' (a b : Rbody) p q : coherent a -> coherent b -> vmag (vadd (b_pos b) (vsub (anchor_arm b q) (vadd (b_pos a) (anchor_arm a p)))) = apart a b p q.
Proof. intros A B. unfold apart. rewrite arm_gap'; auto. Qed.
Lemma prestep_ready (H : Rheap) c (dt : R) k : coherent (H (c_a c)) -> coherent (H (c_b c)) -> 0 <= c_maxbias c -> satisfied H c k -> ratchet_ok k ->
  exists k', joint_prestep H c dt k = (H, k') /\ ready k' /\ satisfied H c k' /\ (solvable H c k -> solvable H c k').
Proof.
  intros CA CB M S RO. destruct k; cbn [satisfied joint_prestep] in *.
  - destruct S as [S J]. eexists. split; [reflexivity|]. unfold pivot_prestep. cbn [ready satisfied solvable pv_j pv_bias pv_anchA pv_anchB]. rewrite J.
    rewrite arm_gap; auto. rewrite S, sub_zero, zero_scale, clampmag_zero. auto.
  - destruct S as [S J]. eexists. split; [reflexivity|]. unfold pin_prestep. cbv zeta. cbn [ready satisfied solvable pn_j pn_bias pn_anchA pn_anchB pn_dist]. rewrite J.
    rewrite gap_mag', S; auto. split; [|auto]. split; [reflexivity|]. apply clamp_bias3; auto. unR. lra.
  - eexists. split; [reflexivity|]. unfold slide_prestep. cbv zeta. rewrite gap_mag; auto.
    replace (nltb (Num := RNum) (sl_max p) _) with false by (symmetry; apply Rltb_false; lra). replace (nltb (Num := RNum) _ (sl_min p)) with false by (symmetry; apply Rltb_false; lra).
    cbn [ready satisfied solvable sl_n sl_j sl_anchA sl_anchB sl_min sl_max]. auto.
  - destruct S as (D & G & J & t & T & Q). eexists. split; [reflexivity|]. unfold groove_prestep. cbv zeta. rewrite G.
    pose proof (groove_delta (H (c_a c)) (gv_ga p) (gv_gb p) _ t D CA T Q) as GD. cbv zeta in GD. rewrite <- (arm_place (H (c_b c))) in GD by auto.
    set (n := tf_apply_vector _ _) in *. set (q := vadd (b_pos (H (c_b c))) (anchor_arm (H (c_b c)) (gv_anchB p))) in *.
    destruct (nleb (vcross q n) _); [|destruct (nleb _ (vcross q n))]; cbn [ready satisfied solvable gv_j gv_bias gv_ga gv_gb gv_gn gv_anchB]; (split; [split; [exact J|]|split; [|auto]]); eauto 10.
    all: match goal with |- vclampmag (vscale ?d _) _ = _ => replace d with (@vzero RNum); [rewrite zero_scale; apply clampmag_zero|] end; rewrite GD; clear; match goal with |- _ = vsub ?v (vadd ?w _) => generalize v, w end; clear; intros v w; destruct v, w; unV; cbn; unR; f_equal; ring.
  - destruct S as [S J]. eexists. split; [reflexivity|]. unfold gear_prestep. cbn [ready satisfied solvable ge_j ge_bias ge_ratio ge_phase ge_ratioinv]. rewrite J. split; [|auto]. split; [reflexivity|].
    apply clamp_bias3; auto. unR. lra.
  - destruct S as [S J]. eexists. split; [reflexivity|]. unfold motor_prestep. cbn [ready satisfied solvable mo_j mo_rate]. auto.
  - eexists. split; [reflexivity|]. unfold rlimit_prestep. cbv zeta.
    replace (nltb (Num := RNum) (rl_max p) _) with false by (symmetry; apply Rltb_false; unR; lra). replace (nltb (Num := RNum) _ (rl_min p)) with false by (symmetry; apply Rltb_false; unR; lra).
    rewrite clamp_bias3; auto. replace (neqb (Num := RNum) 0 n0) with true by (symmetry; unR; rcases; auto; lra). cbn [ready satisfied solvable rl_bias rl_j rl_min rl_max]. auto.
  - eexists. split; [reflexivity|]. unfold ratchet_prestep. cbv zeta. cbn [ratchet_ok] in RO.
    replace (nltb (Num := RNum) n0 _) with false by (symmetry; apply Rltb_false; unR; lra).
    rewrite clamp_bias3; auto. replace (neqb (Num := RNum) 0 n0) with true by (symmetry; unR; rcases; auto; lra). cbn [ready satisfied solvable ra_bias ra_j ra_angle ra_ratchet]. split; [auto|]. split; [|auto].
    unR. cbn [nfloor RElem]. set (d := b_angle (H (c_b c)) - b_angle (H (c_a c))). pose proof (floor_le ((d - ra_phase p) / ra_ratchet p)) as F. set (z := IZR (Int_part _)) in *.
    replace (z * ra_ratchet p + ra_phase p - d) with ((z - (d - ra_phase p) / ra_ratchet p) * ra_ratchet p) by (field; auto). pose proof (Rle_0_sqr (ra_ratchet p)) as SQ. unfold Rsqr in SQ. clearbody z. generalize dependent ((d - ra_phase p) / ra_ratchet p). intros x F. rewrite Rmult_assoc. nra.
  - unfold spring_prestep. cbv zeta. rewrite gap_mag; auto. rewrite S. rewrite scale_zero by (unR; rring). rewrite impulses_zero. eexists. split; [reflexivity|]. cbn [ready satisfied solvable sp_target sp_force sp_anchA sp_anchB sp_j]. split; [split; [reflexivity|unR; rring]|auto].
  - unfold rspring_prestep. cbv zeta. assert (S' : rs_torque p (nsub (Num := RNum) (b_angle (H (c_a c))) (b_angle (H (c_b c)))) = 0) by exact S. rewrite S'.
    replace (nmul (Num := RNum) 0 dt) with (0 : R) by (unR; rring). rewrite torque_zero. eexists. split; [reflexivity|]. cbn [ready satisfied solvable rs_target rs_torque rs_j]. auto.
Qed.

(** ** Contacts *)
Lemma contact_zero (H : Rheap) s (dt slop bias : R) c : still (H (s_a s)) -> still (H (s_b s)) -> s_svr s = vzero -> k_jn c = 0 -> k_jt c = 0 ->
  - slop <= vdot (vsub (vadd (b_pos (H (s_b s))) (k_r2 c)) (vadd (b_pos (H (s_a s))) (k_r1 c))) (s_n s) ->
  let c' := contact_prestep H s dt slop bias c in k_jn c' = 0 /\ k_jt c' = 0 /\ k_bounce c' = 0 /\ k_bias c' = 0 /\ k_jbias c' = 0.
Proof.
  intros SA SB SV N T D. cbv zeta. unfold contact_prestep, normal_relative_velocity. cbn [k_jn k_jt k_bounce k_bias k_jbias]. rewrite (relative_still _ _ _ _ SA SB), dot_zero, N, T.
  split; [reflexivity|]. split; [reflexivity|]. split; [unR; rring|]. split; [|reflexivity].
  match goal with |- context [nmin _ ?x] => assert (X : 0 <= x) end.
  { revert D. destruct (k_r1 c), (k_r2 c), (b_pos (H (s_a s))), (b_pos (H (s_b s))), (s_n s). unV. cbn. unR. lra. }
  unR. rewrite Rmin_left; [unfold Rdiv; ring|exact X].
Qed.
Lemma contact_apply_zero (H : Rheap) s c : still (H (s_a s)) -> still (H (s_b s)) -> s_svr s = vzero ->
  k_jn c = 0 -> k_jt c = 0 -> k_bounce c = 0 -> k_bias c = 0 -> k_jbias c = 0 -> contact_apply H s c = (H, c).
Proof.
  intros SA SB SV N T B I J. unfold contact_apply. cbv zeta. rewrite (relative_still _ _ _ _ SA SB), SV, add_zero, !dot_zero, N, T, B, I, J.
  destruct SA as (_ & _ & _ & _ & A1 & A2), SB as (_ & _ & _ & _ & B1 & B2). rewrite A1, A2, B1, B2.
  match goal with |- context [nmax ?x n0] => assert (X1 : nmax x (@n0 RNum) = 0) end.
  { unR. unV. cbn. unR. match goal with |- Rmax ?x 0 = 0 => replace x with 0 by ring end. apply Rmax_left. lra. }
  rewrite X1. match goal with |- context [nmax ?x n0] => assert (X2 : nmax x (@n0 RNum) = 0) end.
  { unR. match goal with |- Rmax ?x 0 = 0 => replace x with 0 by ring end. apply Rmax_left. lra. }
  rewrite X2. match goal with |- context [nclamp ?x ?l ?h] => assert (X3 : nclamp (N := RNum) x l h = 0) end.
  { unR. unfold nclamp. unR. match goal with |- context [Rmin (0 + ?y) _] => replace (0 + y) with 0 by ring end. match goal with |- context [Rmin _ ?h] => replace h with 0 by ring end. rcases; unfold Rmin; destruct Rle_dec; lra. }
  rewrite X3. rewrite scale_zero by (unR; ring). rewrite bias_zero.
  match goal with |- context [vrotate ?n ?v] => replace (vrotate n v) with (@vzero RNum) by (unV; cbn; unR; f_equal; ring) end. rewrite impulses_zero.
  destruct c; cbn in *; subst; reflexivity.
Qed.

(** ** Worlds *)
Definition sound_joint (H : Rheap) (x : Rjoint) : Prop := satisfied H (fst x) (snd x) /\ solvable H (fst x) (snd x).
Lemma solvable_limits H c k : solvable H c k -> 0 <= c_maxforce c /\ 0 <= c_maxbias c /\ ratchet_ok k.
Proof. unfold solvable. intros (A & B & C). split; [exact A|]. split; [exact B|]. destruct k; cbn [ratchet_ok]; auto. apply C. Qed.
Lemma joints_prestep_rest (H : Rheap) (dt : R) l : (forall i, coherent (H i)) -> Forall (sound_joint H) l ->
  exists l', joints_prestep H dt l = (H, l') /\ Forall (sound_joint H) l' /\ Forall (fun x => ready (snd x)) l' /\ map fst l' = map fst l.
Proof.
  intros C. induction l as [|[c k] l IH]; intros F; cbn [joints_prestep].
  - exists []. auto.
  - inversion F as [|x y [S V] F' E]; subst. cbn [fst snd] in *. destruct (solvable_limits _ _ _ V) as (_ & MB & RO).
    destruct (prestep_ready H c dt k (C _) (C _) MB S RO) as (k' & E & Rd & S' & V'). rewrite E. destruct (IH F') as (l' & E' & F1 & F2 & F3). rewrite E'.
    exists ((c, k') :: l'). split; [reflexivity|]. split; [constructor; [split; cbn; auto|auto]|]. split; [constructor; auto|]. cbn [map fst]. now rewrite F3.
Qed.
Lemma joints_apply_rest (H : Rheap) (dt : R) l : 0 <= dt -> (forall i, still (H i)) -> Forall (sound_joint H) l -> Forall (fun x => ready (snd x)) l -> joints_apply H dt l = (H, l).
Proof.
  intros D S. induction l as [|[c k] l IH]; intros F G; cbn [joints_apply]; auto. inversion F as [|x y [_ V] F' E]; subst. inversion G as [|x y Rd G' E]; subst. cbn [fst snd] in *.
  destruct (solvable_limits _ _ _ V) as (MF & _). rewrite ready_apply; auto; [|apply Rmult_le_pos; auto]. now rewrite IH.
Qed.
Lemma cached_rest (H : Rheap) (d : R) (l : list Rjoint) : Forall (fun x => ready (snd x)) l -> fold_left (fun H cj => joint_cached H (fst cj) d (snd cj)) l H = H.
Proof. revert H. induction l as [|x l IH]; intros H F; cbn [fold_left]; auto. inversion F; subst. rewrite ready_cached; auto. Qed.
Definition quiet_contact (c : Rcontact) : Prop := k_jn c = 0 /\ k_jt c = 0 /\ k_bounce c = 0 /\ k_bias c = 0 /\ k_jbias c = 0.
Definition quiet_arb (s : Rsarb) : Prop := s_svr s = vzero /\ Forall quiet_contact (s_contacts s).
Lemma contacts_rest (H : Rheap) s l : (forall i, still (H i)) -> s_svr s = vzero -> Forall quiet_contact l -> contacts_apply H s l = (H, l).
Proof.
  intros S V. induction l as [|c l IH]; intros F; cbn [contacts_apply]; auto. inversion F as [|x y (A & B & C & D & E) F']; subst. rewrite contact_apply_zero; auto. now rewrite IH.
Qed.
Lemma with_same (s : Rsarb) : with_contacts s (s_contacts s) = s. Proof. destruct s; reflexivity. Qed.
Lemma arbs_rest (H : Rheap) l : (forall i, still (H i)) -> Forall quiet_arb l -> arbs_apply H l = (H, l).
Proof.
  intros S. induction l as [|s l IH]; intros F; cbn [arbs_apply]; auto. inversion F as [|x y [V Q] F']; subst. unfold arb_apply. rewrite contacts_rest; auto. rewrite with_same. now rewrite IH.
Qed.
Lemma arb_cached_rest (H : Rheap) (d : R) l : Forall quiet_arb l -> fold_left (arb_cached d) l H = H.
Proof.
  revert H. induction l as [|s l IH]; intros H F; cbn [fold_left]; auto. inversion F as [|x y [Vz Q] F']; subst. replace (arb_cached (N := RNum) d H s) with H; auto. symmetry. unfold arb_cached. destruct (s_first s); auto.
  clear -Q. induction (s_contacts s) as [|c l IH]; cbn [fold_left]; auto. inversion Q as [|x y (A & B & _) Q']; subst. rewrite <- IH at 2; auto. f_equal. unfold contact_cached. rewrite A, B.
  replace (vscale (vrotate (s_n s) (@V RNum 0 0)) d) with (@vzero RNum) by (unV; cbn; unR; f_equal; ring). apply impulses_zero.
Qed.
Lemma arb_prestep_rest (H : Rheap) (dt slop bias : R) s : (forall i, still (H i)) -> quiet slop H s -> quiet_arb (arb_prestep H dt slop bias s).
Proof.
  intros S (V & _ & _ & _ & Q). split; [exact V|]. unfold arb_prestep, with_contacts. cbn [s_contacts]. apply Forall_map, Forall_forall. intros c I. destruct (Q c I) as (A & B & C).
  apply (contact_zero H s dt slop bias c); auto.
Qed.
Lemma velocity_rest (b : Rbody) (d dt : R) : still b -> update_velocity b vzero d dt = b.
Proof.
  intros (A & B & C & D & _). unfold update_velocity. destruct (b_type b); auto;
  (destruct b; cbn in *; subst; unfold set_force_fields, set_vel_fields; cbn; unV; cbn; unR; f_equal; [ring|f_equal; ring]).
Qed.
Lemma integrate_rest (H : Rheap) (d dt : R) dyn : (forall i, still (H i)) -> fold_left (fun H i => upd H i (update_velocity (H i) vzero d dt)) dyn H = H.
Proof. intros S. induction dyn as [|i l IH]; cbn [fold_left]; auto. rewrite velocity_rest, upd_id; auto. Qed.
Lemma position_rest (b : Rbody) (dt : R) : still b -> coherent b -> update_position b dt = b.
Proof.
  intros (A & B & C & D & E & F) Co. unfold update_position. unfold coherent in Co. revert Co. destruct b. cbn in *. subst. unfold set_bias_fields, set_transform, set_tf_field, set_angle_field, set_pos_field. cbn. intros Co.
  assert (X : vadd b_pos (vscale (vadd (@vzero RNum) vzero) dt) = b_pos) by (destruct b_pos; unV; cbn; unR; f_equal; ring).
  assert (Y : b_angle + (0 + 0) * dt = b_angle) by ring. change (@V RNum 0 0) with (@vzero RNum). unR. rewrite X, Y. f_equal. assert (Z : forall x : R, x + (0 + 0) * dt = x) by (intros; ring). rewrite Co. cbn. now rewrite !Z.
Qed.
Lemma move_rest (H : Rheap) (dt : R) dyn : (forall i, still (H i)) -> (forall i, coherent (H i)) -> move_all dt dyn H = H.
Proof. intros S C. unfold move_all. induction dyn as [|i l IH]; cbn [fold_left]; auto. rewrite position_rest, upd_id; auto. Qed.
Lemma iterations_rest n (dt : R) (w : Rworld) : 0 <= dt -> (forall i, still (w_heap w i)) -> Forall quiet_arb (w_arbs w) -> Forall (sound_joint (w_heap w)) (w_joints w) ->
  Forall (fun x => ready (snd x)) (w_joints w) -> iterations n dt w = w.
Proof.
  intros D S Q J Rd. induction n; cbn [iterations]; auto. replace (iteration (N := RNum) dt w) with w; auto. symmetry. unfold iteration. rewrite arbs_rest, joints_apply_rest; auto. destruct w; reflexivity.
Qed.
Definition calm_step (H : Rheap) (d : stepdata) : Prop := 0 < sd_dt d /\ Forall (quiet (sd_slop d) H) (sd_arbs d).
Lemma step_rest dyn d (w : Rworld) : (forall i, still (w_heap w i)) -> (forall i, coherent (w_heap w i)) -> Forall (sound_joint (w_heap w)) (w_joints w) -> calm_step (w_heap w) d ->
  let w' := do_step dyn w d in w_heap w' = w_heap w /\ Forall (sound_joint (w_heap w)) (w_joints w') /\ Forall (fun x => ready (snd x)) (w_joints w') /\ map fst (w_joints w') = map fst (w_joints w) /\
  Forall quiet_arb (w_arbs w').
Proof.
  intros S C J [D Q]. cbv zeta. unfold do_step, full_step, solve. cbv zeta. rewrite move_rest; auto. unfold prestep_all. cbn [w_heap w_arbs w_joints].
  destruct (joints_prestep_rest (w_heap w) (sd_dt d) (w_joints w) C J) as (l' & E & F1 & F2 & F3). rewrite E. unfold integrate_all. cbn [w_heap w_arbs w_joints]. rewrite integrate_rest; auto.
  assert (A : Forall quiet_arb (map (arb_prestep (w_heap w) (sd_dt d) (sd_slop d) (sd_bias d)) (sd_arbs d))).
  { apply Forall_map. revert Q. apply Forall_impl. intros s. apply arb_prestep_rest, S. }
  unfold cached_all. cbn [w_heap w_arbs w_joints]. rewrite arb_cached_rest, cached_rest; auto. rewrite iterations_rest; cbn [w_heap w_arbs w_joints]; auto. lra.
Qed.
Lemma ready_impulse k : ready k -> joint_impulse k = 0.
Proof.
  assert (M0 : vmag (@vzero RNum) = 0) by (apply mag_0; reflexivity). assert (A0 : @nabs RNum 0 = 0) by (cbn; apply Rabs_R0).
  destruct k; cbn [ready joint_impulse]; intros Y; try destruct Y as [Y1 Y2]; rewrite ?Y1, ?Y2; auto.
Qed.
Lemma quiet_total s : quiet_arb s -> total_impulse s = vzero.
Proof.
  intros [_ Q]. unfold total_impulse. set (m := arb_count s). clearbody m.
  assert (E : forall l m, Forall quiet_contact l -> fold_left (fun sum c => vadd sum (vrotate (s_n s) (@V RNum (k_jn c) (k_jt c)))) (firstn m l) vzero = vzero).
  { induction l as [|c l IH]; intros j F; destruct j; cbn [firstn fold_left]; auto. inversion F as [|x y (A & B & _) F']; subst. rewrite A, B.
    replace (vadd vzero (vrotate (s_n s) (@V RNum 0 0))) with (@vzero RNum) by (unV; cbn; unR; f_equal; ring). auto. }
  rewrite E; auto. destruct (s_swapped s); auto. unV; cbn; unR; f_equal; ring.
Qed.
Lemma rest_stays dyn : forall ds (w : Rworld), (forall i, still (w_heap w i)) -> (forall i, coherent (w_heap w i)) -> Forall (sound_joint (w_heap w)) (w_joints w) -> Forall (calm_step (w_heap w)) ds ->
  let w' := fold_left (do_step dyn) ds w in w_heap w' = w_heap w /\ Forall (sound_joint (w_heap w)) (w_joints w') /\ map fst (w_joints w') = map fst (w_joints w) /\
  (ds <> [] -> Forall (fun x => joint_impulse (snd x) = 0) (w_joints w') /\ Forall (fun s => total_impulse s = vzero) (w_arbs w')).
Proof.
  induction ds as [|d ds IH]; intros w S C J F; cbv zeta; cbn [fold_left].
  - repeat split; auto; congruence.
  - inversion F as [|x y D F']; subst. destruct (step_rest dyn d w S C J D) as (A & B & Rd & E & Q). set (w1 := do_step dyn w d) in *.
    assert (G : let w' := fold_left (do_step dyn) ds w1 in w_heap w' = w_heap w1 /\ Forall (sound_joint (w_heap w1)) (w_joints w') /\ map fst (w_joints w') = map fst (w_joints w1) /\
      (ds <> [] -> Forall (fun x => joint_impulse (snd x) = 0) (w_joints w') /\ Forall (fun s => total_impulse s = vzero) (w_arbs w'))).
    { apply IH; rewrite ?A; auto. }
    cbv zeta in G. rewrite A, E in G. destruct G as (G1 & G2 & G3 & G4). repeat split; auto.
    + destruct ds as [|d' ds']; [cbn [fold_left]|apply G4; discriminate]. revert Rd. apply Forall_impl. intros x. apply ready_impulse.
    + destruct ds as [|d' ds']; [cbn [fold_left]|apply G4; discriminate]. revert Q. apply Forall_impl. intros x. apply quiet_total.
Qed.

(** ** Constructors *)
Lemma pin_made (H : Rheap) a b x y (c : Rcstr) : c_a c = a -> c_b c = b -> satisfied H c (JPin (new_pin H a b x y)).
Proof. intros <- <-. cbn. split; reflexivity. Qed.
Lemma ratchet_made (H : Rheap) a b (ph r : R) (c : Rcstr) : c_a c = a -> c_b c = b -> satisfied H c (JRatchet (new_ratchet (N := RNum) H a b ph r)).
Proof. intros <- <-. cbn. lra. Qed.
Lemma pivot_made (H : Rheap) a b p (c : Rcstr) : coherent (H a) -> coherent (H b) -> c_a c = a -> c_b c = b -> satisfied H c (JPivot (new_pivot H a b p)).
Proof.
  intros Ca Cb <- <-. cbn [satisfied new_pivot new_pivot2 pv_anchA pv_anchB pv_j]. split; [|reflexivity].
  destruct (conversions _ Ca p p) as (_ & -> & _). destruct (conversions _ Cb p p) as (_ & -> & _). reflexivity.
Qed.
Lemma pivot2_made (H : Rheap) x y (c : Rcstr) : local_to_world (H (c_a c)) x = local_to_world (H (c_b c)) y -> satisfied H c (JPivot (new_pivot2 x y)).
Proof. intros A. split; [exact A|reflexivity]. Qed.
Lemma slide_made (H : Rheap) x y (mn mx : R) (c : Rcstr) : mn <= apart (H (c_a c)) (H (c_b c)) x y <= mx -> satisfied H c (JSlide (new_slide (N := RNum) x y mn mx)).
Proof. intros A. exact A. Qed.
Lemma groove_made (H : Rheap) ga gb x (t : R) (c : Rcstr) : ga <> gb -> 0 <= t <= 1 -> local_to_world (H (c_b c)) x = local_to_world (H (c_a c)) (vlerp (N := RNum) ga gb t) ->
  satisfied H c (JGroove (new_groove ga gb x)).
Proof. intros A B C. cbn. repeat split; auto. exists t. auto. Qed.
Lemma gear_made (H : Rheap) (ratio : R) (c : Rcstr) : satisfied H c (JGear (new_gear (N := RNum) (b_angle (H (c_b c)) * ratio - b_angle (H (c_a c))) ratio)).
Proof. cbn. split; reflexivity. Qed.
Lemma motor_made (H : Rheap) (c : Rcstr) : satisfied H c (JMotor (new_motor (N := RNum) 0)).
Proof. cbn. auto. Qed.
Lemma rlimit_made (H : Rheap) (mn mx : R) (c : Rcstr) : mn <= b_angle (H (c_b c)) - b_angle (H (c_a c)) <= mx -> satisfied H c (JRLimit (new_rlimit (N := RNum) mn mx)).
Proof. intros A. exact A. Qed.
Lemma spring_made (H : Rheap) x y (stiffness damping : R) (c : Rcstr) :
  satisfied H c (JSpring (new_spring (N := RNum) x y (apart (H (c_a c)) (H (c_b c)) x y) stiffness damping)).
Proof. cbn [satisfied new_spring sp_force sp_anchA sp_anchB]. unfold default_spring_force. unR. ring. Qed.
Lemma rspring_made (H : Rheap) (stiffness damping : R) (c : Rcstr) :
  satisfied H c (JRSpring (new_rspring (N := RNum) (b_angle (H (c_a c)) - b_angle (H (c_b c))) stiffness damping)).
Proof. cbn [satisfied new_rspring rs_torque]. unfold default_spring_torque. unR. ring. Qed.
Lemma at_rest dyn ds (w : Rworld) :
  (forall i, exists m j ops, w_heap w i = history m j ops) -> (forall i, still (w_heap w i)) ->
  (forall c k, In (c, k) (w_joints w) -> satisfied (w_heap w) c k /\ solvable (w_heap w) c k) ->
  (forall d, In d ds -> 0 < sd_dt d /\ forall s, In s (sd_arbs d) -> quiet (sd_slop d) (w_heap w) s) ->
  let w' := fold_left (do_step dyn) ds w in
  w_heap w' = w_heap w /\ map fst (w_joints w') = map fst (w_joints w) /\
  (forall c k, In (c, k) (w_joints w') -> satisfied (w_heap w) c k /\ (ds <> [] -> joint_impulse k = 0)) /\
  (ds <> [] -> forall s, In s (w_arbs w') -> total_impulse s = vzero).
Proof.
  intros C S J D. destruct (rest_stays dyn ds w S) as (A & B & E & F).
  - intros i. destruct (C i) as (m & j & ops & ->). apply history_coherent.
  - apply Forall_forall. intros [c k] I. apply J, I.
  - apply Forall_forall. intros d I. destruct (D d I) as [P Q]. split; auto. now apply Forall_forall.
  - cbv zeta in *. repeat split; auto.
    + rewrite Forall_forall in B. apply (B _ H).
    + intros X. destruct (F X) as [F1 _]. rewrite Forall_forall in F1. apply (F1 _ H).
    + intros X s I. destruct (F X) as [_ F2]. rewrite Forall_forall in F2. apply F2, I.
Qed.
Lemma all_made (H : Rheap) (c : Rcstr) : (forall i, exists m j ops, H i = history m j ops) ->
  (forall p, satisfied H c (JPivot (new_pivot H (c_a c) (c_b c) p))) /\
  (forall x y, satisfied H c (JPin (new_pin H (c_a c) (c_b c) x y))) /\
  (forall phase r, satisfied H c (JRatchet (new_ratchet (N := RNum) H (c_a c) (c_b c) phase r))) /\
  (forall x y, local_to_world (H (c_a c)) x = local_to_world (H (c_b c)) y -> satisfied H c (JPivot (new_pivot2 x y))) /\
  (forall x y mn mx, mn <= apart (H (c_a c)) (H (c_b c)) x y <= mx -> satisfied H c (JSlide (new_slide (N := RNum) x y mn mx))) /\
  (forall ga gb x t, ga <> gb -> 0 <= t <= 1 -> local_to_world (H (c_b c)) x = local_to_world (H (c_a c)) (vlerp (N := RNum) ga gb t) ->
     satisfied H c (JGroove (new_groove ga gb x))) /\
  (forall ratio, satisfied H c (JGear (new_gear (N := RNum) (b_angle (H (c_b c)) * ratio - b_angle (H (c_a c))) ratio))) /\
  satisfied H c (JMotor (new_motor (N := RNum) 0)) /\
  (forall mn mx, mn <= b_angle (H (c_b c)) - b_angle (H (c_a c)) <= mx -> satisfied H c (JRLimit (new_rlimit (N := RNum) mn mx))) /\
  (forall x y k d, satisfied H c (JSpring (new_spring (N := RNum) x y (apart (H (c_a c)) (H (c_b c)) x y) k d))) /\
  (forall k d, satisfied H c (JRSpring (new_rspring (N := RNum) (b_angle (H (c_a c)) - b_angle (H (c_b c))) k d))).
Proof.
  intros L. assert (C : forall i, coherent (H i)) by (intros i; destruct (L i) as (m & j & ops & ->); apply history_coherent).
  split; [intros; now apply pivot_made|]. split; [intros; now apply pin_made|]. split; [intros; now apply ratchet_made|]. split; [intros; now apply pivot2_made|].
  split; [intros; now apply slide_made|]. split; [intros ga gb x t; now apply groove_made|]. split; [intros; apply gear_made|]. split; [apply motor_made|]. split; [intros; now apply rlimit_made|].
  split; [intros; apply spring_made|intros; apply rspring_made].
Qed.
