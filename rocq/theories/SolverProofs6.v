From Coq Require Import ZArith Bool Reals List Lra Lia Psatz.
From Verif Require Import Num NumReal Vec BB BBProofs Transform TransformProofs Body BodySpec BodyProofs Solver SolverSpec SolverProofs SolverProofs2 SolverProofs3 SolverProofs4 SolverProofs5.
Import ListNotations.
Local Open Scope R_scope.

Lemma unit_dot (v : @vec RNum) : 0 < vdot v v -> vdot (vunit v) (vunit v) = 1.
Proof.
  intros P. unfold vunit, vmag. unR. assert (S : sqrt (vdot v v) * sqrt (vdot v v) = vdot v v) by (apply sqrt_sqrt; lra).
  assert (0 < sqrt (vdot v v)) by (now apply sqrt_lt_R0).
  set (m := sqrt (vdot v v)) in *. clearbody m. unfold vdot, vscale in *. cbn in *. unR.
  transitivity ((vx v * vx v + vy v * vy v) / (m * m)); [field; lra|]. rewrite <- S. field. lra.
Qed.
Lemma neg_dot (v : @vec RNum) : vdot (vneg v) (vneg v) = vdot v v.
Proof. unfold vdot, vneg. cbn. unR. ring. Qed.
Lemma mag_pos (v : @vec RNum) : 0 < vmag v -> 0 < vdot v v.
Proof.
  unfold vmag. unR. intros P. destruct (Rle_or_lt (vdot v v) 0) as [L|L]; [|exact L].
  rewrite (sqrt_neg_0 _ L) in P. lra.
Qed.
Lemma slide_exact (H0 H : Rheap) c dt (p : slide) : hframe H0 H -> c_a c <> c_b c -> movable_pair (H0 (c_a c)) (H0 (c_b c)) ->
  let a := H0 (c_a c) in let b := H0 (c_b c) in
  let d := vdist (vadd (b_pos b) (anchor_arm b (sl_anchB p))) (vadd (b_pos a) (anchor_arm a (sl_anchA p))) in
  0 < d -> 0 <= sl_min p <= sl_max p -> (d < sl_min p \/ sl_max p < d) ->
  let p1 := slide_prestep H0 c dt p in
  let '(H', p2) := slide_apply H c dt p1 in
  - c_maxforce c * dt < sl_j p2 < 0 ->
  normal_relative_velocity (H' (c_a c)) (H' (c_b c)) (sl_r1 p1) (sl_r2 p1) (sl_n p1) = sl_bias p1.
Proof.
  intros F Hab P a b d D Mm O p1. unfold d, vdist in D, O.
  set (delta := vsub (vadd (b_pos b) _) (vadd (b_pos a) _)) in D, O.
  pose proof (unit_dot delta (mag_pos _ D)) as U0.
  assert (U : vdot (sl_n p1) (sl_n p1) = 1).
  { unfold p1, slide_prestep. cbv zeta. fold a b. fold delta. unR. destruct O as [O|O].
    - rewrite (proj2 (Rltb_false _ _)) by lra. rewrite (proj2 (Rltb_true _ _) O). cbn [sl_n]. now rewrite neg_dot.
    - rewrite (proj2 (Rltb_true _ _) O). exact U0. }
  assert (Nz : veqb (sl_n p1) vzero = false).
  { clearbody p1. destruct (sl_n p1) as [nx ny]. unfold veqb, vzero, vdot in *. cbn [vx vy] in *. unR.
    destruct (Reqb_spec nx 0); [|reflexivity]. destruct (Reqb_spec ny 0); [|reflexivity]. subst. lra. }
  unfold slide_apply. rewrite Nz. cbv zeta. cbn [sl_j]. unR.
  match goal with |- context [nclamp ?x ?lo 0] => set (X := x) in *; set (Lo := lo) in * end. intros L.
  assert (Lo <= 0) by lra.
  assert (E : nclamp (N:=RNum) X Lo 0 = X) by (revert L; rewrite RnclampE by lra; rcases; intros; lra).
  rewrite E. unfold X. clear E.
  assert (Nm : sl_nmass p1 = 1 / kscalar (H0 (c_a c)) (H0 (c_b c)) (sl_r1 p1) (sl_r2 p1) (sl_n p1)).
  { unfold p1, slide_prestep. cbv zeta. unR. destruct Rltb; [reflexivity|]. destruct Rltb; reflexivity. }
  pose proof (direction_exact H0 H (c_a c) (c_b c) (sl_r1 p1) (sl_r2 p1) (sl_n p1) (sl_bias p1) F Hab P U) as Y. cbv zeta in Y. unR.
  rewrite <- Nm in Y. unfold normal_relative_velocity in Y |- *.
  match type of Y with context [vscale (sl_n p1) ?e] => match goal with |- context [vscale (sl_n p1) ?g] => replace g with e by rring end end. exact Y.
Qed.
Lemma ratchet_exact (H0 H : Rheap) c dt (p : ratchet) : hframe H0 H -> c_a c <> c_b c ->
  b_iinv (H0 (c_a c)) + b_iinv (H0 (c_b c)) <> 0 -> ra_ratchet p <> 0 ->
  let p1 := ratchet_prestep H0 c dt p in ra_bias p1 <> 0 -> 0 <= c_maxforce c * dt ->
  let '(H', p2) := ratchet_apply H c dt p1 in
  0 < Rabs (ra_j p2) < c_maxforce c * dt -> b_w (H' (c_b c)) - b_w (H' (c_a c)) = - ra_bias p1.
Proof.
  intros F Hab P Q p1 Hb M.
  assert (Rt : ra_ratchet p1 = ra_ratchet p).
  { unfold p1, ratchet_prestep. cbv zeta. unR. destruct Rltb; reflexivity. }
  assert (Is : ra_isum p1 = 1 / (b_iinv (H0 (c_a c)) + b_iinv (H0 (c_b c)))).
  { unfold p1, ratchet_prestep. cbv zeta. unR. destruct Rltb; reflexivity. }
  clearbody p1. rewrite <- Rt in Q. clear Rt.
  unfold ratchet_apply. unR. rewrite (proj2 (Reqb_false _ _) Hb). cbv zeta. cbn [ra_j].
  set (X := ra_j p1 + - (ra_bias p1 + (b_w (H (c_b c)) - b_w (H (c_a c)))) * ra_isum p1).
  set (m := c_maxforce c * dt) in *. set (q := ra_ratchet p1) in *. intros L.
  assert (Aq : 0 < Rabs q) by now apply Rabs_pos_lt.
  assert (E : nclamp (N:=RNum) (Rmult X q) 0 (Rmult m (Rabs q)) / q = X).
  { revert L. rewrite RnclampE by nra. rcases; intros [L1 L2].
    - exfalso. revert L1. unfold Rdiv. rewrite Rmult_0_l, Rabs_R0. lra.
    - exfalso. revert L2. unfold Rdiv. rewrite Rabs_mult, (Rabs_right (m * Rabs q)) by nra. rewrite Rabs_inv.
      rewrite Rmult_assoc, Rinv_r by lra. lra.
    - field. exact Q. }
  rewrite E. match goal with |- context [apply_torque H (c_a c) (c_b c) ?e] => destruct (torque_ab H (c_a c) (c_b c) e Hab) as [-> ->] end.
  destruct (frame_minv _ _ (c_a c) F) as [_ ->]. destruct (frame_minv _ _ (c_b c) F) as [_ ->].
  unfold X. rewrite Is. rfield. exact P.
Qed.

(** ** Reported total impulse *)
Lemma fold_dot (n : @vec RNum) (cs : list Rcontact) : forall z,
  vdot (fold_left (fun sum c => vadd sum (vrotate n (V (k_jn c) (k_jt c)))) cs z) n = vdot z n + vdot n n * Rsum (fun c => k_jn c) cs.
Proof.
  induction cs as [|c cs IH]; intros z; cbn [fold_left]; [unfold Rsum; cbn; ring|].
  rewrite IH, Rsum_cons. unfold vdot, vadd, vrotate. cbn. unR. ring.
Qed.
Lemma total_impulse_normal (s : Rsarb) : s_cached s = false ->
  vdot (total_impulse s) (arb_normal s) = - (vdot (s_n s) (s_n s) * Rsum (fun c => k_jn c) (s_contacts s)).
Proof.
  intros C. unfold total_impulse, arb_normal, arb_count. rewrite C, firstn_all.
  pose proof (fold_dot (s_n s) (s_contacts s) vzero) as X.
  set (f := fold_left _ _ _) in *. clearbody f. unfold vzero, vdot in X. cbn in X.
  destruct (s_swapped s); unfold vdot, vneg, vscale; cbn; unR; lra.
Qed.
Lemma Rsum_nonneg {A} (f : A -> R) l : (forall x, In x l -> 0 <= f x) -> 0 <= Rsum f l.
Proof.
  induction l as [|x l IH]; intros Hl; [unfold Rsum; cbn; lra|]. rewrite Rsum_cons.
  assert (0 <= f x) by (apply Hl; now left). assert (0 <= Rsum f l) by (apply IH; intros; apply Hl; now right). lra.
Qed.
Lemma total_impulse_pushes n slop bias g d dt prevdt L (w : Rworld) s :
  In s (w_arbs (solve (S n) slop bias g d dt prevdt L w)) -> s_cached s = false -> vdot (total_impulse s) (arb_normal s) <= 0.
Proof.
  intros Hs C. rewrite total_impulse_normal by auto.
  assert (0 <= Rsum (fun c => k_jn c) (s_contacts s)).
  { apply Rsum_nonneg. intros c Hc. destruct (iterations_ok (N:=RNum) _ _ _ s c Hs Hc) as [X _]. apply Rleb_true. apply X. apply (nleb_ok (k_jn c) (k_jn c)). apply Rleb_true. lra. }
  assert (0 <= vdot (s_n s) (s_n s)) by (unfold vdot; unR; nra).
  assert (0 <= vdot (s_n s) (s_n s) * Rsum (fun c => k_jn c) (s_contacts s)) by now apply Rmult_le_pos. lra.
Qed.

(** ** Witnesses *)
(* unit mass and moment, identity frame *)
Definition ub (x y u v w : R) : Rbody :=
  @Body RNum 1 1 1 1 0 w 0 (rvec 0 0) (rvec x y) (rvec u v) (rvec 0 0) (tf_translate (rvec x y)) 0 (rvec 0 0) 0.
(* infinite mass and moment *)
Definition fixed (x y : R) : Rbody :=
  @Body RNum 1 0 1 0 0 0 0 (rvec 0 0) (rvec x y) (rvec 0 0) (rvec 0 0) (tf_translate (rvec x y)) 0 (rvec 0 0) 0.
Definition two (a b : Rbody) : Rheap := fun i => match i with 0%nat => a | _ => b end.

Definition wc : Rcontact := @Contact RNum (rvec 0 0) (rvec 1 (-1)) 0 0 0 0 0 0 0 0%Z.
Definition ws (u : R) : Rsarb := @SArb RNum 0 1 0 u (rvec 0 0) (rvec 0 1) false true false [wc].
Definition wH : Rheap := two (fixed 0 0) (ub 0 1 1 (-1) 0).
Ltac clampcalc := unfold nclamp; unR; repeat (match goal with |- context [Rltb ?a ?b] => destruct (Rltb_spec a b) | |- context [Rleb ?a ?b] => destruct (Rleb_spec a b) end).
Lemma friction_inexact :
  let c1 := contact_prestep wH (ws 1) 1 (1/10) (1/2) wc in
  let '(H', c2) := contact_apply wH (ws 1) c1 in
  0 < k_jn c2 /\ vdot (vadd (relative_velocity (H' 0%nat) (H' 1%nat) (k_r1 wc) (k_r2 wc)) (s_svr (ws 1))) (s_n (ws 1)) = - (1/2) /\ k_bounce c1 = 0.
Proof.
  cbv zeta.
  assert (E1 : contact_prestep wH (ws 1) 1 (1/10) (1/2) wc = @Contact RNum (rvec 0 0) (rvec 1 (-1)) (1/2) (1/2) 0 0 0 0 0 0%Z).
  { unfold contact_prestep. cbv zeta. cbn. unfold kscalar, kscalar_body, normal_relative_velocity, relative_velocity, vcross, vdot. cbn. unR.
    f_equal; try field. unfold Rmin. destruct Rle_dec; lra. }
  rewrite E1. unfold contact_apply. cbv zeta. cbn [k_jn k_jt k_jbias k_bias k_nmass k_tmass k_bounce k_r1 k_r2 s_n s_u ws s_svr s_a s_b].
  assert (Vn : vdot (vadd (relative_velocity (wH 0%nat) (wH 1%nat) (rvec 0 0) (rvec 1 (-1))) (rvec 0 0)) (rvec 0 1) = -1)
    by (unfold vdot, vadd, relative_velocity, rvec; cbn; unR; lra).
  assert (Vt : vdot (vadd (relative_velocity (wH 0%nat) (wH 1%nat) (rvec 0 0) (rvec 1 (-1))) (rvec 0 0)) (vperp (rvec 0 1)) = -1)
    by (unfold vdot, vadd, relative_velocity, rvec; cbn; unR; lra).
  rewrite Vn, Vt. clear Vn Vt E1.
  match goal with |- context [apply_bias_impulses wH ?a ?b ?x ?y ?z] => set (Hb := apply_bias_impulses wH a b x y z) end.
  match goal with |- context [nmax ?a ?b] => assert (Jn : nmax a b = 1/2) by (unR; unfold Rmax; destruct Rle_dec; lra) end.
  rewrite Jn. match goal with |- context [nclamp ?a ?b ?c] => assert (Jt : nclamp a b c = 1/2) by (unR; rewrite RnclampE by lra; rcases; lra) end.
  rewrite Jt.
  split; [lra|]. split; [|reflexivity].
  match goal with |- context [apply_impulses Hb _ _ ?r1 ?r2 ?j] => destruct (imp_ab Hb 0%nat 1%nat r1 r2 j ltac:(discriminate)) as [-> ->] end.
  unfold Hb, apply_bias_impulses, vdot, vadd, relative_velocity, rvec, upd. cbn. unR. field.
Qed.
Lemma frictionless_example :
  let c1 := contact_prestep wH (ws 0) 1 (1/10) (1/2) wc in
  let '(H', c2) := contact_apply wH (ws 0) c1 in 0 < k_jn c2 /\ k_jt c2 = k_jt c1.
Proof.
  cbv zeta.
  assert (E1 : contact_prestep wH (ws 0) 1 (1/10) (1/2) wc = @Contact RNum (rvec 0 0) (rvec 1 (-1)) (1/2) (1/2) 0 0 0 0 0 0%Z).
  { unfold contact_prestep. cbv zeta. cbn. unfold kscalar, kscalar_body, normal_relative_velocity, relative_velocity, vcross, vdot. cbn. unR.
    f_equal; try field. unfold Rmin. destruct Rle_dec; lra. }
  rewrite E1. unfold contact_apply. cbv zeta. cbn [k_jn k_jt k_jbias k_bias k_nmass k_tmass k_bounce k_r1 k_r2 s_n s_u ws s_svr s_a s_b].
  assert (Vn : vdot (vadd (relative_velocity (wH 0%nat) (wH 1%nat) (rvec 0 0) (rvec 1 (-1))) (rvec 0 0)) (rvec 0 1) = -1)
    by (unfold vdot, vadd, relative_velocity, rvec; cbn; unR; lra).
  rewrite Vn. unR. split; [unfold Rmax; destruct Rle_dec; lra|]. rewrite RnclampE by (unfold Rmax; destruct Rle_dec; lra).
  unfold Rmax. destruct Rle_dec; rcases; lra.
Qed.

(* a stiff spring between two unit bodies at distance 1 *)
Definition wspring : @spring RNum :=
  @Spring RNum (rvec 0 0) (rvec 0 0) 0 (default_spring_force (N:=RNum) 11 1) 0 0 (rvec 0 0) (rvec 0 0) 0 (rvec 0 0) 0.
Definition wcst (maxf : R) : Rcstr := @Cstr RNum 0 1 maxf 0 10.
Lemma spring_unlimited :
  let H := two (ub 0 0 0 0 0) (ub 1 0 0 0 0) in
  let '(H1, k1) := joint_prestep H (wcst 1) 1 (JSpring wspring) in
  let '(H2, k2) := joint_apply H1 (wcst 1) 1 k1 in
  joint_impulse k2 = 10 /\ vx (b_vel (H2 1%nat)) = 10.
Proof.
  cbv zeta.
  assert (E1 : joint_prestep (two (ub 0 0 0 0 0) (ub 1 0 0 0 0)) (wcst 1) 1 (JSpring wspring) =
    (apply_impulses (two (ub 0 0 0 0 0) (ub 1 0 0 0 0)) 0 1 (rvec 0 0) (rvec 0 0) (rvec 10 0),
     JSpring (@Spring RNum (rvec 0 0) (rvec 0 0) 0 (default_spring_force (N:=RNum) 11 1) 0 0 (rvec 0 0) (rvec 0 0) (1/2) (rvec 1 0) 10))).
  { cbn [joint_prestep]. unfold spring_prestep. cbv zeta.
    assert (A : forall x y (t : @transform RNum), t = tf_translate (rvec x y) -> tf_apply_vector t (vsub (rvec 0 0) (rvec 0 0)) = rvec 0 0).
    { intros x y t ->. apply vec_eq; cbn; unR; rring. }
    assert (B1 : anchor_arm (two (ub 0 0 0 0 0) (ub 1 0 0 0 0) (c_a (wcst 1))) (sp_anchA wspring) = rvec 0 0) by (apply (A 0 0); reflexivity).
    assert (B2 : anchor_arm (two (ub 0 0 0 0 0) (ub 1 0 0 0 0) (c_b (wcst 1))) (sp_anchB wspring) = rvec 0 0) by (apply (A 1 0); reflexivity).
    rewrite B1, B2. clear A B1 B2. cbn [wcst c_a c_b two].
    assert (D : vsub (vadd (b_pos (ub 1 0 0 0 0)) (rvec 0 0)) (vadd (b_pos (ub 0 0 0 0 0)) (rvec 0 0)) = rvec 1 0) by (apply vec_eq; cbn; unR; rring).
    rewrite D. clear D.
    assert (Mg : vmag (rvec 1 0) = 1) by (unfold vmag, vdot; cbn; unR; replace (1 * 1 + 0 * 0) with 1 by ring; apply sqrt_1).
    rewrite Mg. unR. rewrite (proj2 (Reqb_false _ _)) by lra. cbn [negb].
    assert (Nv : vscale (rvec 1 0) (1/1) = rvec 1 0) by (apply vec_eq; cbn; unR; rfield).
    unR. rewrite Nv.
    assert (K : kscalar (ub 0 0 0 0 0) (ub 1 0 0 0 0) (rvec 0 0) (rvec 0 0) (rvec 1 0) = 2) by (unfold kscalar, kscalar_body, vcross; cbn; unR; lra).
    rewrite K. unfold wspring. cbn [sp_force sp_damping sp_anchA sp_anchB]. unfold default_spring_force. unR.
    replace (- 0 * 1 * 2) with 0 by ring. cbn [nexp RElem]. rewrite exp_0.
    replace ((11 - 1) * 1 * 1) with 10 by ring. replace (1 - 1) with 0 by ring. f_equal. f_equal. apply vec_eq; cbn; unR; rring. }
  rewrite E1. cbn [joint_apply]. unfold spring_apply. cbv zeta.
  cbn [sp_target sp_vcoef sp_nmass sp_j sp_n sp_r1 sp_r2 joint_impulse]. unR.
  split; [ring|].
  match goal with |- context [apply_impulses ?h ?a ?b ?r1 ?r2 ?j] => destruct (imp_ab h 0%nat 1%nat r1 r2 j ltac:(discriminate)) as [_ X] end.
  cbn [wcst c_a c_b]. cbn [wcst c_a c_b] in X. rewrite X. clear X.
  cbn [kick b_vel set_vel_fields vx]. unfold vscale. cbn [vx]. 
  match goal with |- context [apply_impulses ?h ?a ?b ?r1 ?r2 ?j] => destruct (imp_ab h 0%nat 1%nat r1 r2 j ltac:(discriminate)) as [_ X] end.
  rewrite X. cbn. unR. ring.
Qed.
(* damping of a rotary spring is reported with the wrong sign *)
Lemma rotary_spring_sign :
  let H := two (ub 0 0 0 0 2) (ub 0 0 0 0 0) in
  let p := @RSpring RNum 1 (fun _ => 0) 0 0 0 0 in
  let '(H1, k1) := joint_prestep H (wcst 1) 1 (JRSpring p) in
  let '(H2, k2) := joint_apply H1 (wcst 1) 1 k1 in
  0 < b_moi (H 1%nat) * b_w (H2 1%nat) - b_moi (H 1%nat) * b_w (H 1%nat) /\
  joint_impulse k2 = - (b_moi (H 1%nat) * b_w (H2 1%nat) - b_moi (H 1%nat) * b_w (H 1%nat)).
Proof.
  cbv zeta. cbn [joint_prestep]. unfold rspring_prestep. cbv zeta. cbn [joint_apply]. unfold rspring_apply. cbv zeta.
  cbn [rs_target rs_wcoef rs_isum rs_j joint_impulse rs_torque rs_damping wcst c_a c_b].
  unfold apply_damp, apply_torque, upd. cbn. unR.
  assert (X : exp (- (1) * 1 * (1 + 1)) < 1) by (apply Rlt_le_trans with (exp 0); [apply exp_increasing; lra|rewrite exp_0; lra]).
  set (e := exp _) in *. clearbody e. split; lra.
Qed.
Lemma cached_write_back_fatal : exists (H : Rheap) (s : Rsarb), s_cached s = true /\ s_contacts s <> [] /\
  set_contact_point_set H s (contact_point_set H s) = None.
Proof.
  exists wH, (@SArb RNum 0 1 0 0 (rvec 0 0) (rvec 0 1) false false true [wc]). split; [reflexivity|]. split; [discriminate|reflexivity].
Qed.
Lemma wrong_count_refused (H : Rheap) (s : Rsarb) set : length (cp_points set) <> length (s_contacts s) -> set_contact_point_set H s set = None.
Proof. intros L. unfold set_contact_point_set. now rewrite (proj2 (Nat.eqb_neq _ _) L). Qed.
Definition wgear : Rheap := two (ub 0 0 0 0 1) (ub 0 0 0 0 0).
Lemma gear_not_conserving :
  angmom [0%nat; 1%nat] wgear = 1 /\
  angmom [0%nat; 1%nat] (fst (gear_apply wgear (wcst 10) 1 (gear_prestep wgear (wcst 10) 1 (new_gear (N:=RNum) 0 2)))) = 6 / 5.
Proof.
  split; [unfold angmom, Rsum; cbn; ring|].
  assert (E : gear_prestep wgear (wcst 10) 1 (new_gear (N:=RNum) 0 2) = @Gear RNum 0 2 (1/2) (2/5) 0 0).
  { unfold gear_prestep. cbv zeta. cbn [new_gear ge_phase ge_ratio ge_ratioinv ge_j]. f_equal.
    - cbn. unR. field.
    - unR. set (bc := bias_coef _ _). match goal with |- nclamp ?x _ _ = _ => replace x with (0 : R) by (cbn; unR; rfield) end.
      rewrite RnclampE by (cbn; unR; lra). cbn. rcases; lra. }
  rewrite E. unfold gear_apply. cbv zeta. cbn [ge_j ge_ratioinv ge_ratio ge_bias ge_isum fst wcst c_a c_b c_maxforce].
  match goal with |- context [nclamp ?a ?b ?c] => assert (J : nclamp a b c = 2/5) by (cbn; unR; rewrite RnclampE by lra; rcases; lra) end.
  rewrite J. unfold angmom, Rsum, apply_gear, upd. cbn. unR. field.
Qed.
Lemma imp_common_point L (H : Rheap) a b r1 r2 (j : @vec RNum) : NoDup L -> Din L a b -> movable L H -> rotatable L H ->
  vadd (b_pos (H a)) r1 = vadd (b_pos (H b)) r2 -> angmom L (apply_impulses H a b r1 r2 j) = angmom L H.
Proof.
  intros ND D M I E. rewrite imp_angmom by auto. pose proof (f_equal vx E) as X. pose proof (f_equal vy E) as Y.
  unfold vadd in X, Y. cbn in X, Y. unR. rewrite X, Y. ring.
Qed.
Lemma gear_refuted :
  exists (H : Rheap) c, movable [0%nat; 1%nat] H /\ rotatable [0%nat; 1%nat] H /\
  angmom [0%nat; 1%nat] (fst (gear_apply H c 1 (gear_prestep H c 1 (new_gear (N:=RNum) 0 2)))) <> angmom [0%nat; 1%nat] H.
Proof.
  exists wgear, (wcst 10). split; [intros i [<-|[<-|[]]]; cbn; lra|]. split; [intros i [<-|[<-|[]]]; cbn; lra|].
  destruct gear_not_conserving as [A B]. rewrite B, A. lra.
Qed.
Lemma spring_limit_refuted :
  exists (H : Rheap) (c : Rcstr) (p : spring),
  let '(H1, k1) := joint_prestep H c 1 (JSpring p) in
  let '(H2, k2) := joint_apply H1 c 1 k1 in
  c_maxforce c = 1 /\ joint_impulse k2 = 10 /\ vx (b_vel (H2 1%nat)) = 10.
Proof.
  exists (two (ub 0 0 0 0 0) (ub 1 0 0 0 0)), (wcst 1), wspring. pose proof spring_unlimited as X. cbv zeta in X.
  destruct joint_prestep as [H1 k1]. destruct joint_apply as [H2 k2]. exact (conj eq_refl X).
Qed.
Lemma friction_refuted :
  exists (H : Rheap) (s : Rsarb) (c : Rcontact), s_a s <> s_b s /\ vdot (s_n s) (s_n s) = 1 /\
  let c1 := contact_prestep H s 1 (1/10) (1/2) c in
  let '(H', c2) := contact_apply H s c1 in
  0 < k_jn c2 /\
  vdot (vadd (relative_velocity (H' (s_a s)) (H' (s_b s)) (k_r1 c) (k_r2 c)) (s_svr s)) (s_n s) <> - k_bounce c1.
Proof.
  exists wH, (ws 1), wc. split; [discriminate|]. split; [unfold vdot; cbn; lra|].
  pose proof friction_inexact as X. cbv zeta in X |- *. set (c1 := contact_prestep _ _ _ _ _ _) in *. destruct contact_apply as [H' c2].
  destruct X as (A & B & C). split; [exact A|]. intros D. rewrite C in D. cbn [ws s_a s_b] in D. rewrite B in D. lra.
Qed.
