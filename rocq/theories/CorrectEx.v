(** Warm starting, and concrete bodies for C72. *)
From Coq Require Import ZArith Bool Reals List Lra Lia Psatz.
From Verif Require Import Num NumReal Vec BB BBProofs Transform TransformProofs Body BodySpec BodyProofs Solver SolverSpec SolverProofs SolverProofs2 SolverProofs3 SolverProofs4 SolverProofs5 SolverProofs6 EnergyProofs EquilProofs Joints CorrectSpec CorrectProofs CorrectProofs2.
Import ListNotations.
Local Open Scope R_scope.

Lemma warm_start (H : Rheap) slop bias g damping dt prevdt (s : Rsarb) (k : Rcontact) : prevdt <> 0 -> s_a s <> s_b s -> s_first s = false -> s_contacts s = [k] ->
  let H' := w_heap (solve 0 slop bias g damping dt prevdt [] (World H [s] [])) in
  let j := vrotate (s_n s) (V (k_jn k) (k_jt k)) in
  vscale (vsub (b_vel (H' (s_b s))) (b_vel (H (s_b s)))) prevdt = vscale j (dt * b_minv (H (s_b s))) /\
  vscale (vsub (b_vel (H (s_a s))) (b_vel (H' (s_a s)))) prevdt = vscale j (dt * b_minv (H (s_a s))) /\
  (b_w (H' (s_b s)) - b_w (H (s_b s))) * prevdt = dt * b_iinv (H (s_b s)) * vcross (k_r2 k) j /\
  (b_w (H (s_a s)) - b_w (H' (s_a s))) * prevdt = dt * b_iinv (H (s_a s)) * vcross (k_r1 k) j.
Proof.
  intros Pd Hab F Cs. cbv zeta. unfold solve, cached_all, integrate_all, prestep_all. cbn [iterations w_heap w_arbs w_joints joints_prestep map fold_left].
  unfold arb_cached, arb_prestep, with_contacts. cbn [s_first s_contacts]. rewrite F, Cs. cbn [map fold_left]. unfold contact_cached. cbn [s_a s_b s_n k_r1 k_r2 k_jn k_jt contact_prestep].
  unR. rewrite (proj2 (Reqb_false prevdt 0) Pd). cbn [negb].
  match goal with |- context [apply_impulses H (s_a s) (s_b s) ?r1 ?r2 ?q] => destruct (imp_ab H (s_a s) (s_b s) r1 r2 q Hab) as [-> ->] end.
  set (j := vrotate _ _). clearbody j. unfold kick. unB. cbn [b_vel b_w set_vel_fields].
  split; [|split; [|split]]; try (apply vec_eq; unfold vsub, vscale; cbn [vx vy]; unR; rfield; exact Pd); unfold vcross, vscale; cbn [vx vy]; unR; rfield; exact Pd.
Qed.

(** A ball of mass 1 falling on the ground at speed 2.  The contact carried an impulse 1 in the last step, of length 1; this step has length 2. *)
Definition rest_k : Rcontact := @Contact RNum (rvec 0 0) (rvec 0 0) 0 0 0 1 0 0 0 0%Z.
Definition rest_s : Rsarb := @SArb RNum 0 1 0 0 (rvec 0 0) (rvec 0 1) false false false [rest_k].
Definition rest_H : Rheap := two (fixed 0 0) (ub 0 0 0 (-2) 0).
Lemma rest_pre : @contact_prestep RNum rest_H rest_s 2 0 (1/2) rest_k = @Contact RNum (rvec 0 0) (rvec 0 0) 1 1 0 1 0 0 0 0%Z.
Proof.
  unfold contact_prestep. cbv zeta. cbn. unfold kscalar, kscalar_body, normal_relative_velocity, relative_velocity, vcross, vdot. cbn. unR.
  f_equal; try field. unfold Rmin. destruct Rle_dec; lra.
Qed.
Lemma rest_report :
  let w := solve 1 0 (1/2)%R (rvec 0 0) 1 2 1 [] (World rest_H [rest_s] []) in
  b_vel (rest_H 1%nat) = rvec 0 (-2) /\ b_minv (rest_H 1%nat) = 1 /\ b_vel (w_heap w 1%nat) = rvec 0 0 /\ map total_impulse (w_arbs w) = [rvec 0 (-1)].
Proof.
  cbv zeta. split; [reflexivity|]. split; [reflexivity|].
  unfold solve, prestep_all. cbn [w_heap w_arbs w_joints joints_prestep map]. unfold arb_prestep. cbn [s_contacts rest_s map]. fold rest_s.
  change (s_contacts rest_s) with [rest_k]. cbn [map]. 
  change (@contact_prestep RNum rest_H rest_s 2 0 (1/2)%R rest_k) with (@contact_prestep RNum rest_H rest_s 2 0 (1/2) rest_k). rewrite rest_pre.
  unfold integrate_all, cached_all. cbn [w_heap w_arbs w_joints fold_left]. unfold arb_cached, with_contacts. cbn [s_first rest_s s_contacts fold_left s_a s_b s_n].
  unR. replace (Reqb 1 0) with false by (symmetry; apply Reqb_false; lra). cbn [negb].
  cbn [iterations]. unfold iteration. cbn [w_heap w_arbs w_joints joints_apply arbs_apply]. unfold arb_apply. cbn [s_contacts contacts_apply].
  set (Hc := contact_cached _ _ _ _).
  assert (V : forall i, (i < 2)%nat -> b_vel (Hc i) = rvec 0 0 /\ b_w (Hc i) = 0 /\ b_vbias (Hc i) = rvec 0 0 /\ b_wbias (Hc i) = 0).
  { intros i Hi. unfold Hc, contact_cached, apply_impulses, upd, rest_H, two. cbn [s_a s_b s_n k_r1 k_r2 k_jn k_jt].
    destruct i as [|[|i]]; [| |lia]; cbn; unfold rvec; unR; (split; [|split; [|split]]); try (apply vec_eq; cbn; unR; lra); try reflexivity; try (cbn; unR; lra). }
  destruct (V 0%nat) as (A1 & A2 & A3 & A4); [lia|]. destruct (V 1%nat) as (B1 & B2 & B3 & B4); [lia|]. clear V. clearbody Hc.
  unfold contact_apply. cbv zeta. cbn [k_jn k_jt k_jbias k_bias k_nmass k_tmass k_bounce k_r1 k_r2 s_n s_u s_svr s_a s_b].
  assert (Rv : relative_velocity (Hc 0%nat) (Hc 1%nat) (rvec 0 0) (rvec 0 0) = rvec 0 0).
  { unfold relative_velocity. rewrite A1, A2, B1, B2. apply vec_eq; cbn; unR; lra. }
  rewrite Rv, A3, A4, B3, B4.
  match goal with |- context [nclamp ?a ?b ?c] => assert (Ec : nclamp a b c = 0) end.
  { unfold nclamp, vdot, vadd, rvec. cbn. unR. unfold Rmax, Rmin. repeat destruct Rle_dec; rcases; lra. }
  match goal with |- context [nmax (nadd 1 ?a) n0] => assert (Em : nmax (nadd 1 a) n0 = 1) end.
  { unfold vdot, vadd, rvec. cbn. unR. unfold Rmax. destruct Rle_dec; lra. }
  rewrite Ec, Em. match goal with |- context [apply_bias_impulses Hc ?a ?b ?x ?y ?z] => set (Hb := apply_bias_impulses Hc a b x y z) end.
  assert (Vb : b_vel (Hb 1%nat) = rvec 0 0).
  { unfold Hb, apply_bias_impulses, upd. cbn. exact B1. }
  clearbody Hb. unfold apply_impulses, upd. cbn [Nat.eqb fst snd w_heap w_arbs map]. unfold kick. unB. cbn [b_vel set_vel_fields]. rewrite Vb. split.
  - apply vec_eq; cbn; unR; rring.
  - unfold total_impulse. cbn. f_equal. apply vec_eq; cbn; unR; rring.
Qed.

(** ** Concrete joints *)
Definition ex_c : Rcstr := @Cstr RNum 0 1 10 (1/2) 10.
Definition ex_H : Rheap := two (ub 0 0 0 0 0) (ub 2 0 0 0 0).
Lemma ex_frame : hframe ex_H ex_H.
Proof. intros i. repeat split. Qed.
Lemma ex_pair : movable_pair (ex_H 0%nat) (ex_H 1%nat).
Proof. unfold movable_pair. cbn. lra. Qed.
Lemma ex_left : left_after (c_errorbias ex_c) 1 = 1/2.
Proof. unfold left_after, ex_c. cbn. rewrite Rpower_1; lra. Qed.
Lemma ex_coef : @bias_coef RNum RElem (c_errorbias ex_c) 1 = 1/2.
Proof. rewrite coef_left by (unfold ex_c; cbn; lra). rewrite ex_left. lra. Qed.
Lemma ex_coherent i : (i < 2)%nat -> coherent (ex_H i).
Proof.
  intros Hi. unfold coherent, set_transform, ex_H, two, ub. destruct i as [|[|i]]; [| |lia]; unB; unfold tf_translate, tf_new; cbn; unR; rewrite cos_0, sin_0; f_equal; ring.
Qed.
Lemma ex_arm i (x y : R) : (i < 2)%nat -> anchor_arm (ex_H i) (rvec x y) = rvec x y.
Proof. intros Hi. destruct i as [|[|i]]; [| |lia]; apply vec_eq; cbn; unR; rring. Qed.
Definition ex_pin : @pin RNum := Pin (rvec 0 0) (rvec 0 0) 1 (rvec 0 0) (rvec 0 0) (rvec 0 0) 0 0 0.
Lemma mag_2 : vmag (rvec 2 0) = 2.
Proof. unfold vmag, vdot, rvec. cbn. unR. replace (2 * 2 + 0 * 0) with (2 * 2) by ring. apply sqrt_square. lra. Qed.
Lemma ex_delta : vsub (vadd (b_pos (ex_H 1%nat)) (rvec 0 0)) (vadd (b_pos (ex_H 0%nat)) (rvec 0 0)) = rvec 2 0.
Proof. apply vec_eq; cbn; unR; rring. Qed.
Lemma ex_pin_pre : pin_prestep ex_H ex_c 1 ex_pin = Pin (rvec 0 0) (rvec 0 0) 1 (rvec 0 0) (rvec 0 0) (rvec 1 0) (1/2)%R 0 (-1/2)%R.
Proof.
  unfold pin_prestep. cbv zeta. cbn [c_a c_b ex_c pn_anchA pn_anchB pn_dist pn_j ex_pin]. rewrite !ex_arm by lia. rewrite delta_same, ex_delta, mag_2. unR.
  replace (Reqb 2 0) with false by (symmetry; apply Reqb_false; lra). cbn [negb].
  assert (N : vscale (rvec 2 0) (1 / 2)%R = rvec 1 0) by (apply vec_eq; cbn; unR; lra). rewrite N. f_equal.
  - unfold kscalar, kscalar_body, vcross. cbn. unR. lra.
  - rewrite ex_coef. cbn [c_maxbias ex_c]. unfold nclamp. unR. unfold Rmin. rcases; try destruct Rle_dec; lra.
Qed.
Lemma ex_pin_ok :
  0 < vmag (vsub (vadd (b_pos (ex_H 1%nat)) (anchor_arm (ex_H 1%nat) (pn_anchB ex_pin))) (vadd (b_pos (ex_H 0%nat)) (anchor_arm (ex_H 0%nat) (pn_anchA ex_pin)))) /\
  Rabs (pn_j (snd (pin_apply ex_H ex_c 1 (pin_prestep ex_H ex_c 1 ex_pin)))) = 1/4 /\ c_maxforce ex_c * 1 = 10.
Proof.
  cbn [pn_anchA pn_anchB ex_pin]. rewrite !ex_arm by lia. rewrite ex_delta, mag_2. split; [lra|]. split; [|cbn; lra].
  rewrite ex_pin_pre. unfold pin_apply. cbv zeta. cbn [snd pn_j pn_r1 pn_r2 pn_n pn_nmass pn_bias ex_c c_a c_b c_maxforce].
  match goal with |- Rabs ?x = _ => assert (E : x = - (1/4)) end.
  { unfold nclamp, normal_relative_velocity, relative_velocity, vdot. cbn. unR. unfold Rmin. rcases; try destruct Rle_dec; lra. }
  etransitivity; [exact (f_equal Rabs E)|]. rewrite Rabs_Ropp. apply Rabs_pos_eq. lra.
Qed.
Definition ex_gear : @gear RNum := Gear (-1)%R 1 1 0 0 0.
Lemma ex_gear_ok : Rabs (ge_j (snd (gear_apply ex_H ex_c 1 (gear_prestep ex_H ex_c 1 ex_gear)))) = 1/4 /\
  b_iinv (ex_H 0%nat) * ge_ratioinv ex_gear + ge_ratio ex_gear * b_iinv (ex_H 1%nat) = 2.
Proof.
  split; [|cbn; lra]. unfold gear_apply, gear_prestep. cbv zeta. cbn [snd ge_j ge_ratio ge_ratioinv ge_isum ge_bias ge_phase ex_gear c_a c_b].
  rewrite ex_coef. match goal with |- Rabs ?x = _ => assert (E : x = - (1/4)) end.
  { set (z := nclamp (N := RNum) (- _ * _ / _)%num _ _). assert (Z : z = - (1/2)) by (unfold z, nclamp; cbn; unR; unfold Rmin; rcases; repeat destruct Rle_dec; lra).
    clearbody z. subst z. unfold nclamp. cbn. unR. unfold Rmin. rcases; repeat destruct Rle_dec; lra. }
  etransitivity; [exact (f_equal Rabs E)|]. rewrite Rabs_Ropp. apply Rabs_pos_eq. lra.
Qed.
Definition ex_ratchet : @ratchet RNum := Ratchet 1 0 (1/2)%R 0 0 0.
Definition ex_ratchet2 : @ratchet RNum := Ratchet (-1)%R (1/8)%R (1/2)%R 0 0 0.
Lemma ex_ratchet_ok :
  0 < (ra_angle ex_ratchet - (b_angle (ex_H 1%nat) - b_angle (ex_H 0%nat))) * ra_ratchet ex_ratchet /\
  (ra_angle ex_ratchet2 - (b_angle (ex_H 1%nat) - b_angle (ex_H 0%nat))) * ra_ratchet ex_ratchet2 <= 0 /\
  ra_angle (ratchet_prestep ex_H ex_c 1 ex_ratchet2) = - 3/8.
Proof.
  split; [cbn; lra|]. split; [cbn; lra|]. unfold ratchet_prestep. cbv zeta. cbn [ra_angle ra_ratchet ra_phase ex_ratchet2 c_a c_b ex_c]. unR.
  replace (Rltb 0 _) with false by (symmetry; apply Rltb_false; cbn; lra). cbn [ra_angle]. cbn.
  assert (I : Int_part ((0 - 0 - 1/8) / (1/2)) = (-1)%Z).
  { destruct (base_Int_part ((0 - 0 - 1/8) / (1/2))) as [A B]. set (k := Int_part _) in *. clearbody k.
    assert (-2 < k)%Z by (apply lt_IZR; lra). assert (k < 0)%Z by (apply lt_IZR; lra). lia. }
  unR. rewrite I. lra.
Qed.
Definition ex_ball_H : Rheap := two (fixed 0 0) (ub 0 2 1 (-1) 0).
Definition ex_ball_k : Rcontact := @Contact RNum (rvec 0 1) (rvec 0 (-1)) 0 0 0 0 0 0 0 0%Z.
Definition ex_ball_s : Rsarb := @SArb RNum 0 1 (1/2) 10 (rvec 0 0) (rvec 0 1) false true false [ex_ball_k].
Lemma ex_ball_pre : contact_prestep ex_ball_H ex_ball_s 1 0 0 ex_ball_k = @Contact RNum (rvec 0 1) (rvec 0 (-1)) 1 (1/2) (-1/2) 0 0 0 0 0%Z.
Proof.
  unfold contact_prestep. cbv zeta. cbn. unfold kscalar, kscalar_body, normal_relative_velocity, relative_velocity, vcross, vdot. cbn. unR.
  f_equal; field.
Qed.
Lemma ex_ball_ok : let c2 := snd (contact_apply ex_ball_H ex_ball_s (contact_prestep ex_ball_H ex_ball_s 1 0 0 ex_ball_k)) in
  movable_pair (ex_ball_H 0%nat) (ex_ball_H 1%nat) /\ k_jn c2 = 3/2 /\ k_jt c2 = 1/2.
Proof.
  cbv zeta. split; [unfold movable_pair; cbn; lra|]. rewrite ex_ball_pre. unfold contact_apply. cbv zeta. cbn [snd k_jn k_jt k_jbias k_bias k_nmass k_tmass k_bounce k_r1 k_r2 s_n s_u s_svr s_a s_b ex_ball_s].
  assert (Rv : relative_velocity (ex_ball_H 0%nat) (ex_ball_H 1%nat) (rvec 0 1) (rvec 0 (-1)) = rvec 1 (-1)) by (apply vec_eq; cbn; unR; lra).
  rewrite Rv. unfold nclamp, vdot, vadd, vperp, rvec. cbn. unR. unfold Rmax, Rmin. split; rcases; repeat destruct Rle_dec; lra.
Qed.
Definition ex_groove : @groove RNum := new_groove (rvec (-2) 0) (rvec 2 0) (rvec (-1) 1).
Lemma ex_groove_ok : let wa := tf_apply (b_tf (ex_H 0%nat)) (gv_ga ex_groove) in let wb := tf_apply (b_tf (ex_H 0%nat)) (gv_gb ex_groove) in
  let x := vadd (b_pos (ex_H 1%nat)) (anchor_arm (ex_H 1%nat) (gv_anchB ex_groove)) in
  0 < vmag (vsub (gv_gb ex_groove) (gv_ga ex_groove)) /\ vdot (vsub x wa) (vsub wb wa) = 12 /\ vdot (vsub x wb) (vsub wb wa) = -4.
Proof.
  cbv zeta. split.
  - unfold vmag. unR. apply sqrt_lt_R0. unfold vdot. cbn. unR. lra.
  - cbn [gv_anchB ex_groove new_groove]. rewrite ex_arm by lia. unfold vdot. cbn. unR. split; lra.
Qed.
