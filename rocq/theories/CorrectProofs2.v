From Coq Require Import ZArith Bool Reals List Lra Lia Psatz.
From Verif Require Import Num NumReal Vec BB BBProofs Transform TransformProofs Body BodySpec BodyProofs Solver SolverSpec SolverProofs SolverProofs2 SolverProofs3 SolverProofs4 SolverProofs5 SolverProofs6 EnergyProofs EquilProofs Joints CorrectSpec CorrectProofs.
Import ListNotations.
Local Open Scope R_scope.

(** ** Groove *)
Lemma groove_sides (b : Rbody) (ga gb x : @vec RNum) : coherent b -> 0 < vmag (vsub gb ga) ->
  let n := tf_apply_vector (b_tf b) (vperp (vunit (vsub gb ga))) in
  let e := vsub (tf_apply (b_tf b) gb) (tf_apply (b_tf b) ga) in
  vcross x n = / vmag (vsub gb ga) * vdot x e.
Proof.
  intros C P. cbv zeta. unfold coherent in C. rewrite C. unfold set_transform. unB. clear C. set (m := vmag (vsub gb ga)) in *.
  unfold vunit. fold m. clearbody m. unfold tf_apply_vector, tf_apply, tf_new, vperp, vscale, vsub, vcross, vdot. cbn [vx vy ta tb tc td ttx tty]. unR. rfield. lra.
Qed.
Lemma project_cross (j n : @vec RNum) : vcross (vproject j n) n = 0.
Proof. unfold vproject, vcross, vscale. cbn [vx vy]. unR. rring. Qed.
Lemma scale_cross (j n : @vec RNum) s : vcross (vscale j s) n = s * vcross j n.
Proof. unfold vcross, vscale. cbn [vx vy]. unR. rring. Qed.
Lemma constrain_cross (c : Rcstr) (p : groove) (j : @vec RNum) dt : 0 <= c_maxforce c * dt ->
  let q := vcross (groove_constrain c p j dt) (gv_tn p) in
  (gv_clamp p = 0 -> q = 0) /\ (gv_clamp p = 1 -> 0 <= q) /\ (gv_clamp p = -1 -> q <= 0).
Proof.
  intros M. cbv zeta. unfold groove_constrain. cbv zeta. unR.
  match goal with |- context [vclampmag ?v ?l] => destruct (clampmag_part v l M) as (s & S & ->) end.
  rewrite scale_cross. destruct (Rltb_spec 0 (gv_clamp p * vcross j (gv_tn p))) as [L|L].
  - split; [|split]; intros K; rewrite K in L; try nra.
  - rewrite project_cross. split; [|split]; intros _; lra.
Qed.
Lemma dot_sub (x y e : @vec RNum) : vdot (vsub x y) e = vdot x e - vdot y e.
Proof. unfold vdot, vsub. cbn [vx vy]. unR. rring. Qed.
Lemma groove_pushes (H0 H : Rheap) c dt (p : groove) : coherent (H0 (c_a c)) -> 0 <= c_maxforce c * dt ->
  0 < vmag (vsub (gv_gb p) (gv_ga p)) -> gv_gn p = vperp (vunit (vsub (gv_gb p) (gv_ga p))) ->
  let a := H0 (c_a c) in let b := H0 (c_b c) in
  let wa := tf_apply (b_tf a) (gv_ga p) in let wb := tf_apply (b_tf a) (gv_gb p) in
  let x := vadd (b_pos b) (anchor_arm b (gv_anchB p)) in
  let j := gv_j (snd (groove_apply H c dt (groove_prestep H0 c dt p))) in
  (0 < vdot (vsub x wa) (vsub wb wa) -> vdot (vsub x wb) (vsub wb wa) < 0 -> vdot j (vsub wb wa) = 0) /\
  (vdot (vsub x wa) (vsub wb wa) <= 0 -> 0 <= vdot j (vsub wb wa)) /\
  (0 < vdot (vsub x wa) (vsub wb wa) -> 0 <= vdot (vsub x wb) (vsub wb wa) -> vdot j (vsub wb wa) <= 0).
Proof.
  intros C M P G a b wa wb x. cbv zeta.
  set (p1 := groove_prestep H0 c dt p). unfold groove_apply. cbv zeta. cbn [snd gv_j].
  match goal with |- context [groove_constrain c p1 ?v dt] => set (J := v); clearbody J end.
  pose proof (constrain_cross c p1 J dt M) as K. cbv zeta in K.
  set (q := groove_constrain c p1 J dt) in *. clearbody q.
  assert (S : forall y, vcross y (gv_tn p1) = / vmag (vsub (gv_gb p) (gv_ga p)) * vdot y (vsub wb wa)).
  { intros y. replace (gv_tn p1) with (tf_apply_vector (b_tf a) (gv_gn p)).
    - rewrite G. exact (groove_sides a (gv_ga p) (gv_gb p) y C P).
    - unfold p1, groove_prestep. cbv zeta. unR. destruct Rleb; [reflexivity|]. destruct Rleb; reflexivity. }
  assert (Tn : gv_tn p1 = tf_apply_vector (b_tf a) (gv_gn p)).
  { unfold p1, groove_prestep. cbv zeta. unR. destruct Rleb; [reflexivity|]. destruct Rleb; reflexivity. }
  assert (Im : 0 < / vmag (vsub (gv_gb p) (gv_ga p))) by (now apply Rinv_0_lt_compat).
  rewrite S in K. set (im := / vmag (vsub (gv_gb p) (gv_ga p))) in *. clearbody im.
  rewrite !dot_sub.
  assert (Cl : gv_clamp p1 = if Rleb (vcross x (gv_tn p1)) (vcross wa (gv_tn p1)) then 1 else if Rleb (vcross wb (gv_tn p1)) (vcross x (gv_tn p1)) then -1 else 0).
  { rewrite Tn. unfold p1, groove_prestep. cbv zeta. fold a b wa wb x. unR. destruct Rleb; [reflexivity|]. destruct Rleb; reflexivity. }
  rewrite !S in Cl. destruct K as (K0 & K1 & K2).
  set (dx := vdot x (vsub wb wa)) in *. set (da := vdot wa (vsub wb wa)) in *. set (db := vdot wb (vsub wb wa)) in *. set (dq := vdot q (vsub wb wa)) in *.
  clearbody dx da db dq. split; [|split].
  - intros A B. rewrite (proj2 (Rleb_false _ _)) in Cl by nra. rewrite (proj2 (Rleb_false _ _)) in Cl by nra. specialize (K0 Cl).
    apply Rmult_integral in K0. destruct K0; [lra|assumption].
  - intros A. rewrite (proj2 (Rleb_true _ _)) in Cl by nra. specialize (K1 Cl). nra.
  - intros A B. rewrite (proj2 (Rleb_false _ _)) in Cl by nra. rewrite (proj2 (Rleb_true _ _)) in Cl by nra. specialize (K2 Cl). nra.
Qed.

(** ** Friction of a contact whose arms lie along the normal, as between balls *)
Lemma along (r n : @vec RNum) : vdot n n = 1 -> vcross r n = 0 -> r = vscale n (vdot r n).
Proof.
  intros U X. unfold vdot, vcross in *. unR. apply vec_eq; unfold vscale; cbn [vx vy]; unR.
  - transitivity (vx r * (vx n * vx n + vy n * vy n)); [rewrite U; rring|]. transitivity (vx n * (vx r * vx n + vy r * vy n) + vy n * (vx r * vy n - vy r * vx n)); [rring|]. rewrite X. rring.
  - transitivity (vy r * (vx n * vx n + vy n * vy n)); [rewrite U; rring|]. transitivity (vy n * (vx r * vx n + vy r * vy n) - vx n * (vx r * vy n - vy r * vx n)); [rring|]. rewrite X. rring.
Qed.
Lemma ball_response (H : Rheap) a b (n : @vec RNum) p q x y : a <> b -> vdot n n = 1 ->
  let r1 := vscale n p in let r2 := vscale n q in
  let H' := apply_impulses H a b r1 r2 (vrotate n (@V RNum x y)) in
  let v := relative_velocity (H a) (H b) r1 r2 in let v' := relative_velocity (H' a) (H' b) r1 r2 in
  vdot v' n = vdot v n + kscalar (H a) (H b) r1 r2 n * x /\
  vdot v' (vperp n) = vdot v (vperp n) + kscalar (H a) (H b) r1 r2 (vperp n) * y.
Proof.
  intros Hab U r1 r2. cbv zeta. destruct (relvel_after H a b r1 r2 (vrotate n (V x y)) Hab) as [X Y]. cbv zeta in X, Y.
  set (v' := relative_velocity (apply_impulses _ _ _ _ _ _ a) _ _ _) in X, Y |- *. clearbody v'. set (v := relative_velocity (H a) (H b) r1 r2) in *. clearbody v.
  unfold vdot in *. rewrite X, Y. unfold kscalar, kscalar_body, vcross, vrotate, vperp, r1, r2, vscale. cbn [vx vy]. unR.
  set (nx := vx n) in *. set (ny := vy n) in *. clearbody nx ny.
  set (ma := b_minv (H a)). set (mb := b_minv (H b)). set (ia := b_iinv (H a)). set (ib := b_iinv (H b)). clearbody ma mb ia ib. set (vx1 := vx v). set (vy1 := vy v). clearbody vx1 vy1. clear X Y.
  split.
  - transitivity (vx1 * nx + vy1 * ny + (ma + mb) * (nx * nx + ny * ny) * x); [rring|]. rewrite U. rring.
  - transitivity (vx1 * - ny + vy1 * nx + ((ma + mb) * (nx * nx + ny * ny) + (ia * p * p + ib * q * q) * ((nx * nx + ny * ny) * (nx * nx + ny * ny))) * y); [rring|]. 
    transitivity (vx1 * - ny + vy1 * nx + ((ma + mb) + (ia * p * p + ib * q * q) * ((nx * nx + ny * ny) * (nx * nx + ny * ny))) * y); [rewrite U; rring|]. rring.
Qed.
Lemma fin_n (k z sv v b d m : R) : 0 < k -> d = - (b + v) * m -> m = / k -> v = z + sv -> z + k * d + sv = - b.
Proof. intros K -> -> ->. field. lra. Qed.
Lemma fin_t (k z sv v d m : R) : 0 < k -> d = - v * m -> m = / k -> v = z + sv -> z + k * d + sv = 0.
Proof. intros K -> -> ->. field. lra. Qed.
Lemma ball_contact_exact (H0 H : Rheap) (s : Rsarb) dt slop bias (c : Rcontact) : hframe H0 H -> s_a s <> s_b s -> movable_pair (H0 (s_a s)) (H0 (s_b s)) ->
  vdot (s_n s) (s_n s) = 1 -> vcross (k_r1 c) (s_n s) = 0 -> vcross (k_r2 c) (s_n s) = 0 ->
  let c1 := contact_prestep H0 s dt slop bias c in
  let '(H', c2) := contact_apply H s c1 in
  let v0 := relative_velocity (H0 (s_a s)) (H0 (s_b s)) (k_r1 c) (k_r2 c) in
  let v := vadd (relative_velocity (H' (s_a s)) (H' (s_b s)) (k_r1 c) (k_r2 c)) (s_svr s) in
  (0 < k_jn c2 -> vdot v (s_n s) = - (s_e s * vdot v0 (s_n s))) /\
  (Rabs (k_jt c2) < s_u s * k_jn c2 -> vdot v (vperp (s_n s)) = 0).
Proof.
  intros F Hab P U A1 A2 c1. unfold contact_apply. cbv zeta. cbn [k_jn k_jt].
  match goal with |- context [apply_bias_impulses H ?x ?y ?z ?t ?v] => set (Hb := apply_bias_impulses H x y z t v) end.
  assert (Fb : hframe H0 Hb) by (eapply hframe_trans; [exact F|apply bias_frame]).
  assert (Vb : forall i, b_vel (Hb i) = b_vel (H i) /\ b_w (Hb i) = b_w (H i)).
  { intros i. unfold Hb, apply_bias_impulses, upd. repeat (match goal with |- context [Nat.eqb ?x ?y] => destruct (Nat.eqb_spec x y); subst end); cbn; split; congruence || reflexivity. }
  assert (Rv : relative_velocity (Hb (s_a s)) (Hb (s_b s)) (k_r1 c) (k_r2 c) = relative_velocity (H (s_a s)) (H (s_b s)) (k_r1 c) (k_r2 c)).
  { unfold relative_velocity. destruct (Vb (s_a s)) as [-> ->]. destruct (Vb (s_b s)) as [-> ->]. reflexivity. }
  clearbody Hb. change (k_r1 c1) with (k_r1 c). change (k_r2 c1) with (k_r2 c).
  set (v := vadd (relative_velocity (H (s_a s)) _ _ _) (s_svr s)).
  set (n := s_n s) in *. unR.
  set (jn := Rmax _ _). set (jt := nclamp _ _ _).
  pose proof (ball_response Hb (s_a s) (s_b s) n (vdot (k_r1 c) n) (vdot (k_r2 c) n) (jn - k_jn c1) (jt - k_jt c1) Hab U) as [X Y].
  rewrite <- (along _ _ U A1), <- (along _ _ U A2) in X, Y. rewrite Rv in X, Y. rewrite !(kscalar_frame H0 Hb) in X, Y by exact Fb.
  pose proof (kscalar_pos _ _ (k_r1 c) (k_r2 c) n P) as Kn. pose proof (kscalar_pos _ _ (k_r1 c) (k_r2 c) (vperp n) P) as Kt.
  assert (Nm : k_nmass c1 = / kscalar (H0 (s_a s)) (H0 (s_b s)) (k_r1 c) (k_r2 c) n) by (etransitivity; [exact (eq_refl (1 / kscalar (H0 (s_a s)) (H0 (s_b s)) (k_r1 c) (k_r2 c) n))|unfold Rdiv; apply Rmult_1_l]).
  assert (Tm : k_tmass c1 = / kscalar (H0 (s_a s)) (H0 (s_b s)) (k_r1 c) (k_r2 c) (vperp n)) by (etransitivity; [exact (eq_refl (1 / kscalar (H0 (s_a s)) (H0 (s_b s)) (k_r1 c) (k_r2 c) (vperp n)))|unfold Rdiv; apply Rmult_1_l]).
  assert (Bo : k_bounce c1 = s_e s * vdot (relative_velocity (H0 (s_a s)) (H0 (s_b s)) (k_r1 c) (k_r2 c)) n).
  { unfold c1, contact_prestep, normal_relative_velocity. cbn [k_bounce]. fold n. unR. rring. }
  assert (Vn : forall w : @vec RNum, vdot v w = vdot (relative_velocity (H (s_a s)) (H (s_b s)) (k_r1 c) (k_r2 c)) w + vdot (s_svr s) w).
  { intros w. unfold v, vdot, vadd. cbn [vx vy]. unR. rring. }
  set (kn := kscalar (H0 (s_a s)) (H0 (s_b s)) (k_r1 c) (k_r2 c) n) in *. set (kt := kscalar (H0 (s_a s)) (H0 (s_b s)) (k_r1 c) (k_r2 c) (vperp n)) in *. clearbody kn kt.
  rewrite <- Bo. split.
  - intros L. assert (E : jn - k_jn c1 = - (k_bounce c1 + vdot v n) * k_nmass c1).
    { unfold jn in *. revert L. unfold Rmax. destruct Rle_dec; intros; lra. }
    match goal with |- vdot (vadd ?q _) _ = _ => transitivity (vdot q n + vdot (s_svr s) n); [unfold vdot, vadd; cbn [vx vy]; unR; rring|] end.
    etransitivity; [apply (f_equal (fun z => z + vdot (s_svr s) n)); exact X|]. cbv beta. exact (fin_n _ _ _ _ _ _ _ Kn E Nm (Vn n)).
  - intros L. assert (E : jt - k_jt c1 = - vdot v (vperp n) * k_tmass c1).
    { unfold jt in *. match type of L with Rabs (nclamp ?a (- ?m)%R ?m') < _ => assert (Q : nclamp (N := RNum) a (- m)%R m = a) by (apply clamp_unclamped, abs_strict; exact L) end.
      etransitivity; [exact (f_equal (fun z : R => z - k_jt c1) Q)|]. cbv beta. ring. }
    match goal with |- vdot (vadd ?q _) _ = _ => transitivity (vdot q (vperp n) + vdot (s_svr s) (vperp n)); [unfold vdot, vadd; cbn [vx vy]; unR; rring|] end.
    etransitivity; [apply (f_equal (fun z => z + vdot (s_svr s) (vperp n))); exact Y|]. cbv beta. exact (fin_t _ _ _ _ _ _ Kt E Tm (Vn (vperp n))).
Qed.
