From Coq Require Import ZArith Bool Reals List Lra Lia Psatz.
From Verif Require Import Num NumReal Vec BB BBProofs Transform TransformProofs Body BodySpec BodyProofs Solver SolverSpec SolverProofs SolverProofs3 SolverProofs4.
Import ListNotations.
Local Open Scope R_scope.

Lemma imp_ab (H : Rheap) a b r1 r2 j : a <> b ->
  apply_impulses H a b r1 r2 j a = kick (H a) r1 (V (- vx j)%num (- vy j)%num) /\ apply_impulses H a b r1 r2 j b = kick (H b) r2 j.
Proof.
  intros Hab. unfold apply_impulses, upd. rewrite !Nat.eqb_refl. destruct (Nat.eqb_spec a b); [tauto|].
  destruct (Nat.eqb_spec b a); [congruence|]. split; reflexivity.
Qed.
Lemma torque_ab (H : Rheap) a b j : a <> b ->
  b_w (apply_torque H a b j a) = b_w (H a) - j * b_iinv (H a) /\ b_w (apply_torque H a b j b) = b_w (H b) + j * b_iinv (H b).
Proof.
  intros Hab. unfold apply_torque, upd. rewrite !Nat.eqb_refl. destruct (Nat.eqb_spec a b); [tauto|].
  destruct (Nat.eqb_spec b a); [congruence|]. split; reflexivity.
Qed.
(** Response of the relative velocity to an impulse. *)
Lemma relvel_after (H : Rheap) a b r1 r2 (j : @vec RNum) : a <> b ->
  let A := H a in let B := H b in let H' := apply_impulses H a b r1 r2 j in
  let v := relative_velocity A B r1 r2 in let v' := relative_velocity (H' a) (H' b) r1 r2 in
  vx v' = vx v + (b_minv A + b_minv B) * vx j + b_iinv A * (vy r1 * vy r1 * vx j - vx r1 * vy r1 * vy j) + b_iinv B * (vy r2 * vy r2 * vx j - vx r2 * vy r2 * vy j) /\
  vy v' = vy v + (b_minv A + b_minv B) * vy j + b_iinv A * (vx r1 * vx r1 * vy j - vx r1 * vy r1 * vx j) + b_iinv B * (vx r2 * vx r2 * vy j - vx r2 * vy r2 * vx j).
Proof.
  intros Hab. cbv zeta. destruct (imp_ab H a b r1 r2 j Hab) as [-> ->].
  unfold relative_velocity, kick, vsub, vadd, vscale, vperp. cbn. unR. split; ring.
Qed.
(** Along a direction the response is kScalar times the impulse, for a unit direction. *)
Lemma relvel_n_after (H : Rheap) a b r1 r2 (n : @vec RNum) s : a <> b -> vdot n n = 1 ->
  let H' := apply_impulses H a b r1 r2 (vscale n s) in
  normal_relative_velocity (H' a) (H' b) r1 r2 n = normal_relative_velocity (H a) (H b) r1 r2 n + s * kscalar (H a) (H b) r1 r2 n.
Proof.
  intros Hab U. cbv zeta. unfold normal_relative_velocity.
  destruct (relvel_after H a b r1 r2 (vscale n s) Hab) as [X Y]. cbv zeta in X, Y.
  set (v' := relative_velocity (apply_impulses _ _ _ _ _ _ a) _ _ _) in X, Y |- *. clearbody v'. set (v := relative_velocity (H a) (H b) r1 r2) in *. clearbody v.
  unfold vdot in *. rewrite X, Y. unfold kscalar, kscalar_body, vcross, vscale. cbn. unR.
  transitivity (vx v * vx n + vy v * vy n + s * ((b_minv (H a) + b_minv (H b)) * (vx n * vx n + vy n * vy n) +
     b_iinv (H a) * (vx r1 * vy n - vy r1 * vx n) * (vx r1 * vy n - vy r1 * vx n) +
     b_iinv (H b) * (vx r2 * vy n - vy r2 * vx n) * (vx r2 * vy n - vy r2 * vx n))); [ring|].
  rewrite U. ring.
Qed.
Definition movable_pair (A B : Rbody) : Prop := 0 <= b_minv A /\ 0 <= b_minv B /\ 0 <= b_iinv A /\ 0 <= b_iinv B /\ 0 < b_minv A + b_minv B.
Lemma ktensor_det m i1 i2 x1 y1 x2 y2 : 0 < m -> 0 <= i1 -> 0 <= i2 ->
  0 < (m + y1 * y1 * i1 + y2 * y2 * i2) * (m + x1 * x1 * i1 + x2 * x2 * i2) - (0 + - x1 * y1 * i1 + - x2 * y2 * i2) * (0 + - x1 * y1 * i1 + - x2 * y2 * i2).
Proof.
  intros Hm H1 H2.
  match goal with |- 0 < ?e => replace e with (m * m + m * (i1 * (x1 * x1 + y1 * y1) + i2 * (x2 * x2 + y2 * y2)) + i1 * i2 * ((x1 * y2 - x2 * y1) * (x1 * y2 - x2 * y1))) by ring end.
  assert (0 < m * m) by nra.
  assert (0 <= i1 * (x1 * x1 + y1 * y1)) by (apply Rmult_le_pos; nra).
  assert (0 <= i2 * (x2 * x2 + y2 * y2)) by (apply Rmult_le_pos; nra).
  assert (0 <= m * (i1 * (x1 * x1 + y1 * y1) + i2 * (x2 * x2 + y2 * y2))) by (apply Rmult_le_pos; lra).
  assert (0 <= i1 * i2 * ((x1 * y2 - x2 * y1) * (x1 * y2 - x2 * y1))) by (apply Rmult_le_pos; [now apply Rmult_le_pos|apply Rle_0_sqr]).
  lra.
Qed.
Lemma ktensor_exact (H : Rheap) a b r1 r2 (t : @vec RNum) : a <> b -> movable_pair (H a) (H b) ->
  let j := mat2_transform (ktensor (H a) (H b) r1 r2) (vsub t (relative_velocity (H a) (H b) r1 r2)) in
  let H' := apply_impulses H a b r1 r2 j in relative_velocity (H' a) (H' b) r1 r2 = t.
Proof.
  intros Hab (P1 & P2 & P3 & P4 & P5). cbv zeta.
  match goal with |- context [apply_impulses H a b r1 r2 ?e] => set (j := e) end.
  destruct (relvel_after H a b r1 r2 j Hab) as [X Y]. cbv zeta in X, Y.
  pose proof (ktensor_det (b_minv (H a) + b_minv (H b)) (b_iinv (H a)) (b_iinv (H b)) (vx r1) (vy r1) (vx r2) (vy r2) P5 P3 P4) as D.
  assert (Jx : vx j = vx (mat2_transform (ktensor (H a) (H b) r1 r2) (vsub t (relative_velocity (H a) (H b) r1 r2)))) by reflexivity.
  assert (Jy : vy j = vy (mat2_transform (ktensor (H a) (H b) r1 r2) (vsub t (relative_velocity (H a) (H b) r1 r2)))) by reflexivity.
  clearbody j.
  set (v' := relative_velocity (apply_impulses H a b r1 r2 j a) _ _ _) in X, Y |- *. clearbody v'. set (v := relative_velocity (H a) (H b) r1 r2) in *. clearbody v.
  unfold mat2_transform, ktensor, vsub in Jx, Jy. cbn in Jx, Jy. unR.
  set (ma := b_minv (H a)) in *. set (mb := b_minv (H b)) in *. set (ia := b_iinv (H a)) in *. set (ib := b_iinv (H b)) in *.
  set (x1 := vx r1) in *. set (y1 := vy r1) in *. set (x2 := vx r2) in *. set (y2 := vy r2) in *.
  clearbody ma mb ia ib x1 y1 x2 y2.
  apply vec_eq.
  - rewrite X, Jx, Jy. rfield. lra.
  - rewrite Y, Jx, Jy. rfield. lra.
Qed.
Lemma frame_minv (H0 H : Rheap) i : hframe H0 H -> b_minv (H i) = b_minv (H0 i) /\ b_iinv (H i) = b_iinv (H0 i).
Proof. intros F. destruct (F i) as (_ & ? & _ & ? & _). auto. Qed.
Lemma ktensor_frame (H0 H : Rheap) a b r1 r2 : hframe H0 H -> ktensor (H a) (H b) r1 r2 = ktensor (H0 a) (H0 b) r1 r2.
Proof. intros F. unfold ktensor. destruct (frame_minv _ _ a F) as [-> ->]. destruct (frame_minv _ _ b F) as [-> ->]. reflexivity. Qed.
Lemma kscalar_frame (H0 H : Rheap) a b r1 r2 n : hframe H0 H -> kscalar (H a) (H b) r1 r2 n = kscalar (H0 a) (H0 b) r1 r2 n.
Proof. intros F. unfold kscalar, kscalar_body. destruct (frame_minv _ _ a F) as [-> ->]. destruct (frame_minv _ _ b F) as [-> ->]. reflexivity. Qed.
Lemma pair_frame (H0 H : Rheap) a b : hframe H0 H -> movable_pair (H0 a) (H0 b) -> movable_pair (H a) (H b).
Proof. intros F. unfold movable_pair. destruct (frame_minv _ _ a F) as [-> ->]. destruct (frame_minv _ _ b F) as [-> ->]. auto. Qed.
Lemma kscalar_pos (A B : Rbody) r1 r2 n : movable_pair A B -> 0 < kscalar A B r1 r2 n.
Proof.
  intros (P1 & P2 & P3 & P4 & P5). unfold kscalar, kscalar_body. unR.
  set (x := vcross r1 n). set (y := vcross r2 n).
  assert (0 <= b_iinv A * x * x) by (rewrite Rmult_assoc; apply Rmult_le_pos; nra).
  assert (0 <= b_iinv B * y * y) by (rewrite Rmult_assoc; apply Rmult_le_pos; nra). lra.
Qed.
Lemma clampmag_unclamped (v : @vec RNum) l : 0 <= l -> vmag (vclampmag v l) < l -> vclampmag v l = v.
Proof.
  intros P L. destruct (Rclampmag_cases v l) as [[_ E]|[_ E]]; [exact E|].
  unfold vmag in L. unR. rewrite E, sqrt_square in L by auto. lra.
Qed.
Lemma clamp_unclamped x m : - m < nclamp (N:=RNum) x (Ropp m) m < m -> nclamp (N:=RNum) x (Ropp m) m = x.
Proof.
  intros [A B]. unR. assert (- m <= m) by lra. rewrite RnclampE in * by auto. revert A B. rcases; lra.
Qed.
Lemma abs_strict x m : Rabs x < m -> - m < x < m.
Proof. intros H. apply Rabs_def2 in H. lra. Qed.

Lemma add_sub (u v : @vec RNum) : vsub (vadd u v) u = v.
Proof. destruct u, v. apply vec_eq; unfold vsub, vadd; cbn; unR; rring. Qed.
Lemma pivot_exact (H0 H : Rheap) c dt (p : pivot) : hframe H0 H -> c_a c <> c_b c -> movable_pair (H0 (c_a c)) (H0 (c_b c)) ->
  0 <= c_maxforce c * dt ->
  let p1 := pivot_prestep H0 c dt p in
  let '(H', p2) := pivot_apply H c dt p1 in
  vmag (pv_j p2) < c_maxforce c * dt ->
  relative_velocity (H' (c_a c)) (H' (c_b c)) (pv_r1 p1) (pv_r2 p1) = pv_bias p1.
Proof.
  intros F Hab P M p1. unfold pivot_apply. cbv zeta. cbn [pv_j]. unR. intros L.
  rewrite (clampmag_unclamped _ _ M L).
  pose proof (ktensor_exact H (c_a c) (c_b c) (pv_r1 p1) (pv_r2 p1) (pv_bias p1) Hab (pair_frame _ _ _ _ F P)) as X. cbv zeta in X.
  rewrite (ktensor_frame H0 H _ _ _ _ F) in X. change (ktensor (H0 (c_a c)) (H0 (c_b c)) (pv_r1 p1) (pv_r2 p1)) with (pv_k p1) in X.
  rewrite add_sub. exact X.
Qed.
(** Scalar solve along a direction. *)
Lemma direction_exact (H0 H : Rheap) a b r1 r2 (n : @vec RNum) t : hframe H0 H -> a <> b -> movable_pair (H0 a) (H0 b) -> vdot n n = 1 ->
  let j := (t - normal_relative_velocity (H a) (H b) r1 r2 n) * (1 / kscalar (H0 a) (H0 b) r1 r2 n) in
  let H' := apply_impulses H a b r1 r2 (vscale n j) in normal_relative_velocity (H' a) (H' b) r1 r2 n = t.
Proof.
  intros F Hab P U j H'. unfold H'. rewrite relvel_n_after by auto. rewrite (kscalar_frame H0 H) by auto. unfold j.
  pose proof (kscalar_pos _ _ r1 r2 n P). rfield. lra.
Qed.
Lemma pin_n_unit (H : Rheap) c dt (p : pin) :
  let a := H (c_a c) in let b := H (c_b c) in
  vadd (b_pos b) (anchor_arm b (pn_anchB p)) <> vadd (b_pos a) (anchor_arm a (pn_anchA p)) ->
  vdot (pn_n (pin_prestep H c dt p)) (pn_n (pin_prestep H c dt p)) = 1.
Proof.
  intros a b Hne. unfold pin_prestep. cbv zeta. cbn [pn_n]. fold a b.
  set (q := vadd (b_pos b) (vsub _ _)).
  assert (Q : 0 < vdot q q).
  { assert (Hq : vx q <> 0 \/ vy q <> 0).
    { destruct (Req_dec (vx q) 0) as [E1|]; [|auto]. destruct (Req_dec (vy q) 0) as [E2|]; [|auto]. exfalso. apply Hne.
      unfold q, vadd, vsub in E1, E2. cbn in E1, E2. unR. apply vec_eq; unfold vadd; cbn; unR; lra. }
    unfold vdot. unR. destruct Hq; nra. }
  clearbody q.
  assert (S : sqrt (vdot q q) * sqrt (vdot q q) = vdot q q) by (apply sqrt_sqrt; lra).
  assert (Sp : 0 < sqrt (vdot q q)) by (now apply sqrt_lt_R0).
  unfold vmag. unR. rewrite (proj2 (Reqb_false _ _)) by lra. cbn [negb].
  set (m := sqrt (vdot q q)) in *. clearbody m. unfold vdot, vscale in *. cbn in *. unR.
  transitivity ((vx q * vx q + vy q * vy q) / (m * m)); [field; lra|]. rewrite <- S. field. lra.
Qed.
Lemma pin_exact (H0 H : Rheap) c dt (p : pin) : hframe H0 H -> c_a c <> c_b c -> movable_pair (H0 (c_a c)) (H0 (c_b c)) ->
  let a := H0 (c_a c) in let b := H0 (c_b c) in
  vadd (b_pos b) (anchor_arm b (pn_anchB p)) <> vadd (b_pos a) (anchor_arm a (pn_anchA p)) ->
  let p1 := pin_prestep H0 c dt p in
  let '(H', p2) := pin_apply H c dt p1 in
  Rabs (pn_j p2) < c_maxforce c * dt ->
  normal_relative_velocity (H' (c_a c)) (H' (c_b c)) (pn_r1 p1) (pn_r2 p1) (pn_n p1) = pn_bias p1.
Proof.
  intros F Hab P a b Hne p1. pose proof (pin_n_unit H0 c dt p Hne) as U. fold p1 in U.
  unfold pin_apply. cbv zeta. cbn [pn_j]. unR. intros L. rewrite (clamp_unclamped _ _ (abs_strict _ _ L)).
  pose proof (direction_exact H0 H (c_a c) (c_b c) (pn_r1 p1) (pn_r2 p1) (pn_n p1) (pn_bias p1) F Hab P U) as X. cbv zeta in X. unR.
  change (1 / kscalar (H0 (c_a c)) (H0 (c_b c)) (pn_r1 p1) (pn_r2 p1) (pn_n p1)) with (pn_nmass p1) in X.
  match type of X with context [vscale (pn_n p1) ?e] => match goal with |- context [vscale (pn_n p1) ?g] => replace g with e by rring end end. exact X.
Qed.
Lemma motor_exact (H0 H : Rheap) c dt (p : motor) : hframe H0 H -> c_a c <> c_b c ->
  b_iinv (H0 (c_a c)) + b_iinv (H0 (c_b c)) <> 0 ->
  let '(H', p2) := motor_apply H c dt (motor_prestep H0 c dt p) in
  Rabs (mo_j p2) < c_maxforce c * dt -> b_w (H' (c_b c)) - b_w (H' (c_a c)) = - mo_rate p.
Proof.
  intros F Hab P. unfold motor_apply, motor_prestep. cbv zeta. cbn [mo_j mo_rate mo_isum]. unR. intros L.
  rewrite (clamp_unclamped _ _ (abs_strict _ _ L)).
  match goal with |- context [apply_torque H (c_a c) (c_b c) ?e] => destruct (torque_ab H (c_a c) (c_b c) e Hab) as [-> ->] end.
  destruct (frame_minv _ _ (c_a c) F) as [_ ->]. destruct (frame_minv _ _ (c_b c) F) as [_ ->]. rfield. exact P.
Qed.
Lemma rlimit_exact (H0 H : Rheap) c dt (p : rlimit) : hframe H0 H -> c_a c <> c_b c ->
  b_iinv (H0 (c_a c)) + b_iinv (H0 (c_b c)) <> 0 ->
  let p1 := rlimit_prestep H0 c dt p in rl_bias p1 <> 0 -> 0 <= c_maxforce c * dt ->
  let '(H', p2) := rlimit_apply H c dt p1 in
  0 < Rabs (rl_j p2) < c_maxforce c * dt -> b_w (H' (c_b c)) - b_w (H' (c_a c)) = - rl_bias p1.
Proof.
  intros F Hab P p1 Hb M. unfold rlimit_apply. unR. rewrite (proj2 (Reqb_false _ _) Hb). cbv zeta. cbn [rl_j].
  match goal with |- context [apply_torque H (c_a c) (c_b c) (Rminus ?e _)] => set (jn := e) end. intros [L1 L2].
  assert (E : jn = rl_j p1 + - (rl_bias p1 + (b_w (H (c_b c)) - b_w (H (c_a c)))) * rl_isum p1).
  { pose proof (abs_strict _ _ L2) as [A B]. assert (Z : jn <> 0) by (intros Z; rewrite Z, Rabs_R0 in L1; lra).
    unfold jn in *. destruct Rltb.
    - rewrite RnclampE in * by lra. revert A B Z. rcases; lra.
    - rewrite RnclampE in * by lra. revert A B Z. rcases; lra. }
  rewrite E. match goal with |- context [apply_torque H (c_a c) (c_b c) ?e] => destruct (torque_ab H (c_a c) (c_b c) e Hab) as [-> ->] end.
  destruct (frame_minv _ _ (c_a c) F) as [_ ->]. destruct (frame_minv _ _ (c_b c) F) as [_ ->].
  change (rl_isum p1) with (1 / (b_iinv (H0 (c_a c)) + b_iinv (H0 (c_b c)))). set (ia := b_iinv (H0 (c_a c))) in *. set (ib := b_iinv (H0 (c_b c))) in *.
  rfield. exact P.
Qed.
Lemma gear_exact (H0 H : Rheap) c dt (p : gear) : hframe H0 H -> c_a c <> c_b c ->
  b_iinv (H0 (c_a c)) * ge_ratioinv p + ge_ratio p * b_iinv (H0 (c_b c)) <> 0 ->
  let p1 := gear_prestep H0 c dt p in
  let '(H', p2) := gear_apply H c dt p1 in
  Rabs (ge_j p2) < c_maxforce c * dt -> b_w (H' (c_b c)) * ge_ratio p - b_w (H' (c_a c)) = ge_bias p1.
Proof.
  intros F Hab P p1. unfold gear_apply. cbv zeta. cbn [ge_j]. unR. intros L. rewrite (clamp_unclamped _ _ (abs_strict _ _ L)).
  unfold apply_gear, upd. rewrite !Nat.eqb_refl. destruct (Nat.eqb_spec (c_a c) (c_b c)); [tauto|].
  destruct (Nat.eqb_spec (c_b c) (c_a c)); [congruence|]. cbn [b_w set_w set_vel_fields b_iinv]. unR.
  destruct (frame_minv _ _ (c_a c) F) as [_ ->]. destruct (frame_minv _ _ (c_b c) F) as [_ ->].
  change (ge_isum p1) with (1 / (b_iinv (H0 (c_a c)) * ge_ratioinv p + ge_ratio p * b_iinv (H0 (c_b c)))).
  change (ge_ratioinv p1) with (ge_ratioinv p). change (ge_ratio p1) with (ge_ratio p).
  set (ia := b_iinv (H0 (c_a c))) in *. set (ib := b_iinv (H0 (c_b c))) in *. set (rr := ge_ratioinv p) in *. rfield. exact P.
Qed.
(** A frictionless contact. *)
Lemma contact_exact (H0 H : Rheap) (s : Rsarb) dt slop bias (c : Rcontact) : hframe H0 H -> s_a s <> s_b s -> movable_pair (H0 (s_a s)) (H0 (s_b s)) ->
  vdot (s_n s) (s_n s) = 1 ->
  let c1 := contact_prestep H0 s dt slop bias c in
  let '(H', c2) := contact_apply H s c1 in
  0 < k_jn c2 -> k_jt c2 = k_jt c1 ->
  vdot (vadd (relative_velocity (H' (s_a s)) (H' (s_b s)) (k_r1 c) (k_r2 c)) (s_svr s)) (s_n s) = - k_bounce c1.
Proof.
  intros F Hab P U c1. unfold contact_apply. cbv zeta. cbn [k_jn k_jt].
  match goal with |- context [apply_bias_impulses H ?x ?y ?z ?t ?v] => set (Hb := apply_bias_impulses H x y z t v) end.
  assert (Fb : hframe H0 Hb) by (eapply hframe_trans; [exact F|apply bias_frame]).
  assert (Vb : forall i, b_vel (Hb i) = b_vel (H i) /\ b_w (Hb i) = b_w (H i)).
  { intros i. unfold Hb, apply_bias_impulses, upd. repeat (match goal with |- context [Nat.eqb ?x ?y] => destruct (Nat.eqb_spec x y); subst end); cbn; split; congruence || reflexivity. }
  assert (Rv : relative_velocity (Hb (s_a s)) (Hb (s_b s)) (k_r1 c) (k_r2 c) = relative_velocity (H (s_a s)) (H (s_b s)) (k_r1 c) (k_r2 c)).
  { unfold relative_velocity. destruct (Vb (s_a s)) as [-> ->]. destruct (Vb (s_b s)) as [-> ->]. reflexivity. }
  clearbody Hb.
  set (v := vadd (relative_velocity (H (s_a s)) _ _ _) (s_svr s)).
  set (jt := nclamp _ _ _). unR. intros Pn Ejt.
  assert (E : Rmax (k_jn c1 + - (k_bounce c1 + vdot v (s_n s)) * k_nmass c1) 0 = k_jn c1 + - (k_bounce c1 + vdot v (s_n s)) * k_nmass c1).
  { revert Pn. unfold Rmax. destruct Rle_dec; intros; lra. }
  rewrite E. rewrite Ejt.
  set (jj := k_jn c1 + - (k_bounce c1 + vdot v (s_n s)) * k_nmass c1 - k_jn c1).
  assert (Ej : vrotate (s_n s) (@V RNum jj (Rminus (k_jt c1) (k_jt c1))) = vscale (s_n s) ((- k_bounce c1 - vdot (s_svr s) (s_n s)
      - normal_relative_velocity (Hb (s_a s)) (Hb (s_b s)) (k_r1 c) (k_r2 c) (s_n s)) * (1 / kscalar (H0 (s_a s)) (H0 (s_b s)) (k_r1 c) (k_r2 c) (s_n s)))).
  { unfold normal_relative_velocity. rewrite Rv. change (1 / kscalar (H0 (s_a s)) (H0 (s_b s)) (k_r1 c) (k_r2 c) (s_n s)) with (k_nmass c1).
    unfold jj, v. set (q := relative_velocity _ _ _ _). unfold vrotate, vscale, vdot, vadd. cbn [vx vy]. unR. apply vec_eq; cbn [vx vy]; rring. }
  change (k_r1 c1) with (k_r1 c). change (k_r2 c1) with (k_r2 c). rewrite Ej.
  pose proof (direction_exact H0 Hb (s_a s) (s_b s) (k_r1 c) (k_r2 c) (s_n s) (- k_bounce c1 - vdot (s_svr s) (s_n s)) Fb Hab P U) as X.
  cbv zeta in X. unfold normal_relative_velocity in X. unfold normal_relative_velocity. unR.
  match goal with |- vdot (vadd ?q (s_svr s)) _ = _ => replace (vdot (vadd q (s_svr s)) (s_n s)) with (vdot q (s_n s) + vdot (s_svr s) (s_n s)) end.
  - rewrite X. lra.
  - unfold vdot, vadd. cbn [vx vy]. unR. ring.
Qed.

(** ** Contact point sets *)
Lemma points_roundtrip (H : Rheap) (s : Rsarb) : s_cached s = false ->
  set_contact_point_set H s (contact_point_set H s) = Some s.
Proof.
  intros C. unfold set_contact_point_set, contact_point_set, arb_count. rewrite C, firstn_all. cbn [cp_points cp_normal].
  rewrite map_length, Nat.eqb_refl. f_equal. destruct s as [a b e u svr n sw fi ca cs]. cbn in *. subst ca. unfold with_contacts. cbn.
  f_equal.
  - destruct sw; [|reflexivity]. apply vec_eq; cbn; unR; rring.
  - induction cs as [|c cs IH]; [reflexivity|]. cbn. f_equal; [|exact IH].
    destruct c as [r1 r2 nm tm bo jn jt jb bi h]. destruct sw; cbn; f_equal; apply vec_eq; cbn; unR; rring.
Qed.
Lemma points_agree (H : Rheap) (s : Rsarb) : s_cached s = false ->
  arb_normal s = cp_normal (contact_point_set H s) /\
  Forall (fun q => let '(pA, pB, d) := q in
     (if s_swapped s then - d else d) = vdot (vsub pB pA) (arb_normal s) * (if s_swapped s then -1 else 1)) (cp_points (contact_point_set H s)).
Proof.
  intros C. unfold contact_point_set, arb_normal. cbn. split.
  - destruct (s_swapped s); [apply vec_eq; cbn; unR; rring|reflexivity].
  - unfold arb_count. rewrite C, firstn_all. induction (s_contacts s) as [|c cs IH]; [constructor|]. cbn. constructor; [|exact IH].
    destruct (s_swapped s); unfold vdot, vsub, vadd, vscale; cbn; unR; ring.
Qed.
