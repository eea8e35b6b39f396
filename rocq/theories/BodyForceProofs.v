(** Forces and impulses at points, mass setters, SetType (C74). *)
From Coq Require Import ZArith Bool Reals List Lra.
From Verif Require Import Num NumReal Vec BB Transform TransformProofs Body BodySpec BodyProofs.
Import ListNotations.
Local Open Scope R_scope.

Lemma maxfloat_nz : RMaxFloat <> 0.
Proof. unfold RMaxFloat. apply not_0_IZR. intros H. apply Z.mul_eq_0 in H. destruct H as [H|H]; vm_compute in H; discriminate H. Qed.
Lemma zero_not_max : neqb (Num := RNum) n0 ninf = false.
Proof. change (Reqb 0 RMaxFloat = false). apply Reqb_false. intros H. apply maxfloat_nz. symmetry. exact H. Qed.
Lemma type_activate (b : Rbody) : b_type (activate b) = b_type b.
Proof.
  unfold activate. destruct (b_type b) eqn:E; cbn [btype_eqb]; auto. revert E. unfold b_type. unB.
  destruct (neqb (b_idle b) ninf); [discriminate|]. now rewrite zero_not_max.
Qed.
Lemma set_type_stops (b : Rbody) bt infos : bt <> Dynamic -> b_type b <> bt ->
  let c := set_type_num b bt infos in b_type c = bt /\ b_vel c = rvec 0 0 /\ b_w c = 0 /\ b_minv c = 0 /\ b_iinv c = 0 /\ b_tf c = b_tf b.
Proof.
  intros D E. cbn zeta. unfold set_type_num. destruct (btype_eqb (b_type b) bt) eqn:Q; [destruct (b_type b), bt; cbn in Q; congruence|].
  assert (M : neqb (Num := RNum) ninf ninf = true) by (apply Reqb_true; reflexivity).
  destruct bt; [congruence| |]; (split; [unfold b_type; unB; rewrite ?zero_not_max, ?M; reflexivity|unB; repeat split]).
Qed.
Lemma set_mass_inverse (b : Rbody) m : m <> 0 -> let c := set_mass b m in
  b_mass c = m /\ m * b_minv c = 1 /\ b_moi c = b_moi b /\ b_iinv c = b_iinv b /\ b_vel c = b_vel b /\ b_w c = b_w b /\ b_tf c = b_tf b.
Proof. intros H. act b. cbn zeta. unfold set_mass. unB. repeat split; auto. unR. field. exact H. Qed.
Lemma set_moment_inverse (b : Rbody) i : i <> 0 -> let c := set_moment b i in
  b_moi c = i /\ i * b_iinv c = 1 /\ b_mass c = b_mass b /\ b_minv c = b_minv b /\ b_vel c = b_vel b /\ b_w c = b_w b /\ b_tf c = b_tf b.
Proof. intros H. act b. cbn zeta. unfold set_moment. unB. repeat split; auto. unR. field. exact H. Qed.

Lemma local_vector (b : Rbody) f : tf_apply_vector (b_tf b) f = vsub (local_to_world b f) (local_to_world b (rvec 0 0)).
Proof. unfold local_to_world, rvec. destruct (b_tf b), f as [x y]. unT. f_equal; rring. Qed.
Lemma local_forms (b : Rbody) f p :
  let arrow := vsub (local_to_world b f) (local_to_world b (rvec 0 0)) in
  apply_force_local b f p = apply_force_world b arrow (local_to_world b p) /\ apply_impulse_local b f p = apply_impulse_world b arrow (local_to_world b p).
Proof. cbn zeta. rewrite <- local_vector. split; reflexivity. Qed.

(** The change of velocity by an impulse. *)
Definition arm (b : Rbody) (p : Rvec) : Rvec := vsub p (tf_apply (b_tf b) (b_cog b)).
Lemma impulse_fields (b : Rbody) j p : let c := apply_impulse_world b j p in
  b_vel c = V (vx (b_vel b) + vx j * b_minv b) (vy (b_vel b) + vy j * b_minv b) /\ b_w c = b_w b + b_iinv b * vcross (arm b p) j /\
  b_mass c = b_mass b /\ b_moi c = b_moi b /\ b_tf c = b_tf b /\ b_cog c = b_cog b.
Proof. act b. cbn zeta. unfold apply_impulse_world, apply_impulse, arm. unB. rewrite ?Ave, ?Ami, ?Aw, ?Aii, ?Atf, ?Acg, ?Ama, ?Amo. repeat split. Qed.
Lemma impulse_moves (b : Rbody) j p q : vsub (velocity_at_world (apply_impulse_world b j p) q) (velocity_at_world b q) =
  V (vx j * b_minv b - b_iinv b * vcross (arm b p) j * vy (arm b q)) (vy j * b_minv b + b_iinv b * vcross (arm b p) j * vx (arm b q)).
Proof.
  destruct (impulse_fields b j p) as (Q1 & Q2 & Q3 & Q4 & Q5 & Q6). unfold velocity_at_world. rewrite Q1, Q2, Q5, Q6. fold (arm b q).
  generalize (vcross (arm b p) j). intros z. destruct (arm b q) as [x y], (b_vel b) as [u v], j as [jx jy]. unT. f_equal; rring.
Qed.
Lemma fin_push (x y m i c d u v : R) : 0 <= m -> 0 <= i -> d = u * y - v * x -> 0 <= (x * m - i * d * v) * x + (y * m + i * d * u) * y.
Proof.
  intros M I ->. replace ((x * m - i * (u * y - v * x) * v) * x + (y * m + i * (u * y - v * x) * u) * y) with (m * (x * x + y * y) + i * ((u * y - v * x) * (u * y - v * x))) by ring.
  apply Rplus_le_le_0_compat; apply Rmult_le_pos; auto; [apply Rplus_le_le_0_compat|]; apply Rle_0_sqr.
Qed.
Lemma impulse_pushes (b : Rbody) j p : 0 <= b_minv b -> 0 <= b_iinv b -> 0 <= vdot (vsub (velocity_at_world (apply_impulse_world b j p) p) (velocity_at_world b p)) j.
Proof.
  intros M I. rewrite impulse_moves. destruct (arm b p) as [u v], j as [x y]. revert M I. generalize (b_minv b) (b_iinv b). intros m i M I.
  unfold vdot, vcross. cbn [vx vy]. exact (fin_push x y m i 0 _ u v M I eq_refl).
Qed.
Lemma impulse_reciprocal (b : Rbody) j k p q :
  vdot (vsub (velocity_at_world (apply_impulse_world b j p) q) (velocity_at_world b q)) k = vdot (vsub (velocity_at_world (apply_impulse_world b k q) p) (velocity_at_world b p)) j.
Proof.
  rewrite !impulse_moves. destruct (arm b p) as [u v], (arm b q) as [u' v'], j as [x y], k as [x' y']. unfold vdot, vcross. cbn [vx vy]. unR. rring.
Qed.
Lemma ke_plain (b : Rbody) : kinetic_energy b = b_mass b * (vx (b_vel b) * vx (b_vel b) + vy (b_vel b) * vy (b_vel b)) + b_moi b * (b_w b * b_w b).
Proof.
  unfold kinetic_energy, vdot. unR. destruct (Reqb_spec (vx (b_vel b) * vx (b_vel b) + vy (b_vel b) * vy (b_vel b)) 0) as [e|n];
  destruct (Reqb_spec (b_w b * b_w b) 0) as [e2|n2]; cbn [negb]; rewrite ?e, ?e2; rring.
Qed.
Lemma fin_work (m mi i ii u v w x y a b : R) : m * mi = 1 -> i * ii = 1 ->
  m * ((u + x * mi) * (u + x * mi) + (v + y * mi) * (v + y * mi)) + i * ((w + ii * (a * y - b * x)) * (w + ii * (a * y - b * x))) - (m * (u * u + v * v) + i * (w * w)) =
  x * ((u - b * w) + (u + x * mi - b * (w + ii * (a * y - b * x)))) + y * ((v + a * w) + (v + y * mi + a * (w + ii * (a * y - b * x)))).
Proof.
  intros M I. set (z := a * y - b * x).
  replace (m * ((u + x * mi) * (u + x * mi) + (v + y * mi) * (v + y * mi)) + i * ((w + ii * z) * (w + ii * z)) - (m * (u * u + v * v) + i * (w * w)))
    with (m * mi * (2 * (u * x + v * y) + mi * (x * x + y * y)) + i * ii * (2 * (w * z) + ii * (z * z))) by ring.
  rewrite M, I. unfold z. ring.
Qed.
Lemma impulse_work (b : Rbody) j p : b_mass b * b_minv b = 1 -> b_moi b * b_iinv b = 1 -> let c := apply_impulse_world b j p in
  kinetic_energy c - kinetic_energy b = vdot j (vadd (velocity_at_world b p) (velocity_at_world c p)).
Proof.
  intros M I. destruct (impulse_fields b j p) as (Q1 & Q2 & Q3 & Q4 & Q5 & Q6). cbn zeta. rewrite !ke_plain, Q1, Q2, Q3, Q4.
  unfold velocity_at_world. rewrite Q1, Q2, Q5, Q6. fold (arm b p). destruct (arm b p) as [r s], (b_vel b) as [u v], j as [x y].
  unfold vdot, vadd, vscale, vperp, vcross. cbn [vx vy].
  etransitivity; [exact (fin_work (b_mass b) (b_minv b) (b_moi b) (b_iinv b) u v (b_w b) x y r s M I)|]. unR. rring.
Qed.
Lemma force_is_impulse (b : Rbody) f p g d dt : b_type b <> Kinematic ->
  let c := update_velocity (apply_force_world b f p) g d dt in let e := apply_impulse_world (update_velocity b g d dt) (vscale f dt) p in
  b_vel c = b_vel e /\ b_w c = b_w e.
Proof.
  intros K. cbn zeta. destruct (impulse_fields (update_velocity b g d dt) (vscale f dt) p) as (Q1 & Q2 & _). rewrite Q1, Q2.
  assert (T : b_type (apply_force_world b f p) = b_type b) by (rewrite <- (type_activate b); reflexivity).
  unfold update_velocity, arm. rewrite T. act b.
  destruct (b_type b); try congruence; unfold apply_force_world; unB; rewrite ?Ave, ?Ami, ?Aw, ?Aii, ?Atf, ?Acg, ?Afo, ?Ato;
  (split; [apply vec_eq; unT; rring|unT; rring]).
Qed.
Lemma inv_of (x y : R) : x <> 0 -> x * y = 1 -> y = / x.
Proof. intros N H. apply (Rmult_eq_reg_l x); auto. rewrite H. symmetry. apply Rinv_r, N. Qed.
Lemma two_nz : 2 <> 0. Proof. lra. Qed.
Lemma three_nz : 3 <> 0. Proof. lra. Qed.
(** A body of mass 2 and moment 3 hit with (0,6) at (1,0). *)
Lemma ex_new : let b := new_body (N := RNum) 2 3 in b_type b = Dynamic /\ b_mass b * b_minv b = 1 /\ b_moi b * b_iinv b = 1 /\ b_minv b = /2 /\ b_iinv b = /3 /\
  b_vel b = rvec 0 0 /\ b_w b = 0 /\ arm b (rvec 1 0) = rvec 1 0.
Proof.
  cbn zeta. assert (TY : b_type (new_body (N := RNum) 2 3) = Dynamic).
  { apply new_body_dynamic. intros H. apply eq_IZR in H. vm_compute in H. discriminate. }
  split; [exact TY|]. clear TY. unfold new_body. set (b0 := Body _ _ _ _ _ _ _ _ _ _ _ _ _ _ _).
  destruct (set_mass_inverse b0 2) as (A1&A2&A3&A4&A5&A6&A7); [lra|]. destruct (set_moment_inverse (set_mass b0 2) 3) as (B1&B2&B3&B4&B5&B6&B7); [lra|].
  set (b1 := set_moment _ _) in *. act b1. assert (C : b_cog b1 = rvec 0 0).
  { unfold b1, set_moment, set_mass. unB. destruct (activate_fields (set_mass_fields (activate b0) 2 (ndiv (Num := RNum) n1 2) (b_moi (activate b0)) (b_iinv (activate b0)))) as (_&_&_&_&_&_&G&_).
    etransitivity; [exact G|]. unB. destruct (activate_fields b0) as (_&_&_&_&_&_&G2&_). etransitivity; [exact G2|reflexivity]. }
  assert (P : b_pos b1 = rvec 0 0).
  { unfold b1, set_moment, set_mass. unB. destruct (activate_fields (set_mass_fields (activate b0) 2 (ndiv (Num := RNum) n1 2) (b_moi (activate b0)) (b_iinv (activate b0)))) as (_&_&_&_&_&_&_&G&_).
    etransitivity; [exact G|]. unB. destruct (activate_fields b0) as (_&_&_&_&_&_&_&G2&_). etransitivity; [exact G2|reflexivity]. }
  assert (M : b_mass b1 = 2) by (etransitivity; [exact B3|exact A1]). assert (M' : b_minv b1 = /2) by (etransitivity; [exact B4|]; apply (inv_of 2); [exact two_nz|exact A2]). assert (I' : b_iinv b1 = /3) by (apply (inv_of 3); [exact three_nz|exact B2]).
  unfold set_angle, set_transform, arm. unB. rewrite Ama, Ami, Amo, Aii, Acg, Apo, C, P.
  rewrite M, M', B1, I'. split; [apply Rinv_r, two_nz|]. split; [apply Rinv_r, three_nz|]. repeat split.
    + rewrite Ave, B5, A5. reflexivity.
    + rewrite Aw, B6, A6. reflexivity.
    + unfold rvec. unT. f_equal; rring.
Qed.
Lemma ex_hit : let b := new_body (N := RNum) 2 3 in let c := apply_impulse_world b (rvec 0 6) (rvec 1 0) in
  b_type b = Dynamic /\ b_mass b * b_minv b = 1 /\ b_moi b * b_iinv b = 1 /\ b_vel c = rvec 0 3 /\ b_w c = 2.
Proof.
  cbn zeta. destruct ex_new as (E0&E1&E2&E3&E4&E5&E6&E7). destruct (impulse_fields (new_body (N := RNum) 2 3) (rvec 0 6) (rvec 1 0)) as (Q1&Q2&_).
  split; [exact E0|]. split; [exact E1|]. split; [exact E2|]. rewrite Q1, Q2, E3, E4, E5, E6, E7. unfold rvec; unT. split; [f_equal; rfield|rfield].
Qed.
