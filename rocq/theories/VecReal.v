(** Vectors over the reals: lengths and distances. *)
From Coq Require Import ZArith Reals Lra Psatz.
From Verif Require Import Num NumReal Vec.
Local Open Scope R_scope.
Notation rvec := (@vec RNum).
Ltac unV := unfold vdistsq, vdist, vmag, vmagsq, vunit, vlerp, vproject, vrotate, vcross, vdot, vperp, vrperp, vneg, vsub, vadd, vscale, vzero in *; cbn [vx vy] in *; unR.
Ltac rring := match goal with |- @eq _ ?a ?b => apply (Rplus_eq_reg_l 0 a b) end; ring.
Ltac rfield := match goal with |- @eq _ ?a ?b => apply (Rplus_eq_reg_l 0 a b) end; field.
(* an equation of vectors, component-wise *)
Ltac veq := repeat match goal with v : rvec |- _ => destruct v as [? ?] end; unV; f_equal; try rring.

Definition mag (v : rvec) : R := vmag v.
Lemma mag_nonneg (v : rvec) : 0 <= vmag v.
Proof. unfold vmag. apply sqrt_pos. Qed.
Lemma dot_nonneg (v : rvec) : 0 <= vdot v v.
Proof. unV. nra. Qed.
Lemma mag_sq (v : rvec) : vmag v * vmag v = vdot v v.
Proof. unfold vmag. apply (sqrt_sqrt (vdot v v)). apply dot_nonneg. Qed.
Lemma vec_ext (a b : rvec) : vx a = vx b -> vy a = vy b -> a = b.
Proof. destruct a as [ax ay], b as [bx by_]. cbn [vx vy]. intros; subst; reflexivity. Qed.
Lemma dot_0 (v : rvec) : vdot v v = 0 -> v = vzero.
Proof. intros H. destruct v as [x y]. revert H. unfold vdot, vzero. cbn [vx vy]. unR. intros H. assert (x = 0) by nra. assert (y = 0) by nra. subst. reflexivity. Qed.
Lemma mag_0 (v : rvec) : vmag v = 0 <-> v = vzero.
Proof.
  split.
  - intros H. apply dot_0. rewrite <- mag_sq, H. change (0 * 0 = 0). ring.
  - intros ->. unfold vmag. replace (vdot vzero vzero) with (0 : @num RNum); [apply sqrt_0|]. unV. ring.
Qed.
Lemma mag_pos (v : rvec) : v <> vzero -> 0 < vmag v.
Proof. intros H. destruct (Rle_lt_or_eq_dec _ _ (mag_nonneg v)) as [L|E]; [exact L|]. exfalso. apply H, mag_0. congruence. Qed.
Lemma sq_le (a b : R) : 0 <= b -> a * a <= b * b -> a <= b.
Proof. intros. nra. Qed.
Lemma sq_lt (a b : R) : 0 <= b -> a * a < b * b -> a < b.
Proof. intros. nra. Qed.
Lemma sq_eq (a b : R) : 0 <= a -> 0 <= b -> a * a = b * b -> a = b.
Proof. intros. nra. Qed.
Lemma mag_le (v : rvec) (r : R) : 0 <= r -> (vmag v <= r <-> vdot v v <= r * r).
Proof.
  intros Hr. rewrite <- mag_sq. pose proof (mag_nonneg v) as Hm. change (@num RNum) with R in *. change (@nmul RNum) with Rmult. set (m := vmag v) in *. clearbody m. change (@num RNum) with R in *.
  split; intros; nra.
Qed.
Lemma mag_lt (v : rvec) (r : R) : 0 <= r -> (vmag v < r <-> vdot v v < r * r).
Proof.
  intros Hr. rewrite <- mag_sq. pose proof (mag_nonneg v) as Hm. change (@nmul RNum) with Rmult. set (m := vmag v) in *. clearbody m. change (@num RNum) with R in *.
  split; intros; nra.
Qed.
Lemma cauchy (a b : rvec) : Rabs (vdot a b) <= vmag a * vmag b.
Proof.
  assert (H : vdot a b * vdot a b <= (vmag a * vmag b) * (vmag a * vmag b)).
  { replace ((vmag a * vmag b) * (vmag a * vmag b)) with ((vmag a * vmag a) * (vmag b * vmag b)) by rring.
    change (@num RNum) with R in *. rewrite !mag_sq. destruct a as [ax ay], b as [bx by_]. unV. pose proof (Rle_0_sqr (ax * by_ - ay * bx)) as Q. unfold Rsqr in Q. lra. }
  pose proof (mag_nonneg a). pose proof (mag_nonneg b). assert (0 <= vmag a * vmag b) by (apply Rmult_le_pos; assumption).
  apply Rabs_le. change (@num RNum) with R in *. split; nra.
Qed.
Lemma dot_le (a b : rvec) : vdot a b <= vmag a * vmag b.
Proof. eapply Rle_trans; [apply Rle_abs|apply cauchy]. Qed.
Lemma triangle (a b : rvec) : vmag (vadd a b) <= vmag a + vmag b.
Proof.
  pose proof (mag_nonneg a) as A. pose proof (mag_nonneg b) as B. apply mag_le; [unR; lra|].
  replace (vdot (vadd a b) (vadd a b)) with (vdot a a + 2 * vdot a b + vdot b b) by (unV; rring).
  rewrite <- !mag_sq. pose proof (dot_le a b). unR. nra.
Qed.
Lemma mag_scale (v : rvec) (k : R) : vmag (vscale v k) = Rabs k * vmag v.
Proof.
  apply sq_eq; [apply mag_nonneg|apply Rmult_le_pos; [apply Rabs_pos|apply mag_nonneg]|].
  replace (Rabs k * vmag v * (Rabs k * vmag v)) with ((Rabs k * Rabs k) * (vmag v * vmag v)) by rring.
  rewrite <- Rabs_mult, (Rabs_right (k * k)) by nra. change (@num RNum) with R. rewrite (mag_sq (vscale v k)), (mag_sq v). unV. rring.
Qed.
Lemma mag_neg (v : rvec) : vmag (vneg v) = vmag v.
Proof. unfold vmag. f_equal. unV. rring. Qed.
Lemma dist_sym (a b : rvec) : vdist a b = vdist b a.
Proof. unfold vdist. rewrite <- mag_neg. f_equal. veq. Qed.
Lemma dist_triangle (a b c : rvec) : vdist a c <= vdist a b + vdist b c.
Proof. unfold vdist. replace (vsub a c) with (vadd (vsub a b) (vsub b c)) by veq. apply triangle. Qed.
Lemma dist_self (a : rvec) : vdist a a = 0.
Proof. unfold vdist. apply mag_0. veq. Qed.
Lemma dist_0 (a b : rvec) : vdist a b = 0 -> a = b.
Proof. intros H. unfold vdist in H. apply mag_0 in H. destruct a as [ax ay], b as [bx by_]. unfold vsub, vzero in H. cbn [vx vy] in H. unR. injection H as H1 H2. change (@num RNum) with R in *. f_equal; lra. Qed.
Lemma sub_zero (a b : rvec) : vsub a b = vzero <-> a = b.
Proof. split; [|intros ->; veq]. intros H. apply dist_0. unfold vdist. apply mag_0. exact H. Qed.
Lemma unit_mag (v : rvec) : v <> vzero -> vmag (vunit v) = 1.
Proof.
  intros H. apply mag_pos in H. unfold vunit. rewrite mag_scale. unR. rewrite Rabs_right; [field; lra|]. apply Rle_ge. left. apply Rdiv_lt_0_compat; lra.
Qed.
Lemma unit_dot (v : rvec) : v <> vzero -> vdot (vunit v) (vunit v) = 1.
Proof. intros H. rewrite <- mag_sq, unit_mag by exact H. unR. ring. Qed.
Lemma unit_scale (v : rvec) : v <> vzero -> vscale (vunit v) (vmag v) = v.
Proof. intros H. apply mag_pos in H. unfold vunit. destruct v as [x y]. set (m := vmag _) in *. clearbody m. unfold vscale. cbn [vx vy]. unR. f_equal; field; lra. Qed.
Lemma x_le_mag (v : rvec) : Rabs (vx v) <= vmag v.
Proof.
  pose proof (mag_nonneg v) as M. pose proof (mag_sq v) as Q. unfold vdot in Q. unR. set (m := vmag v) in *. clearbody m. change (@num RNum) with R in *. apply Rabs_le. split; nra.
Qed.
Lemma y_le_mag (v : rvec) : Rabs (vy v) <= vmag v.
Proof.
  pose proof (mag_nonneg v) as M. pose proof (mag_sq v) as Q. unfold vdot in Q. unR. set (m := vmag v) in *. clearbody m. change (@num RNum) with R in *. apply Rabs_le. split; nra.
Qed.
