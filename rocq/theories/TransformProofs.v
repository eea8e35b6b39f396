From Coq Require Import ZArith Bool Reals Lra Lia.
From Verif Require Import Num NumReal Vec BB BBProofs Transform.
Local Open Scope R_scope.

Notation Rvec := (@vec RNum).
Notation Rtf := (@transform RNum).

Definition det (t : Rtf) : R := ta t * td t - tc t * tb t.
(** A rigid transform: an orthonormal basis of positive orientation. *)
Definition rigid (t : Rtf) : Prop := ta t * ta t + tb t * tb t = 1 /\ tc t = - tb t /\ td t = ta t.

Lemma tf_eq (t u : Rtf) : ta t = ta u -> tb t = tb u -> tc t = tc u -> td t = td u -> ttx t = ttx u -> tty t = tty u -> t = u.
Proof. destruct t, u; cbn; intros; congruence. Qed.
Lemma vec_eq (a b : Rvec) : vx a = vx b -> vy a = vy b -> a = b.
Proof. destruct a, b; cbn; intros; congruence. Qed.
Ltac unT := unfold tf_wrap, tf_bone_scale, tf_axial_scale, tf_ortho, tf_mult, tf_inverse, tf_rigid_inverse, tf_apply, tf_apply_vector,
  tf_identity, tf_rotate, tf_rigid, tf_translate, tf_scale, tf_new, vdistsq, vmagsq, vadd, vsub, vscale, vdot, vcross, vneg, vperp, vzero in *;
  cbn [ta tb tc td ttx tty vx vy] in *; unR; cbn [ncos nsin RTrig] in *.

Ltac rring := match goal with |- @eq _ ?a ?b => apply (Rplus_eq_reg_l 0 a b) end; ring.
Ltac rfield := match goal with |- @eq _ ?a ?b => apply (Rplus_eq_reg_l 0 a b) end; field.

Lemma mult_apply (t u : Rtf) p : tf_apply (tf_mult t u) p = tf_apply t (tf_apply u p).
Proof. unT. f_equal; rring. Qed.
Lemma mult_assoc (t u w : Rtf) : tf_mult (tf_mult t u) w = tf_mult t (tf_mult u w).
Proof. apply tf_eq; unT; rring. Qed.
Lemma identity_apply p : tf_apply (N:=RNum) tf_identity p = p.
Proof. apply vec_eq; unT; rring. Qed.
Lemma identity_mult (t : Rtf) : tf_mult tf_identity t = t /\ tf_mult t tf_identity = t.
Proof. split; apply tf_eq; unT; rring. Qed.
Lemma inverse_l (t : Rtf) : det t <> 0 -> tf_mult (tf_inverse t) t = tf_identity.
Proof. unfold det. intros H. apply tf_eq; unT; rfield; auto. Qed.
Lemma inverse_r (t : Rtf) : det t <> 0 -> tf_mult t (tf_inverse t) = tf_identity.
Proof. unfold det. intros H. apply tf_eq; unT; rfield; auto. Qed.
Lemma inverse_apply (t : Rtf) p : det t <> 0 ->
  tf_apply (tf_inverse t) (tf_apply t p) = p /\ tf_apply t (tf_apply (tf_inverse t) p) = p.
Proof.
  intros H. rewrite <- !mult_apply, inverse_l, inverse_r by auto. split; apply identity_apply.
Qed.
Lemma rigid_det t : rigid t -> det t = 1.
Proof. intros [H [Hc Hd]]. unfold det. rewrite Hc, Hd. lra. Qed.
Lemma rigid_inverse_eq t : rigid t -> tf_rigid_inverse t = tf_inverse t.
Proof.
  intros H. pose proof (rigid_det t H) as D. unfold det in D.
  apply tf_eq; unT; rewrite D; rfield.
Qed.
Lemma rigid_tf_rigid (v : Rvec) a : rigid (tf_rigid v a).
Proof. unfold rigid. unT. pose proof (sin2_cos2 a) as H. unfold Rsqr in H. repeat split; lra. Qed.
Lemma rigid_mult t u : rigid t -> rigid u -> rigid (tf_mult t u).
Proof.
  intros [H1 [H2 H3]] [K1 [K2 K3]]. unfold rigid. unT. rewrite H2, H3, K2, K3. split; [|split; rring].
  transitivity ((ta t * ta t + tb t * tb t) * (ta u * ta u + tb u * tb u)); [rring|]. rewrite H1, K1. rring.
Qed.
Lemma rigid_inv t : rigid t -> rigid (tf_rigid_inverse t).
Proof. intros [H1 [H2 H3]]. unfold rigid. unT. rewrite H2, H3. split; [lra|split; rring]. Qed.
Lemma rotate_add a b : tf_mult (tf_rotate a) (tf_rotate b) = tf_rotate (N:=RNum) (a + b).
Proof. apply tf_eq; unT; rewrite ?cos_plus, ?sin_plus; rring. Qed.
Lemma rigid_dist t (p q : Rvec) : rigid t -> vdist (tf_apply t p) (tf_apply t q) = vdist p q.
Proof.
  intros [H1 [H2 H3]]. unfold vdist, vmag. unR. f_equal. unT. rewrite H2, H3.
  transitivity ((ta t * ta t + tb t * tb t) * ((vx p - vx q) * (vx p - vx q) + (vy p - vy q) * (vy p - vy q))); [rring|].
  rewrite H1. rring.
Qed.

(** Bounding box of a transformed box. *)
Lemma abs_corner a b u v : Rabs u <= 1 -> Rabs v <= 1 -> Rabs (a * u + b * v) <= Rmax (Rabs (a + b)) (Rabs (a - b)).
Proof.
  intros Hu Hv.
  assert (Rabs (a*u + b*v) <= Rabs a + Rabs b).
  { eapply Rle_trans; [apply Rabs_triang|]. rewrite !Rabs_mult. pose proof (Rabs_pos a). pose proof (Rabs_pos b). nra. }
  eapply Rle_trans; [exact H|].
  unfold Rmax; destruct Rle_dec as [h|h]; unfold Rabs in *; repeat destruct Rcase_abs; lra.
Qed.
Definition Rin (p : Rvec) (s : @bb RNum) : Prop := bL s <= vx p <= bR s /\ bB s <= vy p <= bT s.

Lemma unit_param l r x : l <= x <= r -> exists u, Rabs u <= 1 /\ x - (l + r) / 2 = u * ((r - l) / 2).
Proof.
  intros H. destruct (Req_dec l r) as [E|E].
  - exists 0. rewrite Rabs_R0. split; [lra|]. subst. lra.
  - exists ((x - (l + r) / 2) / ((r - l) / 2)). split.
    + apply Rabs_le. split.
      * apply Rmult_le_reg_r with ((r-l)/2); [lra|]. unfold Rdiv at 2. rewrite Rmult_assoc, Rinv_l by lra. lra.
      * apply Rmult_le_reg_r with ((r-l)/2); [lra|]. unfold Rdiv at 1. rewrite Rmult_assoc, Rinv_l by lra. lra.
    + rfield. lra.
Qed.
Lemma tf_bb_contains (t : Rtf) s p : Rin p s -> Rin (tf_apply t p) (tf_bb t s).
Proof.
  intros [Hx Hy]. destruct (unit_param _ _ _ Hx) as [u [Hu Eu]]. destruct (unit_param _ _ _ Hy) as [v [Hv Ev]].
  unfold tf_bb, bb_extents, bb_center, vlerp, Rin. cbn [bL bB bR bT vx vy]. unT.
  set (hw := (bR s - bL s) * (1/2)). set (hh := (bT s - bB s) * (1/2)).
  pose proof (abs_corner (ta t * hw) (tc t * hh) u v Hu Hv) as A.
  pose proof (abs_corner (tb t * hw) (td t * hh) u v Hu Hv) as B.
  set (M1 := Rmax _ _) in *. set (M2 := Rmax (Rabs (tb t * hw + td t * hh)) _) in *.
  pose proof (Rle_abs (ta t * hw * u + tc t * hh * v)). pose proof (Rle_abs (- (ta t * hw * u + tc t * hh * v))) as A'. rewrite Rabs_Ropp in A'.
  pose proof (Rle_abs (tb t * hw * u + td t * hh * v)). pose proof (Rle_abs (- (tb t * hw * u + td t * hh * v))) as B'. rewrite Rabs_Ropp in B'.
  assert (vx p = (bL s + bR s) / 2 + u * hw) as Ex by (unfold hw; lra).
  assert (vy p = (bB s + bT s) / 2 + v * hh) as Ey by (unfold hh; lra).
  rewrite Ex, Ey. clearbody hw hh M1 M2.
  set (cx := (bL s + bR s) / 2). set (cy := (bB s + bT s) / 2).
  replace (bL s * (1 - 1 / 2) + bR s * (1 / 2)) with cx by (unfold cx; lra).
  replace (bB s * (1 - 1 / 2) + bT s * (1 / 2)) with cy by (unfold cy; lra).
  clearbody cx cy. clear Ex Ey.
  replace (ta t * (cx + u * hw) + tc t * (cy + v * hh) + ttx t)
    with ((ta t * cx + tc t * cy + ttx t) + (ta t * hw * u + tc t * hh * v)) by rring.
  replace (tb t * (cx + u * hw) + td t * (cy + v * hh) + tty t)
    with ((tb t * cx + td t * cy + tty t) + (tb t * hw * u + td t * hh * v)) by rring.
  lra.
Qed.

(** Each side of the box is touched by the image of a corner. *)
Lemma corner_max a b : exists u v, (u = 1 \/ u = -1) /\ (v = 1 \/ v = -1) /\ a * u + b * v = Rmax (Rabs (a + b)) (Rabs (a - b)).
Proof.
  unfold Rmax; destruct Rle_dec as [h|h]; unfold Rabs in *; repeat destruct Rcase_abs;
  try (exists 1, 1; repeat split; auto; lra);
  try (exists 1, (-1); repeat split; auto; lra);
  try (exists (-1), 1; repeat split; auto; lra);
  try (exists (-1), (-1); repeat split; auto; lra).
Qed.
Lemma corner_in (s : @bb RNum) u v : bL s <= bR s -> bB s <= bT s -> (u = 1 \/ u = -1) -> (v = 1 \/ v = -1) ->
  Rin (@V RNum ((bL s + bR s) / 2 + u * ((bR s - bL s) * (1/2))) ((bB s + bT s) / 2 + v * ((bT s - bB s) * (1/2)))) s.
Proof. intros Hx Hy [->| ->] [->| ->]; unfold Rin; cbn [vx vy]; unR; repeat split; lra. Qed.

Lemma tf_bb_tight (t : Rtf) s : bL s <= bR s -> bB s <= bT s ->
  (exists p, Rin p s /\ vx (tf_apply t p) = bR (tf_bb t s)) /\
  (exists p, Rin p s /\ vx (tf_apply t p) = bL (tf_bb t s)) /\
  (exists p, Rin p s /\ vy (tf_apply t p) = bT (tf_bb t s)) /\
  (exists p, Rin p s /\ vy (tf_apply t p) = bB (tf_bb t s)).
Proof.
  intros Hx Hy.
  set (hw := (bR s - bL s) * (1/2)). set (hh := (bT s - bB s) * (1/2)).
  destruct (corner_max (ta t * hw) (tc t * hh)) as [u [v [Hu [Hv E]]]].
  destruct (corner_max (tb t * hw) (td t * hh)) as [u' [v' [Hu' [Hv' E']]]].
  assert (forall z, (z = 1 \/ z = -1) -> (- z = 1 \/ - z = -1)) as Hneg by (intros z [->| ->]; [right|left]; lra).
  pose proof (corner_in s u v Hx Hy Hu Hv) as P1. pose proof (corner_in s (-u) (-v) Hx Hy (Hneg _ Hu) (Hneg _ Hv)) as P2.
  pose proof (corner_in s u' v' Hx Hy Hu' Hv') as P3. pose proof (corner_in s (-u') (-v') Hx Hy (Hneg _ Hu') (Hneg _ Hv')) as P4.
  split; [eexists; split; [exact P1|]|split; [eexists; split; [exact P2|]|split; [eexists; split; [exact P3|]|eexists; split; [exact P4|]]]];
  clear P1 P2 P3 P4; unfold tf_bb, bb_extents, bb_center, vlerp; cbn [bL bB bR bT vx vy]; unT;
  fold hw; fold hh; rewrite <- ?E, <- ?E'; clearbody hw hh; rfield.
Qed.

Lemma bone_scale_spec (v0 v1 p q : Rvec) :
  let t := tf_bone_scale v0 v1 in
  tf_apply t (rvec 0 0) = v0 /\ tf_apply t (rvec 1 0) = v1 /\
  vdistsq (tf_apply t p) (tf_apply t q) = vdistsq v0 v1 * vdistsq p q.
Proof. unfold rvec. repeat split; try apply vec_eq; unT; rring. Qed.
Lemma axial_scale_spec (axis pivot : Rvec) (sc k l : R) : vdot axis axis = 1 ->
  tf_apply (tf_axial_scale axis pivot sc) (vadd pivot (vadd (vscale axis k) (vscale (vperp axis) l))) =
  vadd pivot (vadd (vscale axis (k * sc)) (vscale (vperp axis) l)).
Proof.
  intros H. assert (vx axis * vx axis = 1 - vy axis * vy axis) as E by (unT; lra).
  apply vec_eq; unT; ring_simplify.
  - replace (vx axis ^ 3) with (vx axis * (1 - vy axis * vy axis)) by (rewrite <- E; ring).
    replace (vx axis ^ 2) with (1 - vy axis * vy axis) by (rewrite <- E; ring). rring.
  - replace (vx axis ^ 3) with (vx axis * (1 - vy axis * vy axis)) by (rewrite <- E; ring).
    replace (vx axis ^ 2) with (1 - vy axis * vy axis) by (rewrite <- E; ring). rring.
Qed.
Lemma ortho_spec (s : @bb RNum) x y : bL s <> bR s -> bB s <> bT s ->
  tf_apply (tf_ortho s) (rvec ((1 - x) / 2 * bL s + (1 + x) / 2 * bR s) ((1 - y) / 2 * bB s + (1 + y) / 2 * bT s)) = rvec x y.
Proof. intros Hx Hy. unfold rvec. apply vec_eq; unT; rfield; lra. Qed.
Lemma wrap_spec (t inner : Rtf) p : det t <> 0 ->
  tf_apply t (tf_apply (tf_wrap t inner) p) = tf_apply inner (tf_apply t p).
Proof.
  intros H. unfold tf_wrap. rewrite !mult_apply. apply inverse_apply. auto.
Qed.
