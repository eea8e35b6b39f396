(** Property theorems C04 (transforms, over the reals). *)
From Coq Require Import ZArith Bool Reals Lra.
From Verif Require Import Num NumReal Vec BB BBProofs Transform TransformProofs.
Local Open Scope R_scope.

Theorem C04_mult_is_composition :
  forall (t u w : @transform RNum) (p : @vec RNum),
  tf_apply (tf_mult t u) p = tf_apply t (tf_apply u p) /\
  tf_mult (tf_mult t u) w = tf_mult t (tf_mult u w) /\
  tf_mult tf_identity t = t /\ tf_mult t tf_identity = t /\ tf_apply tf_identity p = p.
Proof. exact (fun t u w p => conj (mult_apply t u p) (conj (mult_assoc t u w) (conj (proj1 (identity_mult t)) (conj (proj2 (identity_mult t)) (identity_apply p))))). Qed.
Print Assumptions C04_mult_is_composition.

Theorem C04_inverse_two_sided :
  forall (t : @transform RNum) (p : @vec RNum), ta t * td t - tc t * tb t <> 0 ->
  tf_mult (tf_inverse t) t = tf_identity /\ tf_mult t (tf_inverse t) = tf_identity /\
  tf_apply (tf_inverse t) (tf_apply t p) = p /\ tf_apply t (tf_apply (tf_inverse t) p) = p.
Proof. exact (fun t p H => conj (inverse_l t H) (conj (inverse_r t H) (inverse_apply t p H))). Qed.
Print Assumptions C04_inverse_two_sided.

(** Rigid transforms (what NewTransformRigid builds, closed under Mult): RigidInverse is the inverse and
    distances are preserved. *)
Theorem C04_rigid_inverse :
  forall (v : @vec RNum) (a : R) (t : @transform RNum) (p q : @vec RNum),
  rigid (tf_rigid v a) /\
  (forall t u, rigid t -> rigid u -> rigid (tf_mult t u)) /\
  (rigid t -> tf_rigid_inverse t = tf_inverse t /\ tf_mult (tf_rigid_inverse t) t = tf_identity /\
              vdist (tf_apply t p) (tf_apply t q) = vdist p q).
Proof.
  exact (fun v a t p q => conj (rigid_tf_rigid v a) (conj rigid_mult (fun H => conj (rigid_inverse_eq t H)
    (conj (eq_trans (f_equal (fun x => tf_mult x t) (rigid_inverse_eq t H)) (inverse_l t (fun E => R1_neq_R0 (eq_trans (eq_sym (rigid_det t H)) E))))
          (rigid_dist t p q H))))).
Qed.
Print Assumptions C04_rigid_inverse.

Theorem C04_rotations_add :
  forall a b : R, tf_mult (tf_rotate a) (tf_rotate b) = tf_rotate (N:=RNum) (a + b).
Proof. exact rotate_add. Qed.
Print Assumptions C04_rotations_add.

(** t.BB(bb) contains the image of every point of bb and each of its four sides is touched by one. *)
Theorem C04_bb_is_tight_hull :
  forall (t : @transform RNum) (s : @bb RNum), bL s <= bR s -> bB s <= bT s ->
  let r := tf_bb t s in
  (forall p, Rin p s -> Rin (tf_apply t p) r) /\
  (exists p, Rin p s /\ vx (tf_apply t p) = bR r) /\ (exists p, Rin p s /\ vx (tf_apply t p) = bL r) /\
  (exists p, Rin p s /\ vy (tf_apply t p) = bT r) /\ (exists p, Rin p s /\ vy (tf_apply t p) = bB r).
Proof. exact (fun t s Hx Hy => conj (tf_bb_contains t s) (tf_bb_tight t s Hx Hy)). Qed.
Print Assumptions C04_bb_is_tight_hull.

Theorem C04_bone_scale :
  forall v0 v1 p q : @vec RNum, let t := tf_bone_scale v0 v1 in
  tf_apply t (rvec 0 0) = v0 /\ tf_apply t (rvec 1 0) = v1 /\
  vdistsq (tf_apply t p) (tf_apply t q) = vdistsq v0 v1 * vdistsq p q.
Proof. exact bone_scale_spec. Qed.
Print Assumptions C04_bone_scale.

(** AxialScale multiplies the component along the (unit) axis, measured from the pivot, and keeps the
    perpendicular component. *)
Theorem C04_axial_scale :
  forall (axis pivot : @vec RNum) (sc k l : R), vdot axis axis = 1 ->
  tf_apply (tf_axial_scale axis pivot sc) (vadd pivot (vadd (vscale axis k) (vscale (vperp axis) l))) =
  vadd pivot (vadd (vscale axis (k * sc)) (vscale (vperp axis) l)).
Proof. exact axial_scale_spec. Qed.
Print Assumptions C04_axial_scale.

(** Ortho maps the box onto [-1,1] x [-1,1], affinely. *)
Theorem C04_ortho :
  forall (s : @bb RNum) (x y : R), bL s <> bR s -> bB s <> bT s ->
  tf_apply (tf_ortho s) (rvec ((1 - x) / 2 * bL s + (1 + x) / 2 * bR s) ((1 - y) / 2 * bB s + (1 + y) / 2 * bT s)) = rvec x y.
Proof. exact ortho_spec. Qed.
Print Assumptions C04_ortho.

Theorem C04_wrap_conjugates :
  forall (t inner : @transform RNum) (p : @vec RNum), ta t * td t - tc t * tb t <> 0 ->
  tf_apply t (tf_apply (tf_wrap t inner) p) = tf_apply inner (tf_apply t p).
Proof. exact wrap_spec. Qed.
Print Assumptions C04_wrap_conjugates.

Example C04_witness :
  let t := @Tf RNum 2 1 0 3 5 7 in
  ta t * td t - tc t * tb t <> 0 /\ tf_apply t (rvec 1 1) = rvec 7 11 /\ tf_apply (tf_inverse t) (rvec 7 11) = rvec 1 1 /\
  vdot (rvec (3/5) (4/5)) (rvec (3/5) (4/5)) = 1.
Proof.
  cbn zeta. split; [|split; [|split]].
  - unT. lra.
  - unfold rvec. apply vec_eq; unT; lra.
  - unfold rvec. apply vec_eq; unT; field.
  - unfold rvec. unT. lra.
Qed.
