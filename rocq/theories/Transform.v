(** Affine transforms.  Models /repo/transform.go. *)
From Coq Require Import ZArith Bool Reals.
From Verif Require Import Num Vec BB.
Local Open Scope num_scope.

(** math.Cos, math.Sin, math.Pow: used at body.go:360 and transform.go:106,128 (vec.ForAngle),
    everything.go:304.  Only the ideal-real instance is given. *)
Class Trig (N : Num) := { ncos : num -> num; nsin : num -> num }.
#[global] Instance RTrig : Trig RNum := {| ncos := cos; nsin := sin |}.

Section Transform.
Context {N : Num}.

(* transform.go:28-30; field order as in the Go struct *)
Record transform := Tf { ta : num; tb : num; tc : num; td : num; ttx : num; tty : num }.
(* transform.go:44-46 *)
Definition tf_identity : transform := Tf n1 n0 n0 n1 n0 n0.
(* transform.go:54-56 NewTransform and 59-61 NewTransformTranspose: arguments a, c, tx, b, d, ty *)
Definition tf_new (a c tx b d ty : num) : transform := Tf a b c d tx ty.
(* transform.go:64-70 *)
Definition tf_inverse (t : transform) : transform :=
  let invDet := n1 / (ta t * td t - tc t * tb t) in
  tf_new (td t * invDet) (- tc t * invDet) ((tc t * tty t - ttx t * td t) * invDet)
         (- tb t * invDet) (ta t * invDet) ((ttx t * tb t - ta t * tty t) * invDet).
(* transform.go:81-86 *)
Definition tf_mult (t t2 : transform) : transform :=
  tf_new (ta t * ta t2 + tc t * tb t2) (ta t * tc t2 + tc t * td t2) (ta t * ttx t2 + tc t * tty t2 + ttx t)
         (tb t * ta t2 + td t * tb t2) (tb t * tc t2 + td t * td t2) (tb t * ttx t2 + td t * tty t2 + tty t).
(* transform.go:89-94 *)
Definition tf_translate (v : vec) : transform := tf_new n1 n0 (vx v) n0 n1 (vy v).
(* transform.go:97-102 *)
Definition tf_scale (sx sy : num) : transform := tf_new sx n0 n0 n0 sy n0.
(* transform.go:105-111 *)
Definition tf_rotate {T : Trig N} (r : num) : transform :=
  tf_new (ncos r) (- nsin r) n0 (nsin r) (ncos r) n0.
(* transform.go:127-133 *)
Definition tf_rigid {T : Trig N} (v : vec) (r : num) : transform :=
  tf_new (ncos r) (- nsin r) (vx v) (nsin r) (ncos r) (vy v).
(* transform.go:147-152 *)
Definition tf_rigid_inverse (t : transform) : transform :=
  tf_new (td t) (- tc t) (tc t * tty t - ttx t * td t)
         (- tb t) (ta t) (ttx t * tb t - ta t * tty t).
(* transform.go:156-161 *)
Definition tf_apply (t : transform) (p : vec) : vec :=
  V (ta t * vx p + tc t * vy p + ttx t) (tb t * vx p + td t * vy p + tty t).
(* transform.go:172-177 *)
Definition tf_apply_vector (t : transform) (v : vec) : vec :=
  V (ta t * vx v + tc t * vy v) (tb t * vx v + td t * vy v).
(* transform.go:190-201 *)
Definition tf_bb (t : transform) (s : bb) : bb :=
  let hw := (bR s - bL s) * nhalf in
  let hh := (bT s - bB s) * nhalf in
  let a := ta t * hw in
  let b := tc t * hh in
  let d := tb t * hw in
  let e := td t * hh in
  let hwMax := nmax (nabs (a + b)) (nabs (a - b)) in
  let hhMax := nmax (nabs (d + e)) (nabs (d - e)) in
  bb_extents (tf_apply t (bb_center s)) hwMax hhMax.
(* transform.go:212-214 *)
Definition tf_wrap (t inner : transform) : transform := tf_mult (tf_inverse t) (tf_mult inner t).
(* transform.go:224-229 *)
Definition tf_ortho (s : bb) : transform :=
  tf_new (n2 / (bR s - bL s)) n0 (- (bR s + bL s) / (bR s - bL s))
         n0 (n2 / (bT s - bB s)) (- (bT s + bB s) / (bT s - bB s)).
(* transform.go:241-247 *)
Definition tf_bone_scale (v0 v1 : vec) : transform :=
  let d := vsub v1 v0 in
  tf_new (vx d) (- vy d) (vx v0) (vy d) (vx d) (vy v0).
(* transform.go:262-270 *)
Definition tf_axial_scale (axis pivot : vec) (scale : num) : transform :=
  let A := vx axis * vy axis * (scale - n1) in
  let B := vdot axis pivot * (n1 - scale) in
  tf_new (scale * vx axis * vx axis + vy axis * vy axis) A (vx axis * B)
         A (vx axis * vx axis + scale * vy axis * vy axis) (vy axis * B).
(* transform.go:273-276 *)
Definition tf_scale_inplace (t : transform) (x y : num) : transform :=
  Tf (ta t * x) (tb t) (tc t) (td t * y) (ttx t) (tty t).
End Transform.
Arguments transform : clear implicits.
Arguments transform {N}.
