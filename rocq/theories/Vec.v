(** 2D vectors.  Models the operations of the external package github.com/setanarut/vec
    used by /repo (not present in the repository, e.g. used at bb.go:97, body.go:309-322);
    the definitions below are its assumed semantics (trusted base, DESIGN.md section 4). *)
From Coq Require Import ZArith Bool.
From Verif Require Import Num.
Local Open Scope num_scope.

Section Vec.
Context {N : Num}.

(* vec.Vec2{X, Y} *)
Record vec := V { vx : num; vy : num }.

Definition vzero : vec := V n0 n0.
(* Vec2.Add *)
Definition vadd (a b : vec) : vec := V (vx a + vx b) (vy a + vy b).
(* Vec2.Sub *)
Definition vsub (a b : vec) : vec := V (vx a - vx b) (vy a - vy b).
(* Vec2.Neg *)
Definition vneg (a : vec) : vec := V (- vx a) (- vy a).
(* Vec2.Scale *)
Definition vscale (a : vec) (s : num) : vec := V (vx a * s) (vy a * s).
(* Vec2.Dot *)
Definition vdot (a b : vec) : num := vx a * vx b + vy a * vy b.
(* Vec2.Cross: z component of the 3D cross product *)
Definition vcross (a b : vec) : num := vx a * vy b - vy a * vx b.
(* Vec2.Perp: rotate by +90 degrees *)
Definition vperp (a : vec) : vec := V (- vy a) (vx a).
(* Vec2.ReversePerp: rotate by -90 degrees *)
Definition vrperp (a : vec) : vec := V (vy a) (- vx a).
(* Vec2.RotateComplex: complex multiplication *)
Definition vrotate (a b : vec) : vec := V (vx a * vx b - vy a * vy b) (vx a * vy b + vy a * vx b).
(* Vec2.MagSq / LengthSq *)
Definition vmagsq (a : vec) : num := vdot a a.
(* Vec2.Mag *)
Definition vmag (a : vec) : num := nsqrt (vdot a a).
(* Vec2.Unit *)
Definition vunit (a : vec) : vec := vscale a (n1 / vmag a).
(* Vec2.Lerp: a*(1-t) + b*t *)
Definition vlerp (a b : vec) (t : num) : vec := vadd (vscale a (n1 - t)) (vscale b t).
(* Vec2.Distance *)
Definition vdist (a b : vec) : num := vmag (vsub a b).
(* Vec2.DistanceSq *)
Definition vdistsq (a b : vec) : num := vmagsq (vsub a b).
(* Vec2.Equal: component-wise == *)
Definition veqb (a b : vec) : bool := (vx a =? vx b) && (vy a =? vy b).
(* Vec2.ClampMag: shorten to at most l *)
Definition vclampmag (a : vec) (l : num) : vec :=
  if l * l <? vdot a a then vscale (vunit a) l else a.
(* Vec2.Project: projection of a onto b *)
Definition vproject (a b : vec) : vec := vscale b (vdot a b / vdot b b).
(* Vec2.IsNear: within distance d *)
Definition visnear (a b : vec) (d : num) : bool := vdistsq a b <? d * d.
End Vec.
Arguments vec : clear implicits.
Arguments vec {N}.
