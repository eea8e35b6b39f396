(** Axis aligned bounding boxes.  Models /repo/bb.go. *)
From Coq Require Import ZArith Bool.
From Verif Require Import Num Vec.
Local Open Scope num_scope.

Section BB.
Context {N : Num}.

(* bb.go:11-13 *)
Record bb := mkBB { bL : num; bB : num; bR : num; bT : num }.

(* bb.go:30-37 NewBBForExtents *)
Definition bb_extents (c : vec) (hw hh : num) : bb :=
  mkBB (vx c - hw) (vy c - hh) (vx c + hw) (vy c + hh).
(* bb.go:40-42 NewBBForCircle *)
Definition bb_circle (p : vec) (r : num) : bb := bb_extents p r r.
(* bb.go:45-47 *)
Definition bb_intersects (a b : bb) : bool :=
  (bL a <=? bR b) && (bL b <=? bR a) && (bB a <=? bT b) && (bB b <=? bT a).
(* bb.go:50-52; Go's x >= y is y <= x *)
Definition bb_contains (a o : bb) : bool :=
  (bL a <=? bL o) && (bR o <=? bR a) && (bB a <=? bB o) && (bT o <=? bT a).
(* bb.go:55-57 *)
Definition bb_contains_vect (a : bb) (v : vec) : bool :=
  (bL a <=? vx v) && (vx v <=? bR a) && (bB a <=? vy v) && (vy v <=? bT a).
(* bb.go:60-67 *)
Definition bb_merge (a b : bb) : bb :=
  mkBB (nmin (bL a) (bL b)) (nmin (bB a) (bB b)) (nmax (bR a) (bR b)) (nmax (bT a) (bT b)).
(* bb.go:70-77 *)
Definition bb_expand (a : bb) (v : vec) : bb :=
  mkBB (nmin (bL a) (vx v)) (nmin (bB a) (vy v)) (nmax (bR a) (vx v)) (nmax (bT a) (vy v)).
(* bb.go:80-82 *)
Definition bb_center (a : bb) : vec := vlerp (V (bL a) (bB a)) (V (bR a) (bT a)) nhalf.
(* bb.go:85-87 *)
Definition bb_area (a : bb) : num := (bR a - bL a) * (bT a - bB a).
(* bb.go:90-92 *)
Definition bb_merged_area (a b : bb) : num :=
  (nmax (bR a) (bR b) - nmin (bL a) (bL b)) * (nmax (bT a) (bT b) - nmin (bB a) (bB b)).

(* bb.go:101-110 and 112-121: one axis of the slab test, shared by x and y.
   [None] is the early "return infinity". *)
Definition slab (lo hi a d tmin tmax : num) : option (num * num) :=
  if d =? n0 then
    if (a <? lo) || (hi <? a) then None else Some (tmin, tmax)
  else
    let t1 := (lo - a) / d in
    let t2 := (hi - a) / d in
    Some (nmax tmin (nmin t1 t2), nmin tmax (nmax t1 t2)).
(* bb.go:96-128 SegmentQuery *)
Definition bb_segment_query (s : bb) (a b : vec) : num :=
  let delta := vsub b a in
  match slab (bL s) (bR s) (vx a) (vx delta) (- ninf) ninf with
  | None => ninf
  | Some (tmin, tmax) =>
    match slab (bB s) (bT s) (vy a) (vy delta) tmin tmax with
    | None => ninf
    | Some (tmin, tmax) =>
      if (tmin <=? tmax) && (n0 <=? tmax) && (tmin <=? n1) then nmax tmin n0 else ninf
    end
  end.
(* bb.go:131-133; Go's != is the negation of == *)
Definition bb_intersects_segment (s : bb) (a b : vec) : bool :=
  negb (bb_segment_query s a b =? ninf).

(* everything.go:307-313 clamp *)
Definition nclamp (f mn mx : num) : num :=
  if mn <? f then nmin f mx else nmin mn mx.
(* bb.go:136-138 *)
Definition bb_clamp (s : bb) (v : vec) : vec :=
  V (nclamp (vx v) (bL s) (bR s)) (nclamp (vy v) (bB s) (bT s)).
(* bb.go:164-171 *)
Definition bb_offset (s : bb) (v : vec) : bb :=
  mkBB (bL s + vx v) (bB s + vy v) (bR s + vx v) (bT s + vy v).
(* bb.go:173-175 *)
Definition bb_proximity (a b : bb) : num :=
  nabs (bL a + bR a - bL b - bR b) + nabs (bB a + bT a - bB b - bT b).
(* bb.go:141-161 WrapVect, one axis; math.Mod is a parameter *)
Definition wrap1 (nmod : num -> num -> num) (lo hi v : num) : num :=
  let d := nabs (hi - lo) in
  let m := nmod (v - lo) d in
  (if n0 <? m then m else m + d) + lo.
(* bb.go:141-161 WrapVect *)
Definition bb_wrap (nmod : num -> num -> num) (s : bb) (v : vec) : vec :=
  V (wrap1 nmod (bL s) (bR s) (vx v)) (wrap1 nmod (bB s) (bT s) (vy v)).
End BB.
Arguments bb : clear implicits.
Arguments bb {N}.

From Coq Require Import Reals.
(* math.Mod for ideal reals: x - trunc(x/y)*y, result has the sign of x *)
Definition Rtrunc (z : R) : Z := if Rlt_dec z 0 then (- Int_part (- z))%Z else Int_part z.
Definition Rmod (x y : R) : R := (x - IZR (Rtrunc (x / y)) * y)%R.

From Coq Require Import Floats.
(* bb.go:16-23 NewBB at the float64 instance (used in examples) *)
Definition fbb (l b r t : PrimFloat.float) : @bb FNum := @mkBB FNum l b r t.
Definition fvec (x y : PrimFloat.float) : @vec FNum := @V FNum x y.
(* the same at the real instance *)
Definition rbb (l b r t : R) : @bb RNum := @mkBB RNum l b r t.
Definition rvec (x y : R) : @vec RNum := @V RNum x y.
