(** Marching squares: model of utils/march/march.go.
    The segment callback is modelled by the list of its calls, in order: a call marchSeg(v0, v1, data) is the pair (v0, v1).
    The sample callback is a function of the sampled point. *)
From Coq Require Import ZArith List Bool.
From Verif Require Import Num Vec BB.
Import ListNotations.
Local Open Scope num_scope.

Section March.
Context {Nm : Num}.

(* march.go:327-329 *)
Definition lerp (f1 f2 t : num) : num := f1 * (n1 - t) + f2 * t.
(* march.go:89-93 *)
Definition seg (v0 v1 : vec) : list (vec * vec) := if veqb v0 v1 then [] else [(v1, v0)].
(* march.go:95-97 *)
Definition midlerp (x0 x1 s0 s1 t : num) : num := lerp x0 x1 ((t - s0) / (s1 - s0)).
(* march.go:249-252 *)
Definition segs (a b c : vec) : list (vec * vec) := seg b c ++ seg a b.

(* march.go:99-233; the bits of the switch value are a, b, c, d > t *)
Definition soft (t a b c d x0 x1 y0 y1 : num) : list (vec * vec) :=
  let left := V x0 (midlerp y0 y1 a c t) in
  let right := V x1 (midlerp y0 y1 b d t) in
  let bottom := V (midlerp x0 x1 a b t) y0 in
  let top := V (midlerp x0 x1 c d t) y1 in
  match (t <? d, t <? c, t <? b, t <? a) with
  | (false, false, false, true) => seg left bottom
  | (false, false, true, false) => seg bottom right
  | (false, false, true, true) => seg left right
  | (false, true, false, false) => seg top left
  | (false, true, false, true) => seg top bottom
  | (false, true, true, false) => seg bottom right ++ seg top left
  | (false, true, true, true) => seg top right
  | (true, false, false, false) => seg right top
  | (true, false, false, true) => seg left bottom ++ seg right top
  | (true, false, true, false) => seg bottom top
  | (true, false, true, true) => seg left top
  | (true, true, false, false) => seg right left
  | (true, true, false, true) => seg right bottom
  | (true, true, true, false) => seg bottom left
  | _ => []
  end.

(* march.go:254-311 *)
Definition hard (t a b c d x0 x1 y0 y1 : num) : list (vec * vec) :=
  let xm := lerp x0 x1 nhalf in
  let ym := lerp y0 y1 nhalf in
  let left := V x0 ym in
  let right := V x1 ym in
  let bottom := V xm y0 in
  let top := V xm y1 in
  let mid := V xm ym in
  match (t <? d, t <? c, t <? b, t <? a) with
  | (false, false, false, true) => segs left mid bottom
  | (false, false, true, false) => segs bottom mid right
  | (false, false, true, true) => seg left right
  | (false, true, false, false) => segs top mid left
  | (false, true, false, true) => seg top bottom
  | (false, true, true, false) => segs bottom mid left ++ segs top mid right
  | (false, true, true, true) => segs top mid right
  | (true, false, false, false) => segs right mid top
  | (true, false, false, true) => segs right mid bottom ++ segs left mid top
  | (true, false, true, false) => seg bottom top
  | (true, false, true, true) => segs left mid top
  | (true, true, false, false) => seg right left
  | (true, true, false, true) => segs right mid bottom
  | (true, true, true, false) => segs bottom mid left
  | _ => []
  end.

Definition cell_fun : Type := num -> num -> num -> num -> num -> num -> num -> num -> num -> list (vec * vec).
Variables (cell : cell_fun) (sample : vec -> num) (bb : bb) (t : num).
Variables (xs ys : nat).

(* march.go:52-53 *)
Definition xdenom : num := n1 / nofZ (Z.of_nat xs - 1).
Definition ydenom : num := n1 / nofZ (Z.of_nat ys - 1).
(* march.go:58,73-74 *)
Definition xat (i : nat) : num := lerp (bL bb) (bR bb) (nofZ (Z.of_nat i) * xdenom).
(* march.go:63-64 *)
Definition yat (j : nat) : num := lerp (bB bb) (bT bb) (nofZ (Z.of_nat j) * ydenom).

(* march.go:72-83, one row: [old] is buffer[i+1:], [b] and [d] the variables of the loop.  Returns the new contents of that
   part of the buffer and the calls of marchSegment. *)
Fixpoint row (y0 y1 : num) (i : nat) (b d : num) (old : list num) : list num * list (vec * vec) :=
  match old with
  | [] => ([], [])
  | b' :: rest =>
      let d' := sample (V (xat (S i)) y1) in
      let here := cell t b b' d d' (xat i) (xat (S i)) y0 y1 in
      let (buf, out) := row y0 y1 (S i) b' d' rest in
      (d' :: buf, here ++ out)
  end.
(* march.go:62-84: [n] rows from row j on *)
Fixpoint rows (n j : nat) (buffer : list num) : option (list (vec * vec)) :=
  match n with
  | O => Some []
  | S n =>
      match buffer with
      | [] => None (* buffer[0]: index out of range *)
      | b :: rest =>
          let y0 := yat j in
          let y1 := yat (S j) in
          let d := sample (V (bL bb) y1) in
          let (buf, out) := row y0 y1 0 b d rest in
          match rows n (S j) (d :: buf) with
          | Some more => Some (out ++ more)
          | None => None
          end
      end
  end.
(* march.go:43-87 (non-negative sample counts) *)
Definition march : option (list (vec * vec)) :=
  rows (ys - 1) 0 (map (fun i => sample (V (xat i) (bB bb))) (seq 0 xs)).
End March.

(* march.go:239-247, 317-325 *)
Definition march_soft {Nm : Num} := march soft.
Definition march_hard {Nm : Num} := march hard.
