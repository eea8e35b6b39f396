(** QuickHull: model of polyshape.go:186-288.  A slice is an offset into the one backing array, which is a list; None is a run-time panic.
    The [first] out-parameter (nil in both calls, polyshape.go:171 and shape_factory.go:107) is left out. *)
From Coq Require Import ZArith List Bool PeanoNat.
From Verif Require Import Num Vec Polyline.
Import ListNotations.
Local Open Scope num_scope.

Section Hull.
Context {Nm : Num}.
Notation array := (list vec).

(* Go's a[i] = v *)
Fixpoint set (a : array) (i : nat) (v : vec) : option array :=
  match a, i with
  | [], _ => None
  | _ :: r, O => Some (v :: r)
  | x :: r, S i => option_map (cons x) (set r i v)
  end.
(* Go's a[i], a[j] = a[j], a[i] *)
Definition swap (a : array) (i j : nat) : option array :=
  match nth_error a i, nth_error a j with
  | Some x, Some y => match set a i y with Some a => set a j x | None => None end
  | _, _ => None
  end.
(* Go's bounds check of a[off:] *)
Definition slice (a : array) (off : nat) : bool := Nat.leb off (length a).

(* polyshape.go:265, 269-281; [n] is tail - head + 1, [vo] the offset of verts *)
Fixpoint partition_loop (n : nat) (arr : array) (vo head : nat) (a delta : vec) (value_tol max : num) (pivot : nat) : option (array * nat * nat) :=
  match n with
  | O => Some (arr, head, pivot)
  | S n =>
      match nth_error arr (vo + head) with
      | None => None
      | Some v =>
          let value := vcross (vsub v a) delta in
          if value_tol <? value then
            if max <? value then partition_loop n arr vo (S head) a delta value_tol value head
            else partition_loop n arr vo (S head) a delta value_tol max pivot
          else
            match swap arr (vo + head) (vo + (head + n)) with
            | Some arr => partition_loop n arr vo head a delta value_tol max pivot
            | None => None
            end
      end
  end.
(* polyshape.go:256-288 *)
Definition partition (arr : array) (vo count : nat) (a b : vec) (tol : num) : option (array * nat) :=
  if Nat.eqb count 0 then Some (arr, 0%nat) else
  let delta := vsub b a in
  match partition_loop count arr vo 0 a delta (tol * vmag delta) n0 0 with
  | None => None
  | Some (arr, head, pivot) =>
      if Nat.eqb pivot 0 then Some (arr, head)
      else match swap arr vo (vo + pivot) with Some arr => Some (arr, head) | None => None end
  end.
(* polyshape.go:234-254; [vo] and [ro] are the offsets of verts and result, the answer is the array and the number of vertices put into result *)
Fixpoint reduce (fuel : nat) (tol : num) (arr : array) (vo count : nat) (a pivot b : vec) (ro : nat) : option (array * nat) :=
  match fuel with
  | O => None
  | S fuel =>
      if Nat.eqb count 0 then option_map (fun arr => (arr, 1%nat)) (set arr ro pivot) else
      match partition arr vo count a pivot tol with
      | None => None
      | Some (arr, nl) =>
          let after_left :=
            if Nat.eqb nl 0 then Some (arr, 0%nat)
            else match nth_error arr vo with
                 | Some v => if slice arr (vo + 1) then reduce fuel tol arr (vo + 1) (nl - 1) a v pivot ro else None
                 | None => None
                 end in
          match after_left with
          | None => None
          | Some (arr, index) =>
              match set arr (ro + index) pivot with
              | None => None
              | Some arr =>
                  let index := S index in
                  if negb (slice arr (vo + nl)) then None else
                  match partition arr (vo + nl) (count - nl) pivot b tol with
                  | None => None
                  | Some (arr, nr) =>
                      if Nat.eqb nr 0 then Some (arr, index)
                      else match nth_error arr (vo + nl) with
                           | Some v =>
                               if slice arr (vo + nl + 1) && slice arr (ro + index) then
                                 option_map (fun '(arr, k) => (arr, (index + k)%nat)) (reduce fuel tol arr (vo + nl + 1) (nr - 1) pivot v b (ro + index))
                               else None
                           | None => None
                           end
                  end
              end
          end
      end
  end.
(* polyshape.go:186-210 with count = len(verts); loopIndexes (polyshape.go:212-232) is [loop_indexes] of Polyline.v *)
Definition convex_hull (tol : num) (verts : array) : option (array * nat) :=
  match loop_indexes verts (length verts) with
  | None => None
  | Some (start, fin) =>
      if Nat.eqb start fin then Some (verts, 1%nat) else
      match swap verts 0 start with
      | None => None
      | Some verts =>
          match swap verts 1 (if Nat.eqb fin 0 then start else fin) with
          | None => None
          | Some verts =>
              match verts with
              | a :: b :: _ => option_map (fun '(arr, k) => (arr, S k)) (reduce (S (length verts)) tol verts 2 (length verts - 2) a b a 1)
              | _ => None
              end
          end
      end
  end.
(* the vertices handed on by NewPolyShape (shape_factory.go:107-108) and SetVertsUnsafe (polyshape.go:171-172) *)
Definition hull_verts (verts : array) : option array := option_map (fun '(arr, k) => firstn k arr) (convex_hull n0 verts).
End Hull.
