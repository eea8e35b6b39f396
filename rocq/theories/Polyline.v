(** Polylines: model of polyline.go.  A polyline is the list of its vertices, a set the list of its lines. *)
From Coq Require Import ZArith List Bool PeanoNat.
From Verif Require Import Num Vec.
Import ListNotations.
Local Open Scope num_scope.

Section Polyline.
Context {Nm : Num}.
Notation line := (list vec).

(* polyline.go:148-155: line.Verts[len(line.Verts)-1].Equal(v); an empty line is skipped (its Verts are nil) *)
Definition ends_at (v : vec) (l : line) : bool := match l with [] => false | x :: r => veqb (last r x) v end.
(* polyline.go:158-165 *)
Definition starts_at (v : vec) (l : line) : bool := match l with [] => false | x :: _ => veqb x v end.
(* the loops of polyline.go:149-154, 159-164 *)
Fixpoint find_line (f : line -> bool) (ls : list line) : option nat :=
  match ls with
  | [] => None
  | l :: r => if f l then Some 0%nat else option_map S (find_line f r)
  end.
Definition find_ends (v : vec) := find_line (ends_at v).
Definition find_starts (v : vec) := find_line (starts_at v).
(* pls.Lines[i] = f(pls.Lines[i]) *)
Fixpoint change (i : nat) (f : line -> line) (ls : list line) : list line :=
  match ls, i with
  | [], _ => []
  | l :: r, O => f l :: r
  | l :: r, S i => l :: change i f r
  end.
(* polyline.go:177-178 *)
Fixpoint delete (i : nat) (ls : list line) : list line :=
  match ls, i with
  | [], _ => []
  | _ :: r, O => r
  | l :: r, S i => l :: delete i r
  end.
(* polyline.go:175-179 *)
Definition join (before after : nat) (ls : list line) : list line :=
  delete after (change before (fun l => l ++ nth after ls []) ls).
(* polyline.go:183-201 *)
Definition collect (ls : list line) (s : vec * vec) : list line :=
  let (v0, v1) := s in
  match find_ends v0 ls, find_starts v1 ls with
  | Some before, Some after => if Nat.eqb before after then change before (fun l => l ++ [v1]) ls else join before after ls
  | Some before, None => change before (fun l => l ++ [v1]) ls
  | None, Some after => change after (fun l => v0 :: l) ls
  | None, None => ls ++ [[v0; v1]]
  end.
(* the callback fed with all the segments, starting from an empty set *)
Definition collect_all (ss : list (vec * vec)) : list line := fold_left collect ss [].

(* polyline.go:203-205 *)
Definition next (i count : nat) : nat := (i + 1) mod count.
(* polyline.go:31-33 *)
Definition is_closed (l : line) : bool := match l with x :: (_ :: _) as r => veqb x (last r x) | _ => false end.
(* polyline.go:17-19 *)
Definition sharpness (a b c : vec) : num := vdot (vunit (vsub a b)) (vunit (vsub c b)).
(* polyline.go:61-69; [st] is reduced.Verts in reverse *)
Fixpoint simplify_loop (min_sharp : num) (st rest : line) : line :=
  match rest with
  | [] => st
  | vert :: rest =>
      match st with
      | z :: y :: st' => if sharpness y z vert <=? min_sharp then simplify_loop min_sharp (vert :: y :: st') rest else simplify_loop min_sharp (vert :: st) rest
      | _ => st
      end
  end.
(* polyline.go:57-75; [cos_tol] is math.Cos(tol), None an index out of range *)
Definition simplify_vertexes (cos_tol : num) (l : line) : option line :=
  match l with
  | v0 :: v1 :: rest =>
      let min_sharp := - cos_tol in
      match simplify_loop min_sharp [v1; v0] rest with
      | z :: y :: st =>
          match rev (z :: y :: st) with
          | r0 :: r1 :: r => if is_closed l && (sharpness y r0 r1 <? min_sharp) then Some (y :: r1 :: r) else Some (r0 :: r1 :: r)
          | _ => None
          end
      | _ => None
      end
  | _ => None
  end.

(* polyline.go:44-53; [n] bounds the number of rounds, None is an index out of range *)
Fixpoint is_short (n : nat) (verts : line) (count i fin : nat) (length min : num) : option bool :=
  if Nat.eqb i fin then Some true else
  match n with
  | O => None
  | S n =>
      match nth_error verts i, nth_error verts (next i count) with
      | Some u, Some v => let length := length + vdist u v in if min <? length then Some false else is_short n verts count (next i count) fin length min
      | _, _ => None
      end
  end.
(* polyline.go:104-111 *)
Fixpoint farthest (n : nat) (verts : line) (count : nat) (nv : vec) (d : num) (i fin : nat) (max : num) (maxi : nat) : option (num * nat) :=
  if Nat.eqb i fin then Some (max, maxi) else
  match n with
  | O => None
  | S n =>
      match nth_error verts i with
      | Some v => let dist := nabs (vdot nv v - d) in
          if max <? dist then farthest n verts count nv d (next i count) fin dist i else farthest n verts count nv d (next i count) fin max maxi
      | None => None
      end
  end.
(* polyline.go:78-120; note that IsShort is called on reduced, not on verts *)
Fixpoint douglas_peucker (fuel : nat) (verts reduced : line) (count start fin : nat) (min tol : num) : option line :=
  match fuel with
  | O => None
  | S fuel =>
      if Nat.eqb count 0 then None (* integer division by zero *) else
      if Nat.ltb ((fin + count - start) mod count) 2 then Some reduced else
      match nth_error verts start, nth_error verts fin with
      | Some a, Some b =>
          match (if visnear a b min then is_short count reduced count start fin n0 min else Some false) with
          | None => None
          | Some true => Some reduced
          | Some false =>
              let nv := vunit (vperp (vsub b a)) in
              match farthest count verts count nv (vdot nv a) (next start count) fin n0 start with
              | None => None
              | Some (max, maxi) =>
                  if tol <? max then
                    match douglas_peucker fuel verts reduced count start maxi min tol, nth_error verts maxi with
                    | Some reduced, Some v => douglas_peucker fuel verts (reduced ++ [v]) count maxi fin min tol
                    | _, _ => None
                    end
                  else Some reduced
              end
          end
      | _, _ => None
      end
  end.
(* polyshape.go:212-232: the loop from index i on; [mn] and [mx] are min and max *)
Fixpoint loop_from (rest : line) (i : nat) (start fin : nat) (mn mx : vec) : nat * nat :=
  match rest with
  | [] => (start, fin)
  | v :: rest =>
      if (vx v <? vx mn) || ((vx v =? vx mn) && (vy v <? vy mn)) then loop_from rest (S i) i fin v mx
      else if (vx mx <? vx v) || ((vx v =? vx mx) && (vy mx <? vy v)) then loop_from rest (S i) start i mn v
      else loop_from rest (S i) start fin mn mx
  end.
(* polyshape.go:212-232 for the first count vertices, 1 <= count *)
Definition loop_indexes (verts : line) (count : nat) : option (nat * nat) :=
  match verts with
  | [] => None
  | v :: rest => Some (loop_from (firstn (count - 1) rest) 1 0 0 v v)
  end.
(* polyline.go:125-145 *)
Definition simplify_curves (tol : num) (l : line) : option line :=
  let min := tol / n2 in
  let len := length l in
  let put r k := match r, nth_error l k with Some r, Some v => Some (r ++ [v]) | _, _ => None end in
  let dp r count s f := match r with Some r => douglas_peucker (S len) l r count s f min tol | None => None end in
  if is_closed l then
    match loop_indexes l (len - 1) with
    | None => None
    | Some (start, fin) =>
        let r := dp (put (Some []) start) (len - 1)%nat start fin in
        let r := dp (put r fin) (len - 1)%nat fin start in
        put r start
    end
  else put (dp (put (Some []) 0%nat) len 0%nat (len - 1)%nat) (len - 1)%nat.
End Polyline.
