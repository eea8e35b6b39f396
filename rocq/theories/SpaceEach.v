(** Enumerations.  Models the Each methods and the counts of a space (/repo/space.go:132-140, 826-930) and of a body
    (/repo/body.go:576-607) on the lists of Space.v.

    Simplifications.  A callback of the enumerations of a space is the list of bodies it activates (directly or by a setter),
    chosen after looking at the space; the space is locked meanwhile, so adding and removing is against the rules.  A callback
    of Body.EachConstraint may remove the constraint it is called with.  The order in which an index reports its shapes
    (BBTree.Each, SpaceHash.Each) is the order of the entries; C07 is about the set behind it. *)
From Coq Require Import ZArith List Bool Arith.
From Verif Require Import Num Space.
Import ListNotations.
Local Open Scope nat_scope.

Section SpaceEach.
Context {N : Num}.

(* f in space.go:826-878: the bodies it activates *)
Definition callback := nat -> space -> list nat.
(* the call of f *)
Definition call (cb : callback) (b : nat) (s : space) : option space := ofold body_activate (cb b s) s.
(* the bodies f was called with, and the space afterwards (no counterpart in /repo) *)
Definition calls := option (list nat * space).
Definition also (l : list nat) (r : calls) : calls := match r with Some (t, s) => Some (l ++ t, s) | None => None end.
Definition then_ (r : calls) (k : space -> calls) : calls := match r with Some (t, s) => also t (k s) | None => None end.
Definition unlocked (r : calls) : calls :=
  match r with Some (t, s) => match unlock s with Some s => Some (t, s) | None => None end | None => None end.

(* for _, b := range list (space.go:830-836, 854-856, 865-867): range takes the slice once, nothing moves in it while the space is locked *)
Fixpoint each_list (cb : callback) (l : list nat) (s : space) : calls :=
  match l with
  | [] => Some ([], s)
  | b :: l => match call cb b s with None => None | Some s => also [b] (each_list cb l s) end
  end.
(* space.go:839-845, 870-876: along sleepingNext, which is read before the call; [fuel] bounds the number of rounds *)
Fixpoint each_chain (fuel : nat) (cb : callback) (cur : option nat) (s : space) : calls :=
  match cur, fuel with
  | None, _ => Some ([], s)
  | Some _, O => None
  | Some b, S fuel =>
    let next := b_next (s_body s b) in
    match call cb b s with None => None | Some s => also [b] (each_chain fuel cb next s) end
  end.
(* space.go:838, 869: range takes the slice of sleeping components once; waking a group moves the ones behind it forward in
   the same array (body.go:393-398), and what was in the places behind the end stays there *)
Fixpoint each_group (n k : nat) (arr : list nat) (cb : callback) (s : space) : calls :=
  match n with
  | O => Some ([], s)
  | S n =>
    match nth_error arr k with
    | None => Some ([], s)
    | Some r =>
      then_ (each_chain (S (length (s_all s))) cb (Some r) s)
            (fun s => each_group n (S k) (s_comps s ++ skipn (length (s_comps s)) arr) cb s)
    end
  end.
Definition each_groups (cb : callback) (s : space) : calls := each_group (length (s_comps s)) 0 (s_comps s) cb s.
(* space.go:826-847 EachBody *)
Definition each_body (cb : callback) (s : space) : calls :=
  unlocked (then_ (each_list cb (s_dyn s) (lock s)) (fun s => then_ (each_list cb (s_sta s) s) (each_groups cb))).
(* space.go:850-858 EachStaticBody *)
Definition each_static_body (cb : callback) (s : space) : calls := unlocked (each_list cb (s_sta s) (lock s)).
(* space.go:861-878 EachDynamicBody *)
Definition each_dynamic_body (cb : callback) (s : space) : calls :=
  unlocked (then_ (each_list cb (s_dyn s) (lock s)) (each_groups cb)).
(* space.go:881-887, 890-896, 909-920 EachStaticShape, EachDynamicShape, EachShape: the indexes do not change while the space is locked *)
Definition each_static_shape (cb : callback) (s : space) : calls := unlocked (each_list cb (map snd (s_six s)) (lock s)).
Definition each_dynamic_shape (cb : callback) (s : space) : calls := unlocked (each_list cb (map snd (s_dix s)) (lock s)).
Definition each_shape (cb : callback) (s : space) : calls :=
  unlocked (then_ (each_list cb (map snd (s_dix s)) (lock s)) (fun s => each_list cb (map snd (s_six s)) s)).
(* space.go:922-930 EachConstraint *)
Definition each_constraint (cb : callback) (s : space) : calls := unlocked (each_list cb (s_cons s) (lock s)).
(* space.go:133-140, 898-906 *)
Definition dynamic_body_count (s : space) : nat := length (s_dyn s).
Definition static_body_count (s : space) : nat := length (s_sta s).
Definition dynamic_shape_count (s : space) : nat := length (s_dix s).
Definition static_shape_count (s : space) : nat := length (s_six s).
Definition shape_count (s : space) : nat := static_shape_count s + dynamic_shape_count s.

(* constraint.go Next: the constraint behind c in the list of a body *)
Fixpoint after (c : nat) (l : list nat) : option nat :=
  match l with [] => None | d :: l => if Nat.eqb c d then hd_error l else after c l end.
(* body.go:600-607 EachConstraint; f takes and gives a space; [fuel] bounds the number of rounds *)
Fixpoint each_con_of (fuel : nat) (f : nat -> space -> option space) (b : nat) (cur : option nat) (s : space) : calls :=
  match cur, fuel with
  | None, _ => Some ([], s)
  | Some _, O => None
  | Some c, S fuel =>
    let next := after c (b_cons (s_body s b)) in
    match f c s with None => None | Some s => also [c] (each_con_of fuel f b next s) end
  end.
Definition each_constraint_of (f : nat -> space -> option space) (b : nat) (s : space) : calls :=
  each_con_of (length (b_cons (s_body s b))) f b (hd_error (b_cons (s_body s b))) s.
End SpaceEach.
