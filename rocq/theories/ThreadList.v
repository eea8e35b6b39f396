(** The lists of arbiters and of constraints of a body at the level of pointers (arbiter.go, body.go, constraint.go, space.go). *)
From Coq Require Import List Bool Arith.
From Verif Require Import Space.
Import ListNotations.
Local Open Scope nat_scope.

(** ** Arbiters *)
(* arbiter.go:16-31 (bodyA, bodyB, threadA, threadB), 58-60 ArbiterThread and Body.arbiterList, for all arbiters and bodies;
   nil is None *)
Record theap := TH { t_a : nat -> nat; t_b : nat -> nat;
  t_an : nat -> option nat; t_ap : nat -> option nat; t_bn : nat -> option nat; t_bp : nat -> option nat;
  t_head : nat -> option nat }.
(* arbiter.go:97-103 ThreadForBody, reading and writing through the pointer it returns *)
Definition next_of (h : theap) (b x : nat) : option nat := if Nat.eqb (t_a h x) b then t_an h x else t_bn h x.
Definition prev_of (h : theap) (b x : nat) : option nat := if Nat.eqb (t_a h x) b then t_ap h x else t_bp h x.
Definition set_next (h : theap) (b x : nat) (v : option nat) : theap :=
  if Nat.eqb (t_a h x) b then TH (t_a h) (t_b h) (upd (t_an h) x v) (t_ap h) (t_bn h) (t_bp h) (t_head h)
  else TH (t_a h) (t_b h) (t_an h) (t_ap h) (upd (t_bn h) x v) (t_bp h) (t_head h).
Definition set_prev (h : theap) (b x : nat) (v : option nat) : theap :=
  if Nat.eqb (t_a h x) b then TH (t_a h) (t_b h) (t_an h) (upd (t_ap h) x v) (t_bn h) (t_bp h) (t_head h)
  else TH (t_a h) (t_b h) (t_an h) (t_ap h) (t_bn h) (upd (t_bp h) x v) (t_head h).
Definition set_head (h : theap) (b : nat) (v : option nat) : theap :=
  TH (t_a h) (t_b h) (t_an h) (t_ap h) (t_bn h) (t_bp h) (upd (t_head h) b v).
(* body.go:458-465 PushArbiter *)
Definition push_ptr (x b : nat) (h : theap) : theap :=
  let next := t_head h b in
  let h1 := set_next h b x next in
  let h2 := match next with Some y => set_prev h1 b y (Some x) | None => h1 end in
  set_head h2 b (Some x).
(* arbiter.go:75-95 unthreadHelper *)
Definition unthread_helper (x b : nat) (h : theap) : theap :=
  let prev := prev_of h b x in
  let next := next_of h b x in
  let h1 := match prev with
            | Some p => set_next h b p next
            | None => if match t_head h b with Some y => Nat.eqb y x | None => false end then set_head h b next else h
            end in
  let h2 := match next with Some q => set_prev h1 b q prev | None => h1 end in
  set_prev (set_next h2 b x None) b x None.
(* arbiter.go:70-73 Unthread *)
Definition unthread_ptr (x : nat) (h : theap) : theap := unthread_helper x (t_b h x) (unthread_helper x (t_a h x) h).
(* arbiter.go:34-56 Init: the bodies are set and the threads cleared *)
Definition init_ptr (x a b : nat) (h : theap) : theap :=
  TH (upd (t_a h) x a) (upd (t_b h) x b) (upd (t_an h) x None) (upd (t_ap h) x None) (upd (t_bn h) x None) (upd (t_bp h) x None) (t_head h).
(* body.go:578-590 EachArbiter: the arbiters it visits; [fuel] bounds the number of rounds, None is running out of it *)
Fixpoint each_from (fuel : nat) (h : theap) (b : nat) (cur : option nat) : option (list nat) :=
  match cur, fuel with
  | None, _ => Some []
  | Some _, O => None
  | Some x, S fuel => match each_from fuel h b (next_of h b x) with Some l => Some (x :: l) | None => None end
  end.
Definition each_arbiter (fuel : nat) (h : theap) (b : nat) : option (list nat) := each_from fuel h b (t_head h b).
(* no arbiters: the zero values *)
Definition theap0 : theap := TH (fun _ => 0) (fun _ => 0) (fun _ => None) (fun _ => None) (fun _ => None) (fun _ => None) (fun _ => None).
(* what the space does with them: space.go:1094 Init, 494-495 push on both bodies, 556 and hashset_arbiter.go:47 Unthread *)
Inductive top := TInit (x a b : nat) | TPush (x : nat) | TUnthread (x : nat).
Definition tstep (o : top) (h : theap) : theap :=
  match o with
  | TInit x a b => init_ptr x a b h
  | TPush x => push_ptr x (t_b h x) (push_ptr x (t_a h x) h)
  | TUnthread x => unthread_ptr x h
  end.
Definition trun (os : list top) (h : theap) : theap := fold_left (fun h o => tstep o h) os h.

(** ** Constraints *)
(* constraint.go:17-31 (bodyA, bodyB, nextA, nextB) and Body.constraintList *)
Record cheap := CH { c_a : nat -> nat; c_b : nat -> nat; c_an : nat -> option nat; c_bn : nat -> option nat; c_head : nat -> option nat }.
(* constraint.go:97-103 Next *)
Definition cnext (h : cheap) (b c : nat) : option nat := if Nat.eqb (c_a h c) b then c_an h c else c_bn h c.
(* space.go:373-377: the pushes of AddConstraint *)
Definition add_ptr (c : nat) (h : cheap) : cheap :=
  let h1 := CH (c_a h) (c_b h) (upd (c_an h) c (c_head h (c_a h c))) (c_bn h) (upd (c_head h) (c_a h c) (Some c)) in
  CH (c_a h1) (c_b h1) (c_an h1) (upd (c_bn h1) c (c_head h1 (c_b h1 c))) (upd (c_head h1) (c_b h1 c) (Some c)).
(* body.go:609-618 filterConstraints; a nil node is dereferenced (None), as is running out of [fuel] *)
Fixpoint filter_ptr (fuel : nat) (node : option nat) (b c : nat) (h : cheap) : option (option nat * cheap) :=
  match node, fuel with
  | None, _ | _, O => None
  | Some d, S fuel =>
    if Nat.eqb d c then Some (cnext h b d, h)
    else if Nat.eqb (c_a h d) b then
      match filter_ptr fuel (c_an h d) b c h with
      | Some (v, h) => Some (Some d, CH (c_a h) (c_b h) (upd (c_an h) d v) (c_bn h) (c_head h))
      | None => None
      end
    else
      match filter_ptr fuel (c_bn h d) b c h with
      | Some (v, h) => Some (Some d, CH (c_a h) (c_b h) (c_an h) (upd (c_bn h) d v) (c_head h))
      | None => None
      end
  end.
(* body.go:541-543 Body.RemoveConstraint *)
Definition remove_ptr1 (fuel : nat) (b c : nat) (h : cheap) : option cheap :=
  match filter_ptr fuel (c_head h b) b c h with
  | Some (v, h) => Some (CH (c_a h) (c_b h) (c_an h) (c_bn h) (upd (c_head h) b v))
  | None => None
  end.
(* space.go:394-395 *)
Definition remove_ptr (fuel : nat) (c : nat) (h : cheap) : option cheap :=
  match remove_ptr1 fuel (c_a h c) c h with Some h1 => remove_ptr1 fuel (c_b h1 c) c h1 | None => None end.
(* body.go:600-607 EachConstraint *)
Fixpoint ceach_from (fuel : nat) (h : cheap) (b : nat) (cur : option nat) : option (list nat) :=
  match cur, fuel with
  | None, _ => Some []
  | Some _, O => None
  | Some c, S fuel => match ceach_from fuel h b (cnext h b c) with Some l => Some (c :: l) | None => None end
  end.
Definition each_constraint (fuel : nat) (h : cheap) (b : nat) : option (list nat) := ceach_from fuel h b (c_head h b).
Definition cheap0 (a b : nat -> nat) : cheap := CH a b (fun _ => None) (fun _ => None) (fun _ => None).
Inductive cop := CAdd (c : nat) | CRemove (c : nat).
Definition cstep (fuel : nat) (o : cop) (h : cheap) : option cheap :=
  match o with CAdd c => Some (add_ptr c h) | CRemove c => remove_ptr fuel c h end.
Fixpoint crun (fuel : nat) (os : list cop) (h : cheap) : option cheap :=
  match os with [] => Some h | o :: os => match cstep fuel o h with Some h => crun fuel os h | None => None end end.
