(** The lists of a space: bodies, shapes, constraints, contacts, sleeping groups.
    Models Space.Activate, Deactivate, AddShape, RemoveShape, AddBody, RemoveBody, RemoveBodyWithShapes, AddConstraint,
    RemoveConstraint, SetGravity, ProcessComponents, FloodFillComponent, Lock, Unlock and the bookkeeping of Step
    (/repo/space.go), Body.Activate, ActivateStatic, SetType, ComponentAdd, AttachShape, RemoveShape (/repo/body.go).
    Simplifications:
    - the type of a body is a field; the code recomputes it from two numbers (body.go:219-227), see Body.v;
    - the linked lists Body.arbiterList and Body.constraintList are lists here, see ThreadList.v for the pointers;
    - a spatial index is the list of its entries, see BBTree.v and HashSet.v for what is inside;
    - arbiters taken from the pool get a new number;
    - which shapes collide, which bodies move faster than the threshold and which cached arbiters are too old are inputs
      of the step;
    - no result (None) stands for a panic, a nil dereference, log.Fatalln or a loop that does not end. *)
From Coq Require Import ZArith List Bool Arith.
From Verif Require Import Num.
Import ListNotations.
Local Open Scope nat_scope.

Section Space.
Context {N : Num}.

(* body.go:12-18 *)
Inductive btype := Dynamic | Kinematic | Static.
Definition btype_eqb (x y : btype) : bool :=
  match x, y with Dynamic, Dynamic | Kinematic, Kinematic | Static, Static => true | _, _ => false end.

(* body.go:27-58: type, sleepingIdleTime, Shapes, arbiterList, constraintList, Space (is it this space?), sleepingRoot,
   sleepingNext *)
Record body := Bd {
  b_type : btype; b_idle : num; b_shapes : list nat; b_arbs : list nat; b_cons : list nat; b_in : bool;
  b_root : option nat; b_next : option nat }.
(* shape.go:13-39: Body, Space, hashid *)
Record shape := Sh { sh_body : nat; sh_in : bool; sh_id : nat }.
(* arbiter.go:16-31: shapeA, shapeB, bodyA, bodyB *)
Record arb := Ar { ar_sa : nat; ar_sb : nat; ar_a : nat; ar_b : nat }.
(* constraint.go:17-31: bodyA, bodyB, collideBodies, space *)
Record con := Co { co_a : nat; co_b : nat; co_collide : bool; co_in : bool }.

(* space.go:19-86.  Entries of an index are (hashid, shape).  [s_all] is not in the code: the bodies with Space set, it is
   only used to bound loops *)
Record space := Sp {
  s_body : nat -> body; s_shape : nat -> shape; s_arb : nat -> arb; s_con : nat -> con;
  s_dyn : list nat; s_sta : list nat; s_dix : list (nat * nat); s_six : list (nat * nat);
  s_arbs : list nat; s_cache : list nat; s_cons : list nat; s_comps : list nat; s_roused : list nat;
  s_lock : Z; s_ids : nat; s_arbc : nat; s_all : list nat }.

(* space.go:88-130 NewSpace.  The bodies, shapes and constraints the program will make are given by their types and
   what they refer to *)
Definition space0 (ty : nat -> btype) (sb : nat -> nat) (cn : nat -> con) : space :=
  Sp (fun b => Bd (ty b) n0 [] [] [] false None None) (fun s => Sh (sb s) false 0) (fun _ => Ar 0 0 0 0)
     (fun c => Co (co_a (cn c)) (co_b (cn c)) (co_collide (cn c)) false)
     [] [] [] [] [] [] [] [] [] 0%Z 1 0 [].

(** ** Field updates (no counterpart in /repo) *)
Definition upd {A} (f : nat -> A) (k : nat) (v : A) : nat -> A := fun k' => if Nat.eqb k k' then v else f k'.
Definition set_body (s : space) (b : nat) (v : body) : space :=
  Sp (upd (s_body s) b v) (s_shape s) (s_arb s) (s_con s) (s_dyn s) (s_sta s) (s_dix s) (s_six s) (s_arbs s) (s_cache s)
     (s_cons s) (s_comps s) (s_roused s) (s_lock s) (s_ids s) (s_arbc s) (s_all s).
Definition set_shape (s : space) (x : nat) (v : shape) : space :=
  Sp (s_body s) (upd (s_shape s) x v) (s_arb s) (s_con s) (s_dyn s) (s_sta s) (s_dix s) (s_six s) (s_arbs s) (s_cache s)
     (s_cons s) (s_comps s) (s_roused s) (s_lock s) (s_ids s) (s_arbc s) (s_all s).
Definition set_arb (s : space) (x : nat) (v : arb) : space :=
  Sp (s_body s) (s_shape s) (upd (s_arb s) x v) (s_con s) (s_dyn s) (s_sta s) (s_dix s) (s_six s) (s_arbs s) (s_cache s)
     (s_cons s) (s_comps s) (s_roused s) (s_lock s) (s_ids s) (s_arbc s) (s_all s).
Definition set_con (s : space) (c : nat) (v : con) : space :=
  Sp (s_body s) (s_shape s) (s_arb s) (upd (s_con s) c v) (s_dyn s) (s_sta s) (s_dix s) (s_six s) (s_arbs s) (s_cache s)
     (s_cons s) (s_comps s) (s_roused s) (s_lock s) (s_ids s) (s_arbc s) (s_all s).
Definition set_lists (s : space) (dyn sta : list nat) : space :=
  Sp (s_body s) (s_shape s) (s_arb s) (s_con s) dyn sta (s_dix s) (s_six s) (s_arbs s) (s_cache s)
     (s_cons s) (s_comps s) (s_roused s) (s_lock s) (s_ids s) (s_arbc s) (s_all s).
Definition set_ix (s : space) (dix six : list (nat * nat)) : space :=
  Sp (s_body s) (s_shape s) (s_arb s) (s_con s) (s_dyn s) (s_sta s) dix six (s_arbs s) (s_cache s)
     (s_cons s) (s_comps s) (s_roused s) (s_lock s) (s_ids s) (s_arbc s) (s_all s).
Definition set_arbs (s : space) (arbs cache : list nat) : space :=
  Sp (s_body s) (s_shape s) (s_arb s) (s_con s) (s_dyn s) (s_sta s) (s_dix s) (s_six s) arbs cache
     (s_cons s) (s_comps s) (s_roused s) (s_lock s) (s_ids s) (s_arbc s) (s_all s).
Definition set_cons (s : space) (cs : list nat) : space :=
  Sp (s_body s) (s_shape s) (s_arb s) (s_con s) (s_dyn s) (s_sta s) (s_dix s) (s_six s) (s_arbs s) (s_cache s)
     cs (s_comps s) (s_roused s) (s_lock s) (s_ids s) (s_arbc s) (s_all s).
Definition set_comps (s : space) (l : list nat) : space :=
  Sp (s_body s) (s_shape s) (s_arb s) (s_con s) (s_dyn s) (s_sta s) (s_dix s) (s_six s) (s_arbs s) (s_cache s)
     (s_cons s) l (s_roused s) (s_lock s) (s_ids s) (s_arbc s) (s_all s).
Definition set_roused (s : space) (l : list nat) : space :=
  Sp (s_body s) (s_shape s) (s_arb s) (s_con s) (s_dyn s) (s_sta s) (s_dix s) (s_six s) (s_arbs s) (s_cache s)
     (s_cons s) (s_comps s) l (s_lock s) (s_ids s) (s_arbc s) (s_all s).
Definition set_lock (s : space) (n : Z) : space :=
  Sp (s_body s) (s_shape s) (s_arb s) (s_con s) (s_dyn s) (s_sta s) (s_dix s) (s_six s) (s_arbs s) (s_cache s)
     (s_cons s) (s_comps s) (s_roused s) n (s_ids s) (s_arbc s) (s_all s).
Definition set_ids (s : space) (n : nat) : space :=
  Sp (s_body s) (s_shape s) (s_arb s) (s_con s) (s_dyn s) (s_sta s) (s_dix s) (s_six s) (s_arbs s) (s_cache s)
     (s_cons s) (s_comps s) (s_roused s) (s_lock s) n (s_arbc s) (s_all s).
Definition set_arbc (s : space) (n : nat) : space :=
  Sp (s_body s) (s_shape s) (s_arb s) (s_con s) (s_dyn s) (s_sta s) (s_dix s) (s_six s) (s_arbs s) (s_cache s)
     (s_cons s) (s_comps s) (s_roused s) (s_lock s) (s_ids s) n (s_all s).
Definition set_all (s : space) (l : list nat) : space :=
  Sp (s_body s) (s_shape s) (s_arb s) (s_con s) (s_dyn s) (s_sta s) (s_dix s) (s_six s) (s_arbs s) (s_cache s)
     (s_cons s) (s_comps s) (s_roused s) (s_lock s) (s_ids s) (s_arbc s) l.
Definition w_type (v : body) (t : btype) : body :=
  Bd t (b_idle v) (b_shapes v) (b_arbs v) (b_cons v) (b_in v) (b_root v) (b_next v).
Definition w_idle (v : body) (t : num) : body :=
  Bd (b_type v) t (b_shapes v) (b_arbs v) (b_cons v) (b_in v) (b_root v) (b_next v).
Definition w_shapes (v : body) (l : list nat) : body :=
  Bd (b_type v) (b_idle v) l (b_arbs v) (b_cons v) (b_in v) (b_root v) (b_next v).
Definition w_arbs (v : body) (l : list nat) : body :=
  Bd (b_type v) (b_idle v) (b_shapes v) l (b_cons v) (b_in v) (b_root v) (b_next v).
Definition w_cons (v : body) (l : list nat) : body :=
  Bd (b_type v) (b_idle v) (b_shapes v) (b_arbs v) l (b_in v) (b_root v) (b_next v).
Definition w_in (v : body) (i : bool) : body :=
  Bd (b_type v) (b_idle v) (b_shapes v) (b_arbs v) (b_cons v) i (b_root v) (b_next v).
Definition w_sleep (v : body) (r n : option nat) : body :=
  Bd (b_type v) (b_idle v) (b_shapes v) (b_arbs v) (b_cons v) (b_in v) r n.

(* running a loop body that can fail over a list (no counterpart in /repo) *)
Definition ofold {A S} (f : A -> S -> option S) (l : list A) (s : S) : option S :=
  fold_left (fun o a => match o with Some s => f a s | None => None end) l (Some s).
Definition ty (s : space) (b : nat) : btype := b_type (s_body s b).
Definition is_type (s : space) (b : nat) (t : btype) : bool := btype_eqb (ty s b) t.
(* body.go:431-433 IsSleeping *)
Definition is_sleeping (s : space) (b : nat) : bool := match b_root (s_body s b) with Some _ => true | None => false end.
(* the first entry equal to x deleted: e.g. space.go:337-354, 390-395 *)
Fixpoint remove1 (x : nat) (l : list nat) : list nat :=
  match l with [] => [] | y :: l => if Nat.eqb x y then l else y :: remove1 x l end.
Definition mem (x : nat) (l : list nat) : bool := existsb (Nat.eqb x) l.

(** ** Spatial indexes *)
Definition entry_eqb (x y : nat * nat) : bool := Nat.eqb (fst x) (fst y) && Nat.eqb (snd x) (snd y).
(* bb_tree.go:101-112: inserting an object that is indexed would link its leaf into the tree a second time *)
Definition ix_insert (e : nat * nat) (ix : list (nat * nat)) : option (list (nat * nat)) :=
  if existsb (entry_eqb e) ix then None else Some (e :: ix).
(* bb_tree.go:248-254: for an object that is not indexed leaf is nil and SubtreeRemove or PairsClear dereferences it *)
Definition ix_remove (e : nat * nat) (ix : list (nat * nat)) : option (list (nat * nat)) :=
  if existsb (entry_eqb e) ix then Some (filter (fun e' => negb (entry_eqb e e')) ix) else None.
(* space.go:173-176, 224-227, body.go:210-214: remove from one index and insert into the other *)
Definition ix_move (e : nat * nat) (p : list (nat * nat) * list (nat * nat)) : option (list (nat * nat) * list (nat * nat)) :=
  match ix_remove e (fst p) with
  | None => None
  | Some from => match ix_insert e (snd p) with None => None | Some to => Some (from, to) end
  end.
Definition entries (s : space) (b : nat) : list (nat * nat) :=
  map (fun x => (sh_id (s_shape s x), x)) (b_shapes (s_body s b)).

(** ** Arbiters in the cache *)
(* space.go:1258-1263 arbiterSetEql *)
Definition same_shapes (x y : arb) : bool :=
  (Nat.eqb (ar_sa x) (ar_sa y) && Nat.eqb (ar_sb x) (ar_sb y)) || (Nat.eqb (ar_sb x) (ar_sa y) && Nat.eqb (ar_sa x) (ar_sb y)).
(* space.go:195-200: HashSet.Insert keeps an equal element that is already there *)
Definition cache_insert (s : space) (x : nat) (c : list nat) : list nat :=
  if existsb (fun y => same_shapes (s_arb s x) (s_arb s y)) c then c else x :: c.
(* space.go:694-699: the element with these two shapes goes *)
Definition cache_remove (s : space) (x : nat) (c : list nat) : list nat :=
  filter (fun y => negb (same_shapes (s_arb s x) (s_arb s y))) c.

(* space.go:186, 232: body == bodyA || bodyA.Type() == Static *)
Definition owns_arb (s : space) (b x : nat) : bool := Nat.eqb b (ar_a (s_arb s x)) || is_type s (ar_a (s_arb s x)) Static.
(* space.go:210, 244 *)
Definition owns_con (s : space) (b c : nat) : bool := Nat.eqb b (co_a (s_con s c)) || is_type s (co_a (s_con s c)) Static.

(* space.go:162-214 Space.Activate *)
Definition space_activate (b : nat) (s : space) : option space :=
  if negb (s_lock s =? 0)%Z then
    Some (if mem b (s_roused s) then s else set_roused s (s_roused s ++ [b]))
  else
    match ofold ix_move (entries s b) (s_six s, s_dix s) with
    | None => None
    | Some (six, dix) =>
      let mine := filter (owns_arb s b) (b_arbs (s_body s b)) in
      let s1 := set_ix (set_lists s (s_dyn s ++ [b]) (s_sta s)) dix six in
      let s2 := set_arbs s1 (s_arbs s ++ mine) (fold_left (fun c x => cache_insert s x c) mine (s_cache s)) in
      Some (set_cons s2 (s_cons s ++ filter (owns_con s b) (b_cons (s_body s b))))
    end.

(* space.go:694-711 UncacheArbiter: panics if the arbiter is not in Arbiters; the last one takes its place *)
Definition swap_remove (x : nat) (l : list nat) : list nat :=
  match rev l with
  | [] => []
  | z :: r => (fix go l := match l with [] => [] | y :: l => if Nat.eqb x y then z :: l else y :: go l end) (rev r)
  end.
Definition uncache_arbiter (x : nat) (s : space) : option space :=
  if mem x (s_arbs s) then Some (set_arbs s (swap_remove x (s_arbs s)) (cache_remove s x (s_cache s))) else None.

(* space.go:216-251 Deactivate *)
Definition space_deactivate (b : nat) (s : space) : option space :=
  let s1 := set_lists s (remove1 b (s_dyn s)) (s_sta s) in
  match ofold ix_move (entries s b) (s_dix s, s_six s) with
  | None => None
  | Some (dix, six) =>
    match ofold uncache_arbiter (filter (owns_arb s b) (b_arbs (s_body s b))) (set_ix s1 dix six) with
    | None => None
    | Some s2 =>
      Some (set_cons s2 (fold_left (fun l c => remove1 c l) (filter (owns_con s b) (b_cons (s_body s b))) (s_cons s2)))
    end
  end.

(** ** Waking *)
(* body.go:403-408: the body at the other end *)
Definition other_arb (s : space) (b x : nat) : nat := if Nat.eqb (ar_a (s_arb s x)) b then ar_b (s_arb s x) else ar_a (s_arb s x).
Definition other_con (s : space) (b c : nat) : nat := if Nat.eqb (co_a (s_con s c)) b then co_b (s_con s c) else co_a (s_con s c).
(* body.go:383-391: the loop over the sleeping group; [fuel] bounds the number of rounds *)
Fixpoint wake_loop (fuel : nat) (cur : option nat) (s : space) : option space :=
  match cur, fuel with
  | None, _ => Some s
  | Some _, O => None
  | Some b, S fuel =>
    let v := s_body s b in
    match space_activate b (set_body s b (w_sleep (w_idle v n0) None None)) with
    | None => None
    | Some s => wake_loop fuel (b_next v) s
    end
  end.
(* body.go:409-411 *)
Definition reset_idle (b : nat) (s : space) : space :=
  if is_type s b Static then s else set_body s b (w_idle (s_body s b) n0).
(* body.go:374-415 Body.Activate; root.Space must not be nil *)
Definition body_activate (b : nat) (s : space) : option space :=
  if negb (is_type s b Dynamic) then Some s
  else
    let s0 := set_body s b (w_idle (s_body s b) n0) in
    let woken :=
      match b_root (s_body s0 b) with
      | Some r =>
        if is_sleeping s0 r then
          if b_in (s_body s0 r) then
            match wake_loop (S (length (s_all s0))) (Some r) s0 with
            | Some s1 => Some (set_comps s1 (remove1 r (s_comps s1)))
            | None => None
            end
          else None
        else Some s0
      | None => Some s0
      end in
    match woken with
    | None => None
    | Some s1 => Some (fold_left (fun s x => reset_idle (other_arb s b x) s) (b_arbs (s_body s1 b)) s1)
    end.
(* body.go:418-428 ActivateStatic; filter nil is None *)
Definition activate_static (b : nat) (flt : option nat) (s : space) : option space :=
  ofold (fun x s =>
    let hit := match flt with None => true | Some f => Nat.eqb f (ar_sa (s_arb s x)) || Nat.eqb f (ar_sb (s_arb s x)) end in
    if hit then body_activate (other_arb s b x) s else Some s) (b_arbs (s_body s b)) s.

(* space.go:648-650 Lock *)
Definition lock (s : space) : space := set_lock s (s_lock s + 1).
(* space.go:657-673 Unlock, without the post-step callbacks (PostStep.v) *)
Definition unlock (s : space) : option space :=
  let s1 := set_lock s (s_lock s - 1) in
  if negb (s_lock s1 =? 0)%Z then Some s1
  else match ofold space_activate (s_roused s1) s1 with
       | None => None
       | Some s2 => Some (set_roused s2 [])
       end.

(** ** Adding and removing *)
(* body.go:436-441 AttachShape (called by every New...Shape, shape_factory.go:28, 51, 70, 88, 109) *)
Definition attach_shape (x : nat) (s : space) : space :=
  let b := sh_body (s_shape s x) in
  set_body s b (w_shapes (s_body s b) (b_shapes (s_body s b) ++ [x])).
(* space.go:302-309 AddBody *)
Definition add_body (b : nat) (s : space) : space :=
  let s1 := if is_type s b Static then set_lists s (s_dyn s) (s_sta s ++ [b]) else set_lists s (s_dyn s ++ [b]) (s_sta s) in
  set_all (set_body s1 b (w_in (s_body s b) true)) (b :: s_all s).
(* space.go:336-355 RemoveBody *)
Definition remove_body (b : nat) (s : space) : option space :=
  match body_activate b s with
  | None => None
  | Some s1 =>
    let s2 := if is_type s1 b Static then set_lists s1 (s_dyn s1) (remove1 b (s_sta s1))
              else set_lists s1 (remove1 b (s_dyn s1)) (s_sta s1) in
    Some (set_all (set_body s2 b (w_in (s_body s2 b) false)) (remove1 b (s_all s2)))
  end.
(* space.go:256-275 AddShape *)
Definition add_shape (x : nat) (s : space) : option space :=
  let b := sh_body (s_shape s x) in
  let static := is_type s b Static in
  match (if static then Some s else body_activate b s) with
  | None => None
  | Some s1 =>
    let s2 := set_ids (set_shape s1 x (Sh b (sh_in (s_shape s1 x)) (s_ids s1))) (S (s_ids s1)) in
    let e := (s_ids s1, x) in
    match (if static then ix_insert e (s_six s2) else ix_insert e (s_dix s2)) with
    | None => None
    | Some ix =>
      let s3 := if static then set_ix s2 (s_dix s2) ix else set_ix s2 ix (s_six s2) in
      Some (set_shape s3 x (Sh b true (s_ids s1)))
    end
  end.
(* body.go:546-556 RemoveShape: the last shape takes the place of the removed one *)
Definition detach_shape (x : nat) (s : space) : space :=
  let b := sh_body (s_shape s x) in
  set_body s b (w_shapes (s_body s b) (swap_remove x (b_shapes (s_body s b)))).
(* arbiter.go:70-95 Unthread *)
Definition unthread (x : nat) (s : space) : space :=
  let a := ar_a (s_arb s x) in
  let b := ar_b (s_arb s x) in
  let s1 := set_body s a (w_arbs (s_body s a) (remove1 x (b_arbs (s_body s a)))) in
  set_body s1 b (w_arbs (s_body s1 b) (remove1 x (b_arbs (s_body s1 b)))).
(* hashset_arbiter.go:36-37 with a filter shape *)
Definition filter_matches (s : space) (b f x : nat) : bool :=
  (Nat.eqb b (ar_a (s_arb s x)) && Nat.eqb f (ar_sa (s_arb s x))) || (Nat.eqb b (ar_b (s_arb s x)) && Nat.eqb f (ar_sb (s_arb s x))).
(* hashset_arbiter.go:34-59, space.go:400-408 FilterArbiters; Lock and Unlock around it do nothing while nobody is woken *)
Definition filter_arbiters (b f : nat) (s : space) : space :=
  let bad := filter (filter_matches s b f) (s_cache s) in
  let s1 := fold_left (fun s x => set_arbs (unthread x s) (remove1 x (s_arbs s)) (s_cache s)) bad s in
  set_arbs s1 (s_arbs s1) (filter (fun x => negb (filter_matches s b f x)) (s_cache s1)).
(* space.go:278-297 RemoveShape *)
Definition remove_shape (x : nat) (s : space) : option space :=
  let b := sh_body (s_shape s x) in
  let static := is_type s b Static in
  match (if static then activate_static b (Some x) s else body_activate b s) with
  | None => None
  | Some s1 =>
    let s2 := filter_arbiters b x (detach_shape x s1) in
    let e := (sh_id (s_shape s2 x), x) in
    match (if static then ix_remove e (s_six s2) else ix_remove e (s_dix s2)) with
    | None => None
    | Some ix =>
      let s3 := if static then set_ix s2 (s_dix s2) ix else set_ix s2 ix (s_six s2) in
      Some (set_shape s3 x (Sh b false 0))
    end
  end.
(* space.go:314-319 AddBodyWithShapes *)
Definition add_body_with_shapes (b : nat) (s : space) : option space :=
  ofold add_shape (b_shapes (s_body s b)) (add_body b s).
(* space.go:358-363 RemoveBodyWithShapes: EachShape (body.go:593-597) goes by index over the slice RemoveShape shrinks *)
Fixpoint remove_each (fuel i : nat) (b : nat) (s : space) : option space :=
  match nth_error (b_shapes (s_body s b)) i, fuel with
  | None, _ => Some s
  | Some _, O => None
  | Some x, S fuel => match remove_shape x s with None => None | Some s => remove_each fuel (S i) b s end
  end.
Definition remove_body_with_shapes (b : nat) (s : space) : option space :=
  match remove_each (length (b_shapes (s_body s b))) 0 b s with
  | None => None
  | Some s => remove_body b s
  end.
(* space.go:365-382 AddConstraint *)
Definition add_constraint (c : nat) (s : space) : option space :=
  match body_activate (co_a (s_con s c)) s with
  | None => None
  | Some s1 =>
    match body_activate (co_b (s_con s c)) s1 with
    | None => None
    | Some s2 =>
      let k := s_con s c in
      let s3 := set_cons s2 (s_cons s2 ++ [c]) in
      let s4 := set_body s3 (co_a k) (w_cons (s_body s3 (co_a k)) (c :: b_cons (s_body s3 (co_a k)))) in
      let s5 := set_body s4 (co_b k) (w_cons (s_body s4 (co_b k)) (c :: b_cons (s_body s4 (co_b k)))) in
      Some (set_con s5 c (Co (co_a k) (co_b k) (co_collide k) true))
    end
  end.
(* body.go:609-618 filterConstraints: at the end of the list node is nil *)
Fixpoint filter_constraints (c : nat) (l : list nat) : option (list nat) :=
  match l with
  | [] => None
  | d :: l => if Nat.eqb d c then Some l else match filter_constraints c l with Some l => Some (d :: l) | None => None end
  end.
Definition body_remove_constraint (b c : nat) (s : space) : option space :=
  match filter_constraints c (b_cons (s_body s b)) with
  | None => None
  | Some l => Some (set_body s b (w_cons (s_body s b) l))
  end.
(* space.go:384-398 RemoveConstraint *)
Definition remove_constraint (c : nat) (s : space) : option space :=
  let k := s_con s c in
  match body_activate (co_a k) s with
  | None => None
  | Some s1 =>
    match body_activate (co_b k) s1 with
    | None => None
    | Some s2 =>
      match body_remove_constraint (co_a k) c (set_cons s2 (remove1 c (s_cons s2))) with
      | None => None
      | Some s3 =>
        match body_remove_constraint (co_b k) c s3 with
        | None => None
        | Some s4 => Some (set_con s4 c (Co (co_a k) (co_b k) (co_collide k) false))
        end
      end
    end
  end.
(* body.go:138-216 SetType; masses and velocities are in Body.v *)
Definition set_type (b : nat) (t : btype) (s : space) : option space :=
  let old := ty s b in
  if btype_eqb old t then Some s
  else
    let s0 := set_body s b (w_idle (w_type (s_body s b) t) n0) in
    if negb (b_in (s_body s0 b)) then Some s0
    else if negb (s_lock s0 =? 0)%Z then None
    else
      match (if btype_eqb old Static then Some s0 else body_activate b s0) with
      | None => None
      | Some s1 =>
        let s2 := if btype_eqb old Static then set_lists s1 (s_dyn s1 ++ [b]) (remove1 b (s_sta s1))
                  else if btype_eqb t Static then set_lists s1 (remove1 b (s_dyn s1)) (s_sta s1 ++ [b]) else s1 in
        if btype_eqb old Static then
          match ofold ix_move (entries s2 b) (s_six s2, s_dix s2) with
          | None => None | Some (six, dix) => Some (set_ix s2 dix six) end
        else if btype_eqb t Static then
          match ofold ix_move (entries s2 b) (s_dix s2, s_six s2) with
          | None => None | Some (dix, six) => Some (set_ix s2 dix six) end
        else (* from and to are both the dynamic index *)
          match ofold (fun e ix => match ix_remove e ix with None => None | Some ix => ix_insert e ix end) (entries s2 b) (s_dix s2) with
          | None => None | Some dix => Some (set_ix s2 dix (s_six s2)) end
      end.
(* space.go:143-150 SetGravity: range takes the slice once; deleting a group moves the ones behind it forward in the same
   array, and what was in the places behind the end stays there *)
Fixpoint gravity_loop (n k : nat) (arr : list nat) (s : space) : option space :=
  match n with
  | O => Some s
  | S n =>
    match nth_error arr k with
    | None => Some s
    | Some r =>
      match body_activate r s with
      | None => None
      | Some s => gravity_loop n (S k) (s_comps s ++ skipn (length (s_comps s)) arr) s
      end
    end
  end.
Definition set_gravity (s : space) : option space := gravity_loop (length (s_comps s)) 0 (s_comps s) s.

(** ** Falling asleep *)
(* space.go:1178-1194: the bodies FloodFillComponent goes to *)
Definition neighbours (s : space) (b : nat) : list nat :=
  map (other_arb s b) (b_arbs (s_body s b)) ++ map (other_con s b) (b_cons (s_body s b)).
(* body.go:467-474 ComponentAdd *)
Definition component_add (root b : nat) (s : space) : space :=
  if Nat.eqb b root then set_body s b (w_sleep (s_body s b) (Some root) (b_next (s_body s b)))
  else
    let s1 := set_body s b (w_sleep (s_body s b) (Some root) (b_next (s_body s root))) in
    set_body s1 root (w_sleep (s_body s1 root) (b_root (s_body s1 root)) (Some b)).
(* space.go:1169-1201 FloodFillComponent; [fuel] bounds the depth of the recursion *)
Fixpoint flood (fuel : nat) (root b : nat) (s : space) : option space :=
  match fuel with
  | O => None
  | S fuel =>
    if negb (is_type s b Dynamic) then Some s
    else match b_root (s_body s b) with
         | None => ofold (flood fuel root) (neighbours s b) (component_add root b s)
         | Some r => if Nat.eqb r root then Some s else None
         end
  end.
(* the bodies from b along sleepingNext: space.go:1161, 524 *)
Fixpoint walk (fuel : nat) (s : space) (b : nat) : option (list nat) :=
  match fuel with
  | O => None
  | S fuel =>
    match b_next (s_body s b) with
    | None => Some [b]
    | Some b' => match walk fuel s b' with Some l => Some (b :: l) | None => None end
    end
  end.
(* space.go:1160-1167 ComponentActive *)
Definition component_active (s : space) (thr : num) (l : list nat) : bool :=
  existsb (fun b => nltb (b_idle (s_body s b)) thr) l.
(* space.go:511-536; [fuel] bounds the number of rounds *)
Fixpoint sweep (fuel : nat) (thr : num) (i : nat) (s : space) : option space :=
  match nth_error (s_dyn s) i, fuel with
  | None, _ => Some s
  | Some _, O => None
  | Some b, S fuel =>
    let clear s := sweep fuel thr (S i) (set_body s b (w_sleep (s_body s b) None None)) in
    match b_root (s_body s b) with
    | Some _ => clear s
    | None =>
      match flood (S (length (s_all s))) b b s with
      | None => None
      | Some s1 =>
        match walk (S (length (s_all s1))) s1 b with
        | None => None
        | Some l =>
          if component_active s1 thr l then clear s1
          else match ofold space_deactivate l (set_comps s1 (s_comps s1 ++ [b])) with
               | None => None
               | Some s2 => sweep fuel thr i s2
               end
        end
      end
    end
  end.
(* body.go:458-465 PushArbiter; pushing an arbiter that is in the list makes the list run in circles *)
Definition push_arbiter (x b : nat) (s : space) : option space :=
  if mem x (b_arbs (s_body s b)) then None
  else Some (set_body s b (w_arbs (s_body s b) (x :: b_arbs (s_body s b)))).
(* space.go:480-496 *)
Definition push_contact (sleep : bool) (x : nat) (s : space) : option space :=
  let a := ar_a (s_arb s x) in
  let b := ar_b (s_arb s x) in
  match (if sleep && (is_type s b Kinematic || is_sleeping s a) then body_activate a s else Some s) with
  | None => None
  | Some s1 =>
    match (if sleep && (is_type s1 a Kinematic || is_sleeping s1 b) then body_activate b s1 else Some s1) with
    | None => None
    | Some s2 => match push_arbiter x a s2 with None => None | Some s3 => push_arbiter x b s3 end
    end
  end.
(* space.go:500-507 *)
Definition hold_constraint (c : nat) (s : space) : option space :=
  let k := s_con s c in
  match (if is_type s (co_b k) Kinematic then body_activate (co_a k) s else Some s) with
  | None => None
  | Some s1 => if is_type s1 (co_a k) Kinematic then body_activate (co_b k) s1 else Some s1
  end.
(* space.go:462-477: is the body faster than its threshold? *)
Definition idle_update (dt : num) (fast : nat -> bool) (b : nat) (s : space) : space :=
  if is_type s b Dynamic then set_body s b (w_idle (s_body s b) (if fast b then n0 else nadd (b_idle (s_body s b)) dt)) else s.
(* space.go:448-538 ProcessComponents; the threshold is None if it is infinity *)
Definition process_components (thr : option num) (dt : num) (fast : nat -> bool) (s : space) : option space :=
  let sleep := match thr with Some _ => true | None => false end in
  let s0 := if sleep then fold_left (fun s b => idle_update dt fast b s) (s_dyn s) s else s in
  match ofold (push_contact sleep) (s_arbs s0) s0 with
  | None => None
  | Some s1 =>
    match thr with
    | None => Some s1
    | Some thr =>
      match ofold hold_constraint (s_cons s1) s1 with
      | None => None
      | Some s2 => sweep (S (length (s_dyn s2))) thr 0 s2
      end
    end
  end.

(** ** The step *)
(* what the first half of a step does to these lists: two shapes collide, and the arbiter is appended to Arbiters or not
   (sensors, ignored or rejected pairs); a callback calls something that activates a body *)
Inductive event := Collides (sa sb : nat) (accepted : bool) | Touches (b : nat).
(* space.go:1089-1130 with arbiter.go:186-195 *)
Definition collide (sa sb : nat) (accepted : bool) (s : space) : space :=
  let v := Ar sa sb (sh_body (s_shape s sa)) (sh_body (s_shape s sb)) in
  let '(x, s1) :=
    match find (fun y => same_shapes v (s_arb s y)) (s_cache s) with
    | Some y => (y, set_arb s y v)
    | None => (s_arbc s, set_arbc (set_arbs (set_arb s (s_arbc s) v) (s_arbs s) (s_arbc s :: s_cache s)) (S (s_arbc s)))
    end in
  if accepted then set_arbs s1 (s_arbs s1 ++ [x]) (s_cache s1) else s1.
Definition do_event (e : event) (s : space) : option space :=
  match e with Collides sa sb acc => Some (collide sa sb acc s) | Touches b => body_activate b s end.
(* space.go:551-558 *)
Definition unthread_awake (x : nat) (s : space) : space :=
  if is_sleeping s (ar_a (s_arb s x)) || is_sleeping s (ar_b (s_arb s x)) then s else unthread x s.
(* hashset_arbiter.go:13-29: with CollisionPersistence > 0 an arbiter used in this step stays; [old] says which others go *)
Definition keep_cached (old : nat -> bool) (s : space) (x : nat) : bool :=
  let still b := is_type s b Static || is_sleeping s b in
  (still (ar_a (s_arb s x)) && still (ar_b (s_arb s x))) || mem x (s_arbs s) || negb (old x).
(* space.go:540-646 Step with dt not 0: what the callbacks of the first and of the second half touch *)
Definition step (thr : option num) (dt : num) (fast : nat -> bool) (evs : list event) (old : nat -> bool) (late : list nat)
    (s : space) : option space :=
  let s1 := fold_left (fun s x => unthread_awake x s) (s_arbs s) s in
  let s2 := lock (set_arbs s1 [] (s_cache s1)) in
  match ofold do_event evs s2 with
  | None => None
  | Some s3 =>
    match unlock s3 with
    | None => None
    | Some s4 =>
      match process_components thr dt fast s4 with
      | None => None
      | Some s5 =>
        let s6 := lock (set_arbs s5 (s_arbs s5) (filter (keep_cached old s5) (s_cache s5))) in
        match ofold body_activate late s6 with
        | None => None
        | Some s7 => unlock s7
        end
      end
    end
  end.

(** ** Histories *)
Inductive op :=
| OAttach (x : nat)
| OAddBody (b : nat)
| ORemoveBody (b : nat)
| OAddShape (x : nat)
| ORemoveShape (x : nat)
| OAddConstraint (c : nat)
| ORemoveConstraint (c : nat)
| OSetType (b : nat) (t : btype)
| OTouch (b : nat)                          (* any method of the body, its shapes or constraints that calls Activate *)
| OTouchStatic (b : nat) (flt : option nat) (* ActivateStatic *)
| OGravity
| OLock
| OUnlock
| OStep (thr : option num) (dt : num) (fast : nat -> bool) (evs : list event) (old : nat -> bool) (late : list nat).
Definition sstep (o : op) (s : space) : option space :=
  match o with
  | OAttach x => Some (attach_shape x s)
  | OAddBody b => Some (add_body b s)
  | ORemoveBody b => remove_body b s
  | OAddShape x => add_shape x s
  | ORemoveShape x => remove_shape x s
  | OAddConstraint c => add_constraint c s
  | ORemoveConstraint c => remove_constraint c s
  | OSetType b t => set_type b t s
  | OTouch b => body_activate b s
  | OTouchStatic b f => activate_static b f s
  | OGravity => set_gravity s
  | OLock => Some (lock s)
  | OUnlock => unlock s
  | OStep thr dt fast evs old late => step thr dt fast evs old late s
  end.
Definition srun (h : list op) (s : space) : option space := ofold sstep h s.

(* space.go:410-420 *)
Definition contains_constraint (s : space) (c : nat) : bool := co_in (s_con s c).
Definition contains_shape (s : space) (x : nat) : bool := sh_in (s_shape s x).
Definition contains_body (s : space) (b : nat) : bool := b_in (s_body s b).
(* space.go:1149-1158 QueryRejectConstraints *)
Definition query_reject_constraints (s : space) (a b : nat) : bool :=
  existsb (fun c => negb (co_collide (s_con s c)) &&
    ((Nat.eqb (co_a (s_con s c)) a && Nat.eqb (co_b (s_con s c)) b) ||
     (Nat.eqb (co_a (s_con s c)) b && Nat.eqb (co_b (s_con s c)) a))) (b_cons (s_body s a)).
End Space.
