(** Space locking and post-step callbacks.
    Models Lock, IsLocked, Unlock (/repo/space.go:648-692), PostStepCallback and AddPostStepCallback (990-1025), the lock
    discipline of Step (540-646) and of the visiting operations, and ReindexShape's refusal (322-333).
    What happens between Lock and Unlock is reduced to the user callbacks called there; the bodies roused by Unlock
    (669-673) are not represented, waking them calls no user code. *)
From Coq Require Import ZArith List Bool Arith.
Import ListNotations.
Local Open Scope Z_scope.

(** What a program does, from outside or inside a callback.  Every user callback is the list of things it does. *)
Inductive act :=
(* space.go:648 Lock *)
| ALock
(* space.go:657 Unlock(runPostStep) *)
| AUnlock (run : bool)
(* space.go:1010 AddPostStepCallback; the key (None is nil), an identity for the callback and what it does when run *)
| AAddPost (key : option nat) (id : nat) (body : list act)
(* an operation that locks, calls user callbacks, and unlocks with post-step: EachBody 826-847, EachStaticBody 850,
   EachDynamicBody 861, EachStaticShape 881, EachDynamicShape 890, EachShape 909, EachConstraint 922, SegmentQuery
   968-976, ShapeQuery 1028-1064, and FilterArbiters 400-408 inside RemoveShape 278-297 *)
| AVisit (callbacks : list (list act))
(* space.go:951-958 BBQuery: the callbacks for static shapes come before Lock *)
| ABBQuery (static dynamic : list (list act))
(* space.go:540-646 Step; whether dt is 0, and the callbacks of the two locked halves *)
| AStep (zero_dt : bool) (first second : list (list act))
(* space.go:322-333 ReindexShape *)
| AReindex
(* space.go:256-382 AddShape, AddBody, RemoveBody, AddConstraint: change the space without looking at the lock *)
| AMutate.

(** Observable events. *)
Inductive event :=
(* AddPostStepCallback returned; was it called by a post-step callback, and its key and its result *)
| EReg (inside : bool) (key : option nat) (id : nat) (accepted : bool)
(* a post-step callback was called, with its key, at this lock depth *)
| ERun (key : option nat) (id : nat) (depth : Z)
(* any other user callback was called at this depth *)
| ECall (depth : Z)
(* a change of the space took effect at this depth *)
| EMutate (depth : Z).

(* space.go:975-988 PostStepCallback: key and function; None is a function that was set to nil *)
Record pcb := Pcb { pc_key : option nat; pc_fun : option (nat * list act) }.
(* space.go:69-71,80: locked, skipPostStep, PostStepCallbacks; and the events so far *)
Record pstate := PState { p_lock : Z; p_skip : bool; p_queue : list pcb; p_log : list event }.

(* space.go:88-130 NewSpace: the zero values *)
Definition p_init : pstate := PState 0 false [] [].

(* helper: log an event (no counterpart in /repo) *)
Definition note (e : event) (s : pstate) : pstate :=
  PState (p_lock s) (p_skip s) (p_queue s) (p_log s ++ [e]).
(* space.go:649, 658 *)
Definition bump (d : Z) (s : pstate) : pstate :=
  PState (p_lock s + d) (p_skip s) (p_queue s) (p_log s).

(* comparing two non-nil keys: space.go:993 *)
Definition key_is (k : nat) (c : pcb) : bool :=
  match pc_key c with Some k' => Nat.eqb k k' | None => false end.
(* space.go:990-998, 1011: key == nil || PostStepCallback(key) == nil *)
Definition key_free (k : option nat) (q : list pcb) : bool :=
  match k with None => true | Some k => negb (existsb (key_is k) q) end.
(* space.go:1010-1025 *)
Definition add_post (k : option nat) (id : nat) (body : list act) (s : pstate) : pstate :=
  if key_free k (p_queue s) then
    note (EReg (p_skip s) k id true)
         (PState (p_lock s) (p_skip s) (p_queue s ++ [Pcb k (Some (id, body))]) (p_log s))
  else note (EReg (p_skip s) k id false) s.

(* running things in turn; None = the process has exited (log.Fatalln) *)
Definition seq {A} (f : A -> pstate -> option pstate) (l : list A) (s : pstate) : option pstate :=
  fold_left (fun o a => match o with Some s => f a s | None => None end) l (Some s).

Section exec.
  (* space.go:676-690, the part of Unlock that runs the post-step callbacks *)
  Variable flush : pstate -> option pstate.

  (* space.go:657-692 Unlock *)
  Definition unlock (run : bool) (s : pstate) : option pstate :=
    let s1 := bump (-1) s in
    if negb (p_lock s1 =? 0) then Some s1
    else if run && negb (p_skip s1) then flush s1
    else Some s1.

  (* one action *)
  Fixpoint exec (a : act) (s : pstate) {struct a} : option pstate :=
    let callback body s := seq exec body (note (ECall (p_lock s)) s) in
    match a with
    | ALock => Some (bump 1 s)
    | AUnlock run => unlock run s
    | AAddPost k id body => Some (add_post k id body s)
    | AVisit cbs =>
      match seq callback cbs (bump 1 s) with Some s1 => unlock true s1 | None => None end
    | ABBQuery st dy =>
      match seq callback st s with
      | Some s1 => match seq callback dy (bump 1 s1) with Some s2 => unlock true s2 | None => None end
      | None => None
      end
    | AStep true _ _ => Some s
    | AStep false c1 c2 =>
      match seq callback c1 (bump 1 s) with
      | Some s1 =>
        match unlock false s1 with
        | Some s2 =>
          match seq callback c2 (bump 1 s2) with Some s3 => unlock true s3 | None => None end
        | None => None
        end
      | None => None
      end
    | AReindex => if 0 <? p_lock s then None else Some s
    | AMutate => Some (note (EMutate (p_lock s)) s)
    end.
End exec.

(** Inside a post-step callback skipPostStep is true, so Unlock never gets to [flush] (space.go:676). *)
Definition exec_inside : act -> pstate -> option pstate := exec Some.

(* space.go:679-687: the i-th entry of the slice as it was when the loop began; its function is set to nil, then called *)
Definition nil_at (i : nat) (q : list pcb) : list pcb :=
  firstn i q ++ match skipn i q with c :: r => Pcb (pc_key c) None :: r | [] => [] end.
Definition run_one (i : nat) (s : pstate) : option pstate :=
  match nth_error (p_queue s) i with
  | None => Some s
  | Some c =>
    let s1 := PState (p_lock s) (p_skip s) (nil_at i (p_queue s)) (p_log s) in
    match pc_fun c with
    | None => Some s1
    | Some (id, body) => seq exec_inside body (note (ERun (pc_key c) id (p_lock s1)) s1)
    end
  end.
(* space.go:676-690: range evaluates the slice once, so the loop runs over the first len(PostStepCallbacks) entries *)
Definition flush_queue (s : pstate) : option pstate :=
  let s1 := PState (p_lock s) true (p_queue s) (p_log s) in
  match seq run_one (List.seq 0 (length (p_queue s1))) s1 with
  | None => None
  | Some s2 => Some (PState (p_lock s2) false [] (p_log s2))
  end.

Definition exec_top : act -> pstate -> option pstate := exec flush_queue.

(* a program: what is done to a new space, from outside *)
Definition run_program (l : list act) : option pstate := seq exec_top l p_init.
