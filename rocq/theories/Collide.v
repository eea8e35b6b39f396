(** Life cycle of arbiters and of the contact memory they point into.
    Models /repo/space.go:422-446, 540-646 (everything but integration and the solver), 694-719, 1068-1130,
    the arbiter loops of Activate / Deactivate (162-251), FilterArbiters (400-408),
    /repo/hashset_arbiter.go, /repo/contact_buffer.go and the state handling of /repo/arbiter.go:34-56, 186-264.

    Space.Step is split into the operations Start, Touch*, (Sleep | Wake)*, Finish.  A Touch is one call of
    SpaceCollideShapesFunc that passed QueryReject; the result of the narrow phase, the sensor and mass flags and
    what the user's begin and pre-solve callbacks do (return value, whether they call Arbiter.Ignore) are inputs.
    cachedArbiters is a list with at most one arbiter per unordered shape pair: HashSetProps.v proves that the hash
    set behaves like that (its iteration order is not modelled).  Space.Arbiters holds the shape pairs.  stamps are
    naturals: no wrap-around of the 64-bit step counter.  A contact is abstracted to one number (its identity). *)
From Coq Require Import ZArith Bool List Lia.
Import ListNotations.

Definition shape := nat.
(* everything.go:17-29 *)
Inductive astate := FirstCollision | Normal | Ignore | Cached | Invalidated.
Definition astate_eqb (a b : astate) : bool :=
  match a, b with
  | FirstCollision, FirstCollision | Normal, Normal | Ignore, Ignore | Cached, Cached | Invalidated, Invalidated => true
  | _, _ => false
  end.
(* the slice Arbiter.Contacts: into a ring buffer at an offset, a private copy, or nil *)
Inductive cslice := CNil | CRing (buf off : nat) | CPriv (l : list Z).
(* arbiter.go:16-31, fields used here.  [a_ghost] is the last list of contacts written for this arbiter; no function
   reads it (it states what the memory should contain). *)
Record arb := Arb {
  a_A : shape; a_B : shape; a_state : astate; a_stamp : nat; a_contacts : cslice; a_count : nat; a_ghost : list Z }.
(* space.go:1258-1263 arbiterSetEql *)
Definition same_pair (a b a' b' : shape) : bool :=
  (Nat.eqb a a' && Nat.eqb b b') || (Nat.eqb b a' && Nat.eqb a b').
Definition arb_is (a b : shape) (x : arb) : bool := same_pair a b (a_A x) (a_B x).

(* contact_buffer.go:3-11; the contacts themselves are in [w_mem] *)
Record buffer := Buffer { f_stamp : nat; f_next : nat; f_num : nat }.
(* space.go:12-15 *)
Definition buffer_size : nat := 1024.
Definition max_contacts : nat := 2.

Inductive event := EBegin (a b : shape) | EPreSolve (a b : shape) | EPostSolve (a b : shape) | ESeparate (a b : shape).

(* space.go:17-86 Space, fields used here; buffers with index below w_nbufs are allocated *)
Record cspace := CSpace {
  w_stamp : nat; w_cache : list arb; w_active : list (shape * shape); w_asleep : list arb;
  w_bufs : nat -> buffer; w_nbufs : nat; w_head : option nat; w_mem : nat -> nat -> Z;
  w_trace : list event }.
Definition cspace0 : cspace := CSpace 0 [] [] [] (fun _ => Buffer 0 0 0) 0 None (fun _ _ => 0%Z) [].

(* field updates *)
Definition set_bufs (w : cspace) (b : nat -> buffer) (n : nat) (h : option nat) : cspace :=
  CSpace (w_stamp w) (w_cache w) (w_active w) (w_asleep w) b n h (w_mem w) (w_trace w).
Definition set_mem (w : cspace) (m : nat -> nat -> Z) : cspace :=
  CSpace (w_stamp w) (w_cache w) (w_active w) (w_asleep w) (w_bufs w) (w_nbufs w) (w_head w) m (w_trace w).
Definition set_arbs (w : cspace) (c : list arb) (act : list (shape * shape)) (asl : list arb) : cspace :=
  CSpace (w_stamp w) c act asl (w_bufs w) (w_nbufs w) (w_head w) (w_mem w) (w_trace w).
Definition set_stamp (w : cspace) (s : nat) : cspace :=
  CSpace s (w_cache w) (w_active w) (w_asleep w) (w_bufs w) (w_nbufs w) (w_head w) (w_mem w) (w_trace w).
Definition emit (w : cspace) (l : list event) : cspace :=
  CSpace (w_stamp w) (w_cache w) (w_active w) (w_asleep w) (w_bufs w) (w_nbufs w) (w_head w) (w_mem w) (w_trace w ++ l).
Definition upd_buf (b : nat -> buffer) (i : nat) (x : buffer) : nat -> buffer := fun k => if Nat.eqb k i then x else b k.

(** ** Contact buffers *)
(* contact_buffer.go:19-29 InitHeader, splice not nil *)
Definition init_header (stamp next : nat) : buffer := Buffer stamp next 0.
(* space.go:422-437 PushFreshContactBuffer; [pers] is CollisionPersistence *)
Definition push_fresh (pers : nat) (w : cspace) : cspace :=
  match w_head w with
  | None =>
    let i := w_nbufs w in
    set_bufs w (upd_buf (w_bufs w) i (init_header (w_stamp w) i)) (S i) (Some i)
  | Some h =>
    let tail := f_next (w_bufs w h) in
    if Nat.ltb pers (w_stamp w - f_stamp (w_bufs w tail)) then
      set_bufs w (upd_buf (w_bufs w) tail (init_header (w_stamp w) (f_next (w_bufs w tail)))) (w_nbufs w) (Some tail)
    else
      let i := w_nbufs w in
      let b := upd_buf (w_bufs w) i (init_header (w_stamp w) tail) in
      let b := upd_buf b h (Buffer (f_stamp (b h)) i (f_num (b h))) in
      set_bufs w b (S i) (Some i)
  end.
(* space.go:439-446 ContactBufferGetArray: the space afterwards; the array starts at f_num of its head *)
Definition get_array (pers : nat) (w : cspace) : cspace :=
  match w_head w with
  | None => w
  | Some h => if Nat.ltb buffer_size (f_num (w_bufs w h) + max_contacts) then push_fresh pers w else w
  end.
Definition array_buf (w : cspace) : nat := match w_head w with None => 0 | Some h => h end.
Definition array_off (w : cspace) : nat := f_num (w_bufs w (array_buf w)).
(* space.go:713-719 PushContacts, PopContacts *)
Definition set_num (w : cspace) (n : nat) : cspace :=
  let h := array_buf w in
  set_bufs w (upd_buf (w_bufs w) h (Buffer (f_stamp (w_bufs w h)) (f_next (w_bufs w h)) n)) (w_nbufs w) (w_head w).
Definition push_contacts (n : nat) (w : cspace) : cspace := set_num w (array_off w + n).
Definition pop_contacts (n : nat) (w : cspace) : cspace := set_num w (array_off w - n).
(* CollisionInfo.PushContact (everything.go:125-134) and copy(): contacts written at an offset of a buffer *)
Definition write (m : nat -> nat -> Z) (b off : nat) (l : list Z) : nat -> nat -> Z :=
  fun b' i => if Nat.eqb b' b && Nat.leb off i && Nat.ltb i (off + length l) then nth (i - off) l 0%Z else m b' i.
(* Contacts[:count] *)
Definition contacts_of (w : cspace) (x : arb) : list Z :=
  match a_contacts x with
  | CNil => []
  | CRing b off => map (w_mem w b) (seq off (a_count x))
  | CPriv l => firstn (a_count x) l
  end.

(** ** Arbiters *)
(* cachedArbiters.Insert: the arbiter of the pair and the rest of the set *)
Definition extract (a b : shape) (l : list arb) : option arb * list arb :=
  (find (arb_is a b) l, filter (fun x => negb (arb_is a b x)) l).
Definition set_state (x : arb) (s : astate) : arb := Arb (a_A x) (a_B x) s (a_stamp x) (a_contacts x) (a_count x) (a_ghost x).
(* arbiter.go:34-56 Init *)
Definition arb_init (a b : shape) : arb := Arb a b FirstCollision 0 CNil 0 [].
(* arbiter.go:186-256 Update: shapes, contacts and state *)
Definition arb_update (x : arb) (a b : shape) (c : cslice) (data : list Z) : arb :=
  Arb a b (if astate_eqb (a_state x) Cached then FirstCollision else a_state x) (a_stamp x) c (length data) data.

(* one candidate pair: narrow-phase result (info.a, info.b, contacts), flags, callback behaviour *)
Record touch := Touch {
  t_a : shape; t_b : shape; t_data : list Z;
  t_sensorA : bool; t_sensorB : bool; t_infA : bool; t_infB : bool;
  t_begin : bool; t_begin_ignore : bool; t_pre : bool; t_pre_ignore : bool }.
(* space.go:1068-1130 SpaceCollideShapesFunc *)
Definition do_touch (pers : nat) (t : touch) (w : cspace) : cspace :=
  let w := get_array pers w in
  let b := array_buf w in
  let off := array_off w in
  let w := set_mem w (write (w_mem w) b off (t_data t)) in
  match t_data t with
  | [] => w
  | data =>
    let n := length data in
    let w := push_contacts n w in
    let '(old, rest) := extract (t_a t) (t_b t) (w_cache w) in
    let x := match old with Some x => x | None => arb_init (t_a t) (t_b t) end in
    let x := arb_update x (t_a t) (t_b t) (CRing b off) data in
    let first := astate_eqb (a_state x) FirstCollision in
    let x := if first && (negb (t_begin t) || t_begin_ignore t) then set_state x Ignore else x in
    let pre := negb (astate_eqb (a_state x) Ignore) in
    let x := if pre && t_pre_ignore t then set_state x Ignore else x in
    let ok := pre && t_pre t && negb (astate_eqb (a_state x) Ignore)
              && negb (t_sensorA t || t_sensorB t) && negb (t_infA t && t_infB t) in
    let w := emit w ((if first then [EBegin (t_a t) (t_b t)] else []) ++ (if pre then [EPreSolve (t_a t) (t_b t)] else [])) in
    if ok then
      let x := Arb (a_A x) (a_B x) (a_state x) (w_stamp w) (a_contacts x) (a_count x) (a_ghost x) in
      set_arbs w (x :: rest) (w_active w ++ [(t_a t, t_b t)]) (w_asleep w)
    else
      let w := pop_contacts n w in
      let s := if astate_eqb (a_state x) Ignore then Ignore else Normal in
      let x := Arb (a_A x) (a_B x) s (w_stamp w) CNil 0 [] in
      set_arbs w (x :: rest) (w_active w) (w_asleep w)
  end.

(* space.go:545-566: a new step up to the fresh contact buffer *)
Definition in_active (l : list (shape * shape)) (x : arb) : bool := existsb (fun p => arb_is (fst p) (snd p) x) l.
Definition do_start (pers : nat) (w : cspace) : cspace :=
  let w := set_stamp w (S (w_stamp w)) in
  let c := map (fun x => if in_active (w_active w) x then set_state x Normal else x) (w_cache w) in
  push_fresh pers (set_arbs w c [] (w_asleep w)).

(* hashset_arbiter.go:4-32 SpaceArbiterSetFilter.  [still s]: the body of shape s is static or sleeping. *)
Definition set_filter (pers stamp : nat) (still : shape -> bool) (x : arb) : option arb * list event :=
  if still (a_A x) && still (a_B x) then (Some x, [])
  else
    let ticks := stamp - a_stamp x in
    let sep := Nat.leb 1 ticks && negb (astate_eqb (a_state x) Cached) in
    let x := if sep then set_state x Cached else x in
    (if Nat.leb pers ticks then None else Some x, if sep then [ESeparate (a_A x) (a_B x)] else []).
(* space.go:577-581, 640-643: the filter and the post-solve callbacks *)
Fixpoint filter_arbs (f : arb -> option arb * list event) (l : list arb) : list arb * list event :=
  match l with
  | [] => ([], [])
  | x :: l =>
    let '(o, e1) := f x in
    let '(l, e2) := filter_arbs f l in
    (match o with Some x => x :: l | None => l end, e1 ++ e2)
  end.
Definition do_finish (pers : nat) (still : shape -> bool) (w : cspace) : cspace :=
  let '(c, evs) := filter_arbs (set_filter pers (w_stamp w) still) (w_cache w) in
  emit (set_arbs w c (w_active w) (w_asleep w)) (evs ++ map (fun p => EPostSolve (fst p) (snd p)) (w_active w)).

(* hashset_arbiter.go:34-59 CachedArbitersFilter for a removed shape *)
Definition remove_filter (s : shape) (x : arb) : option arb * list event :=
  if Nat.eqb s (a_A x) || Nat.eqb s (a_B x) then
    (None, if astate_eqb (a_state x) Cached then [] else [ESeparate (a_A x) (a_B x)])
  else (Some x, []).
(* space.go:278-297 RemoveShape, arbiter part (FilterArbiters 400-408) *)
Definition do_remove (s : shape) (w : cspace) : cspace :=
  let '(c, evs) := filter_arbs (remove_filter s) (w_cache w) in
  let act := filter (fun p => negb (Nat.eqb s (fst p) || Nat.eqb s (snd p))) (w_active w) in
  emit (set_arbs w c act (w_asleep w)) evs.

(* space.go:229-239 Deactivate, UncacheArbiter 694-711: one arbiter of a body that falls asleep.
   Where the source panics (arbiter not in Space.Arbiters) the state is unchanged; see [ok_op]. *)
Definition do_sleep (a b : shape) (w : cspace) : cspace :=
  match extract a b (w_cache w) with
  | (Some x, rest) =>
    let act := filter (fun p => negb (same_pair a b (fst p) (snd p))) (w_active w) in
    let x := Arb (a_A x) (a_B x) (a_state x) (a_stamp x) (CPriv (contacts_of w x)) (a_count x) (a_ghost x) in
    set_arbs w rest act (x :: w_asleep w)
  | (None, _) => w
  end.
(* space.go:178-205 Activate: one arbiter of a body that wakes up *)
Definition do_wake (pers : nat) (a b : shape) (w : cspace) : cspace :=
  match extract a b (w_asleep w) with
  | (Some x, rest) =>
    let w := get_array pers w in
    let bf := array_buf w in
    let off := array_off w in
    let w := set_mem w (write (w_mem w) bf off (contacts_of w x)) in
    let w := push_contacts (a_count x) w in
    let x := Arb (a_A x) (a_B x) (a_state x) (w_stamp w) (CRing bf off) (a_count x) (a_ghost x) in
    set_arbs w (x :: w_cache w) (w_active w ++ [(a_A x, a_B x)]) rest
  | (None, _) => w
  end.

Inductive op := Start | TouchPair (t : touch) | Sleep (a b : shape) | Wake (a b : shape) | Finish (still : shape -> bool) | Remove (s : shape).
Definition step_op (pers : nat) (w : cspace) (o : op) : cspace :=
  match o with
  | Start => do_start pers w
  | TouchPair t => do_touch pers t w
  | Sleep a b => do_sleep a b w
  | Wake a b => do_wake pers a b w
  | Finish still => do_finish pers still w
  | Remove s => do_remove s w
  end.
Definition run (pers : nat) (h : list op) : cspace := fold_left (step_op pers) h cspace0.
