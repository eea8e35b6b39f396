(** Shape filters and pair keys: 64-bit words as [N] below 2^64.
    Models /repo/everything.go:31-46,172-196, collision.go:355-359, space.go:111-119,722-766,1258-1263. *)
From stdpp Require Import base list numbers.
From Verif Require Import HashSet.

(* Go's uint / uintptr on a 64-bit platform *)
Definition w64 : N := 2 ^ 64.
Definition is_w64 (x : N) : Prop := (x < w64)%N.
(* ^uint(0), everything.go:36 AllCategories; arbiter.go:10 WildcardCollisionType *)
Definition allones : N := w64 - 1.

(* everything.go:172-182 ShapeFilter *)
Record filter := Filter { fgroup : N; fcats : N; fmask : N }.
(* everything.go:41 ShapeFilterAll *)
Definition filter_all : filter := Filter 0 allones allones.
(* everything.go:45 ShapeFilterNone; ^AllCategories = 0 *)
Definition filter_none : filter := Filter 0 0 0.
(* everything.go:192-196 Reject *)
Definition reject (sf other : filter) : bool :=
  (negb (fgroup sf =? 0)%N && (fgroup sf =? fgroup other)%N)
  || (N.land (fcats sf) (fmask other) =? 0)%N
  || (N.land (fcats other) (fmask sf) =? 0)%N.

(* collision.go:355 *)
Definition hash_coef : N := 3344921057.
(* collision.go:357-359; multiplication wraps modulo 2^64 *)
Definition hash_pair (a b : N) : N :=
  N.lxor ((a * hash_coef) `mod` w64) ((b * hash_coef) `mod` w64).

(* everything.go:67-86 CollisionHandler: its two types and an identity standing for the
   four callbacks and user data *)
Record handler := Handler { htypeA : N; htypeB : N; hid : N }.
(* space.go:111-119 *)
Definition handler_eq (a b : handler) : bool :=
  if (htypeA a =? htypeA b)%N && (htypeB a =? htypeB b)%N then true
  else if (htypeB a =? htypeA b)%N && (htypeA a =? htypeB b)%N then true
  else false.
(* space.go:722-729 LookupHandler; outer None = panic *)
Definition lookup_handler (s : hset handler) (a b : N) (dflt : handler) : option handler :=
  r ← find handler_eq s (hash_pair a b) (Handler a b 0);
  Some (default dflt r).
(* space.go:739-755 AddCollisionHandler; [id] identifies the freshly allocated handler *)
Definition add_handler (s : hset handler) (a b id : N) : option (hset handler * handler) :=
  insert handler_eq s (hash_pair a b) (Handler a b id) (fun h => h).

(* everything.go / space.go:1258-1263: an arbiter by its two shapes (pointers are words) *)
Record arbkey := ArbKey { akA : N; akB : N; akId : N }.
Definition arbiter_set_eql (shapes : N * N) (arb : arbkey) : bool :=
  ((shapes.1 =? akA arb)%N && (shapes.2 =? akB arb)%N)
  || ((shapes.2 =? akA arb)%N && (shapes.1 =? akB arb)%N).
(* space.go:1090-1096: find-or-create the arbiter of a shape pair; [id] names the new one *)
Definition cache_arbiter (s : hset arbkey) (a b id : N) : option (hset arbkey * arbkey) :=
  insert arbiter_set_eql s (hash_pair a b) (a, b) (fun p => ArbKey p.1 p.2 id).
(* space.go:694-699 UncacheArbiter, hash set part *)
Definition uncache_arbiter (s : hset arbkey) (a b : N) : option (hset arbkey * option arbkey) :=
  remove arbiter_set_eql s (hash_pair a b) (a, b).

(* a history of AddCollisionHandler calls (space.go:739-755), oldest first; None = panic *)
Fixpoint register (s : hset handler) (regs : list handler) : option (hset handler) :=
  match regs with
  | [] => Some s
  | r :: regs => '(s', _) ← add_handler s (htypeA r) (htypeB r) (hid r); register s' regs
  end.
