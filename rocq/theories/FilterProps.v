(** Property theorems C19, C20 (filters, pair keys). *)
From stdpp Require Import base list numbers.
From Verif Require Import HashSet HashSetSpec HashSetProofs Filter FilterProofs.
Local Open Scope N_scope.

Theorem C19_reject_symmetric : forall a b : filter, reject a b = reject b a.
Proof. exact reject_sym. Qed.
Print Assumptions C19_reject_symmetric.

Theorem C19_same_group_rejected :
  forall a b : filter, fgroup a = fgroup b -> fgroup a ≠ 0 -> reject a b = true.
Proof. exact reject_same_group. Qed.
Print Assumptions C19_same_group_rejected.

(** Acceptance: not in the same non-zero group, and each side's categories share a bit with the
    other's mask. *)
Theorem C19_accept_iff :
  forall a b : filter, is_w64 (fcats a) -> is_w64 (fcats b) ->
  (reject a b = false <->
   (fgroup a = 0 \/ fgroup a ≠ fgroup b) /\
   (exists i, i < 64 /\ N.testbit (fcats a) i = true /\ N.testbit (fmask b) i = true) /\
   (exists i, i < 64 /\ N.testbit (fcats b) i = true /\ N.testbit (fmask a) i = true)).
Proof. exact accept_iff. Qed.
Print Assumptions C19_accept_iff.

Theorem C19_filter_all_none :
  forall f : filter, is_w64 (fcats f) -> is_w64 (fmask f) ->
  (reject filter_all f = false <-> fcats f ≠ 0 /\ fmask f ≠ 0) /\ reject filter_none f = true.
Proof. exact (fun f H1 H2 => conj (reject_all f H1 H2) (reject_none f)). Qed.
Print Assumptions C19_filter_all_none.

Example C19_witness :
  reject (Filter 1 2 4) (Filter 2 4 6) = false /\ reject (Filter 1 2 4) (Filter 1 4 6) = true /\
  reject (Filter 0 2 4) (Filter 0 4 4) = true /\ reject filter_all filter_all = false /\
  is_w64 (fcats filter_all).
Proof. vm_compute. repeat split; reflexivity. Qed.

Theorem C20_hash_pair_symmetric : forall a b : N, hash_pair a b = hash_pair b a.
Proof. exact hash_pair_sym. Qed.
Print Assumptions C20_hash_pair_symmetric.

(** After any history of AddCollisionHandler calls, looking up (a,b) or (b,a) gives the same handler:
    the first one registered for that unordered pair of types, or the default if there is none.
    Hash collisions between different pairs never matter. *)
Theorem C20_lookup_order_independent :
  forall (s0 : hset handler) (regs : list handler) (s : hset handler) (a b : N) (d : handler),
  new_hset = Some s0 -> register s0 regs = Some s ->
  exists h, lookup_handler s a b d = Some h /\ lookup_handler s b a d = Some h /\
  ((exists pre post, regs = pre ++ h :: post /\
      ((htypeA h = a /\ htypeB h = b) \/ (htypeA h = b /\ htypeB h = a)) /\
      forall x, x ∈ pre -> ~ ((htypeA x = a /\ htypeB x = b) \/ (htypeA x = b /\ htypeB x = a)))
   \/ (h = d /\ forall x, x ∈ regs -> ~ ((htypeA x = a /\ htypeB x = b) \/ (htypeA x = b /\ htypeB x = a)))).
Proof. exact lookup_spec. Qed.
Print Assumptions C20_lookup_order_independent.

(** In any reachable arbiter cache, once the arbiter of shapes a, b is cached, asking for it in
    either order yields that arbiter and changes nothing. *)
Theorem C20_arbiter_cache_order_independent :
  forall (s0 s : hset arbkey) (ops : list (op (N * N) arbkey)) (outs : list (out arbkey)) (a b i j : N) s1 u1,
  new_hset = Some s0 ->
  Forall (op_ok akeyT akey hk) ops -> run arbiter_set_eql s0 ops = Some (s, outs) ->
  cache_arbiter s a b i = Some (s1, u1) ->
  cache_arbiter s1 b a j = Some (s1, u1) /\ cache_arbiter s1 a b j = Some (s1, u1).
Proof. exact cache_swap_reach. Qed.
Print Assumptions C20_arbiter_cache_order_independent.

Theorem C20_uncache_order_independent :
  forall (s : hset arbkey) (a b : N), uncache_arbiter s a b = uncache_arbiter s b a.
Proof. exact uncache_swap. Qed.
Print Assumptions C20_uncache_order_independent.

(** Witness: (1,2), (3,4), then (2,1) again; the second registration of the pair is not used. *)
Example C20_witness :
  exists s0 s, new_hset = Some s0 /\
  register s0 [Handler 1 2 10; Handler 3 4 11; Handler 2 1 12] = Some s /\
  lookup_handler s 2 1 (Handler 0 0 0) = Some (Handler 1 2 10) /\
  lookup_handler s 1 2 (Handler 0 0 0) = Some (Handler 1 2 10) /\
  lookup_handler s 1 3 (Handler 0 0 0) = Some (Handler 0 0 0).
Proof. do 2 eexists. repeat split; vm_compute; reflexivity. Qed.
