(** Property theorems C06-C08 (hash set). *)
From stdpp Require Import base list numbers.
From Verif Require Import HashSet HashSetSpec HashSetProofs.

(** C06.  Every history of operations on a new set that completes without the prime table
    running out produces exactly the outputs of a finite map history.  [keyT]/[keyU] give the key of a
    lookup value / stored element; the equality test compares keys; hashes depend on the key only. *)
Theorem C06_hashset_refines_finite_map :
  forall (T U K : Type) (EK : EqDecision K) (isEqual : T -> U -> bool) (keyT : T -> K) (keyU : U -> K) (hk : K -> N),
  (forall p u, isEqual p u = bool_decide (keyT p = keyU u)) ->
  forall (s0 s : hset U) (ops : list (op T U)) (outs : list (out U)),
  new_hset = Some s0 -> Forall (op_ok keyT keyU hk) ops ->
  run isEqual s0 ops = Some (s, outs) ->
  exists m, arun keyT keyU (fun _ => None) ops outs m.
Proof.
  exact (fun T U K EK isEqual keyT keyU hk Heq s0 s ops outs H0 Hops Hr =>
    match run_ok isEqual keyT keyU hk Heq s0 _ ops (new_Rel keyU hk s0 H0) Hops s outs Hr with
    | ex_intro _ m (conj A _) => ex_intro _ m A end).
Qed.
Print Assumptions C06_hashset_refines_finite_map.

(** C07.  In every reachable state Each visits each stored element exactly once, and Filter calls
    the predicate exactly once per stored element and keeps exactly those it accepted. *)
Theorem C07_each_and_filter_exactly_once :
  forall (T U K : Type) (EK : EqDecision K) (isEqual : T -> U -> bool) (keyT : T -> K) (keyU : U -> K) (hk : K -> N),
  (forall p u, isEqual p u = bool_decide (keyT p = keyU u)) ->
  forall (s0 s : hset U) (ops : list (op T U)) (outs : list (out U)) (f : list U -> U -> bool),
  new_hset = Some s0 -> Forall (op_ok keyT keyU hk) ops -> run isEqual s0 ops = Some (s, outs) ->
  let '(s', log) := filter s f in
  NoDup (each s) /\ count s = N.of_nat (length (each s)) /\
  fst <$> log ≡ₚ each s /\
  NoDup (each s') /\ count s' = N.of_nat (length (each s')) /\
  (forall u, u ∈ each s' <-> u ∈ each s /\ (u, true) ∈ log) /\
  (forall pre u r post, log = pre ++ (u, r) :: post -> r = f (fst <$> post) u).
Proof.
  exact (fun T U K EK isEqual keyT keyU hk Heq s0 s ops outs f H0 Hops Hr =>
    filter_reach isEqual keyT keyU hk Heq s0 s ops outs f H0 Hops Hr).
Qed.
Print Assumptions C07_each_and_filter_exactly_once.

(** C08.  Load factor below 1 and a positive table size from the prime list, always; no panic
    in any history of fewer than 1610612741 operations. *)
Theorem C08_load_factor_below_one :
  forall (T U K : Type) (EK : EqDecision K) (isEqual : T -> U -> bool) (keyT : T -> K) (keyU : U -> K) (hk : K -> N),
  (forall p u, isEqual p u = bool_decide (keyT p = keyU u)) ->
  forall (s0 s : hset U) (ops : list (op T U)) (outs : list (out U)),
  new_hset = Some s0 -> Forall (op_ok keyT keyU hk) ops -> run isEqual s0 ops = Some (s, outs) ->
  (0 < size s)%N /\ size s ∈ primes /\ N.of_nat (length (table s)) = size s /\ (N.of_nat (length (each s)) < size s)%N.
Proof.
  exact (fun T U K EK isEqual keyT keyU hk Heq s0 s ops outs H0 Hops Hr =>
    load_reach isEqual keyT keyU hk Heq s0 s ops outs H0 Hops Hr).
Qed.
Print Assumptions C08_load_factor_below_one.

Theorem C08_no_panic_below_limit :
  forall (T U K : Type) (EK : EqDecision K) (isEqual : T -> U -> bool) (keyT : T -> K) (keyU : U -> K) (hk : K -> N),
  (forall p u, isEqual p u = bool_decide (keyT p = keyU u)) ->
  exists s0 : hset U, new_hset = Some s0 /\
  forall ops : list (op T U), Forall (op_ok keyT keyU hk) ops ->
  (N.of_nat (length ops) < 1610612741)%N -> is_Some (run isEqual s0 ops).
Proof.
  exact (fun T U K EK isEqual keyT keyU hk Heq => no_panic_reach isEqual keyT keyU hk Heq).
Qed.
Print Assumptions C08_no_panic_below_limit.

(** Non-vacuity: six colliding keys force a rehash from 5 to 13 bins; the outputs are the expected ones. *)
Definition ex_ops : list (op N N) :=
  [OpInsert 7 7 7; OpInsert 2 2 2; OpInsert 12 12 12; OpInsert 7 7 7; OpInsert 22 22 22; OpInsert 17 17 17;
   OpCount; OpFind 12 12; OpRemove 2 2; OpFind 2 2; OpFilter (fun _ u => N.even u); OpEach]%N.
Example C06_witness :
  (forall p u : N, N.eqb p u = bool_decide (p = u)) /\
  Forall (op_ok (fun x : N => x) (fun x => x) (fun x => x)) ex_ops /\
  (s0 ← new_hset; run N.eqb s0 ex_ops) =
    Some (HSet 2 13 [[]; []; []; []; []; []; []; []; []; [Bin 22 22]; []; []; [Bin 12 12]],
      [OutElt 7; OutElt 2; OutElt 12; OutElt 7; OutElt 22; OutElt 17; OutN 5; OutOpt (Some 12); OutOpt (Some 2);
       OutOpt None; OutFilter [(12, true); (22, true); (7, false); (17, false)]; OutEach [22; 12]])%N.
Proof.
  split; [|split].
  - intros p u. apply eq_true_iff_eq. rewrite N.eqb_eq, bool_decide_eq_true. done.
  - repeat constructor.
  - vm_compute. reflexivity.
Qed.
