(** Chained hash set.  Models /repo/hashset.go.

    Simplifications: a chain of HashSetBin pointers is the list of its bins (elt, hash) from
    the table slot on; the bin pool (hashset.go:168-188) only recycles memory and is not
    modelled.  uint is unbounded [N] (element counts stay far below 2^64).
    A Go run-time panic (index out of range) is [None]. *)
From stdpp Require Import base list numbers.

(* hashset.go:190-221 *)
Definition primes : list N :=
  [5; 13; 23; 47; 97; 193; 389; 769; 1543; 3079; 6151; 12289; 24593; 49157; 98317; 196613;
   393241; 786433; 1572869; 3145739; 6291469; 12582917; 25165843; 50331653; 100663319;
   201326611; 402653189; 805306457; 1610612741; 0]%N.

(* hashset.go:223-229; the loop index runs over the array, None = index out of range *)
Fixpoint next_prime_from (ps : list N) (n : N) : option N :=
  match ps with
  | [] => None
  | p :: ps => if (p <? n)%N then next_prime_from ps n else Some p
  end.
Definition next_prime (n : N) : option N := next_prime_from primes n.

Section HashSet.
Context {T U : Type} (isEqual : T -> U -> bool).

(* hashset.go:6-10 *)
Record bin := Bin { elt : U; bhash : N }.
(* hashset.go:13-21 *)
Record hset := HSet { entries : N; size : N; table : list (list bin) }.

(* hashset.go:24-31; size = nextPrime(0) = 5 *)
Definition new_hset : option hset :=
  match next_prime 0 with
  | Some sz => Some (HSet 0 sz (replicate (N.to_nat sz) []))
  | None => None
  end.

(* hashset.go:45-46 and 79-80: push a bin on the front of a chain *)
Definition push_bin (t : list (list bin)) (i : nat) (b : bin) : option (list (list bin)) :=
  c ← t !! i; Some (<[i := b :: c]> t).

(* hashset.go:41-49: move every bin of one old chain *)
Fixpoint move_chain (newSize : N) (c : list bin) (t : list (list bin)) : option (list (list bin)) :=
  match c with
  | [] => Some t
  | b :: c => t' ← push_bin t (N.to_nat (bhash b `mod` newSize)) b; move_chain newSize c t'
  end.
(* hashset.go:38-50: all old chains *)
Fixpoint move_table (newSize : N) (old t : list (list bin)) : option (list (list bin)) :=
  match old with
  | [] => Some t
  | c :: old => t' ← move_chain newSize c t; move_table newSize old t'
  end.
(* hashset.go:33-53 *)
Definition resize (s : hset) : option hset :=
  newSize ← next_prime (size s + 1);
  t ← move_table newSize (table s) (replicate (N.to_nat newSize) []);
  Some (HSet (entries s) newSize t).

(* hashset.go:66-69, 98-101, 123-125: scan a chain *)
Fixpoint scan (p : T) (c : list bin) : option bin :=
  match c with
  | [] => None
  | b :: c => if isEqual p (elt b) then Some b else scan p c
  end.
(* hashset.go:92, 62, 121: uint(hash) % set.size as slice index; size 0 would panic *)
Definition idx (s : hset) (h : N) : option nat :=
  if (size s =? 0)%N then None else Some (N.to_nat (h `mod` size s)).

(* hashset.go:61-88 Insert *)
Definition insert (s : hset) (h : N) (p : T) (transform : T -> U) : option (hset * U) :=
  i ← idx s h;
  c ← table s !! i;
  match scan p c with
  | Some b => Some (s, elt b)
  | None =>
    let b := Bin (transform p) h in
    t ← push_bin (table s) i b;
    let s' := HSet (entries s + 1) (size s) t in
    if (size s' <=? entries s')%N then s'' ← resize s'; Some (s'', elt b)
    else Some (s', elt b)
  end.

(* hashset.go:94-106: unlink the first matching bin *)
Fixpoint unlink (p : T) (c : list bin) : option (bin * list bin) :=
  match c with
  | [] => None
  | b :: c => if isEqual p (elt b) then Some (b, c)
              else '(x, c') ← unlink p c; Some (x, b :: c')
  end.
(* hashset.go:91-117 Remove; the zero value is None *)
Definition remove (s : hset) (h : N) (p : T) : option (hset * option U) :=
  i ← idx s h;
  c ← table s !! i;
  match unlink p c with
  | Some (b, c') => Some (HSet (entries s - 1) (size s) (<[i := c']> (table s)), Some (elt b))
  | None => Some (s, None)
  end.

(* hashset.go:120-132 Find *)
Definition find (s : hset) (h : N) (p : T) : option (option U) :=
  i ← idx s h;
  c ← table s !! i;
  Some (elt <$> scan p c).

(* hashset.go:56-58 Count *)
Definition count (s : hset) : N := entries s.

(* hashset.go:135-143 Each: the sequence of callback arguments *)
Fixpoint each_table (t : list (list bin)) : list U :=
  match t with
  | [] => []
  | c :: t => (elt <$> c) ++ each_table t
  end.
Definition each (s : hset) : list U := each_table (table s).

(* hashset.go:151-164: one chain of Filter.  The callback [f] sees the calls made before
   (newest first), which makes it an arbitrary stateful predicate.
   Returns kept bins, call log, and number of removed bins. *)
Fixpoint filter_chain (f : list U -> U -> bool) (log : list (U * bool)) (c : list bin)
  : list bin * list (U * bool) * N :=
  match c with
  | [] => ([], log, 0%N)
  | b :: c =>
    let r := f (fst <$> log) (elt b) in
    let '(c', log', k) := filter_chain f ((elt b, r) :: log) c in
    if r then (b :: c', log', k) else (c', log', (k + 1)%N)
  end.
Fixpoint filter_table (f : list U -> U -> bool) (log : list (U * bool)) (t : list (list bin))
  : list (list bin) * list (U * bool) * N :=
  match t with
  | [] => ([], log, 0%N)
  | c :: t =>
    let '(c', log', k) := filter_chain f log c in
    let '(t', log'', k') := filter_table f log' t in
    (c' :: t', log'', (k + k')%N)
  end.
(* hashset.go:146-166 Filter: new set and call log (newest first) *)
Definition filter (s : hset) (f : list U -> U -> bool) : hset * list (U * bool) :=
  let '(t, log, k) := filter_table f [] (table s) in
  (HSet (entries s - k) (size s) t, log).

End HashSet.
Arguments bin : clear implicits.
Arguments hset : clear implicits.
