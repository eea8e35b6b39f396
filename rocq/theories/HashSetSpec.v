(** Abstract specification of a keyed set and of histories of operations on it. *)
From stdpp Require Import base list numbers.
From Verif Require Import HashSet.

Section Spec.
Context {T U K : Type} `{EqDecision K}.

(** Operations of the public API (hashset.go:56-166) with their arguments. *)
Inductive op :=
| OpInsert (h : N) (p : T) (new : U)     (* [new] is what the transform returns if it is called *)
| OpRemove (h : N) (p : T)
| OpFind (h : N) (p : T)
| OpCount
| OpEach
| OpFilter (f : list U -> U -> bool).
Inductive out :=
| OutElt (u : U)
| OutOpt (u : option U)
| OutN (n : N)
| OutEach (l : list U)
| OutFilter (log : list (U * bool)).

(** The concrete machine. *)
Definition step (isEqual : T -> U -> bool) (s : hset U) (o : op) : option (hset U * out) :=
  match o with
  | OpInsert h p new => '(s', u) ← insert isEqual s h p (fun _ => new); Some (s', OutElt u)
  | OpRemove h p => '(s', u) ← remove isEqual s h p; Some (s', OutOpt u)
  | OpFind h p => u ← find isEqual s h p; Some (s, OutOpt u)
  | OpCount => Some (s, OutN (count s))
  | OpEach => Some (s, OutEach (each s))
  | OpFilter f => let '(s', log) := filter s f in Some (s', OutFilter log)
  end.
Fixpoint run (isEqual : T -> U -> bool) (s : hset U) (ops : list op) : option (hset U * list out) :=
  match ops with
  | [] => Some (s, [])
  | o :: ops => '(s', x) ← step isEqual s o; '(s'', xs) ← run isEqual s' ops; Some (s'', x :: xs)
  end.

(** The abstract machine: a partial map from keys to elements. *)
Definition amap := K -> option U.
Context (keyT : T -> K) (keyU : U -> K).

(** [l] lists each stored element exactly once. *)
Definition enumerates (m : amap) (l : list U) : Prop :=
  NoDup l /\ forall u, u ∈ l <-> m (keyU u) = Some u.

Inductive astep (m : amap) : op -> out -> amap -> Prop :=
| AInsertOld h p new u : m (keyT p) = Some u -> astep m (OpInsert h p new) (OutElt u) m
| AInsertNew h p new m' : m (keyT p) = None ->
    (forall k, m' k = if decide (k = keyT p) then Some new else m k) ->
    astep m (OpInsert h p new) (OutElt new) m'
| ARemove h p m' :
    (forall k, m' k = if decide (k = keyT p) then None else m k) ->
    astep m (OpRemove h p) (OutOpt (m (keyT p))) m'
| AFind h p : astep m (OpFind h p) (OutOpt (m (keyT p))) m
| ACount l : enumerates m l -> astep m OpCount (OutN (N.of_nat (length l))) m
| AEach l : enumerates m l -> astep m OpEach (OutEach l) m
| AFilter f log m' : enumerates m (fst <$> log) ->
    (* every recorded verdict is the callback's answer, given the calls made before it *)
    (forall pre u r post, log = pre ++ (u, r) :: post -> r = f (fst <$> post) u) ->
    (forall k u, m' k = Some u <-> (m k = Some u /\ (u, true) ∈ log)) ->
    astep m (OpFilter f) (OutFilter log) m'.
Inductive arun : amap -> list op -> list out -> amap -> Prop :=
| ARunNil m : arun m [] [] m
| ARunCons m m' m'' o x ops xs : astep m o x m' -> arun m' ops xs m'' -> arun m (o :: ops) (x :: xs) m''.

(** Callers' obligations: hashes are a function of the key, the transform yields an element
    with the requested key. *)
Definition op_ok (hk : K -> N) (o : op) : Prop :=
  match o with
  | OpInsert h p new => h = hk (keyT p) /\ keyU new = keyT p
  | OpRemove h p | OpFind h p => h = hk (keyT p)
  | _ => True
  end.
End Spec.
Arguments op : clear implicits.
Arguments out : clear implicits.
