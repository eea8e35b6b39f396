(** What the callbacks of one shape pair should be, independently of arbiters, states and stamps. *)
From Coq Require Import ZArith Bool List Lia.
From Verif Require Import Collide.
Import ListNotations.

(** The operations since the last Start. *)
Definition since (h : list op) : list op := fold_left (fun acc o => match o with Start => [] | _ => acc ++ [o] end) h [].
Definition started (h : list op) : Prop := In Start h.
(** Operations that put the pair in contact for the current step. *)
Definition concerns (u v : shape) (o : op) : Prop :=
  match o with
  | TouchPair t => t_data t <> [] /\ same_pair u v (t_a t) (t_b t) = true
  | Wake a b => same_pair u v a b = true
  | _ => False
  end.
(** Order in which the library performs these operations: a step is finished before the next starts; the broad phase
    reports a pair at most once per step (C12), and not while its arbiter sleeps; only arbiters being solved are put to
    sleep; RemoveShape wakes the shape's body first.  At most two contacts per pair (space.go:13). *)
Definition ok_op (pers : nat) (h : list op) (o : op) : Prop :=
  match o with
  | Start => started h -> exists f, In (Finish f) (since h)
  | TouchPair t => started h /\ t_a t <> t_b t /\ length (t_data t) <= max_contacts /\
                   existsb (arb_is (t_a t) (t_b t)) (w_asleep (run pers h)) = false /\
                   forall o, In o (since h) -> ~ concerns (t_a t) (t_b t) o
  | Sleep a b => existsb (fun p => same_pair a b (fst p) (snd p)) (w_active (run pers h)) = true
  | Wake a b => True
  | Finish _ => True
  | Remove s => forall x, In x (w_asleep (run pers h)) -> s <> a_A x /\ s <> a_B x
  end.
Definition valid (pers : nat) (h : list op) : Prop := forall h1 o h2, h = h1 ++ o :: h2 -> ok_op pers h1 o.

(** Reference automaton of one pair. *)
Inductive kind := KBegin | KPreSolve | KPostSolve | KSeparate.
Record pst := Pst { r_in : bool; (* in contact *) r_ign : bool; (* ignored until separation *)
  r_recent : bool; (* touched (or woken) in this step *) r_solved : bool; (* in the solver this step *) r_asleep : bool }.
Definition pst0 : pst := Pst false false false false false.
Definition ref_op (u v : shape) (r : pst) (o : op) : pst * list kind :=
  match o with
  | Start => (Pst (r_in r) (r_ign r) false false (r_asleep r), [])
  | TouchPair t =>
    match t_data t with
    | [] => (r, [])
    | _ =>
      if same_pair u v (t_a t) (t_b t) then
        let begins := negb (r_in r) in
        let ign := if begins then negb (t_begin t) || t_begin_ignore t else r_ign r in
        let pre := negb ign in
        let ign' := ign || t_pre_ignore t in
        let solved := negb ign' && t_pre t && negb (t_sensorA t || t_sensorB t) && negb (t_infA t && t_infB t) in
        (Pst true ign' true solved false, (if begins then [KBegin] else []) ++ (if pre then [KPreSolve] else []))
      else (r, [])
    end
  | Sleep a b => if same_pair u v a b && r_solved r then (Pst (r_in r) (r_ign r) (r_recent r) false true, []) else (r, [])
  | Wake a b => if same_pair u v a b && r_asleep r then (Pst (r_in r) (r_ign r) true true false, []) else (r, [])
  | Finish still =>
    if r_in r && negb (r_recent r) && negb (r_asleep r) && negb (still u && still v)
    then (pst0, [KSeparate])
    else (r, if r_solved r then [KPostSolve] else [])
  | Remove s =>
    if Nat.eqb s u || Nat.eqb s v then (pst0, if r_in r then [KSeparate] else []) else (r, [])
  end.
Fixpoint ref_run (u v : shape) (r : pst) (h : list op) : pst * list kind :=
  match h with
  | [] => (r, [])
  | o :: h => let '(r, l1) := ref_op u v r o in let '(r, l2) := ref_run u v r h in (r, l1 ++ l2)
  end.

(** The events of one pair in a trace. *)
Definition ev_kind (u v : shape) (e : event) : list kind :=
  match e with
  | EBegin a b => if same_pair u v a b then [KBegin] else []
  | EPreSolve a b => if same_pair u v a b then [KPreSolve] else []
  | EPostSolve a b => if same_pair u v a b then [KPostSolve] else []
  | ESeparate a b => if same_pair u v a b then [KSeparate] else []
  end.
Definition kinds (u v : shape) (t : list event) : list kind := flat_map (ev_kind u v) t.

(** Begin and separate strictly alternate, starting with begin. *)
Fixpoint alternates (in_contact : bool) (l : list kind) : Prop :=
  match l with
  | [] => True
  | KBegin :: l => in_contact = false /\ alternates true l
  | KSeparate :: l => in_contact = true /\ alternates false l
  | _ :: l => alternates in_contact l
  end.

(** One step without sleeping bodies or removals. *)
Definition one_step (ts : list touch) : list op := Start :: map TouchPair ts ++ [Finish (fun _ => false)].
Definition touching (u v : shape) (ts : list touch) : bool :=
  existsb (fun t => same_pair u v (t_a t) (t_b t) && negb (match t_data t with [] => true | _ => false end)) ts.
(** begin at each rising edge, separate at each falling edge *)
Fixpoint edges (prev : bool) (l : list bool) : list kind :=
  match l with
  | [] => []
  | b :: l => (if b && negb prev then [KBegin] else []) ++ (if prev && negb b then [KSeparate] else []) ++ edges b l
  end.
Definition begin_or_separate (k : kind) : bool := match k with KBegin | KSeparate => true | _ => false end.

(** The last begin has not been followed by a separate. *)
Definition contact_after (l : list kind) : bool := fold_left (fun b k => match k with KBegin => true | KSeparate => false | _ => b end) l false.
(** A sensor, or two bodies of infinite mass. *)
Definition unsolvable (t : touch) : Prop := t_sensorA t = true \/ t_sensorB t = true \/ (t_infA t = true /\ t_infB t = true).

(** The pair is in Space.Arbiters, the list the solver works on. *)
Definition solved_in (w : cspace) (u v : shape) : Prop := exists a b, In (a, b) (w_active w) /\ same_pair u v a b = true.
(** What happens until the pair separates. *)
Fixpoint until_separate (l : list kind) : list kind :=
  match l with [] => [] | KSeparate :: _ => [] | k :: l => k :: until_separate l end.

(** No arbiter whose contacts are CollisionPersistence steps old is kept only because both its bodies are asleep or
    static (first test of SpaceArbiterSetFilter). *)
Definition no_stale_frozen (pers : nat) (h : list op) : Prop :=
  forall h1 still h2, h = h1 ++ Finish still :: h2 -> forall x, In x (w_cache (run pers h1)) ->
    still (a_A x) = true -> still (a_B x) = true -> a_contacts x = CNil \/ w_stamp (run pers h1) - a_stamp x < pers.
(** The memory area an arbiter's Contacts slice refers to. *)
Definition uses (x : arb) (b i : nat) : Prop := exists off, a_contacts x = CRing b off /\ off <= i < off + a_count x.
