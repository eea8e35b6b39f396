(** What the theorems about spaces say, in terms of what a program can observe. *)
From Coq Require Import ZArith List Bool Arith.
From Verif Require Import Num Space.
Import ListNotations.
Local Open Scope nat_scope.

Section Spec.
Context {N : Num}.

(** A body is waiting to be put back while the space is locked. *)
Definition waiting (s : space) (b : nat) : bool := mem b (s_roused s).
(** Out of the simulation: asleep, or woken while the space is locked and not put back yet. *)
Definition parked (s : space) (b : nat) : bool := is_sleeping s b || waiting s b.

(** Two bodies share a contact that is in both contact lists, or a constraint of the space. *)
Definition in_contact (s : space) (u v : nat) : Prop :=
  exists x, In x (b_arbs (s_body s u)) /\
    ((ar_a (s_arb s x) = u /\ ar_b (s_arb s x) = v) \/ (ar_b (s_arb s x) = u /\ ar_a (s_arb s x) = v)).
Definition joined (s : space) (u v : nat) : Prop :=
  exists c, co_in (s_con s c) = true /\
    ((co_a (s_con s c) = u /\ co_b (s_con s c) = v) \/ (co_b (s_con s c) = u /\ co_a (s_con s c) = v)).
Definition linked (s : space) (u v : nat) : Prop := in_contact s u v \/ joined s u v.
(** Connected through dynamic bodies: the paths of the contact graph that can put bodies to sleep. *)
Inductive connected (s : space) (u : nat) : nat -> Prop :=
| con_refl : ty s u = Dynamic -> connected s u u
| con_step v w : connected s u v -> linked s v w -> ty s w = Dynamic -> connected s u w.

(** The documented and implied rules for using a space.  Between Lock and Unlock nothing is added or removed
    (space.go:653 "objects cannot be added/removed"); a body is added once (space.go:300); shapes and constraints are
    removed before their body. *)
Definition no_shape_in (s : space) (b : nat) : Prop := forall x, In x (b_shapes (s_body s b)) -> contains_shape s x = false.
Definition no_con_in (s : space) (b : nat) : Prop := forall c, contains_constraint s c = true -> co_a (s_con s c) <> b /\ co_b (s_con s c) <> b.
Definition usable (s : space) (b : nat) : Prop := ty s b = Static \/ contains_body s b = true.
(* two events are about the same two shapes *)
Definition same_two (a b c d : nat) : Prop := (a = c /\ b = d) \/ (a = d /\ b = c).
Inductive events_ok (s : space) : list event -> Prop :=
| ev_nil : events_ok s []
| ev_touch b l : is_sleeping s b = false -> events_ok s l -> events_ok s (Touches b :: l)
| ev_collide sa sb acc l :
    contains_shape s sa = true -> contains_shape s sb = true -> sh_body (s_shape s sa) <> sh_body (s_shape s sb) ->
    ty s (sh_body (s_shape s sa)) <> Static -> is_sleeping s (sh_body (s_shape s sa)) = false ->
    (forall c d acc', In (Collides c d acc') l -> ~ same_two sa sb c d) ->
    events_ok s l -> events_ok s (Collides sa sb acc :: l).
Definition valid (o : op) (s : space) : Prop :=
  match o with
  | OAttach x => ~ In x (b_shapes (s_body s (sh_body (s_shape s x)))) /\ parked s (sh_body (s_shape s x)) = false
  | OAddBody b => s_lock s = 0%Z /\ contains_body s b = false
  | ORemoveBody b => s_lock s = 0%Z /\ contains_body s b = true /\ no_shape_in s b /\ no_con_in s b
  | OAddShape x => s_lock s = 0%Z /\ contains_shape s x = false /\ In x (b_shapes (s_body s (sh_body (s_shape s x)))) /\
                   usable s (sh_body (s_shape s x))
  | ORemoveShape x => s_lock s = 0%Z /\ contains_shape s x = true
  | OAddConstraint c => s_lock s = 0%Z /\ contains_constraint s c = false /\ co_a (s_con s c) <> co_b (s_con s c) /\
                        usable s (co_a (s_con s c)) /\ usable s (co_b (s_con s c))
  | ORemoveConstraint c => s_lock s = 0%Z /\ contains_constraint s c = true
  | OSetType b t => s_lock s = 0%Z /\ is_sleeping s b = false /\
                    ((contains_body s b = true /\ forall x, In x (b_shapes (s_body s b)) -> contains_shape s x = true) \/
                     (contains_body s b = false /\ no_shape_in s b /\ no_con_in s b)) /\
                    (ty s b = Static -> forall v, linked s b v -> is_sleeping s v = false)
  | OTouch _ | OTouchStatic _ _ | OGravity | OLock => True
  | OUnlock => (0 < s_lock s)%Z
  | OStep thr dt fast evs old late =>
    s_lock s = 0%Z /\ events_ok s evs /\
    match thr with
    | None => forall b, is_sleeping s b = false
    | Some t => nltb n0 t = true /\
        (forall b x, contains_body s b = true -> ty s b = Dynamic -> In x (b_shapes (s_body s b)) -> contains_shape s x = true)
    end
  end.
Inductive valid_run : list op -> space -> Prop :=
| vr_nil s : valid_run [] s
| vr_cons o h s : valid o s -> (forall s', sstep o s = Some s' -> valid_run h s') -> valid_run (o :: h) s.

(** The last thing a history says about an object. *)
Definition says_body (b : nat) (o : op) : option bool :=
  match o with OAddBody b' => if Nat.eqb b b' then Some true else None | ORemoveBody b' => if Nat.eqb b b' then Some false else None | _ => None end.
Definition says_shape (x : nat) (o : op) : option bool :=
  match o with OAddShape x' => if Nat.eqb x x' then Some true else None | ORemoveShape x' => if Nat.eqb x x' then Some false else None | _ => None end.
Definition says_con (c : nat) (o : op) : option bool :=
  match o with OAddConstraint c' => if Nat.eqb c c' then Some true else None | ORemoveConstraint c' => if Nat.eqb c c' then Some false else None | _ => None end.
Definition last_said (f : op -> option bool) (h : list op) : bool :=
  fold_left (fun r o => match f o with Some v => v | None => r end) h false.

(** The states a program obeying the rules can reach. *)
Definition reachable (s : space) : Prop :=
  exists tys sb cn h, valid_run h (space0 tys sb cn) /\ srun h (space0 tys sb cn) = Some s.
(** The group a body is in: the root all its bodies point to. *)
Definition group (s : space) (b : nat) : option nat := b_root (s_body s b).
End Spec.
