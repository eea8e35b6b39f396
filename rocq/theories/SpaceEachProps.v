(** C55: the Each methods and the counts of a space.  [Some (t, s')]: the callback was called with the members of t, in that order,
    and the space is then s'; None: a panic.  [wakes_nobody cb]: the callback activates only bodies that are awake. *)
From Coq Require Import ZArith List Bool Arith Lia.
From Verif Require Import Num NumFloat Space SpaceSpec SpaceRuns SpaceEach SpaceEachProofs.
Import ListNotations.
Local Open Scope nat_scope.

Section Each.
Context {N : Num}.
Theorem C55_each_body : forall cb s, reachable s -> s_lock s = 0%Z ->
  (forall b s y, In y (cb b s) -> is_sleeping s y = false) ->
  exists t s', each_body cb s = Some (t, s') /\ reachable s' /\ s_lock s' = 0%Z /\ NoDup t /\ forall b, In b t <-> contains_body s b = true.
Proof. exact each_body_exact. Qed.
Theorem C55_each_dynamic_body : forall cb s, reachable s -> s_lock s = 0%Z ->
  (forall b s y, In y (cb b s) -> is_sleeping s y = false) ->
  exists t s', each_dynamic_body cb s = Some (t, s') /\ reachable s' /\ s_lock s' = 0%Z /\ NoDup t /\ forall b, In b t <-> contains_body s b = true /\ ty s b <> Static.
Proof. exact each_dynamic_body_exact. Qed.
(* the lists of static bodies, of shapes and of constraints do not change while the space is locked: any callback *)
Theorem C55_each_static_body : forall cb s, reachable s -> s_lock s = 0%Z ->
  exists t s', each_static_body cb s = Some (t, s') /\ reachable s' /\ s_lock s' = 0%Z /\ NoDup t /\ forall b, In b t <-> contains_body s b = true /\ ty s b = Static.
Proof. exact each_static_body_exact. Qed.
Theorem C55_each_shape : forall cb s, reachable s -> s_lock s = 0%Z ->
  exists t s', each_shape cb s = Some (t, s') /\ reachable s' /\ s_lock s' = 0%Z /\ NoDup t /\ (forall x, In x t <-> contains_shape s x = true) /\ length t = shape_count s.
Proof. exact each_shape_exact. Qed.
Theorem C55_each_static_shape : forall cb s, reachable s -> s_lock s = 0%Z ->
  exists t s', each_static_shape cb s = Some (t, s') /\ reachable s' /\ s_lock s' = 0%Z /\ NoDup t /\
    forall x, In x t <-> contains_shape s x = true /\ (ty s (sh_body (s_shape s x)) = Static \/ is_sleeping s (sh_body (s_shape s x)) = true).
Proof. exact each_static_shape_exact. Qed.
Theorem C55_each_dynamic_shape : forall cb s, reachable s -> s_lock s = 0%Z ->
  exists t s', each_dynamic_shape cb s = Some (t, s') /\ reachable s' /\ s_lock s' = 0%Z /\ NoDup t /\
    forall x, In x t <-> contains_shape s x = true /\ ty s (sh_body (s_shape s x)) <> Static /\ is_sleeping s (sh_body (s_shape s x)) = false.
Proof. exact each_dynamic_shape_exact. Qed.
Theorem C55_each_constraint : forall cb s, reachable s -> s_lock s = 0%Z ->
  exists t s', each_constraint cb s = Some (t, s') /\ reachable s' /\ s_lock s' = 0%Z /\ NoDup t /\
    forall c, In c t <-> contains_constraint s c = true /\ is_sleeping s (co_a (s_con s c)) = false /\ is_sleeping s (co_b (s_con s c)) = false.
Proof. exact each_constraint_exact. Qed.
(* whatever the callback wakes: no panic, nothing foreign, and the bodies that were awake are all met *)
Theorem C55_each_body_any : forall cb s, reachable s -> s_lock s = 0%Z ->
  exists t s', each_body cb s = Some (t, s') /\ reachable s' /\ s_lock s' = 0%Z /\
    (forall b, In b t -> contains_body s b = true) /\ (forall b, contains_body s b = true -> is_sleeping s b = false -> In b t).
Proof. exact each_body_any. Qed.
(* Body.EachConstraint reads the next constraint before the call, so that a callback may remove the one it is given *)
Theorem C55_remove_each_constraint : forall b s, reachable s -> s_lock s = 0%Z ->
  exists t s', each_constraint_of remove_constraint b s = Some (t, s') /\ reachable s' /\ NoDup t /\
    (forall c, In c t <-> contains_constraint s c = true /\ (co_a (s_con s c) = b \/ co_b (s_con s c) = b)) /\
    (forall c, contains_constraint s' c = true <-> contains_constraint s c = true /\ co_a (s_con s c) <> b /\ co_b (s_con s c) <> b).
Proof. exact each_constraint_of_remove. Qed.
End Each.
Print Assumptions C55_each_body.
Print Assumptions C55_each_dynamic_body.
Print Assumptions C55_each_static_body.
Print Assumptions C55_each_shape.
Print Assumptions C55_each_static_shape.
Print Assumptions C55_each_dynamic_shape.
Print Assumptions C55_each_constraint.
Print Assumptions C55_each_body_any.
Print Assumptions C55_remove_each_constraint.

Local Existing Instance FNum.
(* a callback that wakes the body it is given: of three bodies, each asleep alone, EachBody meets the last twice and never the second *)
Theorem C55_waking_callback_refuted : exists s : space, reachable s /\ s_lock s = 0%Z /\ map (contains_body s) [0; 1; 2] = [true; true; true] /\
  order (each_body (fun b _ => [b]) s) = Some [0; 2; 2] /\ order (each_body (fun _ _ => []) s) = Some [0; 1; 2].
Proof. exact waker_skips. Qed.
Print Assumptions C55_waking_callback_refuted.
Theorem C55_group_skipped_refuted : exists (s : space) cb, reachable s /\ s_lock s = 0%Z /\ contains_body s 1 = true /\ contains_body s 2 = true /\ is_sleeping s 1 = true /\ is_sleeping s 2 = true /\
  order (each_body cb s) = Some [3; 0].
Proof. exact group_skipped. Qed.
Print Assumptions C55_group_skipped_refuted.
(* inside a locked section, bodies woken in it are in no list *)
Theorem C55_locked_refuted : exists s : space, reachable s /\ s_lock s = 1%Z /\ contains_body s 1 = true /\ contains_body s 2 = true /\ is_sleeping s 1 = false /\ is_sleeping s 2 = false /\
  order (each_body (fun _ _ => []) s) = Some [3; 0].
Proof. exact locked_misses. Qed.
Print Assumptions C55_locked_refuted.
(* EachConstraint leaves out the constraints of sleeping bodies, while EachBody and EachShape include what sleeps *)
Theorem C55_each_constraint_all_refuted : exists (s : space) c, reachable s /\ s_lock s = 0%Z /\ contains_constraint s c = true /\ order (each_constraint (fun _ _ => []) s) = Some [].
Proof. exact sleeping_constraint. Qed.
Print Assumptions C55_each_constraint_all_refuted.
Example C55_each_ex : exists s : space, reachable s /\ s_lock s = 0%Z /\ map (is_sleeping s) [0; 1; 2; 3] = [false; true; true; false] /\
  order (each_body quiet s) = Some [3; 0; 1; 2] /\ order (each_dynamic_body quiet s) = Some [3; 1; 2] /\ order (each_static_body quiet s) = Some [0] /\
  order (each_shape quiet s) = Some [3; 2; 1; 0] /\ order (each_static_shape quiet s) = Some [2; 1; 0] /\ order (each_dynamic_shape quiet s) = Some [3] /\
  (dynamic_body_count s, static_body_count s, shape_count s) = (1, 1, 4).
Proof. exact ex_each. Qed.
Example C55_remove_ex : exists s s' : space, reachable s /\ s_lock s = 0%Z /\ each_constraint_of remove_constraint 0 s = Some ([2; 0], s') /\
  map (contains_constraint s) [0; 1; 2] = [true; true; true] /\ map (contains_constraint s') [0; 1; 2] = [false; true; false].
Proof. exact ex_each_of. Qed.
