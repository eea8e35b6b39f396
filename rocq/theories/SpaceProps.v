(** C27-C34: contact and constraint lists, sleeping, waking, membership, types. *)
From Coq Require Import ZArith List Bool Arith Permutation.
From Verif Require Import Num NumFloat Space SpaceSpec SpaceMain SpaceMore SpaceRuns SpaceAdd.
Import ListNotations.
Local Open Scope nat_scope.

(** ** C27 *)
(** In every state a program obeying the rules reaches, the contact list of a body has each arbiter at most once; every
    arbiter in it is between this body and another, is in the list of the other too, and its shapes are in the space. *)
Theorem C27_contact_lists : forall (N : Num) (s : space) (b : nat), reachable s -> NoDup (b_arbs (s_body s b)) /\
  forall x, In x (b_arbs (s_body s b)) ->
    (b = ar_a (s_arb s x) \/ b = ar_b (s_arb s x)) /\ ar_a (s_arb s x) <> ar_b (s_arb s x) /\
    In x (b_arbs (s_body s (ar_a (s_arb s x)))) /\ In x (b_arbs (s_body s (ar_b (s_arb s x)))) /\
    contains_shape s (ar_sa (s_arb s x)) = true /\ contains_shape s (ar_sb (s_arb s x)) = true /\
    sh_body (s_shape s (ar_sa (s_arb s x))) = ar_a (s_arb s x) /\ sh_body (s_shape s (ar_sb (s_arb s x))) = ar_b (s_arb s x).
Proof. exact @contact_lists. Qed.
Print Assumptions C27_contact_lists.
(** Between steps the arbiters that will be solved are exactly those in the lists of awake bodies. *)
Theorem C27_active_arbiters : forall (N : Num) (s : space) (x : nat), reachable s -> s_lock s = 0%Z -> NoDup (s_arbs s) /\
  (In x (s_arbs s) <-> In x (b_arbs (s_body s (ar_a (s_arb s x)))) /\ is_sleeping s (ar_a (s_arb s x)) = false /\ is_sleeping s (ar_b (s_arb s x)) = false).
Proof. exact @contacts_listed. Qed.
Print Assumptions C27_active_arbiters.
(** Unthread takes an arbiter out of the lists of its two bodies and touches nothing else. *)
Theorem C27_unthread : forall (N : Num) (s : space) (x y z : nat), reachable s -> In x (b_arbs (s_body s (ar_a (s_arb s x)))) ->
  (In z (b_arbs (s_body (unthread x s) y)) <-> In z (b_arbs (s_body s y)) /\ z <> x) /\ NoDup (b_arbs (s_body (unthread x s) y)) /\
  (y <> ar_a (s_arb s x) -> y <> ar_b (s_arb s x) -> b_arbs (s_body (unthread x s) y) = b_arbs (s_body s y)).
Proof. exact @unthread_two. Qed.
Print Assumptions C27_unthread.
(** The rule about callbacks is needed: one that wakes a sleeping body during the first half of the step makes the space
    push an arbiter twice (None stands for the list that runs in circles, see C27_double_push_refuted). *)
Theorem C27_waking_callback_refuted : exists (s : @space FNum) b, reachable s /\ s_lock s = 0%Z /\ contains_body s b = true /\ is_sleeping s b = true /\
  sstep (sleepy [] still) s <> None /\ sstep (sleepy [Touches b] still) s = None.
Proof. exact waking_callback. Qed.
Print Assumptions C27_waking_callback_refuted.
Example C27_ex : exists s : @space FNum, valid_run piled_h piled0 /\ srun piled_h piled0 = Some s /\ reachable s /\ s_lock s = 0%Z /\
  map (group s) [0; 1; 2; 3] = [None; Some 1; Some 1; None] /\ s_dyn s = [3] /\ s_sta s = [0] /\ map snd (s_dix s) = [3] /\ s_cons s = [] /\ s_arbs s = [] /\
  length (s_six s) = 3 /\ b_arbs (s_body s 0) = [1; 0] /\ b_arbs (s_body s 1) = [0] /\ b_arbs (s_body s 2) = [1] /\ b_cons (s_body s 1) = [0] /\
  query_reject_constraints s 2 1 = true /\ query_reject_constraints s 1 3 = false.
Proof. exact ex_piled. Qed.

(** ** C28 *)
Theorem C28_constraint_lists : forall (N : Num) (s : space) (b : nat), reachable s -> NoDup (b_cons (s_body s b)) /\
  forall c, In c (b_cons (s_body s b)) <-> contains_constraint s c = true /\ (co_a (s_con s c) = b \/ co_b (s_con s c) = b).
Proof. exact @constraint_lists. Qed.
Print Assumptions C28_constraint_lists.
(** The constraints that are solved are those of the space neither end of which sleeps. *)
Theorem C28_solved_constraints : forall (N : Num) (s : space) (c : nat), reachable s -> s_lock s = 0%Z -> NoDup (s_cons s) /\
  (In c (s_cons s) <-> contains_constraint s c = true /\ is_sleeping s (co_a (s_con s c)) = false /\ is_sleeping s (co_b (s_con s c)) = false).
Proof. exact @constraints_listed. Qed.
Print Assumptions C28_solved_constraints.
Theorem C28_query_reject : forall (N : Num) (s : space) (a b : nat), reachable s ->
  query_reject_constraints s a b = true <-> exists c, contains_constraint s c = true /\ co_collide (s_con s c) = false /\
    ((co_a (s_con s c) = a /\ co_b (s_con s c) = b) \/ (co_a (s_con s c) = b /\ co_b (s_con s c) = a)).
Proof. exact @reject_spec. Qed.
Print Assumptions C28_query_reject.
Theorem C28_query_reject_symmetric : forall (N : Num) (s : space) (a b : nat), reachable s -> query_reject_constraints s a b = query_reject_constraints s b a.
Proof. exact @reject_sym. Qed.
Print Assumptions C28_query_reject_symmetric.
(** Changing the type of a static body a sleeping body hangs on is outside the rules: the hinge is then never solved again. *)
Theorem C28_hinge_lost_refuted : exists (s s1 s2 : @space FNum) c, reachable s /\ s_lock s = 0%Z /\ is_sleeping s 0 = false /\
  sstep (OSetType 0 Kinematic) s = Some s1 /\ sstep (OTouch 1) s1 = Some s2 /\
  contains_constraint s2 c = true /\ is_sleeping s2 (co_a (s_con s2 c)) = false /\ is_sleeping s2 (co_b (s_con s2 c)) = false /\ ~ In c (s_cons s2).
Proof. exact hinge_lost. Qed.
Print Assumptions C28_hinge_lost_refuted.

(** ** C29 *)
(** A body that falls asleep in a step does so together with exactly the bodies it is connected to by contacts and
    constraints through dynamic bodies, and none of them has been idle for less than the threshold. *)
Theorem C29_falls_asleep : forall (N : Num) (s : space) thr dt fast evs old (s' : space),
  reachable s -> valid (OStep (Some thr) dt fast evs old []) s -> sstep (OStep (Some thr) dt fast evs old []) s = Some s' ->
  forall b, is_sleeping s b = false -> is_sleeping s' b = true ->
    (forall y, connected s' b y <-> group s' y = group s' b) /\
    (forall y, connected s' b y -> nltb (b_idle (s_body s' y)) thr = false).
Proof. exact @falls_asleep. Qed.
Print Assumptions C29_falls_asleep.
(** A dynamic body left awake is connected to one that has been idle for less than the threshold. *)
Theorem C29_stays_awake : forall (N : Num) (s : space) thr dt fast evs old (s' : space),
  reachable s -> valid (OStep (Some thr) dt fast evs old []) s -> sstep (OStep (Some thr) dt fast evs old []) s = Some s' ->
  forall b, contains_body s' b = true -> ty s' b = Dynamic -> is_sleeping s' b = false ->
    exists y, connected s' b y /\ nltb (b_idle (s_body s' y)) thr = true.
Proof. exact @stays_awake_why. Qed.
Print Assumptions C29_stays_awake.
(** Idle times: 0 for a body faster than its threshold or woken in the step, otherwise dt more than before. *)
Theorem C29_idle_times : forall (N : Num) (s : space) thr dt fast evs old late (s' : space),
  reachable s -> valid (OStep (Some thr) dt fast evs old late) s -> sstep (OStep (Some thr) dt fast evs old late) s = Some s' ->
  forall y, contains_body s y = true -> ty s y = Dynamic -> is_sleeping s y = false ->
    b_idle (s_body s' y) = n0 \/ (fast y = false /\ (b_idle (s_body s' y) = nadd (b_idle (s_body s y)) dt \/ b_idle (s_body s' y) = nadd n0 dt)).
Proof. exact @idle_times. Qed.
Print Assumptions C29_idle_times.
(** At any time a sleeping group is closed: what a sleeping body is linked to is static or in the same group. *)
Theorem C29_group_closed : forall (N : Num) (s : space) (b r : nat), reachable s -> group s b = Some r ->
  In r (s_comps s) /\ is_sleeping s r = true /\ contains_body s b = true /\ ty s b = Dynamic /\
  (forall v, linked s b v -> ty s v = Static \/ group s v = Some r) /\ (forall v, connected s b v -> group s v = Some r).
Proof. exact @sleeping_group. Qed.
Print Assumptions C29_group_closed.
(** Following sleepingNext from the root visits every body of the group once and ends. *)
Theorem C29_group_list : forall (N : Num) (s : space) (r : nat), reachable s -> In r (s_comps s) ->
  exists l, visits s r l /\ NoDup l /\ forall b, In b l <-> group s b = Some r.
Proof. exact @group_list. Qed.
Print Assumptions C29_group_list.
(** No operation that obeys the rules panics or exits, and the one after it is covered again: in particular the
    "Inconsistency detected" exit of FloodFillComponent is not reached. *)
Theorem C29_no_inconsistency : forall (N : Num) (s : space) (o : op), reachable s -> valid o s -> exists s', sstep o s = Some s' /\ reachable s'.
Proof. exact @no_panic. Qed.
Print Assumptions C29_no_inconsistency.
(** Outside the rules it is reached: a static body with a body asleep on it, made dynamic and moved away. *)
Theorem C29_ground_freed_refuted : exists (s s' : @space FNum) b, reachable s /\ s_lock s = 0%Z /\ contains_body s b = true /\ is_sleeping s b = false /\
  sstep (OSetType b Dynamic) s = Some s' /\ sstep (sleepy [] still) s' = None.
Proof. exact ground_freed. Qed.
Print Assumptions C29_ground_freed_refuted.
Example C29_ex : exists s s' : @space FNum, reachable s /\ valid (OStep (Some nhalf) n1 (fun b => b =? 3) [Collides 1 0 true; Collides 2 0 true] still []) s /\
  sstep (OStep (Some nhalf) n1 (fun b => b =? 3) [Collides 1 0 true; Collides 2 0 true] still []) s = Some s' /\
  map (is_sleeping s) [0; 1; 2; 3] = [false; false; false; false] /\ map (is_sleeping s') [0; 1; 2; 3] = [false; true; true; false] /\
  contains_body s' 3 = true /\ ty s' 3 = Dynamic.
Proof. exact ex_falls. Qed.

(** ** C30 *)
Theorem C30_wakes_group : forall (N : Num) (s : space) (b : nat) (s' : space), reachable s -> sstep (OTouch b) s = Some s' ->
  (forall y, group s b <> None -> group s y = group s b -> is_sleeping s' y = false) /\
  (forall y, group s b = None \/ group s y <> group s b -> group s' y = group s y).
Proof. exact @wakes. Qed.
Print Assumptions C30_wakes_group.
(** While the space is not locked every contained body is in exactly one of: the static list, the awake list, a sleeping group. *)
Theorem C30_one_place : forall (N : Num) (s : space) (b : nat), reachable s -> s_lock s = 0%Z ->
  NoDup (s_dyn s) /\ NoDup (s_sta s) /\
  (In b (s_sta s) <-> contains_body s b = true /\ ty s b = Static) /\
  (In b (s_dyn s) <-> contains_body s b = true /\ ty s b <> Static /\ is_sleeping s b = false) /\
  (is_sleeping s b = true -> contains_body s b = true /\ ty s b = Dynamic).
Proof. exact @bodies_listed. Qed.
Print Assumptions C30_one_place.
(** Two unlocked spaces with the same members, types and sleepers have the same lists up to order; so sleeping and waking
    puts back the awake list, the indexes and the constraint list. *)
Theorem C30_restores : forall (N : Num) (s s' : space), reachable s -> reachable s' -> s_lock s = 0%Z -> s_lock s' = 0%Z ->
  (forall b, contains_body s b = contains_body s' b) -> (forall x, s_shape s x = s_shape s' x) -> (forall c, s_con s c = s_con s' c) ->
  (forall b, ty s b = ty s' b) -> (forall b, is_sleeping s b = is_sleeping s' b) ->
  Permutation (s_dyn s) (s_dyn s') /\ Permutation (s_sta s) (s_sta s') /\ Permutation (s_dix s) (s_dix s') /\ Permutation (s_six s) (s_six s') /\
  Permutation (s_cons s) (s_cons s').
Proof. exact @same_lists. Qed.
Print Assumptions C30_restores.
(** Bodies woken while the space is locked are back in the awake list when it is unlocked. *)
Theorem C30_unlock : forall (N : Num) (s s' : space), reachable s -> s_lock s = 1%Z -> sstep OUnlock s = Some s' -> s_lock s' = 0%Z /\
  (forall b, group s' b = group s b) /\
  (forall b, In b (s_dyn s') <-> contains_body s b = true /\ ty s b <> Static /\ is_sleeping s b = false).
Proof. exact @unlock_wakes. Qed.
Print Assumptions C30_unlock.
Example C30_ex : exists s s' : @space FNum, reachable s /\ sstep (OTouch 2) s = Some s' /\ map (is_sleeping s) [1; 2] = [true; true] /\ map (is_sleeping s') [1; 2] = [false; false] /\
  s_dyn s' = [3; 1; 2] /\ s_arbs s' = [0; 1] /\ s_cons s' = [0] /\ map snd (s_dix s') = [2; 1; 3].
Proof. exact ex_woken. Qed.
Example C30_unlock_ex : exists s s' : @space FNum, reachable s /\ s_lock s = 1%Z /\ sstep OUnlock s = Some s' /\ s_dyn s = [3] /\ s_dyn s' = [3; 1; 2] /\ map (is_sleeping s) [1; 2] = [false; false].
Proof. exact ex_unlock. Qed.

(** ** C31 *)
(** False: with three groups the middle one stays asleep. *)
Theorem C31_set_gravity_refuted : exists (s s' : @space FNum) b, reachable s /\ s_lock s = 0%Z /\ sstep OGravity s = Some s' /\ contains_body s' b = true /\ is_sleeping s' b = true.
Proof. exact gravity_misses. Qed.
Print Assumptions C31_set_gravity_refuted.
(** What it does: the groups at odd positions except the last stay asleep. *)
Theorem C31_set_gravity_exact : forall (N : Num) (s s' : space) (i r : nat), reachable s -> sstep OGravity s = Some s' -> nth_error (s_comps s) i = Some r ->
  forall b, group s b = Some r -> (is_sleeping s' b = true <-> Nat.odd i = true /\ S i < length (s_comps s)).
Proof. exact @gravity_group. Qed.
Print Assumptions C31_set_gravity_exact.
(** True with at most two sleeping groups (missing: three and more, where it is false). *)
Theorem C31_set_gravity_partial : forall (N : Num) (s s' : space), reachable s -> sstep OGravity s = Some s' -> length (s_comps s) <= 2 -> forall b, is_sleeping s' b = false.
Proof. exact @gravity_few. Qed.
Print Assumptions C31_set_gravity_partial.

(** ** C32 *)
(** What the space contains is what was last added or removed. *)
Theorem C32_contains : forall (N : Num) tys sb cn h (s : space), valid_run h (space0 tys sb cn) -> srun h (space0 tys sb cn) = Some s ->
  (forall b, contains_body s b = last_said (says_body b) h) /\
  (forall x, contains_shape s x = last_said (says_shape x) h) /\
  (forall c, contains_constraint s c = last_said (says_con c) h).
Proof. exact @contains_last_said. Qed.
Print Assumptions C32_contains.
(** A history that obeys the rules runs to its end. *)
Theorem C32_runs : forall (N : Num) tys sb cn h, valid_run h (space0 tys sb cn) -> exists s, srun h (space0 tys sb cn) = Some s.
Proof. exact @all_succeed. Qed.
Print Assumptions C32_runs.
(** A contained shape is in exactly one index, once: the static one if its body is static or asleep. *)
Theorem C32_one_index : forall (N : Num) (s : space) (x : nat), reachable s -> s_lock s = 0%Z ->
  NoDup (s_dix s) /\ NoDup (s_six s) /\
  (forall h, In (h, x) (s_six s) <-> contains_shape s x = true /\ h = sh_id (s_shape s x) /\
     (ty s (sh_body (s_shape s x)) = Static \/ is_sleeping s (sh_body (s_shape s x)) = true)) /\
  (forall h, In (h, x) (s_dix s) <-> contains_shape s x = true /\ h = sh_id (s_shape s x) /\
     ty s (sh_body (s_shape s x)) <> Static /\ is_sleeping s (sh_body (s_shape s x)) = false) /\
  (contains_shape s x = true -> In x (b_shapes (s_body s (sh_body (s_shape s x))))).
Proof. exact @shapes_listed. Qed.
Print Assumptions C32_one_index.
Theorem C32_ids_distinct : forall (N : Num) (s : space) (x y : nat), reachable s -> contains_shape s x = true -> contains_shape s y = true ->
  sh_id (s_shape s x) = sh_id (s_shape s y) -> x = y.
Proof. exact @ids_distinct. Qed.
Print Assumptions C32_ids_distinct.
(** An id given later is larger than every id seen before. *)
Theorem C32_ids_not_reused : forall (N : Num) (s : space) (h : list op) (x y : nat) (s' : space), reachable s -> contains_shape s x = true ->
  valid_run (h ++ [OAddShape y]) s -> srun (h ++ [OAddShape y]) s = Some s' -> sh_id (s_shape s x) < sh_id (s_shape s' y).
Proof. exact @ids_grow. Qed.
Print Assumptions C32_ids_not_reused.
Theorem C32_shapes_of_body : forall (N : Num) (s : space) (b : nat), reachable s ->
  NoDup (b_shapes (s_body s b)) /\ forall x, In x (b_shapes (s_body s b)) -> sh_body (s_shape s x) = b.
Proof. exact @shapes_attached. Qed.
Print Assumptions C32_shapes_of_body.
Example C32_ex : exists s s' : @space FNum, reachable s /\ contains_shape s 1 = true /\ valid_run ([ORemoveShape 1; OAttach 1] ++ [OAddShape 1]) s /\
  srun ([ORemoveShape 1; OAttach 1] ++ [OAddShape 1]) s = Some s' /\ sh_id (s_shape s 1) = 2 /\ sh_id (s_shape s' 1) = 3.
Proof. exact ex_new_id. Qed.

(** ** C33 *)
(** False: with two shapes one stays in the space. *)
Theorem C33_remove_with_shapes_refuted : exists (s s' : @space FNum) b x, reachable s /\ s_lock s = 0%Z /\ contains_body s b = true /\ In x (b_shapes (s_body s b)) /\
  remove_body_with_shapes b s = Some s' /\ contains_body s' b = false /\ contains_shape s' x = true.
Proof. exact shape_left. Qed.
Print Assumptions C33_remove_with_shapes_refuted.
(** What it does: the body goes, and of its n shapes exactly n/2 (rounded down) stay attached to it and in the space.
    So the claim holds for bodies with at most one shape (missing: two and more, where it is false). *)
Theorem C33_remove_with_shapes_partial : forall (N : Num) (s : space) (b : nat), reachable s -> s_lock s = 0%Z -> contains_body s b = true ->
  (forall x, In x (b_shapes (s_body s b)) -> contains_shape s x = true) ->
  exists s', remove_body_with_shapes b s = Some s' /\ contains_body s' b = false /\ (forall y, y <> b -> contains_body s' y = contains_body s y) /\
    incl (b_shapes (s_body s' b)) (b_shapes (s_body s b)) /\
    length (b_shapes (s_body s' b)) = Nat.div2 (length (b_shapes (s_body s b))) /\
    (forall x, contains_shape s' x = true <-> contains_shape s x = true /\ (In x (b_shapes (s_body s b)) -> In x (b_shapes (s_body s' b)))).
Proof. exact @remove_with_shapes. Qed.
Print Assumptions C33_remove_with_shapes_partial.
(** AddBodyWithShapes adds the body and every shape attached to it, and nothing else. *)
Theorem C33_add_with_shapes : forall (N : Num) (s : space) (b : nat), reachable s -> s_lock s = 0%Z -> contains_body s b = false ->
  (forall x, In x (b_shapes (s_body s b)) -> contains_shape s x = false) ->
  exists s', add_body_with_shapes b s = Some s' /\ reachable s' /\
    contains_body s' b = true /\ (forall y, y <> b -> contains_body s' y = contains_body s y) /\
    (forall x, contains_shape s' x = true <-> contains_shape s x = true \/ In x (b_shapes (s_body s b))).
Proof. exact @add_with_shapes. Qed.
Print Assumptions C33_add_with_shapes.
Example C33_add_ex : exists s : @space FNum, reachable s /\ s_lock s = 0%Z /\ contains_body s 0 = false /\ b_shapes (s_body s 0) = [0; 1] /\
  contains_shape s 0 = false /\ contains_shape s 1 = false.
Proof. exact ex_add_two. Qed.

(** ** C34 *)
(** For a body that is not asleep, all of whose shapes are in the space and, if it is static, on which nothing sleeps
    (missing: the other bodies, see the refutations). *)
Theorem C34_set_type_partial : forall (N : Num) (s : space) (b : nat) (t : btype), reachable s -> valid (OSetType b t) s -> contains_body s b = true ->
  exists s', sstep (OSetType b t) s = Some s' /\ reachable s' /\
  ty s' b = t /\ (In b (s_sta s') <-> t = Static) /\ (In b (s_dyn s') <-> t <> Static) /\
  (forall x, In x (b_shapes (s_body s b)) -> (In (sh_id (s_shape s x), x) (s_six s') <-> t = Static) /\ (In (sh_id (s_shape s x), x) (s_dix s') <-> t <> Static)) /\
  (forall y, y <> b -> ty s' y = ty s y /\ (In y (s_sta s') <-> In y (s_sta s)) /\ (In y (s_dyn s') <-> In y (s_dyn s))) /\
  (forall y, contains_body s' y = contains_body s y) /\ (forall x, contains_shape s' x = contains_shape s x) /\
  (forall c, contains_constraint s' c = contains_constraint s c) /\ (forall y, group s' y = group s y) /\
  (forall i x, sh_body (s_shape s x) <> b -> (In (i, x) (s_six s') <-> In (i, x) (s_six s)) /\ (In (i, x) (s_dix s') <-> In (i, x) (s_dix s))).
Proof. exact @set_type_moves. Qed.
Print Assumptions C34_set_type_partial.
(** False of a sleeping body: it panics. *)
Theorem C34_set_type_sleeping_refuted : exists (s : @space FNum) b, reachable s /\ s_lock s = 0%Z /\ contains_body s b = true /\ is_sleeping s b = true /\
  (forall x, In x (b_shapes (s_body s b)) -> contains_shape s x = true) /\ sstep (OSetType b Static) s = None /\ sstep (OSetType b Kinematic) s = None.
Proof. exact set_type_sleeping. Qed.
Print Assumptions C34_set_type_sleeping_refuted.
(** Without shapes it does not panic, but the body is in the list of static bodies and in a sleeping group. *)
Theorem C34_set_type_two_places_refuted : exists (s s' : @space FNum) b, reachable s /\ s_lock s = 0%Z /\ contains_body s b = true /\
  sstep (OSetType b Static) s = Some s' /\ ty s' b = Static /\ In b (s_sta s') /\ is_sleeping s' b = true.
Proof. exact set_type_sleeping_bare. Qed.
Print Assumptions C34_set_type_two_places_refuted.
Example C34_ex : exists s s' : @space FNum, reachable s /\ valid (OSetType 0 Kinematic) s /\ sstep (OSetType 0 Kinematic) s = Some s' /\
  s_sta s = [0] /\ s_dyn s = [1] /\ map snd (s_six s) = [0] /\ s_sta s' = [] /\ s_dyn s' = [1; 0] /\ s_six s' = [] /\ map snd (s_dix s') = [0; 1].
Proof. exact ex_set_type. Qed.
