(** C22, C23, C24: collision callbacks and contact memory over whole histories of steps. *)
From Coq Require Import ZArith Bool List Lia.
From Verif Require Import Collide CollideSpec CollideProofs CollideProofs2 CollideProofs3 CollideProofs4.
Import ListNotations.

(** The callbacks of every pair are those of the reference automaton [ref_op]: begin when the pair starts touching,
    preSolve in each touching step unless ignored, separate when a step finishes without it touching, or a shape is
    removed, postSolve when it was solved; sleeping keeps the contact. *)
Theorem C22_callbacks : forall pers u v h, 1 <= pers -> valid pers h ->
  kinds u v (w_trace (run pers h)) = snd (ref_run u v pst0 h).
Proof. exact (fun pers u v h P V => proj2 (run_sim pers u v h P V)). Qed.
Print Assumptions C22_callbacks.
Example C22_callbacks_ex : valid 2 h_ex /\
  kinds 1 0 (w_trace (run 2 h_ex)) =
    [KBegin; KPreSolve; KPostSolve; KPreSolve; KPostSolve; KSeparate; KBegin; KPreSolve; KPostSolve] /\
  kinds 3 2 (w_trace (run 2 h_ex)) = [KBegin; KPreSolve; KPostSolve; KPreSolve; KPreSolve; KPostSolve; KSeparate].
Proof. split; [exact h_ex_valid|vm_compute; auto]. Qed.

Theorem C22_begin_separate_alternate : forall pers u v h, 1 <= pers -> valid pers h ->
  alternates false (kinds u v (w_trace (run pers h))).
Proof. exact callbacks_alternate. Qed.
Print Assumptions C22_begin_separate_alternate.
Example C22_begin_separate_alternate_ex : alternates false [KBegin; KPreSolve; KSeparate; KBegin] /\
  ~ alternates false [KBegin; KBegin] /\ ~ alternates false [KSeparate] /\ ~ alternates false [KBegin; KSeparate; KSeparate].
Proof. cbn. intuition discriminate. Qed.

(** Without sleeping or removal, begin and separate are exactly the rising and falling edges of "touches in step n". *)
Theorem C22_edges : forall pers u v steps, 1 <= pers -> valid pers (flat_map one_step steps) ->
  filter begin_or_separate (kinds u v (w_trace (run pers (flat_map one_step steps)))) = edges false (map (touching u v) steps).
Proof. exact edges_trace. Qed.
Print Assumptions C22_edges.
Example C22_edges_ex : let steps := [[tch 0 1 3; tch 5 6 4]; [tch 1 0 3]; []; [tch 0 1 2]] in
  valid 3 (flat_map one_step steps) /\ edges false (map (touching 0 1) steps) = [KBegin; KSeparate; KBegin].
Proof. split; [apply validb_sound|]; vm_compute; reflexivity. Qed.

(** CollisionPersistence = 0: begin in every step, separate never. *)
Theorem C22_zero_persistence_refuted : exists h u v, valid 0 h /\ ~ alternates false (kinds u v (w_trace (run 0 h))).
Proof. exact zero_persistence_refuted. Qed.
Print Assumptions C22_zero_persistence_refuted.

Theorem C23_ignored_from_begin : forall pers u v h1 t h2, 1 <= pers -> valid pers (h1 ++ TouchPair t :: h2) ->
  same_pair u v (t_a t) (t_b t) = true -> t_data t <> [] ->
  (exists l, kinds u v (w_trace (run pers (h1 ++ [TouchPair t]))) = kinds u v (w_trace (run pers h1)) ++ KBegin :: l) ->
  t_begin t = false \/ t_begin_ignore t = true ->
  exists l, kinds u v (w_trace (run pers (h1 ++ TouchPair t :: h2))) = kinds u v (w_trace (run pers h1)) ++ KBegin :: l /\
    until_separate l = [] /\ (~ In KSeparate l -> ~ solved_in (run pers (h1 ++ TouchPair t :: h2)) u v).
Proof. exact ignored_until_separate. Qed.
Print Assumptions C23_ignored_from_begin.
Example C23_ignored_from_begin_ex :
  let h := [Start; TouchPair (tch_begin_false 0 1 7); Finish nostill; Start; TouchPair (tch 0 1 8); Finish nostill;
            Start; Finish nostill; Start; TouchPair (tch 0 1 9)] in
  valid 1 h /\ kinds 0 1 (w_trace (run 1 h)) = [KBegin; KSeparate; KBegin; KPreSolve].
Proof. split; [apply validb_sound|]; vm_compute; reflexivity. Qed.

Theorem C23_ignored_from_presolve : forall pers u v h1 t h2, 1 <= pers -> valid pers (h1 ++ TouchPair t :: h2) ->
  same_pair u v (t_a t) (t_b t) = true -> t_data t <> [] -> t_pre_ignore t = true ->
  exists l, kinds u v (w_trace (run pers (h1 ++ TouchPair t :: h2))) = kinds u v (w_trace (run pers (h1 ++ [TouchPair t]))) ++ l /\
    until_separate l = [] /\ (~ In KSeparate l -> ~ solved_in (run pers (h1 ++ TouchPair t :: h2)) u v).
Proof. exact pre_ignored_until_separate. Qed.
Print Assumptions C23_ignored_from_presolve.
Example C23_ignored_from_presolve_ex :
  let h := [Start; TouchPair (tch_pre_ignore 0 1 7); Finish nostill; Start; TouchPair (tch 0 1 8); Finish nostill] in
  valid 1 h /\ kinds 0 1 (w_trace (run 1 h)) = [KBegin; KPreSolve] /\ w_active (run 1 h) = [].
Proof. split; [apply validb_sound|split]; vm_compute; reflexivity. Qed.

(** A pair enters the solver in a step exactly if preSolve was called, returned true without Ignore, no shape is a
    sensor and one body has finite mass.  In particular a false preSolve only affects its own step. *)
Theorem C23_solved_exactly_if : forall pers u v h t, 1 <= pers -> valid pers (h ++ [TouchPair t]) ->
  same_pair u v (t_a t) (t_b t) = true -> t_data t <> [] ->
  (solved_in (run pers (h ++ [TouchPair t])) u v <->
   kinds u v (w_trace (run pers (h ++ [TouchPair t]))) =
     kinds u v (w_trace (run pers h)) ++ (if contact_after (kinds u v (w_trace (run pers h))) then [] else [KBegin]) ++ [KPreSolve]
   /\ t_pre t = true /\ t_pre_ignore t = false /\ ~ unsolvable t).
Proof. exact touch_solved. Qed.
Print Assumptions C23_solved_exactly_if.
Example C23_solved_exactly_if_ex :
  let h := [Start; TouchPair (tch_pre_false 0 1 7); Finish nostill; Start; TouchPair (tch 1 0 8)] in
  valid 1 h /\ solved_in (run 1 h) 0 1 /\ w_active (run 1 (firstn 2 h)) = [].
Proof. split; [apply validb_sound; vm_compute; reflexivity|]. split; [exists 1, 0; vm_compute; auto|vm_compute; reflexivity]. Qed.

Theorem C23_sensor_never_solved : forall pers u v h, 1 <= pers -> valid pers h ->
  (forall t, In (TouchPair t) h -> same_pair u v (t_a t) (t_b t) = true -> unsolvable t) ->
  ~ solved_in (run pers h) u v /\ ~ In KPostSolve (kinds u v (w_trace (run pers h))).
Proof. exact sensor_never_solved. Qed.
Print Assumptions C23_sensor_never_solved.
Example C23_sensor_never_solved_ex :
  let h := [Start; TouchPair (tch_sensor 0 1 7); TouchPair (tch 0 2 7); Finish nostill] in
  valid 1 h /\ kinds 0 1 (w_trace (run 1 h)) = [KBegin; KPreSolve] /\ kinds 0 2 (w_trace (run 1 h)) = [KBegin; KPreSolve; KPostSolve].
Proof. split; [apply validb_sound; vm_compute; reflexivity|]. vm_compute. auto. Qed.

Theorem C23_postsolve_exactly_solved : forall pers u v h still, 1 <= pers -> valid pers (h ++ [Finish still]) ->
  exists l, kinds u v (w_trace (run pers (h ++ [Finish still]))) = kinds u v (w_trace (run pers h)) ++ l /\
            (solved_in (run pers h) u v -> l = [KPostSolve]) /\ (~ solved_in (run pers h) u v -> ~ In KPostSolve l).
Proof. exact post_iff. Qed.
Print Assumptions C23_postsolve_exactly_solved.
Example C23_postsolve_exactly_solved_ex : valid 2 (firstn 3 h_ex ++ [Finish nostill]) /\ solved_in (run 2 (firstn 3 h_ex)) 3 2.
Proof. split; [apply validb_sound; vm_compute; reflexivity|]. exists 2, 3. vm_compute. auto. Qed.

(** The contacts of every stored arbiter are the ones written when it was last updated ([a_ghost]). *)
Theorem C24_contacts_intact_partial : forall pers h x, 1 <= pers -> valid pers h -> no_stale_frozen pers h ->
  In x (w_cache (run pers h)) \/ In x (w_asleep (run pers h)) -> contacts_of (run pers h) x = a_ghost x.
Proof. exact contacts_intact. Qed.
Print Assumptions C24_contacts_intact_partial.
Example C24_contacts_intact_partial_ex : valid 2 h_ex /\ no_stale_frozen 2 h_ex /\
  map a_ghost (w_cache (run 2 h_ex)) = [[9%Z]] /\ map a_ghost (w_asleep (run 2 (firstn 8 h_ex))) = [[8%Z]].
Proof. split; [exact h_ex_valid|]. split; [exact h_ex_no_frozen|]. vm_compute. auto. Qed.

(** The memory handed out for the next contacts is inside its buffer and used by no stored arbiter. *)
Theorem C24_handed_out_fresh_partial : forall pers h x, 1 <= pers -> valid pers h -> no_stale_frozen pers h -> started h ->
  let w := get_array pers (run pers h) in
  array_off w + max_contacts <= buffer_size /\
  (In x (w_cache (run pers h)) -> forall i, array_off w <= i -> ~ uses x (array_buf w) i).
Proof. exact handed_out_fresh. Qed.
Print Assumptions C24_handed_out_fresh_partial.
Example C24_handed_out_fresh_partial_ex : exists x, In x (w_cache (run 2 h_ex)) /\ uses x (array_buf (run 2 h_ex)) 0.
Proof. eexists. split; [vm_compute; left; reflexivity|]. exists 0. vm_compute. auto. Qed.

Theorem C24_buffer_size : forall pers h b, valid pers h -> b < w_nbufs (run pers h) -> f_num (w_bufs (run pers h) b) <= 1024.
Proof. exact buffers_bounded2. Qed.
Print Assumptions C24_buffer_size.
Example C24_buffer_size_ex : w_nbufs (run 2 h_ex) = 3 /\ f_num (w_bufs (run 2 (firstn 3 h_ex)) 0) = 2.
Proof. vm_compute. auto. Qed.

(** Without [no_stale_frozen] the claim is false: the arbiter of a pair that separated just before both bodies fell
    asleep stays in the cache while its contact memory is recycled. *)
Theorem C24_contacts_intact_refuted : exists pers h x, 1 <= pers /\ valid pers h /\ In x (w_cache (run pers h)) /\
  contacts_of (run pers h) x <> a_ghost x.
Proof. exact stale_contacts_refuted. Qed.
Print Assumptions C24_contacts_intact_refuted.
