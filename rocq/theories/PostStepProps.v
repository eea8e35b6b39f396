(** C25, C26: post-step callbacks and space locking. *)
From Coq Require Import ZArith List Bool Lia.
From Verif Require Import PostStep PostStepSpec PostStepProofs.
Import ListNotations.
Local Open Scope Z_scope.

(** At every point of every program: the callbacks that have run, followed by those still pending, are the callbacks
    accepted from outside the post-step phase, in order of registration, each with its key.  So each runs at most once. *)
Theorem C25_in_order : forall l s, run_program l = Some s ->
  registered (p_log s) = ran (p_log s) ++ pending (p_log s).
Proof. exact in_order. Qed.
Print Assumptions C25_in_order.
Example C25_in_order_ex : exists s,
  run_program [AVisit [[AAddPost (Some 7%nat) 1 [AVisit [[AMutate]]]; AAddPost (Some 7%nat) 2 []; AAddPost None 3 []]]; ALock;
               AAddPost None 4 []; AVisit [[AAddPost (Some 7%nat) 5 []]]] = Some s /\
  ran (p_log s) = [(Some 7%nat, 1%nat); (None, 3%nat)] /\ pending (p_log s) = [(None, 4%nat); (Some 7%nat, 5%nat)].
Proof. eexists. repeat split; vm_compute; reflexivity. Qed.

(** The outermost Unlock(true) runs everything pending. *)
Theorem C25_outermost_unlock : forall l s s', run_program l = Some s -> p_lock s = 1 ->
  exec_top (AUnlock true) s = Some s' -> pending (p_log s') = [].
Proof. exact outermost_unlock. Qed.
Print Assumptions C25_outermost_unlock.
Example C25_outermost_unlock_ex : exists s s', run_program [ALock; AAddPost None 4 []] = Some s /\ p_lock s = 1 /\
  pending (p_log s) = [(None, 4%nat)] /\ exec_top (AUnlock true) s = Some s' /\ ran (p_log s') = [(None, 4%nat)].
Proof. do 2 eexists. repeat split; vm_compute; reflexivity. Qed.

(** So do the public operations that lock, and Step, when the space was unlocked. *)
Theorem C25_operations_flush : forall l s a s', tidy_all l -> tidy a -> flushing a -> run_program l = Some s ->
  p_lock s = 0 -> exec_top a s = Some s' -> pending (p_log s') = [].
Proof. exact flushing_flushes. Qed.
Print Assumptions C25_operations_flush.
Example C25_operations_flush_ex : exists s', exec_top (AStep false [[AAddPost None 4 []]] [[AAddPost None 5 []]]) p_init = Some s' /\
  ran (p_log s') = [(None, 4%nat); (None, 5%nat)].
Proof. eexists. repeat split; vm_compute; reflexivity. Qed.

(** No post-step callback runs while the space is locked, provided every callback unlocks as often as it locks. *)
Theorem C25_runs_unlocked : forall l s k id d, tidy_all l -> run_program l = Some s -> In (ERun k id d) (p_log s) -> d = 0.
Proof. exact unlocked_when_run. Qed.
Print Assumptions C25_runs_unlocked.
Example C25_runs_unlocked_ex : exists s,
  run_program [ALock; AVisit [[AAddPost None 1 [ALock; AUnlock true]; AAddPost None 2 []]]; AUnlock true] = Some s /\
  In (ERun None 2 0) (p_log s).
Proof. eexists. split; [reflexivity | vm_compute; auto 10]. Qed.

(** A registration is refused exactly when its key is not nil and pending; a refused one changes nothing. *)
Theorem C25_registration : forall l s k id body s', run_program l = Some s -> exec_top (AAddPost k id body) s = Some s' ->
  p_lock s' = p_lock s /\
  ((k <> None /\ (exists i, In (k, i) (pending (p_log s))) /\
     p_queue s' = p_queue s /\ p_log s' = p_log s ++ [EReg false k id false]) \/
   ((k = None \/ ~ exists i, In (k, i) (pending (p_log s))) /\
     p_log s' = p_log s ++ [EReg false k id true])).
Proof. exact registration. Qed.
Print Assumptions C25_registration.
Example C25_registration_ex : exists s s1 s2, run_program [ALock; AAddPost (Some 3%nat) 1 []] = Some s /\
  exec_top (AAddPost (Some 3%nat) 2 []) s = Some s1 /\ pending (p_log s1) = [(Some 3%nat, 1%nat)] /\
  exec_top (AAddPost (Some 4%nat) 2 []) s = Some s2 /\ pending (p_log s2) = [(Some 3%nat, 1%nat); (Some 4%nat, 2%nat)].
Proof. do 3 eexists. repeat split; vm_compute; reflexivity. Qed.

(** False of the code: a callback registered by a post-step callback is accepted (true) but never run. *)
Theorem C25_registered_inside_refuted : exists p s id, run_program p = Some s /\ In (EReg true None id true) (p_log s) /\
  p_lock s = 0 /\
  forall p' s', run_program (p ++ p') = Some s' -> avoids id (p_log s') -> forall k d, ~ In (ERun k id d) (p_log s').
Proof. exact dropped. Qed.
Print Assumptions C25_registered_inside_refuted.

(** Every public operation leaves the lock depth as it found it, whatever balanced callbacks do inside it. *)
Theorem C26_balanced : forall l s a s', tidy_all l -> tidy a -> ~ raw a -> run_program l = Some s ->
  exec_top a s = Some s' -> p_lock s' = p_lock s.
Proof. exact balanced. Qed.
Print Assumptions C26_balanced.
Example C26_balanced_ex : exists s s', run_program [ALock; AAddPost None 1 [AVisit [[AMutate]]]] = Some s /\ p_lock s = 1 /\
  exec_top (AStep false [[AVisit [[ALock; AUnlock true]]]] [[AMutate]]) s = Some s' /\ p_lock s' = 1.
Proof. do 2 eexists. repeat split; vm_compute; reflexivity. Qed.

(** The depth is the number of the user's own Lock calls minus Unlock calls. *)
Theorem C26_nesting : forall l s, tidy_all l -> run_program l = Some s -> p_lock s = net l.
Proof. exact nesting. Qed.
Print Assumptions C26_nesting.
Example C26_nesting_ex : exists s, run_program [ALock; AVisit [[AMutate]]; ALock; AUnlock true] = Some s /\ p_lock s = 1.
Proof. eexists. split; reflexivity. Qed.

(** ReindexShape exits the program when called from a callback of a visiting operation or of Step, and is allowed outside. *)
Theorem C26_visit_refused : forall l s cbs b, plain_all l -> run_program l = Some s -> plain_bodies cbs -> In b cbs ->
  In AReindex b -> exec_top (AVisit cbs) s = None.
Proof. exact visit_refused. Qed.
Print Assumptions C26_visit_refused.
Theorem C26_step_refused : forall l s c1 c2 b, plain_all l -> run_program l = Some s -> plain_bodies c1 -> plain_bodies c2 ->
  In b (c1 ++ c2) -> In AReindex b -> exec_top (AStep false c1 c2) s = None.
Proof. exact step_refused. Qed.
Print Assumptions C26_step_refused.
Theorem C26_outside_allowed : forall l s, plain_all l -> run_program l = Some s -> exec_top AReindex s = Some s.
Proof. exact outside_allowed. Qed.
Print Assumptions C26_outside_allowed.
Example C26_refused_ex : exec_top (AStep false [[AMutate]] [[AVisit []; AReindex]]) p_init = None /\
  exists s, run_program [AVisit [[AMutate]]; AReindex] = Some s.
Proof. split; [reflexivity | eexists; reflexivity]. Qed.

(** Without BBQuery, and without Lock and Unlock of their own, user callbacks run only while the space is locked. *)
Theorem C26_called_locked_partial : forall l s d, plain_all l -> nb_all l -> run_program l = Some s ->
  In (ECall d) (p_log s) -> 1 <= d.
Proof. exact called_locked. Qed.
Print Assumptions C26_called_locked_partial.
Example C26_called_locked_ex : exists s, run_program [AVisit [[AVisit [[]]]]] = Some s /\ In (ECall 2) (p_log s).
Proof. eexists. split; [reflexivity | vm_compute; auto 10]. Qed.

(** False of the code: BBQuery calls back for static shapes while the space is not locked (space.go:953), *)
Theorem C26_bbquery_refuted : exists p s, plain_all p /\ run_program p = Some s /\ In (ECall 0) (p_log s).
Proof. exact bbquery_unlocked. Qed.
Print Assumptions C26_bbquery_refuted.
(** and adding or removing objects is not refused while it is locked. *)
Theorem C26_mutation_refused_refuted : exists p s, plain_all p /\ run_program p = Some s /\ In (EMutate 1) (p_log s).
Proof. exact mutation_while_locked. Qed.
Print Assumptions C26_mutation_refused_refuted.
