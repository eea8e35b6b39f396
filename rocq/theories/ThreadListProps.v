(** C27, C28 at the level of pointers. *)
From Coq Require Import List Bool Arith.
From Verif Require Import Space ThreadList ThreadListSpec ThreadListProofs.
Import ListNotations.
Local Open Scope nat_scope.

(** After any sequence of Init, push and Unthread, walking the list of a body ends, visits exactly the arbiters pushed and
    not unthreaded since that are between this body and another, once each, and prev is the inverse of next. *)
Theorem C27_pointer_lists : forall (os : list top) (b : nat), tok os -> exists l, (forall fuel, length l <= fuel -> each_arbiter fuel (trun os theap0) b = Some l) /\ NoDup l /\
  (forall x, In x l <-> pushed_now x os = true /\ (fst (bodies_now x os) = b \/ snd (bodies_now x os) = b)) /\ mirrored (trun os theap0) b l.
Proof. exact run_each. Qed.
Print Assumptions C27_pointer_lists.
(** Unthread takes the arbiter out of the lists, leaving the rest in order, and changes no list of another body. *)
Theorem C27_pointer_unthread : forall (os : list top) (x b : nat), tok os -> exists l, (forall fuel, length l <= fuel -> each_arbiter fuel (trun os theap0) b = Some l) /\
  (forall fuel, length l <= fuel -> each_arbiter fuel (trun (os ++ [TUnthread x]) theap0) b = Some (remove1 x l)) /\
  (~ (fst (bodies_now x os) = b \/ snd (bodies_now x os) = b) -> remove1 x l = l).
Proof. exact run_unthread. Qed.
Print Assumptions C27_pointer_unthread.
(** Pushing twice is outside the rules: the walk then never ends. *)
Theorem C27_double_push_refuted : exists x b, forall fuel, each_arbiter fuel (trun [TInit x b (S b); TPush x; TPush x] theap0) b = None.
Proof. exact double_push. Qed.
Print Assumptions C27_double_push_refuted.
Example C27_pointer_ex : tok ex_threads /\ each_arbiter 5 (trun ex_threads theap0) 1 = Some [6; 7; 5] /\ each_arbiter 5 (trun ex_threads theap0) 0 = Some [7; 5].
Proof. exact ex_threads_ok. Qed.

Theorem C28_pointer_lists : forall (n : nat) (a b : nat -> nat) (os : list cop), length os <= n -> cok a b os -> exists h, crun n os (cheap0 a b) = Some h /\
  forall y, exists l, (forall fuel, length l <= fuel -> each_constraint fuel h y = Some l) /\ NoDup l /\ forall c, In c l <-> added_now c os = true /\ (a c = y \/ b c = y).
Proof. exact crun_each. Qed.
Print Assumptions C28_pointer_lists.
(** A constraint between a body and itself can be added; removing it dereferences nil. *)
Theorem C28_self_joint_refuted : exists a b c, a c = b c /\ forall fuel, crun fuel [CAdd c; CRemove c] (cheap0 a b) = None.
Proof. exact self_joint. Qed.
Print Assumptions C28_self_joint_refuted.
Example C28_pointer_ex : cok ex_a ex_b ex_joints /\ match crun 9 ex_joints (cheap0 ex_a ex_b) with Some h => each_constraint 5 h 2 | None => None end = Some [1; 2].
Proof. exact ex_joints_ok. Qed.
