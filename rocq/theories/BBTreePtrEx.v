(** A concrete history for C15. *)
From Coq Require Import Bool List Arith Lia Permutation Floats.
From Verif Require Import Num NumFloat Vec BB BBTree BBTreeSpec BBTreePtr BBTreePtrSpec BBTreeMain.
Import ListNotations.
Local Open Scope nat_scope.

Lemma valid_order {N : Num} {O : NumOrd N} h : forall x, xvalid_all x h -> in_order_all x h.
Proof. induction h as [|o h IH]; intros x; cbn; auto. intros [A B]. split; auto. destruct o; cbn in *; auto. Qed.
Definition ex_ops : list (@xop FNum) := ex_hist ++ [XQuery [2; 1]].
Lemma ex_in_order : in_order_all (index0 ex_box1 ex_vel) ex_ops.
Proof.
  assert (K : forall x d (l : list nat), x_leaves (N:=FNum) x d = l -> forall i, ~ In i l -> ~ In i (x_leaves x d)) by (intros x d l -> i H; exact H).
  assert (K' : forall x d (l : list nat), x_leaves (N:=FNum) x d = l -> forall i, In i l -> In i (x_leaves x d)) by (intros x d l -> i H; exact H).
  unfold ex_ops, ex_hist; cbn [app in_order_all].
  split. { cbn [in_order]. eapply K; [vm_compute; reflexivity|]. cbn. intuition lia. }
  split. { cbn [in_order]. eapply K; [vm_compute; reflexivity|]. cbn. intuition lia. }
  split. { cbn [in_order]. eapply K; [vm_compute; reflexivity|]. cbn. intuition lia. }
  split. { cbn [in_order]. eapply K; [vm_compute; reflexivity|]. cbn. intuition lia. }
  split. { cbn [in_order]. match goal with |- Permutation _ ?l => replace l with [2; 1; 0]%nat by (vm_compute; reflexivity) end.
           change [1; 0; 2]%nat with ([1; 0] ++ [2])%nat. rewrite Permutation_app_comm. reflexivity. }
  split; [exact I|].
  split. { cbn [in_order]. eapply K'; [vm_compute; reflexivity|]. cbn. auto. }
  split; [|exact I]. cbn [in_order]. match goal with |- Permutation _ ?l => replace l with [2; 1]%nat by (vm_compute; reflexivity) end. reflexivity.
Qed.
Definition ex_facts (s : @pindex FNum) :=
  (map (n_root (ix_n s)) [true; false], map (fun a => (n_obj (nodes (ix_n s) a), n_a (nodes (ix_n s) a), n_b (nodes (ix_n s) a))) [1020; 1021; 1023; 2049],
   map (p_head (ix_p s)) [1021; 1023; 2049], map (fun p => (pth (ix_p s) p true, pth (ix_p s) p false)) [1022; 1023; 1024]).
Definition ex_calls : list (list (option nat * option nat)) :=
  [[]; []; []; []; [(Some 3, Some 1); (Some 3, Some 0); (Some 1, Some 0)]; []; []; [(Some 2, Some 3); (Some 2, Some 1); (Some 3, Some 1)]].
Lemma ex_run : option_map (fun r => (ex_facts (fst r), snd r)) (ptr_run (N := FNum) 1024 20 (pindex0 ex_box1 ex_vel) ex_ops) =
  Some ([Some 1020; Some 2049], [(None, Some 1021, Some 1023); (Some 2, None, None); (Some 1, None, None); (Some 3, None, None)],
   [Some 1022; Some 1022; Some 1024], [(Thread None (Some 1024) (Some 1021), Thread None (Some 1023) (Some 1023));
    (Thread (Some 1024) None (Some 2049), Thread (Some 1022) None (Some 1023)); (Thread None (Some 1023) (Some 2049), Thread (Some 1022) None (Some 1021))], ex_calls).
Proof. vm_compute. reflexivity. Qed.
(* the three leaves and their pair lists: every pair is in two of them *)
Lemma ex_ptr_ok : in_order_all (index0 ex_box1 ex_vel) ex_ops /\ exists s, ptr_reached 1024 ex_box1 ex_vel ex_ops s ex_calls /\
  leaf_node s (true, 2) 1021 /\ leaf_node s (true, 1) 1023 /\ leaf_node s (false, 3) 2049 /\
  pair_list (ix_p s) 1021 [1022; 1024] /\ pair_list (ix_p s) 1023 [1022; 1023] /\ pair_list (ix_p s) 2049 [1024; 1023].
Proof.
  split; [exact ex_in_order|]. pose proof ex_run as E. unfold ptr_reached. destruct (ptr_run 1024 20 (pindex0 ex_box1 ex_vel) ex_ops) as [[s c]|] eqn:Er; [|discriminate E].
  exists s. cbn [option_map fst snd] in E. unfold ex_facts in E. cbn [map] in E. injection E. clear E. intros -> T1 T2 T3 T4 T5 T6 H1 H2 H3 O1 O2 O3 O4 O5 O6 O7 O8 O9 O10 O11 O12 R1 R2.
  split; [exists 20; exact Er|]. unfold leaf_node, tree_node, pair_list. cbn [fst snd list_walk]. rewrite R1, R2, H1, H2, H3.
  split. { split; auto. exists 1020. split; auto. eapply below_a; eauto. constructor. }
  split. { split; auto. exists 1020. split; auto. eapply below_b; eauto. constructor. }
  split. { split; auto. exists 2049. split; auto. constructor. }
  split; [|split]; (split; [reflexivity|]).
  - exists true. rewrite T6. cbn [t_leaf t_prev t_next]. repeat split. exists false. rewrite T1. repeat split.
  - exists false. rewrite T5. cbn [t_leaf t_prev t_next]. repeat split. exists false. rewrite T3. repeat split.
  - exists true. rewrite T2. cbn [t_leaf t_prev t_next]. repeat split. exists true. rewrite T4. repeat split.
Qed.
