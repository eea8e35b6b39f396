(** Proofs for C15: a run that ends with some fuel ends the same with more. *)
From Coq Require Import Bool List Arith Lia.
From Verif Require Import Num Vec BB BBTree BBTreePtr.
Import ListNotations.
Local Open Scope nat_scope.

Section Fuel.
Context {N : Num}.
Variable buf : nat.
Ltac dig :=
  repeat match goal with
  | H : None = Some _ |- _ => discriminate H
  | H : context [match ?e with Some _ => _ | None => None end] |- _ => let E := fresh "E" in destruct e eqn:E; [|try discriminate H]
  end.

Lemma insert_fuel d leaf : forall n m sub h r, ptr_insert buf n d sub leaf h = Some r -> n <= m -> ptr_insert buf m d sub leaf h = Some r.
Proof.
  induction n as [|n IH]; intros m sub h r; destruct sub as [x|]; cbn [ptr_insert]; intros H L; try discriminate; try (destruct m; exact H). destruct m as [|m]; [lia|]. cbn [ptr_insert]. destruct (ptr_is_leaf h x); auto.
  destruct (n_a (nodes h x)) as [a|]; [|discriminate]. destruct (n_b (nodes h x)) as [b|]; [|discriminate]. destruct (to_b _ _ _).
  - destruct (ptr_insert buf n d (Some b) leaf h) as [[u h1]|] eqn:E; [|discriminate]. rewrite (IH m _ _ _ E) by lia. exact H.
  - destruct (ptr_insert buf n d (Some a) leaf h) as [[u h1]|] eqn:E; [|discriminate]. rewrite (IH m _ _ _ E) by lia. exact H.
Qed.
Lemma refit_fuel : forall n m cur (h : nheap) r, refit n cur h = Some r -> n <= m -> refit m cur h = Some r.
Proof.
  induction n as [|n IH]; intros m cur h r; destruct cur as [x|]; cbn [refit]; intros H L; try discriminate; try (destruct m; exact H). destruct m as [|m]; [lia|]. cbn [refit].
  destruct (n_a (nodes h x)) as [a|]; [|discriminate]. destruct (n_b (nodes h x)) as [b|]; [|discriminate]. apply (IH m); auto. lia.
Qed.
Lemma remove_fuel d sub leaf n m (h : nheap) r : ptr_remove n d sub leaf h = Some r -> n <= m -> ptr_remove m d sub leaf h = Some r.
Proof.
  unfold ptr_remove, replace_child. intros H L. destruct (same _ _); auto. destruct (same _ _); auto. destruct (n_parent (nodes h leaf)) as [p|]; [|discriminate]. destruct (other h p leaf) as [o|]; [|discriminate]. destruct (n_parent (nodes h p)) as [q|]; [|discriminate].
  match type of H with context [let* x := ?e in refit _ _ _] => destruct e as [h1|]; [|discriminate] end. destruct (refit n (Some q) h1) as [h2|] eqn:E; [|discriminate]. now rewrite (refit_fuel _ m _ _ _ E L).
Qed.
Lemma clear_fuel leaf : forall n m p h r, clear_loop n leaf p h = Some r -> n <= m -> clear_loop m leaf p h = Some r.
Proof.
  induction n as [|n IH]; intros m p h r; destruct p as [x|]; cbn [clear_loop]; intros H L; try discriminate; try (destruct m; exact H). destruct m as [|m]; [lia|]. cbn [clear_loop]. cbv zeta in *. destruct (unlink _ h) as [h1|]; [|discriminate]. apply (IH m); auto. lia.
Qed.
Lemma pclear_fuel leaf n m h r : ptr_pairs_clear n leaf h = Some r -> n <= m -> ptr_pairs_clear m leaf h = Some r. Proof. apply clear_fuel. Qed.
Lemma mquery_fuel x leaf left : forall n m sub c r, ptr_mark_query buf n x sub leaf left c = Some r -> n <= m -> ptr_mark_query buf m x sub leaf left c = Some r.
Proof.
  induction n as [|n IH]; intros m sub c r; cbn [ptr_mark_query]; intros H L; [discriminate|]. destruct m as [|m]; [lia|]. cbn [ptr_mark_query]. destruct (bb_intersects _ _); auto. destruct (ptr_is_leaf _ _); auto.
  destruct (n_a _) as [a|]; [|discriminate]. destruct (n_b _) as [b|]; [|discriminate]. destruct (ptr_mark_query buf n x a leaf left c) as [c1|] eqn:E; [|discriminate]. rewrite (IH m _ _ _ E) by lia. apply (IH m); auto. lia.
Qed.
Lemma mup_fuel x leaf : forall n m node c r, ptr_mark_up buf n x node leaf c = Some r -> n <= m -> ptr_mark_up buf m x node leaf c = Some r.
Proof.
  induction n as [|n IH]; intros m node c r H L.
  - cbn [ptr_mark_up] in H. destruct m; cbn [ptr_mark_up]; destruct (n_parent _); auto; discriminate.
  - destruct m as [|m]; [lia|]. cbn [ptr_mark_up] in *. destruct (n_parent _) as [p|]; auto. destruct (same _ _).
    + destruct (n_b _) as [b|]; [|discriminate]. destruct (ptr_mark_query buf n x b leaf true c) as [c1|] eqn:E; [|discriminate]. rewrite (mquery_fuel _ _ _ _ m _ _ _ E) by lia. apply (IH m); auto. lia.
    + destruct (n_a _) as [b|]; [|discriminate]. destruct (ptr_mark_query buf n x b leaf false c) as [c1|] eqn:E; [|discriminate]. rewrite (mquery_fuel _ _ _ _ m _ _ _ E) by lia. apply (IH m); auto. lia.
Qed.
Lemma walk_fuel (x : pindex) leaf : forall n m p c r, ptr_pairs_walk n x leaf p c = Some r -> n <= m -> ptr_pairs_walk m x leaf p c = Some r.
Proof.
  induction n as [|n IH]; intros m p c r; destruct p as [q|]; cbn [ptr_pairs_walk]; intros H L; try discriminate; try (destruct m; exact H). destruct m as [|m]; [lia|]. cbn [ptr_pairs_walk]. destruct (same _ _).
  - destruct (t_leaf _); [|discriminate]. apply (IH m); auto. lia. - apply (IH m); auto. lia.
Qed.
Lemma mleaf_fuel x leaf n m c r : ptr_mark_leaf buf n x leaf c = Some r -> n <= m -> ptr_mark_leaf buf m x leaf c = Some r.
Proof.
  unfold ptr_mark_leaf. intros H L. destruct (Nat.eqb _ _).
  - destruct (n_root _ false) as [t|].
    + destruct (ptr_mark_query buf n x t leaf false c) as [c1|] eqn:E; [|discriminate]. rewrite (mquery_fuel _ _ _ _ m _ _ _ E L). eapply mup_fuel; eauto.
    + eapply mup_fuel; eauto.
  - eapply walk_fuel; eauto.
Qed.
Lemma msub_fuel x : forall n m f g sub c r, ptr_mark_subtree buf f n x sub c = Some r -> n <= m -> f <= g -> ptr_mark_subtree buf g m x sub c = Some r.
Proof.
  induction n as [|n IH]; intros m f g sub c r; cbn [ptr_mark_subtree]; intros H L G; [discriminate|]. destruct m as [|m]; [lia|]. cbn [ptr_mark_subtree]. destruct (ptr_is_leaf _ _); [eapply mleaf_fuel; eauto|].
  destruct (n_a _) as [a|]; [|discriminate]. destruct (n_b _) as [b|]; [|discriminate]. destruct (ptr_mark_subtree buf f n x a c) as [c1|] eqn:E; [|discriminate]. rewrite (IH m f g _ _ _ E) by lia. apply (IH m f g); auto. lia.
Qed.
Lemma add_fuel x d leaf n m r : ptr_add_pairs buf n x d leaf = Some r -> n <= m -> ptr_add_pairs buf m x d leaf = Some r.
Proof.
  unfold ptr_add_pairs. intros H L. destruct d.
  - destruct (ptr_mark_leaf buf n x leaf _) as [c|] eqn:E; [|discriminate]. now rewrite (mleaf_fuel _ _ _ m _ _ E L).
  - destruct (n_root _ true) as [t|]; auto. destruct (ptr_mark_query buf n x t leaf true _) as [c|] eqn:E; [|discriminate]. now rewrite (mquery_fuel _ _ _ _ m _ _ _ E L).
Qed.
Lemma dinsert_fuel x d i n m r : ptr_do_insert buf n x d i = Some r -> n <= m -> ptr_do_insert buf m x d i = Some r.
Proof.
  unfold ptr_do_insert. intros H L. destruct (match find_leaf x d i with Some l => (l, x) | None => _ end) as [leaf y]. destruct (ptr_insert buf n d _ leaf _) as [[t h]|] eqn:E; [|discriminate]. rewrite (insert_fuel _ _ _ m _ _ _ E L).
  destruct (ptr_add_pairs buf n _ d leaf) as [z|] eqn:E1; [|discriminate]. now rewrite (add_fuel _ _ _ _ m _ E1 L).
Qed.
Lemma dremove_fuel (x : pindex) d i n m r : ptr_do_remove n x d i = Some r -> n <= m -> ptr_do_remove m x d i = Some r.
Proof.
  unfold ptr_do_remove. intros H L. destruct (find_leaf x d i) as [leaf|]; [|discriminate]. destruct (ptr_remove n d _ leaf _) as [[t h]|] eqn:E; [|discriminate]. rewrite (remove_fuel _ _ _ _ m _ _ E L). destruct (ptr_pairs_clear n leaf _) as [p|] eqn:E1; [|discriminate]. now rewrite (pclear_fuel _ _ m _ _ E1 L).
Qed.
Lemma update_fuel x d leaf n m r : ptr_leaf_update buf n x d leaf = Some r -> n <= m -> ptr_leaf_update buf m x d leaf = Some r.
Proof.
  unfold ptr_leaf_update. intros H L. destruct (n_obj _) as [i|]; [|discriminate]. destruct (bb_contains _ _); auto. destruct (ptr_remove n d _ leaf _) as [[t h]|] eqn:E; [|discriminate]. rewrite (remove_fuel _ _ _ _ m _ _ E L). destruct (ptr_insert buf n d t leaf h) as [[t1 h1]|] eqn:E1; [|discriminate]. rewrite (insert_fuel _ _ _ m _ _ _ E1 L).
  destruct (ptr_pairs_clear n leaf _) as [p|] eqn:E2; [|discriminate]. now rewrite (pclear_fuel _ _ m _ _ E2 L).
Qed.
Lemma dreindex_fuel x d i n m r : ptr_do_reindex buf n x d i = Some r -> n <= m -> ptr_do_reindex buf m x d i = Some r.
Proof.
  unfold ptr_do_reindex. intros H L. destruct (find_leaf x d i) as [leaf|]; auto. destruct (ptr_leaf_update buf n x d leaf) as [[y b]|] eqn:E; [|discriminate]. rewrite (update_fuel _ _ _ _ m _ E L). destruct b; auto. destruct (ptr_add_pairs buf n y d leaf) as [z|] eqn:E1; [|discriminate]. now rewrite (add_fuel _ _ _ _ m _ E1 L).
Qed.
Lemma all_fuel n m order : n <= m -> forall x r, ptr_update_all buf n x order = Some r -> ptr_update_all buf m x order = Some r.
Proof.
  intros L. induction order as [|i order IH]; cbn [ptr_update_all]; intros x r H; auto. destruct (find_leaf x true i) as [leaf|]; [|discriminate]. destruct (ptr_leaf_update buf n x true leaf) as [[y b]|] eqn:E; [|discriminate]. rewrite (update_fuel _ _ _ _ m _ E L). auto.
Qed.
Lemma dquery_fuel x order n m r : ptr_do_query buf n x order = Some r -> n <= m -> ptr_do_query buf m x order = Some r.
Proof.
  unfold ptr_do_query. intros H L. destruct (n_root _ true); auto. destruct (ptr_update_all buf n x order) as [y|] eqn:E; [|discriminate]. rewrite (all_fuel n m order L _ _ E). destruct (n_root _ true) as [t|]; [|discriminate]. destruct (ptr_mark_subtree buf n n y t _) as [c|] eqn:E1; [|discriminate]. now rewrite (msub_fuel _ _ m _ m _ _ _ E1 L L).
Qed.
Lemma step_fuel x o n m r : ptr_step buf n x o = Some r -> n <= m -> ptr_step buf m x o = Some r.
Proof.
  unfold ptr_step. intros H L. destruct o as [box vel|d i|d i|d i|order]; auto.
  - destruct (ptr_do_insert buf n x d i) as [y|] eqn:E; [|discriminate]. now rewrite (dinsert_fuel _ _ _ _ m _ E L).
  - destruct (ptr_do_remove n x d i) as [y|] eqn:E; [|discriminate]. now rewrite (dremove_fuel _ _ _ _ m _ E L).
  - destruct (ptr_do_reindex buf n x d i) as [y|] eqn:E; [|discriminate]. now rewrite (dreindex_fuel _ _ _ _ m _ E L).
  - now apply (dquery_fuel _ _ n).
Qed.
Lemma run_fuel n m h : n <= m -> forall x r, ptr_run buf n x h = Some r -> ptr_run buf m x h = Some r.
Proof.
  intros L. induction h as [|o h IH]; cbn [ptr_run]; intros x r H; auto. destruct (ptr_step buf n x o) as [[y c]|] eqn:E; [|discriminate]. rewrite (step_fuel _ _ _ m _ E L). destruct (ptr_run buf n y h) as [[z cs]|] eqn:E1; [|discriminate]. now rewrite (IH _ _ E1).
Qed.
End Fuel.
