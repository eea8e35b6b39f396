(** Instances of the C64 statements and a concrete space. *)
From Coq Require Import ZArith List Bool Arith Permutation Lia Reals Floats.
From Flocq Require Import Core.
From Verif Require Import Num NumReal NumFloat Vec BB BBTree BBTreeSpec Filter SpaceHash SpaceHashSpec SpaceHashMain SpaceHashGrid SpaceHashWalk SpaceHashCases SpaceQuery SpaceQuerySpec SpaceQueryProofs SpaceQueryEx HashUse HashUseSpec HashUseProofs.
From Verif Require Space SpaceSpec SpaceMain SpaceRuns.
Import ListNotations.
Local Open Scope nat_scope.

Lemma real_same dim cells : (0 < dim)%R -> 0 < cells -> forall (s : @Space.space RNum) flt x order tree_order nowD st dy,
  SpaceSpec.reachable (N := RNum) s -> Space.s_lock s = 0%Z -> (forall l, Permutation l (order l)) ->
  reached (N := RNum) x -> indexes_space s x -> fresh x false -> Permutation tree_order (x_leaves x true) ->
  hashed (N := RNum) Ztrunc rfloor dim cells (Space.s_six s) (fun i b => b = x_box x i) st -> hashed (N := RNum) Ztrunc rfloor dim cells (Space.s_dix s) nowD dy -> (forall i, contained s i -> valid_box (x_box x i)) ->
  exists ps, hash_pairs (N := RNum) Ztrunc dim cells s flt (x_box x) order st dy = Some ps /\ forall i j, mentions i j ps = mentions i j (narrow_pairs s flt x tree_order).
Proof.
  intros D C s flt x order tree_order nowD st dy R L P Rx Ix F PT HS HD Gd. apply (same_as_tree (N := RNum) Ztrunc rfloor dim cells C (fun _ => True) (real_monotone dim D) s flt x order tree_order nowD st dy); auto.
  intros i Ci. split; [repeat split|auto].
Qed.
(* the pile of SpaceQueryEx.v *)
Definition coins : nat -> nat := fun i => i mod 3.
Definition pile_hashes : option (hash * hash) := use_spatial_hash (N := FNum) Fint 2%float 50 8 coins pile_box [0] [1; 2; 3].
Lemma pile_gridded i : box_in (Nm := FNum) (gridded 2%float) (pile_box i) /\ valid_box (Nm := FNum) (pile_box i).
Proof. destruct i as [|[|[|i]]]; (split; [repeat split|split]); vm_compute; reflexivity. Qed.
Lemma hash_example : exists (s : @Space.space FNum) st dy, SpaceSpec.reachable (N := FNum) s /\ Space.s_lock s = 0%Z /\
  Permutation [0] (map snd (Space.s_six s)) /\ Permutation [1; 2; 3] (map snd (Space.s_dix s)) /\ monotone (Nm := FNum) Fint 2%float (gridded 2%float) /\
  (forall i, box_in (Nm := FNum) (gridded 2%float) (pile_box i) /\ valid_box (Nm := FNum) (pile_box i)) /\
  use_spatial_hash (N := FNum) Fint 2%float 50 8 coins pile_box [0] [1; 2; 3] = Some (st, dy) /\
  hash_pairs (N := FNum) Fint 2%float 50 s (fun _ => filter_all) pile_box (@rev nat) st dy = Some [(3, 2); (3, 1); (1, 0); (2, 0); (3, 0)] /\
  hash_bb_query (N := FNum) Fint 2%float 50 (fun _ => filter_all) pile_box filter_all (fbb 2.25 1 5 5)%float st dy = Some [0; 3; 2] /\ hash_counts st dy = (3, 1, 4).
Proof.
  destruct (SpaceRuns.sees_ex (SpaceRuns.runb (run0 4 true) start0) (fun s => (Space.s_lock s =? 0)%Z &&
    (match map snd (Space.s_six s) with [0] => true | _ => false end && match map snd (Space.s_dix s) with [3; 2; 1] => true | _ => false end) &&
    match pile_hashes with Some (st, dy) => match hash_pairs (N := FNum) Fint 2%float 50 s (fun _ => filter_all) pile_box (@rev nat) st dy with Some [(3, 2); (3, 1); (1, 0); (2, 0); (3, 0)] => true | _ => false end | None => false end)) as (s & E & H); [vm_compute; reflexivity|].
  apply andb_true_iff in H. destruct H as [H P]. apply andb_true_iff in H. destruct H as [L Ix]. apply Z.eqb_eq in L. apply andb_true_iff in Ix. destruct Ix as [I0 I1].
  destruct pile_hashes as [[st dy]|] eqn:Q; [|discriminate P].
  assert (X : match pile_hashes with Some (st, dy) => (hash_bb_query (N := FNum) Fint 2%float 50 (fun _ => filter_all) pile_box filter_all (fbb 2.25 1 5 5)%float st dy, hash_counts st dy) | None => (None, (0, 0, 0)) end = (Some [0; 3; 2], (3, 1, 4))) by (vm_compute; reflexivity).
  rewrite Q in X. revert Q. unfold pile_hashes. intros Q. apply pair_equal_spec in X. destruct X as [X1 X2].
  exists s, st, dy. split; [eapply SpaceRuns.runb_reachable; exact E|]. split; auto.
  split; [clear - I0; destruct (map snd (Space.s_six s)) as [|[|?] [|? ?]]; try discriminate I0; apply Permutation_refl|].
  split; [clear - I1; destruct (map snd (Space.s_dix s)) as [|[|[|[|[|?]]]] [|[|[|[|?]]] [|[|[|?]] [|? ?]]]]; try discriminate I1; apply (Permutation_rev [1; 2; 3])|].
  split; [apply float_monotone; vm_compute; reflexivity|]. split; [exact pile_gridded|]. split; [exact Q|]. split; [|auto].
  destruct (hash_pairs _ _ _ _ _ _ _ _ _) as [l|]; [|discriminate P]. clear - P.
  repeat match type of P with
  | match ?l with [] => _ | _ => _ end = true => destruct l as [|[? ?] ?]; try discriminate P
  | context [match ?n with O => _ | _ => _ end] => destruct n; try discriminate P
  end. reflexivity.
Qed.
