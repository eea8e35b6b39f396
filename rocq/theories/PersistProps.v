(** C56, C57: contacts that persist from step to step, and their push.  [update] is Arbiter.Update; [mem]: what an older contact left in the buffer;
    [mirror]: the same pair with its shapes in the other order; [arb_alone k c H s]: the cached impulse scaled by c, then k
    iterations, of that arbiter alone. *)
From Coq Require Import ZArith NArith Bool List Reals Lra.
From Verif Require Import Num NumReal NumFloat Vec Transform Body BodySpec Solver SolverSpec Narrow Persist PersistSpec PersistProofs PersistProofs2.
Import ListNotations.
Local Open Scope R_scope.

(* the impulses of the (last) old contact with the same hash, none for a new contact *)
Theorem C56_impulses_carried : forall {N : Num} H a b ma mb sw mem inf (s : sarb) i c, nth_error (nf_arr inf) i = Some c ->
  exists k, nth_error (s_contacts (update H a b ma mb sw mem inf s)) i = Some k /\ k_hash k = Z.of_N (nc_hash c) /\
    k_r1 k = vsub (nc_p1 c) (b_pos (H a)) /\ k_r2 k = vsub (nc_p2 c) (b_pos (H b)) /\
    (forall l1 o l2, s_contacts s = l1 ++ o :: l2 -> k_hash o = k_hash k -> (forall p, In p l2 -> k_hash p <> k_hash k) -> k_jn k = k_jn o /\ k_jt k = k_jt o) /\
    ((forall o, In o (s_contacts s) -> k_hash o <> k_hash k) -> k_jn k = n0 /\ k_jt k = n0).
Proof. exact @update_carries. Qed.
(* what an earlier contact left in the contact buffer is never read *)
Theorem C56_no_stale_memory : forall {N : Num} H H' a b ma mb sw mem mem' inf (s : sarb) dt slop bias,
  arb_prestep H' dt slop bias (update H a b ma mb sw mem inf s) = arb_prestep H' dt slop bias (update H a b ma mb sw mem' inf s).
Proof. exact @stale_irrelevant. Qed.
(* what the handlers and the user see of the contact is what the narrow phase found, in the order the handler asked for *)
Theorem C56_contact_point_set : forall (H : Rheap) a b ma mb sw mem inf (s : Rsarb),
  contact_point_set H (update H a b ma mb sw mem inf s) =
  CPSet (if sw then vneg (nf_n inf) else nf_n inf)
    (map (fun c => let d := vdot (vsub (nc_p2 c) (nc_p1 c)) (nf_n inf) in if sw then (nc_p2 c, nc_p1 c, d) else (nc_p1 c, nc_p2 c, d)) (nf_arr inf)).
Proof. exact update_points. Qed.
(* surface velocity acts along the surface only *)
Theorem C56_surface_velocity : forall (a b : @material RNum) (n : @vec RNum), vdot n n = 1 -> vdot (surface_velocity a b n) n = 0 /\
  vdot (surface_velocity a b n) (vperp n) = vdot (mt_sv b) (vperp n) - vdot (mt_sv a) (vperp n).
Proof. exact surface_tangent. Qed.
(* the order in which the collision phase met the two shapes is immaterial: the same arbiter up to order, *)
Theorem C56_update_either_order : forall (H : Rheap) a b ma mb sw sw' mem inf (s t : Rsarb), same_pair s t ->
  update H b a mb ma sw mem (flip inf) t = mirror sw (update H a b ma mb sw' mem inf s).
Proof. exact mirror_update. Qed.
(* the same velocities of all bodies after the whole solver, whatever the gravity, the joints and the other arbiters, *)
Theorem C56_solve_either_order : forall n slop bias g d dt prevdt L (w w' : Rworld),
  w_heap w' = w_heap w -> w_joints w' = w_joints w -> Forall2 (fun s t => s_a s <> s_b s /\ same_pair s t) (w_arbs w) (w_arbs w') ->
  let v := solve n slop bias g d dt prevdt L w in let v' := solve n slop bias g d dt prevdt L w' in
  w_heap v' = w_heap v /\ w_joints v' = w_joints v /\ Forall2 (fun s t => s_a s <> s_b s /\ same_pair s t) (w_arbs v) (w_arbs v').
Proof. intros n slop bias g d dt prevdt L w w' A B C. exact (order_irrelevant n slop bias g d dt prevdt L w w' (conj A (conj B C))). Qed.
(* and the same reports to the user, since the handler half of Update flips the flag *)
Theorem C56_reports_either_order : forall (H : Rheap) (s : Rsarb), let t := mirror (negb (s_swapped s)) s in
  arb_normal t = arb_normal s /\ contact_point_set H t = contact_point_set H s /\ total_impulse t = total_impulse s.
Proof. intros H s. exact (conj (mirror_normal s) (conj (mirror_points H s) (mirror_total s))). Qed.
(* one arbiter alone: the change of the speed along the normal, exactly *)
Theorem C57_normal_speed : forall k dtcoef (H : Rheap) (s : Rsarb), s_a s <> s_b s -> vdot (s_n s) (s_n s) = 1 ->
  let '(H', s') := arb_alone k dtcoef H s in
  let J := rsum (map (fun c => k_jn c) (s_contacts s')) - (if s_first s then 1 else 1 - dtcoef) * rsum (map (fun c => k_jn c) (s_contacts s)) in
  vdot (b_vel (H' (s_b s))) (s_n s) = vdot (b_vel (H (s_b s))) (s_n s) + b_minv (H (s_b s)) * J /\
  vdot (b_vel (H' (s_a s))) (s_n s) = vdot (b_vel (H (s_a s))) (s_n s) - b_minv (H (s_a s)) * J.
Proof. exact alone_exact. Qed.
(* it pushes: new contacts, or a time step that does not shrink *)
Theorem C57_pushes : forall k dtcoef (H : Rheap) (s : Rsarb), s_a s <> s_b s -> vdot (s_n s) (s_n s) = 1 -> (0 < k)%nat ->
  0 <= b_minv (H (s_a s)) -> 0 <= b_minv (H (s_b s)) -> (forall c, In c (s_contacts s) -> 0 <= k_jn c) ->
  (if s_first s then forall c, In c (s_contacts s) -> k_jn c = 0 else 1 <= dtcoef) ->
  let H' := fst (arb_alone k dtcoef H s) in
  vdot (b_vel (H (s_b s))) (s_n s) <= vdot (b_vel (H' (s_b s))) (s_n s) /\
  vdot (b_vel (H' (s_a s))) (s_n s) <= vdot (b_vel (H (s_a s))) (s_n s).
Proof. exact alone_pushes. Qed.
Theorem C57_new_pair_fresh : forall (H : Rheap) a b ma mb sw mem inf (s : Rsarb), s_contacts s = [] ->
  forall c, In c (s_contacts (update H a b ma mb sw mem inf s)) -> k_jn c = 0.
Proof. exact update_fresh. Qed.
(* false of a pair that separated and meets again while its arbiter is cached: the carried impulse is not applied (the collision is a
   first collision) but is taken back: a body leaving at speed 1 is stopped *)
Theorem C57_rejoined_pair_pulls_refuted : exists (H : Rheap) ma mb mem inf (s : Rsarb), s_cached s = true /\
  let t := arb_prestep H 1 0 0 (update H 0 1 ma mb false mem inf s) in
  s_first t = true /\ vdot (s_n t) (s_n t) = 1 /\ (forall c, In c (s_contacts t) -> 0 <= k_jn c) /\
  vdot (b_vel (H 1%nat)) (s_n t) = 1 /\ vdot (b_vel (fst (arb_alone 1 1 H t) 1%nat)) (s_n t) = 0.
Proof.
  exists pull_H, pull_mat, pull_mat, pull_mem, pull_info, (pull_old false true). split; [reflexivity|]. fold (pull_arb false true). cbv zeta.
  pose proof (pull_result true 1 ltac:(lra)) as X. rewrite pull_arb_eq in *. cbn [s_first s_n s_contacts]. cbv zeta in X.
  split; [reflexivity|]. split; [unfold vdot; cbn; unR; lra|]. split; [intros c [<-|[]]; cbn; unR; lra|]. split; [unfold vdot; cbn; unR; lra|exact X].
Qed.
(* false when the time step shrinks: half of the impulse is applied, all of it may be taken back *)
Theorem C57_shrinking_step_pulls_refuted : exists (H : Rheap) ma mb mem inf (s : Rsarb), s_cached s = false /\ s_first s = false /\
  let t := arb_prestep H 1 0 0 (update H 0 1 ma mb false mem inf s) in
  s_first t = false /\ vdot (s_n t) (s_n t) = 1 /\ (forall c, In c (s_contacts t) -> 0 <= k_jn c) /\
  vdot (b_vel (H 1%nat)) (s_n t) = 1 /\ vdot (b_vel (fst (arb_alone 1 (1/2) H t) 1%nat)) (s_n t) = 1/2.
Proof.
  exists pull_H, pull_mat, pull_mat, pull_mem, pull_info, (pull_old false false). split; [reflexivity|]. split; [reflexivity|]. fold (pull_arb false false). cbv zeta.
  pose proof (pull_result false (1/2) ltac:(lra)) as X. rewrite pull_arb_eq in *. cbn [s_first s_n s_contacts]. cbv zeta in X.
  split; [reflexivity|]. split; [unfold vdot; cbn; unR; lra|]. split; [intros c [<-|[]]; cbn; unR; lra|]. split; [unfold vdot; cbn; unR; lra|exact X].
Qed.

(** Two old contacts, hashes 5 and 9; two new ones, hashes 9 and 7: the impulses of 9 are carried, 7 starts from zero. *)
Example carried_example :
  let z := @V RNum 0 0 in
  let old h j t := @Contact RNum z z 0 0 0 j t 0 0 h in
  let s := @SArb RNum 0 1 0 0 z z false false false [old 5%Z 3 4; old 9%Z 1 2] in
  let inf := @NInfo RNum z [@NContact RNum z z 9%N; @NContact RNum z z 7%N] 0%N in
  let m := @Material RNum 0 0 z in
  map (fun c => (k_hash c, k_jn c, k_jt c)) (s_contacts (update pull_H 0 1 m m false (fun _ => old 0%Z 8 8) inf s)) = [(9%Z, 1, 2); (7%Z, 0, 0)].
Proof. reflexivity. Qed.
(** A falling body on a floor, first contact: the hypotheses of C57_pushes hold. *)
Example pushes_example :
  let t := arb_prestep pull_H 1 0 0 (update pull_H 0 1 pull_mat pull_mat false pull_mem pull_info (@SArb RNum 0 1 0 0 (@V RNum 0 0) (@V RNum 0 1) false true false [])) in
  s_a t <> s_b t /\ vdot (s_n t) (s_n t) = 1 /\ 0 <= b_minv (pull_H (s_a t)) /\ 0 < b_minv (pull_H (s_b t)) /\ length (s_contacts t) = 1%nat /\
  s_first t = true /\ (forall c, In c (s_contacts t) -> k_jn c = 0).
Proof.
  cbv zeta. split; [discriminate|]. split; [unfold vdot; cbn; unR; lra|]. split; [cbn; unR; lra|]. split; [cbn; unR; lra|]. split; [reflexivity|]. split; [reflexivity|].
  intros c [<-|[]]. reflexivity.
Qed.

Print Assumptions C56_impulses_carried.
Print Assumptions C56_no_stale_memory.
Print Assumptions C56_contact_point_set.
Print Assumptions C56_surface_velocity.
Print Assumptions C56_update_either_order.
Print Assumptions C56_solve_either_order.
Print Assumptions C56_reports_either_order.
Print Assumptions C57_normal_speed.
Print Assumptions C57_pushes.
Print Assumptions C57_new_pair_fresh.
Print Assumptions C57_rejoined_pair_pulls_refuted.
Print Assumptions C57_shrinking_step_pulls_refuted.
