(** What the constructors and CacheData leave: the hypotheses of the queries hold. *)
From Coq Require Import ZArith Reals Lra Psatz List Bool Lia Arith.
From Verif Require Import Num NumReal Vec BB Transform Shapes ShapesSpec VecReal ShapesPoint ShapesRay ShapesPoly.
Import ListNotations.
Local Open Scope R_scope.

Lemma turning_rigid t : turning t -> rigid t.
Proof. intros (A & B & C). unfold rigid. rewrite B, C. split; [exact A|]. split; un; lra. Qed.
Lemma turn_dot t (v w : rvec) : turning t -> vdot (tf_apply_vector t v) (tf_apply_vector t w) = vdot v w.
Proof.
  intros (A & B & C). destruct t as [a b c d x y]. cbn [ta tb tc td] in *. subst c d. destruct v as [vx_ vy_], w as [wx wy]. unfold tf_apply_vector. cbn [ta tb tc td]. unV. un.
  transitivity ((a * a + b * b) * (vx_ * wx + vy_ * wy)); [rring|]. rewrite A. rring.
Qed.
Lemma turn_cross t (v w : rvec) : turning t -> vcross (tf_apply_vector t v) (tf_apply_vector t w) = vcross v w.
Proof.
  intros (A & B & C). destruct t as [a b c d x y]. cbn [ta tb tc td] in *. subst c d. destruct v as [vx_ vy_], w as [wx wy]. unfold tf_apply_vector. cbn [ta tb tc td]. unV. un.
  transitivity ((a * a + b * b) * (vx_ * wy - vy_ * wx)); [rring|]. rewrite A. rring.
Qed.
Lemma turn_sub t (v w : rvec) : vsub (tf_apply t v) (tf_apply t w) = tf_apply_vector t (vsub v w).
Proof. destruct v as [vx_ vy_], w as [wx wy]. unfold tf_apply, tf_apply_vector. unV. f_equal; rring. Qed.
Lemma turn_normal t (v : rvec) : turning t -> vunit (vrperp (tf_apply_vector t v)) = tf_apply_vector t (vunit (vrperp v)).
Proof.
  intros T. assert (M : vmag (vrperp (tf_apply_vector t v)) = vmag (vrperp v)).
  { rewrite !rperp_mag. unfold vmag. f_equal. exact (turn_dot t v v T). }
  unfold vunit. rewrite M. set (m := (n1 / vmag (vrperp v))%num). clearbody m. clear M. destruct T as (A & B & C). destruct t as [a b c d x y]. cbn [ta tb tc td] in *. subst c d. destruct v as [vx_ vy_]. unfold tf_apply_vector. cbn [ta tb tc td]. unV. f_equal; rring.
Qed.
Lemma turn_inj t (v w : rvec) : turning t -> tf_apply t v = tf_apply t w -> v = w.
Proof.
  intros T E. apply sub_zero, dot_0. rewrite <- (turn_dot t) by exact T. rewrite <- turn_sub, E. unV. rring.
Qed.
Lemma turn_convex t vs : turning t -> convex vs -> convex (map (tf_apply t) vs).
Proof.
  intros T C i j k a b c IJ JK A B D. rewrite nth_error_map in A, B, D.
  destruct (nth_error vs i) as [a'|] eqn:A'; [|discriminate]. destruct (nth_error vs j) as [b'|] eqn:B'; [|discriminate]. destruct (nth_error vs k) as [c'|] eqn:D'; [|discriminate].
  cbn in A, B, D. injection A as <-. injection B as <-. injection D as <-. rewrite !turn_sub, turn_cross by exact T. exact (C i j k a' b' c' IJ JK A' B' D').
Qed.
Lemma sides_map (f : rvec -> rvec) vs : sides (map f vs) = map (fun e => (f (fst e), f (snd e))) (sides vs).
Proof.
  unfold sides. rewrite map_length, skipn_map, <- map_app. generalize (skipn (length vs - 1) vs ++ vs). intros l. revert vs.
  induction l as [|x l IH]; intros [|y vs]; cbn; try reflexivity. f_equal. apply IH.
Qed.
Lemma turn_planes t vs : turning t -> planes_of (map (tf_apply t) vs) = map (fun q => Plane (tf_apply t (pl_v q)) (tf_apply_vector t (pl_n q))) (planes_of vs).
Proof.
  intros T. unfold planes_of. rewrite sides_map, !map_map. apply map_ext. intros [a b]. cbn [fst snd pl_v pl_n]. rewrite turn_sub, turn_normal by exact T. reflexivity.
Qed.
(* SetVerts gives the planes *)
Lemma set_verts_planes (vs : list rvec) ps : set_verts (length vs) vs = Some ps -> ps = planes_of vs.
Proof.
  unfold set_verts. set (go := fix go (is : list nat) := _).
  assert (G : forall is ps, go is = Some ps -> forall k, match nth_error is k with
     | None => nth_error ps k = None
     | Some i => exists a b, nth_error vs (Nat.modulo (i + length vs - 1) (length vs)) = Some a /\ nth_error vs i = Some b /\ nth_error ps k = Some (Plane b (vunit (vrperp (vsub b a)))) end).
  { induction is as [|i is IH]; intros qs E k; cbn in E.
    - injection E as <-. destruct k; reflexivity.
    - destruct (nth_error vs (Nat.modulo (i + length vs - 1) (length vs))) as [a|] eqn:EA; [|discriminate]. destruct (nth_error vs i) as [b|] eqn:EB; [|discriminate].
      fold go in E. destruct (go is) as [qs'|]; [|discriminate]. injection E as <-. destruct k as [|k]; cbn [nth_error]; [exists a, b; auto|exact (IH qs' eq_refl k)]. }
  intros E. specialize (G _ _ E). clear E go.
  assert (EXT : forall (l m : list (@plane RNum)), (forall k, nth_error l k = nth_error m k) -> l = m).
  { induction l as [|x l IH]; intros [|y m] H; [reflexivity|specialize (H 0%nat); discriminate|specialize (H 0%nat); discriminate|].
    f_equal; [specialize (H 0%nat); cbn in H; congruence|apply IH; intros k; exact (H (S k))]. }
  apply EXT. intros k. specialize (G k). destruct (le_lt_dec (length vs) k) as [L|L].
  - rewrite (proj2 (nth_error_None _ _)) in G by (rewrite seq_length; exact L). rewrite G. symmetry. apply nth_error_None.
    pose proof (f_equal (@length _) (planes_vertices vs)) as X. rewrite map_length in X. lia.
  - rewrite (nth_error_nth' _ 0%nat) in G by (rewrite seq_length; exact L). rewrite seq_nth in G by exact L. cbn [Nat.add] in G. destruct G as (a & b & A & B & ->).
    symmetry. unfold planes_of. rewrite nth_error_map.
    assert (SD : nth_error (sides vs) k = Some (a, b)).
    { unfold sides. destruct vs as [|v0 vs0] eqn:EV; [cbn in L; lia|]. rewrite <- EV in *.
      destruct (exists_last (l := vs)) as [l [x EX]]; [rewrite EV; discriminate|].
      apply nth_combine; [|exact B]. rewrite EX at 1 2. rewrite skipn_last. destruct k as [|k]; cbn [app nth_error].
      - cbn [Nat.add] in A. rewrite Nat.mod_small in A by lia. rewrite <- A. rewrite EX, app_length. cbn [length]. replace (length l + 1 - 1)%nat with (length l) by lia. rewrite nth_error_app2 by lia. rewrite Nat.sub_diag. reflexivity.
      - rewrite <- A. f_equal. replace (S k + length vs - 1)%nat with (k + 1 * length vs)%nat by lia. rewrite Nat.mod_add by lia. rewrite Nat.mod_small by lia. reflexivity. }
    rewrite SD. reflexivity.
Qed.
Lemma poly_made (vs : list rvec) ps (r : R) dst t s' b : set_verts (length vs) vs = Some ps -> (3 <= length vs)%nat -> convex vs -> 0 <= r -> turning t ->
  shape_cache (SPoly (Poly r dst ps)) t = (s', b) -> shape_ok s' /\ core s' = hull (map (tf_apply t) vs) /\ radius_of s' = r.
Proof.
  intros E L C R0 T. apply set_verts_planes in E. subst ps. cbn [shape_cache]. unfold poly_cache. cbn [po_src po_r].
  rewrite <- (turn_planes t vs T). destruct (fold_left _ _ _) as [[[? ?] ?] ?]. intros E. injection E as <- <-.
  assert (V : map pl_v (planes_of (map (tf_apply t) vs)) = map (tf_apply t) vs) by apply planes_vertices.
  assert (LP : length (planes_of (map (tf_apply t) vs)) = length vs) by (rewrite <- (map_length pl_v), V, map_length; reflexivity).
  cbn [shape_ok core radius_of po_dst po_r]. rewrite V. split; [|auto]. split; [exact R0|]. split; [rewrite LP; exact L|]. split; [apply turn_convex; assumption|reflexivity].
Qed.
Lemma segment_made (a b : rvec) (r : R) t s' bx : a <> b -> 0 <= r -> turning t -> shape_cache (SSegment (new_segment a b r)) t = (s', bx) ->
  shape_ok s' /\ exists g, s' = SSegment g /\ sg_r g = r /\ sg_ta g = tf_apply t a /\ sg_tb g = tf_apply t b /\ vdot (sg_tn g) (sg_tn g) = 1 /\ vdot (sg_tn g) (vsub (sg_tb g) (sg_ta g)) = 0.
Proof.
  intros NE R0 T. cbn [shape_cache]. unfold segment_cache, new_segment. cbn [sg_a sg_b sg_n sg_r].
  destruct (if _ <? _ then _ else _)%num as [l rr], (if _ <? _ then _ else _)%num as [bo tp]. intros E. injection E as <- <-.
  split; [cbn; split; [exact R0|]; intros X; apply NE; eapply turn_inj; eassumption|].
  eexists. split; [reflexivity|]. cbn [sg_r sg_ta sg_tb sg_tn]. split; [reflexivity|]. split; [reflexivity|]. split; [reflexivity|].
  rewrite turn_sub, !turn_dot by exact T.
  assert (M : 0 < vmag (vsub b a)) by (apply mag_pos; intros Z; apply NE; symmetry; apply sub_zero; exact Z).
  pose proof (mag_sq (vsub b a)) as Q. set (m := vmag (vsub b a)) in *. set (w := vsub b a) in *. unfold vunit. fold m. clearbody m w. destruct w as [wx wy]. unV. un. split; [|field; lra].
  transitivity ((wx * wx + wy * wy) / (m * m)); [field; lra|]. rewrite <- Q. field. lra.
Qed.
Lemma circle_made (c : rvec) (r : R) t s' bx : 0 <= r -> shape_cache (SCircle (Circle c vzero r)) t = (s', bx) -> shape_ok s' /\ core s' = (fun q => q = tf_apply t c) /\ radius_of s' = r.
Proof. intros R0 E. cbn in E. injection E as <- <-. cbn. auto. Qed.
(** A world of one circle, seen through an index that always reports it. *)
Lemma nearest_witness : let s := SCircle (Circle (V 0 0 : rvec) (V 0 0 : rvec) 1) in
  let world := [(7%nat, s, false, snd (shape_cache s (@tf_identity RNum)))] in
  indexes world (fun _ => [(7%nat, s, false)]) /\ world_ok world (V 3 4 : rvec) /\
  exists i, shape_point_query s (V 3 4 : rvec) = Some i /\ pi_dist i = 4.
Proof.
  cbv zeta. split; [|split].
  - split; [intros box e [<-|[]]; eexists; left; reflexivity|]. intros box e b [E|[]] _. injection E as <- _. left. reflexivity.
  - intros i s f b [E|[]]. injection E as <- <- <- <-. split; [cbn; lra|]. split; [exact I|]. intros q Q.
    refine (cached_box (SCircle (Circle (V 0 0 : rvec) (V 0 0 : rvec) 1)) (@tf_identity RNum) _ _ eq_refl q _).
    assert (Z : tf_apply (@tf_identity RNum) (V 0 0 : rvec) = V 0 0) by (unfold tf_apply, tf_identity; cbn; unR; f_equal; ring). cbn [ci_c ci_r]. rewrite Z. exact Q.
  - eexists. split; [reflexivity|]. cbn [pi_dist circle_point_query ci_tc ci_r]. unV. un.
    replace ((3 - 0) * (3 - 0) + (4 - 0) * (4 - 0)) with (5 * 5) by lra. rewrite R_sqrt.sqrt_square by lra. lra.
Qed.
