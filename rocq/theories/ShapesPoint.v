(** Proofs about bounding boxes and point queries (Shapes.v) over the reals. *)
From Coq Require Import ZArith Reals Lra Psatz List Bool Lia.
From Verif Require Import Num NumReal Vec BB Transform Shapes ShapesSpec VecReal.
Import ListNotations.
Local Open Scope R_scope.

Lemma abs_bounds (x m : R) : Rabs x <= m -> - m <= x <= m.
Proof. unfold Rabs. destruct (Rcase_abs x); lra. Qed.
Lemma dist_nonneg (p q : rvec) : 0 <= vdist p q.
Proof. apply mag_nonneg. Qed.
Lemma is_dist_nonneg K p d : is_dist K p d -> 0 <= d.
Proof. intros [[q [_ <-]] _]. apply dist_nonneg. Qed.
Lemma is_dist_unique K p d e : is_dist K p d -> is_dist K p e -> d = e.
Proof. intros [[q [Q <-]] M] [[q' [Q' <-]] M']. apply Rle_antisym; auto. Qed.
Lemma dist_x (p q : rvec) : Rabs (vx p - vx q) <= vdist p q.
Proof. apply (x_le_mag (vsub p q)). Qed.
Lemma dist_y (p q : rvec) : Rabs (vy p - vy q) <= vdist p q.
Proof. apply (y_le_mag (vsub p q)). Qed.

(** ** Boxes *)
Definition in_box (b : @bb RNum) (q : rvec) : Prop := bL b <= vx q <= bR b /\ bB b <= vy q <= bT b.
Lemma in_box_model b q : in_box b q <-> bb_contains_vect b q = true.
Proof. unfold in_box, bb_contains_vect. unR. rewrite !andb_true_iff, !Rleb_true. tauto. Qed.
Lemma inflate (l b r t rad : R) (q k : rvec) : in_box (mkBB l b r t) k -> vdist q k <= rad -> in_box (mkBB (l - rad) (b - rad) (r + rad) (t + rad)) q.
Proof.
  intros [H1 H2] D. pose proof (dist_x q k) as X. pose proof (dist_y q k) as Y. unfold in_box in *. cbn [bL bR bB bT] in *. unR.
  apply abs_bounds in X. apply abs_bounds in Y. lra.
Qed.
Lemma between_box a b q (bx : @bb RNum) : between a b q -> in_box bx a -> in_box bx b -> in_box bx q.
Proof.
  intros [t [T ->]] [A1 A2] [B1 B2]. destruct a as [ax ay], b as [bx' by_], bx as [l bo r tp]. unfold in_box in *. unV. cbn [bL bR bB bT] in *. unR. nra.
Qed.
Lemma hull_box vs q (bx : @bb RNum) : hull vs q -> (forall v, In v vs -> in_box bx v) -> in_box bx q.
Proof. intros H B. induction H as [v V|a b t HA IA HB IB T]; [auto|]. eapply between_box; [exists t; eauto| |]; auto. Qed.
Definition pmm (acc : R * R * R * R) (q : plane) : R * R * R * R :=
  let '(l, r, b, tp) := acc in let v := pl_v q in (Rmin l (vx v), Rmax r (vx v), Rmin b (vy v), Rmax tp (vy v)).
Definition start4 : R * R * R * R := (@ninf RNum, @nneg RNum ninf, @ninf RNum, @nneg RNum ninf).
Lemma pmm_spec ps l r b t l' r' b' t' : fold_left pmm ps (l, r, b, t) = (l', r', b', t') ->
  l' <= l /\ r <= r' /\ b' <= b /\ t <= t' /\ forall q, In q ps -> in_box (mkBB l' b' r' t') (pl_v q).
Proof.
  revert l r b t. induction ps as [|q ps IH]; intros l r b t; simpl.
  - intros E. inversion E. repeat split; try lra; contradiction.
  - intros E. apply IH in E. destruct E as (E1 & E2 & E3 & E4 & E5).
    pose proof (Rmin_l l (vx (pl_v q))). pose proof (Rmin_r l (vx (pl_v q))). pose proof (Rmin_l b (vy (pl_v q))). pose proof (Rmin_r b (vy (pl_v q))).
    pose proof (Rmax_l r (vx (pl_v q))). pose proof (Rmax_r r (vx (pl_v q))). pose proof (Rmax_l t (vy (pl_v q))). pose proof (Rmax_r t (vy (pl_v q))).
    split; [lra|]. split; [lra|]. split; [lra|]. split; [lra|]. intros q' [<-|Q]; [|auto]. unfold in_box. cbn [bL bR bB bT]. change (@num RNum) with R in *. lra.
Qed.
Lemma cache_core (s : shape) (t : @transform RNum) s' b : shape_cache s t = (s', b) -> radius_of s' = radius_of s /\
  forall q, covers s' q -> in_box b q.
Proof.
  destruct s as [c|g|p]; simpl.
  - unfold circle_cache. intros E. inversion E; subst. split; [reflexivity|]. intros q [k [K D]]. simpl in K, D. subst k.
    unfold bb_circle, bb_extents. apply (inflate (vx (tf_apply t (ci_c c))) (vy (tf_apply t (ci_c c))) (vx (tf_apply t (ci_c c))) (vy (tf_apply t (ci_c c))) (ci_r c) q (tf_apply t (ci_c c))); [|exact D].
    unfold in_box. cbn [bL bR bB bT]. change (@num RNum) with R. lra.
  - unfold segment_cache. set (a := tf_apply t (sg_a g)). set (b' := tf_apply t (sg_b g)).
    destruct (if vx a <? vx b' then _ else _)%num as [l r] eqn:E1. destruct (if vy a <? vy b' then _ else _)%num as [bo tp] eqn:E2.
    intros E. inversion E; subst. split; [reflexivity|]. intros q [k [K D]]. simpl in K, D.
    eapply inflate; [|exact D]. eapply between_box; [exact K| |]; unfold in_box; cbn [bL bR bB bT]; revert E1 E2; clearbody a b'; unR;
      destruct (Rltb_spec (vx a) (vx b')), (Rltb_spec (vy a) (vy b')); intros E1 E2; inversion E1; inversion E2; subst; change (@num RNum) with R in *; lra.
  - unfold poly_cache. set (dst := map _ _).
    match goal with |- context [fold_left ?f dst ?i] => change (fold_left f dst i) with (fold_left pmm dst start4) end.
    destruct (fold_left pmm dst start4) as [[[l r] bo] tp] eqn:F. intros E. inversion E; subst. split; [reflexivity|].
    unfold start4 in F. apply pmm_spec in F. destruct F as (_ & _ & _ & _ & F). intros q [k [K D]]. simpl in K, D.
    eapply inflate; [|exact D]. eapply hull_box; [exact K|]. intros v V. apply in_map_iff in V. destruct V as [x [<- X]]. exact (F x X).
Qed.
(* images under rigid motions *)
Lemma rigid_dist t (p q : rvec) : rigid t -> vdist (tf_apply t p) (tf_apply t q) = vdist p q.
Proof.
  intros (H1 & H2 & H3). unfold vdist, vmag. f_equal. destruct p as [px py], q as [qx qy]. unfold tf_apply. unV. clear -H1 H2 H3. destruct t as [a b c d x y]. cbn [ta tb tc td ttx tty] in *. change (@num RNum) with R in *.
  replace (_ + _) with ((a * a + b * b) * ((px - qx) * (px - qx)) + 2 * (a * c + b * d) * ((px - qx) * (py - qy)) + (c * c + d * d) * ((py - qy) * (py - qy))) by ring.
  rewrite H1, H2, H3. ring.
Qed.
Lemma tf_lerp t (a b : rvec) (u : R) : tf_apply t (vlerp a b u) = vlerp (tf_apply t a) (tf_apply t b) u.
Proof. destruct a as [ax ay], b as [bx by_]. unfold tf_apply. unV. f_equal; rring. Qed.
Lemma hull_map t vs q : hull vs q -> hull (map (tf_apply t) vs) (tf_apply t q).
Proof. intros H. induction H as [v V|a b u HA IA HB IB T]; [apply hull_in, in_map, V|]. rewrite tf_lerp. apply hull_mix; assumption. Qed.
Lemma cache_rigid (s : shape) (t : @transform RNum) s' b : rigid t -> shape_cache s t = (s', b) -> forall q, local_covers s q -> covers s' (tf_apply t q).
Proof.
  intros RG E q [k [K D]]. exists (tf_apply t k). rewrite rigid_dist by exact RG. pose proof (cache_core s t s' b E) as [R _]. rewrite R. split; [|exact D].
  destruct s as [c|g|p]; simpl in E, K.
  - unfold circle_cache in E. inversion E; subst. reflexivity.
  - unfold segment_cache in E. destruct (if _ <? _ then _ else _)%num, (if _ <? _ then _ else _)%num. inversion E; subst. simpl. destruct K as [u [U ->]]. exists u. split; [exact U|apply tf_lerp].
  - unfold poly_cache in E. destruct (fold_left _ _ _) as [[[? ?] ?] ?]. inversion E; subst. simpl. rewrite map_map. simpl. rewrite <- (map_map pl_v (tf_apply t)). apply hull_map, K.
Qed.
Lemma cached_box (s : shape) (t : @transform RNum) s' b : shape_cache s t = (s', b) -> forall q, covers s' q -> bb_contains_vect b q = true.
Proof. intros E q C. apply in_box_model. eapply cache_core; eauto. Qed.
Lemma cached_box_local (s : shape) (t : @transform RNum) s' b : rigid t -> shape_cache s t = (s', b) -> forall q, local_covers s q -> bb_contains_vect b (tf_apply t q) = true.
Proof. intros RG E q C. eapply cached_box; [exact E|]. eapply cache_rigid; eauto. Qed.

(** ** The nearest point of a segment *)
Lemma clamp01_spec (x : R) : 0 <= clamp01 x <= 1 /\ (x < 0 -> clamp01 x = 0) /\ (1 < x -> clamp01 x = 1) /\ (0 <= x <= 1 -> clamp01 x = x).
Proof. unfold clamp01. unR. unfold Rmax, Rmin. destruct (Rle_dec x 1), (Rle_dec 0 _); repeat split; intros; try lra. Qed.
Lemma closest_between p (a b : rvec) : between a b (closest_point_on_segment p a b).
Proof.
  unfold closest_point_on_segment. set (x := ndiv _ _). destruct (clamp01_spec x) as [C _]. set (c := clamp01 x) in *. clearbody c. exists (1 - c). split; [change (@num RNum) with R in *; lra|].
  destruct a as [ax ay], b as [bx by_]. unV. f_equal; rring.
Qed.
(* the closest point sees p at an angle of at least 90 degrees from every other point of the segment *)
Lemma closest_angle p (a b q : rvec) : a <> b -> between a b q -> vdot (vsub p (closest_point_on_segment p a b)) (vsub q (closest_point_on_segment p a b)) <= 0.
Proof.
  intros NE [u [U ->]]. unfold closest_point_on_segment. set (x := ndiv _ _).
  assert (D : 0 < vmagsq (vsub a b)).
  { unfold vmagsq. destruct (Rle_lt_or_eq_dec _ _ (dot_nonneg (vsub a b))) as [L|E]; [exact L|]. exfalso. apply NE. symmetry in E. apply dot_0 in E. apply sub_zero. exact E. }
  assert (X : x * vmagsq (vsub a b) = vdot (vsub a b) (vsub p b)) by (subst x; unR; field; lra). clearbody x.
  destruct (clamp01_spec x) as [C [C1 [C2 C3]]]. set (c := clamp01 x) in *. clearbody c.
  replace (vdot (vsub p (vadd b (vscale (vsub a b) c))) (vsub (vlerp a b u) (vadd b (vscale (vsub a b) c))))
    with ((1 - u - c) * (x - c) * vmagsq (vsub a b)).
  - assert ((1 - u - c) * (x - c) <= 0); [|change (@num RNum) with R in *; nra].
    destruct (Rlt_dec x 0) as [L|L]; [rewrite (C1 L) in *; change (@num RNum) with R in *; nra|]. destruct (Rlt_dec 1 x) as [L'|L']; [rewrite (C2 L') in *; change (@num RNum) with R in *; nra|].
    rewrite C3 by lra. change (@num RNum) with R in *. nra.
  - transitivity ((1 - u - c) * (x * vmagsq (vsub a b)) - (1 - u - c) * c * vmagsq (vsub a b)); [rring|]. rewrite X. destruct a as [ax ay], b as [bx by_], p as [px py]. unV. rring.
Qed.
(* K seen from its nearest point c *)
Lemma nearest_dist (K : rvec -> Prop) p c : K c -> (forall q, K q -> vdot (vsub p c) (vsub q c) <= 0) -> is_dist K p (vdist p c).
Proof.
  intros C A. split; [eauto|]. intros q Q. specialize (A q Q). unfold vdist. apply mag_le; [apply mag_nonneg|]. rewrite mag_sq.
  replace (vsub p q) with (vsub (vsub p c) (vsub q c)) by veq. pose proof (dot_nonneg (vsub q c)) as N.
  replace (vdot (vsub (vsub p c) (vsub q c)) (vsub (vsub p c) (vsub q c))) with (vdot (vsub p c) (vsub p c) - 2 * vdot (vsub p c) (vsub q c) + vdot (vsub q c) (vsub q c)) by (unV; rring).
  change (@num RNum) with R in *. lra.
Qed.
Lemma closest_dist p (a b : rvec) : a <> b -> is_dist (between a b) p (vdist p (closest_point_on_segment p a b)).
Proof. intros NE. apply nearest_dist; [apply closest_between|]. intros q Q. apply closest_angle; assumption. Qed.
(* a point beyond p on the ray from c *)
Lemma beyond_dist (K : rvec -> Prop) p c (k : R) : K c -> (forall q, K q -> vdot (vsub p c) (vsub q c) <= 0) -> 0 <= k ->
  is_dist K (vadd c (vscale (vsub p c) k)) (k * vdist p c).
Proof.
  intros C A k0. replace (k * vdist p c) with (vdist (vadd c (vscale (vsub p c) k)) c).
  - apply nearest_dist; [exact C|]. intros q Q. specialize (A q Q). replace (vsub (vadd c (vscale (vsub p c) k)) c) with (vscale (vsub p c) k) by veq.
    replace (vdot (vscale (vsub p c) k) (vsub q c)) with (k * vdot (vsub p c) (vsub q c)) by (unV; rring). change (@num RNum) with R in *. nra.
  - unfold vdist. replace (vsub (vadd c (vscale (vsub p c) k)) c) with (vscale (vsub p c) k) by veq. rewrite mag_scale, Rabs_right by lra. reflexivity.
Qed.
Lemma covers_dist s p d : is_dist (core s) p d -> (covers s p <-> d <= radius_of s).
Proof.
  intros [[q [Q E]] M]. split.
  - intros [k [K D]]. specialize (M k K). lra.
  - intros D. exists q. split; [exact Q|]. change (@num RNum) with R in *. lra.
Qed.

(** ** Circles *)
Lemma eps_pos : 0 < @magic_epsilon RNum.
Proof. unfold magic_epsilon, nlit. unR. lra. Qed.
Lemma circle_query (c : circle) (p : rvec) : 0 <= ci_r c -> let i := circle_point_query c p in
  is_dist (core (SCircle c)) p (pi_dist i + ci_r c) /\ (covers (SCircle c) p <-> pi_dist i <= 0) /\
  (p <> ci_tc c -> vdist (pi_point i) (ci_tc c) = ci_r c /\ vdist p (pi_point i) = Rabs (pi_dist i)) /\ vmag (pi_grad i) = 1 /\
  (magic_epsilon < vdist p (ci_tc c) -> vscale (pi_grad i) (vdist p (ci_tc c)) = vsub p (ci_tc c)).
Proof.
  intros R0 i. subst i. unfold circle_point_query. cbn [pi_dist pi_point pi_grad].
  assert (D : is_dist (core (SCircle c)) p (vdist p (ci_tc c))) by (split; [exists (ci_tc c); split; reflexivity|intros q ->; lra]).
  assert (E : vmag (vsub p (ci_tc c)) - ci_r c + ci_r c = vdist p (ci_tc c)) by (unfold vdist; rring).
  split; [unR; rewrite E; exact D|]. split; [rewrite (covers_dist _ _ _ D); unfold vdist; unR; simpl radius_of; change (@num RNum) with R in *; split; lra|].
  split; [|split].
  - intros NE. assert (M : 0 < vmag (vsub p (ci_tc c))) by (apply mag_pos; intros Z; apply NE, sub_zero, Z).
    split.
    + unfold vdist. replace (vsub (vadd (ci_tc c) _) (ci_tc c)) with (vscale (vsub p (ci_tc c)) (ci_r c / vmag (vsub p (ci_tc c)))) by veq.
      rewrite mag_scale, Rabs_right; [unR; field; lra|]. apply Rle_ge. unR. apply Rmult_le_pos; [exact R0|]. left. apply Rinv_0_lt_compat. exact M.
    + unfold vdist. set (m := vmag _) in *. set (r := ci_r c) in *.
      replace (vsub p (vadd (ci_tc c) (vscale (vsub p (ci_tc c)) (ndiv r m)))) with (vscale (vsub p (ci_tc c)) (1 - ndiv r m)) by veq.
      rewrite mag_scale. fold m. unR. rewrite <- (Rabs_right m) at 2 by lra. rewrite <- Rabs_mult. f_equal. field. lra.
  - pose proof eps_pos as EP. unR. destruct (Rltb_spec (@magic_epsilon RNum) (vmag (vsub p (ci_tc c)))) as [L|L].
    + rewrite mag_scale. unR. rewrite Rabs_right; [field; lra|]. apply Rle_ge. left. apply Rdiv_lt_0_compat; lra.
    + unfold vmag, vdot. cbn [vx vy]. unR. replace (0 * 0 + 1 * 1) with 1 by ring. apply sqrt_1.
  - pose proof eps_pos as EP. unfold vdist. unR. intros L. destruct (Rltb_spec (@magic_epsilon RNum) (vmag (vsub p (ci_tc c)))) as [L'|L']; [|lra].
    set (m := vmag _) in *. clearbody m. destruct p as [px py], c as [cc [tx ty] r]. cbn [ci_tc]. unV. f_equal; field; lra.
Qed.

(** ** Segments *)
Lemma scale_twice (v c : rvec) (m r : @num RNum) : m <> 0 -> vadd c (vscale (vscale v (n1 / m)%num) r) = vadd c (vscale v (r / m)%num).
Proof. intros M. destruct v as [x y], c as [cx cy]. unV. change (@num RNum) with R in *. f_equal; field; exact M. Qed.
Lemma segment_query (g : segment) (p : rvec) : 0 <= sg_r g -> sg_ta g <> sg_tb g -> let i := segment_point_query g p in
  is_dist (core (SSegment g)) p (pi_dist i + sg_r g) /\ (covers (SSegment g) p <-> pi_dist i <= 0) /\
  (~ core (SSegment g) p -> is_dist (core (SSegment g)) (pi_point i) (sg_r g) /\ vdist p (pi_point i) = Rabs (pi_dist i)) /\
  (core (SSegment g) p -> pi_point i = p /\ pi_dist i = - sg_r g).
Proof.
  intros R0 NE i. subst i. unfold segment_point_query. set (c := closest_point_on_segment p (sg_ta g) (sg_tb g)). cbn [pi_dist pi_point pi_grad].
  pose proof (closest_dist p _ _ NE) as D. fold c in D. change (between (sg_ta g) (sg_tb g)) with (core (SSegment g)) in D.
  pose proof (closest_between p (sg_ta g) (sg_tb g)) as B. fold c in B.
  assert (A : forall q, between (sg_ta g) (sg_tb g) q -> vdot (vsub p c) (vsub q c) <= 0) by (intros q Q; apply closest_angle; assumption).
  clearbody c.
  assert (E : vmag (vsub p c) - sg_r g + sg_r g = vdist p c) by (unfold vdist; rring).
  split; [unR; rewrite E; exact D|]. split; [rewrite (covers_dist _ _ _ D); unfold vdist; unR; simpl radius_of; change (@num RNum) with R in *; split; lra|].
  split.
  - intros NC. assert (M : 0 < vmag (vsub p c)) by (apply mag_pos; intros Z; apply NC; rewrite (proj1 (sub_zero p c) Z); exact B).
    change (@neqb RNum (vmag (vsub p c)) n0) with (Reqb (vmag (vsub p c)) 0). destruct (Reqb_spec (vmag (vsub p c)) 0) as [Z|Z]; [change (@num RNum) with R in *; lra|]. cbn [negb].
    rewrite scale_twice by exact Z. split.
    + set (m := vmag (vsub p c)) in *. replace (sg_r g) with (sg_r g / m * vdist p c) at 2 by (unfold vdist; fold m; rfield; exact Z).
      apply (beyond_dist (core (SSegment g))); [exact B|exact A|]. apply Rmult_le_pos; [exact R0|]. left. apply Rinv_0_lt_compat. exact M.
    + unfold vdist. set (m := vmag (vsub p c)) in *. set (r := sg_r g) in *.
      replace (vsub p (vadd c (vscale (vsub p c) (@ndiv RNum r m)))) with (vscale (vsub p c) (@nsub RNum n1 (@ndiv RNum r m))) by veq.
      rewrite mag_scale. fold m. unR. rewrite <- (Rabs_right m) at 2 by lra. rewrite <- Rabs_mult. f_equal. field. lra.
  - intros CP. assert (Z : vdist p c = 0).
    { destruct D as [_ D]. specialize (D p CP). rewrite dist_self in D. pose proof (dist_nonneg p c). lra. }
    pose proof (dist_0 _ _ Z) as PC. unfold vdist in Z. unR. rewrite Z. destruct (Reqb_spec 0 0); [|lra]. cbn [negb]. split; [symmetry; exact PC|]. ring.
Qed.
