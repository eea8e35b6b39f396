(** Worlds of circles, segments and polygons do not depend on the origin. *)
From Coq Require Import ZArith NArith Bool Reals List Lra Lia Arith.
From Verif Require Import Num NumReal Vec VecReal BB Transform Body BodySpec Solver SolverSpec Joints Persist ApartSpec Shapes Narrow NarrowGjk ShiftSpec ShiftProofs ShiftProofs2 ShiftShapeSpec ShiftShapes.
Import ListNotations.
Local Open Scope R_scope.

(** ** Cached data *)
Lemma tf_shift x t p : tf_apply (shift_tf x t) p = vadd (tf_apply t p) x. Proof. apply vec_ext; unV; cbn; unR; ring. Qed.
Lemma tfv_shift x t p : tf_apply_vector (shift_tf x t) p = tf_apply_vector t p. Proof. reflexivity. Qed.
Lemma near_x k v : near k v -> - k <= (vx v : R) <= k. Proof. intros [A _]. now apply Rabs_iff. Qed.
Lemma near_y k v : near k v -> - k <= (vy v : R) <= k. Proof. intros [_ A]. now apply Rabs_iff. Qed.
Lemma Rmin_shift a b c : Rmin (a + c) (b + c) = Rmin a b + c. Proof. unfold Rmin. destruct (Rle_dec (a + c) (b + c)), (Rle_dec a b); lra. Qed.
Lemma Rmax_shift a b c : Rmax (a + c) (b + c) = Rmax a b + c. Proof. unfold Rmax. destruct (Rle_dec (a + c) (b + c)), (Rle_dec a b); lra. Qed.
Definition box_round (acc : R * R * R * R) (q : @plane RNum) : R * R * R * R :=
  let '(l, r, b, tp) := acc in let v := pl_v q in (Rmin l (vx v), Rmax r (vx v), Rmin b (vy v), Rmax tp (vy v)).
Lemma box_shift x ps : forall l r b t, fold_left box_round (map (shift_plane x) ps) (l + vx x, r + vx x, b + vy x, t + vy x) =
  (let '(l, r, b, t) := fold_left box_round ps (l, r, b, t) in (l + vx x, r + vx x, b + vy x, t + vy x)).
Proof.
  induction ps as [|q ps IH]; intros; [reflexivity|]. cbn [map fold_left box_round shift_plane pl_v]. unfold vadd. cbn [vx vy]. unR. rewrite !Rmin_shift, !Rmax_shift. apply IH.
Qed.
Lemma box_near ps : Forall (fun q => near far (pl_v q)) ps -> forall l r b t, - far <= l <= far -> - far <= r <= far -> - far <= b <= far -> - far <= t <= far ->
  let '(l, r, b, t) := fold_left box_round ps (l, r, b, t) in (- far <= l <= far /\ - far <= r <= far) /\ (- far <= b <= far /\ - far <= t <= far).
Proof.
  induction 1 as [|q ps Q F IH]; intros; [cbn; auto|]. cbn [fold_left box_round]. apply near_x in Q as Qx. apply near_y in Q as Qy.
  assert (forall a c, - far <= a <= far -> - far <= c <= far -> - far <= Rmin a c <= far) by (intros a c ? ?; unfold Rmin; destruct (Rle_dec a c); lra).
  assert (forall a c, - far <= a <= far -> - far <= c <= far -> - far <= Rmax a c <= far) by (intros a c ? ?; unfold Rmax; destruct (Rle_dec a c); lra). apply IH; auto.
Qed.
Lemma box_first (v : Rvec) : near far v -> Rmin RMaxFloat (vx v) = vx v /\ Rmax (- RMaxFloat) (vx v) = vx v /\ Rmin RMaxFloat (vy v) = vy v /\ Rmax (- RMaxFloat) (vy v) = vy v.
Proof.
  intros N0. pose proof far_inf. apply near_x in N0 as X. apply near_y in N0 as Y. unfold Rmin, Rmax. repeat split; destruct (Rle_dec _ _); lra.
Qed.
Lemma poly_box (p : @poly RNum) t : poly_cache p t = (let d := map (fun q => Plane (tf_apply t (pl_v q)) (tf_apply_vector t (pl_n q))) (po_src p) in
  let '(l, r, b, tp) := fold_left box_round d (RMaxFloat, - RMaxFloat, RMaxFloat, - RMaxFloat) in (Poly (po_r p) d (po_src p), @mkBB RNum (l - (po_r p : R)) (b - (po_r p : R)) (r + (po_r p : R)) (tp + (po_r p : R)))).
Proof. reflexivity. Qed.
Lemma shift_nil x s h : ns_s (shift_nshape x (NShape s h 0)) = shift_shape x s. Proof. reflexivity. Qed.

Lemma cache_shift x s h t : placed (ns_s (on_body s h t)) -> placed (shift_shape x (ns_s (on_body s h t))) -> has_points (ns_s (on_body s h t)) = true ->
  on_body s h (shift_tf x t) = shift_nshape x (on_body s h t).
Proof.
  destruct s as [c|g|p]; unfold on_body; cbn [shape_cache].
  - intros _ _ _. cbn [circle_cache]. unfold shift_nshape. cbn [turned ns_s ns_bb ns_hash shift_shape ci_c ci_tc ci_r]. rewrite !tf_shift. f_equal. unfold shift_bb, bb_circle, bb_extents. cbn [bL bB bR bT]. unfold vadd. cbn [vx vy]. unR. f_equal; ring.
  - intros _ _ _. unfold segment_cache. rewrite !tf_shift, !tfv_shift. set (a := tf_apply t (sg_a g)). set (b := tf_apply t (sg_b g)). unfold vadd at 1 2 3 4 5 6 7 8 9 10 11 12. cbn [vx vy]. unR. rewrite !ltb_shift.
    destruct (Rltb (vx a) (vx b)), (Rltb (vy a) (vy b)); unfold shift_nshape, turned, shift_tf, shift_bb; cbn; unR; f_equal; f_equal; try ring.
  - rewrite ?poly_box. cbv zeta. set (d := map _ (po_src p)). set (d' := map _ (po_src p)).
    assert (ED : d' = map (shift_plane x) d) by (unfold d, d'; rewrite map_map; apply map_ext; intros q; unfold shift_plane; cbn [pl_v pl_n]; now rewrite tf_shift, tfv_shift). clearbody d d'. subst d'.
    destruct d as [|q ps]; [destruct (fold_left _ _ _) as [[[? ?] ?] ?]; discriminate|]. cbn [map fold_left].
    intros F G _.
    assert (F' : near far (pl_v q) /\ near far (pl_v (shift_plane x q))).
    { revert F G. destruct (fold_left _ _ _) as [[[? ?] ?] ?]. cbn. intros F G. inversion F; inversion G; subst. auto. }
    destruct F' as [Fq Gq]. destruct (box_first _ Fq) as (B1 & B2 & B3 & B4). destruct (box_first _ Gq) as (C1 & C2 & C3 & C4).
    replace (box_round (RMaxFloat, - RMaxFloat, RMaxFloat, - RMaxFloat) q) with (vx (pl_v q), vx (pl_v q), vy (pl_v q), vy (pl_v q)) by (unfold box_round; rewrite B1, B2, B3, B4; reflexivity).
    replace (box_round (RMaxFloat, - RMaxFloat, RMaxFloat, - RMaxFloat) (shift_plane x q)) with (vx (pl_v q) + vx x, vx (pl_v q) + vx x, vy (pl_v q) + vy x, vy (pl_v q) + vy x)%R by (unfold box_round; rewrite C1, C2, C3, C4; reflexivity).
    pose proof (box_shift x ps (vx (pl_v q)) (vx (pl_v q)) (vy (pl_v q)) (vy (pl_v q))) as BS. unR. rewrite BS. clear BS F G. pose (FF := fold_left box_round ps (vx (pl_v q) : R, vx (pl_v q) : R, vy (pl_v q) : R, vy (pl_v q) : R)).
    repeat match goal with |- context [fold_left box_round ps ?a] => change (fold_left box_round ps a) with FF end. clearbody FF. destruct FF as [[[l r] b] tp]. unfold shift_nshape. cbn [turned ns_s ns_bb ns_hash shift_shape po_r po_dst po_src map]. f_equal. unfold shift_bb. cbn [bL bB bR bT]. unR. f_equal; ring.
Qed.
Lemma mean_bound a b c d : - far <= a <= far -> - far <= b <= far -> c = 1 / 2 -> d = 1 / 2 -> - far <= a * c + b * d <= far.
Proof. intros. subst. lra. Qed.
Lemma center_near s h t : placed (ns_s (on_body s h t)) -> has_points (ns_s (on_body s h t)) = true -> near far (bb_center (ns_bb (on_body s h t))).
Proof.
  destruct s as [c|g|p]; unfold on_body; cbn [shape_cache].
  - cbn [circle_cache]. intros F _. cbn [turned ns_s ns_bb placed ci_tc] in *. replace (bb_center _) with (tf_apply t (ci_c c)); [exact F|]. unfold bb_center, bb_circle, bb_extents. destruct (tf_apply t (ci_c c)). apply vec_ext; unV; cbn; unR; field.
  - unfold segment_cache. set (a := tf_apply t (sg_a g)). set (b := tf_apply t (sg_b g)). destruct a as [a1 a2], b as [b1 b2]. cbn [vx vy]. unR. intros F _.
    assert (K : near far (BB.rvec a1 a2) /\ near far (BB.rvec b1 b2)) by (revert F; destruct (Rltb a1 b1), (Rltb a2 b2); cbn; auto). clear F. destruct K as [A B]. apply near_iff in A. apply near_iff in B.
    destruct (Rltb a1 b1), (Rltb a2 b2); cbn [turned ns_bb]; unfold bb_center, vlerp, vadd, vscale; cbn [vx vy bL bR bB bT]; apply near_iff; unR; lra.
  - rewrite ?poly_box. cbv zeta. set (d := map _ (po_src p)). clearbody d.
    destruct d as [|q ps]; [destruct (fold_left _ _ _) as [[[? ?] ?] ?]; discriminate|]. cbn [map fold_left]. intros F _.
    assert (F' : near far (pl_v q) /\ Forall (fun q => near far (pl_v q)) ps) by (revert F; destruct (fold_left _ _ _) as [[[? ?] ?] ?]; cbn; intros F; inversion F; subst; auto).
    destruct F' as [Fq Fp]. destruct (box_first _ Fq) as (B1 & B2 & B3 & B4).
    replace (box_round (RMaxFloat, - RMaxFloat, RMaxFloat, - RMaxFloat) q) with (vx (pl_v q), vx (pl_v q), vy (pl_v q), vy (pl_v q)) by (unfold box_round; rewrite B1, B2, B3, B4; reflexivity).
    apply near_x in Fq as X. apply near_y in Fq as Y. pose proof (box_near ps Fp _ _ _ _ X X Y Y) as BN.
    pose (FF := fold_left box_round ps (vx (pl_v q) : R, vx (pl_v q) : R, vy (pl_v q) : R, vy (pl_v q) : R)).
    repeat match goal with |- context [fold_left box_round ps ?a] => change (fold_left box_round ps a) with FF end. change (fold_left box_round ps _) with FF in BN. clearbody FF. destruct FF as [[[l r] b] tp].
    cbn [turned ns_bb]. unfold bb_center, vlerp, vadd, vscale. cbn [vx vy bL bR bB bT]. apply near_iff. unR. lra.
Qed.
Lemma hash_s s h h' t : ns_s (on_body s h t) = ns_s (on_body s h' t). Proof. unfold on_body. destruct (shape_cache s t). reflexivity. Qed.
Lemma b_tf_shift x u b : b_tf (shift_body x u b) = shift_tf x (b_tf b). Proof. reflexivity. Qed.

(** ** Pairs and worlds *)
Lemma body_ready x s h t : placed (ns_s (on_body s 0 t)) -> placed (shift_shape x (ns_s (on_body s 0 t))) -> has_points (ns_s (on_body s 0 t)) = true ->
  on_body s h (shift_tf x t) = shift_nshape x (on_body s h t) /\ ready (on_body s h t) /\ ready (shift_nshape x (on_body s h t)).
Proof.
  rewrite (hash_s s 0 h t). intros F G P. assert (E := cache_shift x s h t F G P). split; [exact E|]. split; [split; [exact F|now apply center_near]|]. split; [exact G|]. rewrite <- E. apply center_near; rewrite E; [exact G|].
  cbn [shift_nshape ns_s]. now rewrite has_shift.
Qed.
Lemma update_shift x u (H H' : Rheap) a b ma mb sw mem i s : H' a = shift_body x u (H a) -> H' b = shift_body x u (H b) -> update H' a b ma mb sw mem (shift_info x i) s = update H a b ma mb sw mem i s.
Proof.
  intros A B. unfold update. cbn [shift_info nf_n nf_arr]. rewrite A, B. f_equal. change (b_pos (shift_body x u (H a))) with (vadd (b_pos (H a)) x). change (b_pos (shift_body x u (H b))) with (vadd (b_pos (H b)) x).
  generalize (s_contacts s). intros old. revert mem. induction (nf_arr i) as [|c l IH]; intros mem; [reflexivity|]. cbn [map update_contacts]. rewrite IH. f_equal. unfold update_contact. cbn [nc_p1 nc_p2 nc_hash]. now rewrite !sub_shift.
Qed.
Lemma test_shift tiny x u (H : Rheap) p o : 0 < tiny -> pair_placed x H p ->
  shape_test tiny p (shift_body x u (H (sp_ba p))) (shift_body x u (H (sp_bb p))) o = shape_test tiny p (H (sp_ba p)) (H (sp_bb p)) o.
Proof.
  intros T (F1 & F2 & G1 & G2 & P1 & P2). unfold shape_test. rewrite !b_tf_shift.
  destruct (body_ready x _ (sp_ha p) _ F1 G1 P1) as (-> & A & A'). destruct (body_ready x _ (sp_hb p) _ F2 G2 P2) as (-> & B & B').
  rewrite (collide_shift tiny T x _ _ (sp_id p) A B A' B'). destruct (collide _ _ _ _) as [[sw i]|]; [|reflexivity]. cbn [option_map fst snd].
  change (nf_arr (shift_info x i)) with (map (fun c => NContact (vadd (nc_p1 c) x) (vadd (nc_p2 c) x) (nc_hash c)) (nf_arr i)). destruct (nf_arr i); [reflexivity|]. cbn [map].
  f_equal. destruct sw; apply (update_shift x u); destruct (Nat.eqb _ _); reflexivity.
Qed.
Lemma phase_shift tiny x u ps (H H' : Rheap) l : 0 < tiny -> shifted all x u H H' -> Forall (pair_placed x H) ps -> phase (pairs_of tiny ps) H' l = phase (pairs_of tiny ps) H l.
Proof.
  intros T Q F. unfold phase, pairs_of. induction F as [|p ps P F IH]; [reflexivity|]. cbn [map flat_map pr_test pr_a pr_b]. rewrite (Q _ eq_refl), (Q (sp_bb p) eq_refl), test_shift by assumption. f_equal. exact IH.
Qed.
Definition pinned (i : @given RNum) (l : list Rsarb) : @given RNum := Given (i_n i) (i_slop i) (i_bias i) (i_g i) (i_damping i) (i_dt i) (i_prev i) (i_dyn i) (fun _ _ => l).
Lemma shapes_rel tiny x (ips : list (@given RNum * list spair)) : 0 < tiny -> forall w w', placed_run tiny x ips w -> inv all x vzero w w' ->
  inv all x vzero (fold_left step_with (map (shape_step tiny) ips) w) (fold_left step_with (map (shape_step tiny) ips) w').
Proof.
  intros T. induction ips as [|[i ps] ips IH]; intros w w' P Q; [exact Q|]. cbn [map fold_left]. cbn [placed_run fst snd] in P. destruct P as [P1 P2]. apply IH; [exact P2|].
  set (l := phase (pairs_of tiny ps) (move_all (i_dt i) (i_dyn i) (w_heap w)) (w_arbs w)). pose proof Q as (QH & QA & QJ & _).
  assert (E1 : step_with w (shape_step tiny (i, ps)) = step_with w (pinned i l)) by reflexivity.
  assert (E2 : step_with w' (shape_step tiny (i, ps)) = step_with w' (pinned i l)).
  { unfold step_with. cbn [shape_step tested pinned fst snd i_n i_slop i_bias i_g i_damping i_dt i_prev i_dyn i_arbs]. f_equal. rewrite QA. apply (phase_shift tiny x vzero ps); [exact T| |exact P1]. now apply move_origin. }
  rewrite E1, E2. pose proof (step_rel all x vzero (pinned i l) w w' (or_introl eq_refl)) as S. rewrite later_0 in S. apply S; [intros ? ? ? ? ? _; reflexivity|intros; split; reflexivity|exact Q].
Qed.
Theorem shapes_origin tiny x (ips : list (@given RNum * list spair)) (w w' : Rworld) : 0 < tiny -> placed_run tiny x ips w -> (forall i, rigid (w_heap w i)) -> Forall (fun ck => unit_groove (snd ck)) (w_joints w) ->
  shifted_world all x vzero w w' -> shifted_world all x vzero (fold_left step_with (map (shape_step tiny) ips) w) (fold_left step_with (map (shape_step tiny) ips) w').
Proof.
  intros T P RG UG [Q EA EJ]. assert (I : inv all x vzero w w').
  { split; [exact Q|]. split; [exact EA|]. split; [exact EJ|]. split; [intros i _; apply RG|]. split; [intros; repeat split|]. intros ck I. split; [|repeat split]. revert ck I. now apply Forall_forall. }
  destruct (shapes_rel tiny x ips T w w' P I) as (A & C & D & _). now constructor.
Qed.
Theorem bodies_collide (tiny : R) (x : Rvec) s1 s2 h1 h2 t1 t2 id : 0 < tiny ->
  (forall s t, (s = s1 /\ t = t1) \/ (s = s2 /\ t = t2) -> placed (ns_s (on_body s 0 t)) /\ placed (shift_shape x (ns_s (on_body s 0 t))) /\ has_points (ns_s (on_body s 0 t)) = true) ->
  collide (Nm := RNum) tiny (on_body s1 h1 (shift_tf x t1)) (on_body s2 h2 (shift_tf x t2)) id =
  option_map (fun r => (fst r, shift_info x (snd r))) (collide (Nm := RNum) tiny (on_body s1 h1 t1) (on_body s2 h2 t2) id).
Proof.
  intros T A. destruct (A s1 t1) as (F1 & G1 & P1); [auto|]. destruct (A s2 t2) as (F2 & G2 & P2); [auto|].
  destruct (body_ready x _ h1 _ F1 G1 P1) as (-> & R1 & R1'). destruct (body_ready x _ h2 _ F2 G2 P2) as (-> & R2 & R2'). now apply collide_shift.
Qed.
