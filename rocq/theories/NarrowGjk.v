(** What GJK finds, over the reals (for C54 and C42). *)
From Coq Require Import ZArith NArith Reals List Bool Lra Psatz Lia PeanoNat.
From Verif Require Import Num NumReal Vec BB Transform VecReal Shapes ShapesSpec ShapesPoint ShapesRay ShapesPoly Narrow NarrowFloat.
Import ListNotations.
Local Open Scope R_scope.

(** Coordinates small enough that products of them stay below MaxFloat64. *)
Definition modest (s : shape) : Prop := forall q, core s q -> Rabs (vx q) <= IZR (2 ^ 500) /\ Rabs (vy q) <= IZR (2 ^ 500).
Definition nonempty (s : shape) : Prop := forall p : @poly RNum, s = SPoly p -> po_dst p <> [].

Lemma vec_eq_dec (a b : rvec) : {a = b} + {a <> b}.
Proof. destruct a as [ax ay], b as [bx by_]. destruct (Req_EM_T ax bx) as [->|H], (Req_EM_T ay by_) as [->|K]; [left; reflexivity|right..]; congruence. Qed.

(** ** Support points *)
Lemma support_fold (n : rvec) ps : forall (mx : R) ix i mx' ix' i', fold_left (support_round n) ps (mx, ix, i) = (mx', ix', i') ->
  i' = (i + length ps)%nat /\ mx <= mx' /\ (forall q, In q ps -> vdot (pl_v q) n <= mx') /\
  (ix' = ix /\ mx' = mx \/ (i <= ix' < i')%nat /\ forall d, vdot (pl_v (nth (ix' - i) ps d)) n = mx').
Proof.
  induction ps as [|q ps IH]; intros mx ix i mx' ix' i'; cbn [fold_left].
  - intros E; inversion E; subst. rewrite Nat.add_0_r. repeat split; auto; [lra|intros ? []].
  - unfold support_round at 2. intros E. destruct (@nltb RNum mx (vdot (pl_v q) n)) eqn:T; apply IH in E as (E1 & E2 & E3 & E4).
    + apply Rltb_true in T. split; [cbn; lia|]. split; [lra|]. split.
      * intros q' [<-|H]; auto.
      * right. destruct E4 as [[-> ->]|[L H]].
        { split; [cbn in E1; lia|]. intros d. rewrite Nat.sub_diag. reflexivity. }
        split; [lia|]. intros d. replace (ix' - i)%nat with (S (ix' - S i)) by lia. cbn. apply H.
    + apply Rltb_false in T. split; [cbn; lia|]. split; [lra|]. split.
      * intros q' [<-|H]; auto. un. lra.
      * destruct E4 as [[-> ->]|[L H]]; [left; auto|]. right. split; [lia|]. intros d. replace (ix' - i)%nat with (S (ix' - S i)) by lia. cbn. apply H.
Qed.
Lemma support_index_in (ps : list (@plane RNum)) n : ps <> [] -> (support_index ps n < length ps)%nat.
Proof.
  intros H. unfold support_index. destruct (fold_left _ _ _) as [[mx ix] i] eqn:E. apply support_fold in E as (E1 & _ & _ & E4). cbn.
  destruct E4 as [[-> _]|[L _]]; [|lia]. destruct ps; [congruence|cbn; lia].
Qed.
Lemma support_index_max (ps : list (@plane RNum)) n d : (exists q, In q ps /\ - RMaxFloat < vdot (pl_v q) n) ->
  forall q, In q ps -> vdot (pl_v q) n <= vdot (pl_v (nth (support_index ps n) ps d)) n.
Proof.
  intros (q0 & H0 & L0) q H. unfold support_index. destruct (fold_left _ _ _) as [[mx ix] i] eqn:E. apply support_fold in E as (E1 & E2 & E3 & E4). cbn [fst snd].
  destruct E4 as [[-> E4]|[L E4]].
  - exfalso. specialize (E3 _ H0). unR. un. lra.
  - specialize (E4 d). rewrite Nat.sub_0_r in E4. rewrite E4. auto.
Qed.

Lemma nth_vertex (p : @poly RNum) i : (i < length (po_dst p))%nat -> core (SPoly p) (pl_v (plane_at p i)).
Proof. intros L. cbn [core]. apply hull_in. apply in_map. unfold plane_at. apply nth_In. exact L. Qed.
Lemma support_core s (n : rvec) : nonempty s -> core s (sp_p (support s n)).
Proof.
  destruct s as [c|g|p]; intros H.
  - reflexivity.
  - unfold support. destruct nltb; [apply core_end_a|apply core_end_b].
  - unfold support. cbn [sp_p]. apply nth_vertex, support_index_in, H. reflexivity.
Qed.
Lemma dot_lerp (a b n : rvec) (t : R) : vdot (vlerp a b t) n = (1 - t) * vdot a n + t * vdot b n.
Proof. unV. rring. Qed.
Lemma hull_max vs (n : rvec) (m : R) : (forall v, In v vs -> vdot v n <= m) -> forall q, hull vs q -> vdot q n <= m.
Proof. intros H q Hq. induction Hq as [v Hv|a b t Ha IHa Hb IHb Ht]; auto. rewrite dot_lerp. un. nra. Qed.
Lemma big_half : 0 < IZR (2 ^ 500). Proof. apply IZR_lt. reflexivity. Qed.
Lemma support_max s (n : rvec) : nonempty s -> modest s -> Rabs (vx n) <= 4 * IZR (2 ^ 500) -> Rabs (vy n) <= 4 * IZR (2 ^ 500) ->
  forall q, core s q -> vdot q n <= vdot (sp_p (support s n)) n.
Proof.
  destruct s as [c|g|p]; intros H M Nx Ny q Hq.
  - cbn in Hq. subst. cbn. apply Rle_refl.
  - unfold support. destruct Hq as (t & Ht & ->). rewrite dot_lerp. destruct (nltb (vdot (sg_tb g) n) (vdot (sg_ta g) n)) eqn:T; [apply Rltb_true in T|apply Rltb_false in T]; cbn [sp_p]; un; nra.
  - cbn [core] in Hq. revert q Hq. apply hull_max. intros v Hv. apply in_map_iff in Hv as (pl & <- & Hp). unfold support. cbn [sp_p]. apply support_index_max; auto.
    exists pl. split; auto.
    destruct (M (pl_v pl)) as [A B]; [cbn [core]; apply hull_in, in_map, Hp|].
    assert (K : forall x y : R, Rabs x <= IZR (2 ^ 500) -> Rabs y <= 4 * IZR (2 ^ 500) -> - (4 * (IZR (2 ^ 500) * IZR (2 ^ 500))) <= x * y).
    { intros x y Hx Hy. pose proof (Rabs_pos x). pose proof (Rabs_pos y). pose proof big_half.
      assert (Rabs (x * y) <= 4 * (IZR (2 ^ 500) * IZR (2 ^ 500))). { rewrite Rabs_mult. eapply Rle_trans; [apply Rmult_le_compat; eauto|]. lra. }
      destruct (abs_bounds _ _ H3). lra. }
    pose proof (K _ _ A Nx). pose proof (K _ _ B Ny).
    assert (Q : 8 * (IZR (2 ^ 500) * IZR (2 ^ 500)) < RMaxFloat). { unfold RMaxFloat. rewrite <- !mult_IZR. apply IZR_lt. reflexivity. }
    unfold vdot. unR. lra.
Qed.

(** ** Points of the difference of two shapes *)
Definition good (s1 s2 : shape) (v : @mpoint RNum) : Prop := core s1 (mp_a v) /\ core s2 (mp_b v) /\ mp_ab v = vsub (mp_b v) (mp_a v).
Definition diff (s1 s2 : shape) (x : rvec) : Prop := exists a b, core s1 a /\ core s2 b /\ x = vsub b a.
Lemma good_diff s1 s2 v : good s1 s2 v -> diff s1 s2 (mp_ab v).
Proof. intros (A & B & E). exists (mp_a v), (mp_b v). auto. Qed.
Lemma core_mix s (x y : rvec) (t : R) : core s x -> core s y -> 0 <= t <= 1 -> core s (vlerp x y t).
Proof.
  destruct s as [c|g|p]; cbn [core]; intros X Y T.
  - subst. generalize (ci_tc c). clear. intros w. veq.
  - apply between_mix; auto.
  - apply hull_mix; auto.
Qed.
Lemma diff_mix s1 s2 (x y : rvec) (t : R) : diff s1 s2 x -> diff s1 s2 y -> 0 <= t <= 1 -> diff s1 s2 (vlerp x y t).
Proof.
  intros (a & b & A & B & ->) (a' & b' & A' & B' & ->) T. exists (vlerp a a' t), (vlerp b b' t). repeat split; try apply core_mix; auto.
  clear. veq.
Qed.
Lemma support_good s1 s2 n : nonempty s1 -> nonempty s2 -> good s1 s2 (ctx_support s1 s2 n).
Proof. intros A B. repeat split; try (apply support_core; auto). Qed.
Lemma point_core s i : nonempty s -> core s (sp_p (point_of s i)).
Proof.
  destruct s as [c|g|p]; intros H; unfold point_of.
  - reflexivity.
  - destruct (i =? 0)%N; [apply core_end_a|apply core_end_b].
  - cbn [sp_p]. apply nth_vertex. specialize (H p eq_refl).
    destruct (N.ltb_spec i (N.of_nat (length (po_dst p)))); [lia|]. destruct (po_dst p); [congruence|cbn; lia].
Qed.
Lemma mpoint_good s1 s2 a b : core s1 (sp_p a) -> core s2 (sp_p b) -> good s1 s2 (new_mpoint a b).
Proof. intros. repeat split; auto. Qed.
Lemma start_good (a b : nshape) id v0 v1 : nonempty (ns_s a) -> nonempty (ns_s b) -> gjk_start a b id = (v0, v1) -> good (ns_s a) (ns_s b) v0 /\ good (ns_s a) (ns_s b) v1.
Proof.
  intros A B. unfold gjk_start. destruct negb; intros E; inversion E; subst; split; try (apply support_good; auto); apply mpoint_good; apply point_core; auto.
Qed.
Lemma abs_sub (x y m k : R) : Rabs x <= m -> Rabs y <= k -> Rabs (x - y) <= m + k.
Proof. intros X Y. destruct (abs_bounds _ _ X), (abs_bounds _ _ Y). apply Rabs_le. lra. Qed.
Lemma diff_bound s1 s2 (x : rvec) : modest s1 -> modest s2 -> diff s1 s2 x -> Rabs (vx x) <= 2 * IZR (2 ^ 500) /\ Rabs (vy x) <= 2 * IZR (2 ^ 500).
Proof.
  intros M1 M2 (a & b & A & B & ->). destruct (M1 _ A), (M2 _ B). unfold vsub. cbn [vx vy]. unR.
  replace (2 * IZR (2 ^ 500)) with (IZR (2 ^ 500) + IZR (2 ^ 500)) by lra. split; apply abs_sub; auto.
Qed.
Lemma ctx_max s1 s2 (n : rvec) : nonempty s1 -> nonempty s2 -> modest s1 -> modest s2 -> Rabs (vx n) <= 4 * IZR (2 ^ 500) -> Rabs (vy n) <= 4 * IZR (2 ^ 500) ->
  forall x, diff s1 s2 x -> vdot x n <= vdot (mp_ab (ctx_support s1 s2 n)) n.
Proof.
  intros N1 N2 M1 M2 X Y x (a & b & A & B & ->).
  pose proof (support_max s2 n N2 M2 X Y b B) as P. pose proof (support_max s1 (vneg n) N1 M1) as Q.
  unfold vneg in Q at 1 2. cbn [vx vy] in Q. unR. rewrite !Rabs_Ropp in Q. specialize (Q X Y a A).
  unfold ctx_support, new_mpoint. cbn [mp_ab]. set (u := sp_p (support s1 (vneg n))) in *. set (w := sp_p (support s2 n)) in *. clearbody u w. clear - P Q.
  destruct a, b, u, w, n. unV. un. lra.
Qed.

(** ** closestT and lerpT *)
Lemma lerp_t_lerp (a b : rvec) (t h : R) : h = (1 + t) / 2 -> lerp_t a b t = vlerp a b h.
Proof. intros ->. unfold lerp_t, vlerp, vadd, vscale. cbn [vx vy]. unR. f_equal; field. Qed.
Lemma closest_t_spec (a b : rvec) : let t := closest_t a b in
  -1 <= t <= 1 /\ (a <> b ->
    let D := vdot (vsub b a) (vsub b a) in let K := vdot (vsub b a) (vadd a b) in
    (-1 < t < 1 -> t * D = - K) /\ (t = -1 -> D <= K) /\ (t = 1 -> K <= - D)).
Proof.
  cbv zeta. unfold closest_t, clamp, vmagsq. unR.
  set (D := vdot (vsub b a) (vsub b a)). set (K := vdot (vsub b a) (vadd a b)).
  assert (HD : a <> b -> 0 < D).
  { intros H. destruct (Rle_lt_or_eq_dec _ _ (dot_nonneg (vsub b a))) as [L|L]; [exact L|]. exfalso. apply H. symmetry. apply sub_zero, dot_0. symmetry; exact L. }
  clearbody D K. change (@num RNum) with R in *. set (q := K / D).
  split.
  - rcases; unfold Rmin; destruct Rle_dec; lra.
  - intros H. specialize (HD H). assert (Eq : q * D = K) by (unfold q; field; lra). clearbody q.
    rcases; unfold Rmin; destruct Rle_dec; repeat split; intros; try lra; try nra.
Qed.

(** ** ClosestPoints *)
Section Closest.
Variable tiny : R.
Hypothesis tiny_pos : 0 <= tiny.
Notation closest_points := (@closest_points RNum tiny).

Lemma cp_core s1 s2 v0 v1 : good s1 s2 v0 -> good s1 s2 v1 -> core s1 (cp_a (closest_points v0 v1)) /\ core s2 (cp_b (closest_points v0 v1)) /\
  vsub (cp_b (closest_points v0 v1)) (cp_a (closest_points v0 v1)) = lerp_t (mp_ab v0) (mp_ab v1) (closest_t (mp_ab v0) (mp_ab v1)).
Proof.
  intros (A0 & B0 & E0) (A1 & B1 & E1).
  set (t := closest_t (mp_ab v0) (mp_ab v1)).
  assert (X : cp_a (closest_points v0 v1) = lerp_t (mp_a v0) (mp_a v1) t /\ cp_b (closest_points v0 v1) = lerp_t (mp_b v0) (mp_b v1) t).
  { unfold Narrow.closest_points. fold t. destruct orb; auto. }
  destruct X as [-> ->]. pose proof (closest_t_spec (mp_ab v0) (mp_ab v1)) as [T _]. fold t in T. clearbody t. change (@num RNum) with R in *.
  assert (H : 0 <= (1 + t) / 2 <= 1) by lra. rewrite !(lerp_t_lerp _ _ t _ eq_refl).
  set (h := (1 + t) / 2) in *. clearbody h. split; [apply core_mix; auto|]. split; [apply core_mix; auto|].
  rewrite E0, E1. generalize (mp_a v0) (mp_a v1) (mp_b v0) (mp_b v1). intros p q r s. clear. unV. f_equal; rring.
Qed.

(* d, as the edge normal measures it *)
Lemma edge_normal (w0 w1 p : rvec) : w0 <> w1 -> vdot (vunit (vrperp (vsub w1 w0))) p * vdist w1 w0 = - vcross (vsub w1 w0) p.
Proof.
  intros H. assert (0 < vdist w1 w0) by (apply mag_pos; intros E; apply H; symmetry; now apply sub_zero).
  unfold vunit. rewrite rperp_mag. change (vmag (vsub w1 w0)) with (vdist w1 w0). set (m := vdist w1 w0) in *. clearbody m. destruct w0, w1, p. unV. un. field. lra.
Qed.
Lemma edge_normal_unit (w0 w1 : rvec) : w0 <> w1 -> vdot (vunit (vrperp (vsub w1 w0))) (vunit (vrperp (vsub w1 w0))) = 1.
Proof. intros H. apply unit_dot. intros E. apply H. symmetry. apply sub_zero. apply mag_0. rewrite <- rperp_mag. apply mag_0. exact E. Qed.
Lemma unit_zero : vunit (vrperp (@vzero RNum)) = vzero.
Proof. unfold vunit, vrperp, vscale, vzero. cbn [vx vy]. unR. f_equal; ring. Qed.

Lemma mag_minimal (p : rvec) (n x : rvec) : 0 <= vdot n p -> vdot p p * vdot n n <= vdot n p * vdot n p -> vdot n p <= vdot n x -> n <> vzero -> vmag p <= vmag x.
Proof.
  intros A B C N. pose proof (mag_pos n N) as Hn. pose proof (dot_le n x) as L. rewrite <- !mag_sq in B.
  pose proof (mag_nonneg p). pose proof (mag_nonneg x). set (mn := vmag n) in *. set (mp := vmag p) in *. set (mx := vmag x) in *. set (a := vdot n p) in *. set (b := vdot n x) in *. clearbody mn mp mx a b. clear N. unR. un.
  assert (mp * mn <= a). { apply sq_le; [lra|]. replace (mp * mn * (mp * mn)) with (mp * mp * (mn * mn)) by ring. exact B. }
  assert (mp * mn <= mn * mx) by lra. apply Rmult_le_reg_l with mn; lra.
Qed.

Lemma foot_twice (w0 w1 : rvec) (t h : R) : h = (1 + t) / 2 -> 2 * vdot (vsub w1 w0) (vlerp w0 w1 h) = vdot (vsub w1 w0) (vadd w0 w1) + t * vdot (vsub w1 w0) (vsub w1 w0).
Proof. intros H. assert (E : t = 2 * h - 1) by lra. subst t. clear H. destruct w0, w1. unV. rring. Qed.
(* the pair at which GJK stopped because no point lies further along n *)
Lemma cp_axis s1 s2 (v0 v1 : @mpoint RNum) : good s1 s2 v0 -> good s1 s2 v1 -> 0 <= vcross (mp_ab v0) (mp_ab v1) ->
  let t := closest_t (mp_ab v0) (mp_ab v1) in
  let n := if nltb (nneg n1) t && nltb t n1 then vperp (vsub (mp_ab v1) (mp_ab v0)) else vneg (lerp_t (mp_ab v0) (mp_ab v1) t) in
  (forall x, diff s1 s2 x -> vdot x n <= nmax (vdot (mp_ab v0) n) (vdot (mp_ab v1) n)) ->
  let c := closest_points v0 v1 in
  0 <= cp_d c /\ (0 < cp_d c -> cp_d c = vdist (cp_a c) (cp_b c) /\
    (exists k, cp_d c <= k <= cp_d c + tiny /\ vsub (cp_b c) (cp_a c) = vscale (cp_n c) k) /\
    forall x y, core s1 x -> core s2 y -> cp_d c <= vdist x y).
Proof.
  cbv zeta. intros G0 G1 Cr Ax. destruct (cp_core s1 s2 v0 v1 G0 G1) as (CA & CB & Dp).
  assert (Dist : vdist (cp_a (closest_points v0 v1)) (cp_b (closest_points v0 v1)) = vmag (lerp_t (mp_ab v0) (mp_ab v1) (closest_t (mp_ab v0) (mp_ab v1)))).
  { rewrite dist_sym. unfold vdist. now rewrite Dp. }
  rewrite Dist, Dp. clear Dist Dp CA CB.
  set (w0 := mp_ab v0) in *. set (w1 := mp_ab v1) in *.
  pose proof (closest_t_spec w0 w1) as [T TS]. unfold Narrow.closest_points. fold w0 w1. set (t := closest_t w0 w1) in *. cbv zeta in TS.
  set (p := lerp_t w0 w1 t) in *.
  assert (Ep : p = vlerp w0 w1 ((1 + t) / 2)%R) by (apply lerp_t_lerp; reflexivity).
  destruct (vec_eq_dec w0 w1) as [Ew|Nw].
  { (* a single point: over the reals the normal is zero *)
    assert (Z : vdot (vunit (vrperp (vsub w1 w0))) p = 0).
    { rewrite Ew. replace (vsub w1 w1) with (@vzero RNum) by veq. rewrite unit_zero. clear. unV. rring. }
    rewrite Z. replace (@nleb RNum 0%R n0) with true by (symmetry; apply Rleb_true; unR; lra). cbn [orb cp_d]. split; [unR; lra|]. intros; un; lra. }
  destruct (TS Nw) as (Tin & Tm1 & Tp1). clear TS.
  assert (Md : 0 < vdist w1 w0) by (apply mag_pos; intros E; apply Nw; symmetry; now apply sub_zero).
  pose proof (edge_normal w0 w1 p Nw) as En. pose proof (edge_normal_unit w0 w1 Nw) as Eu.
  assert (Ecr : - vcross (vsub w1 w0) p = vcross w0 w1).
  { rewrite Ep. set (h := (1 + t) / 2). clearbody h. clear. destruct w0, w1. unV. rring. }
  rewrite Ecr in En. set (nn := vunit (vrperp (vsub w1 w0))) in *. set (d := vdot nn p) in *.
  assert (Hd : 0 <= d). { unR. un. clearbody d. clear - En Cr Md. nra. }
  unR. un. replace (- (1)) with (-1) in * by lra.
  destruct (Rltb_spec (-1) t) as [T1|T1], (Rltb_spec t 1) as [T2|T2]; cbn [andb] in Ax |- *; rewrite ?orb_true_r, ?orb_false_r; try lra.
  - (* foot inside the side *)
    cbn [cp_d cp_n]. split; [exact Hd|]. intros Pd.
    assert (Tt := Tin (conj T1 T2)). clear Tin Tm1 Tp1.
    assert (P0 : vdot (vsub w1 w0) p = 0).
    { rewrite Ep. pose proof (foot_twice w0 w1 t _ eq_refl) as E2. un. rewrite Tt in E2. lra. }
    assert (Pn : p = vscale nn d).
    { unfold d. assert (Fn : forall f v : rvec, vdot f f = 1 -> v = vadd (vscale f (vdot f v)) (vscale (vperp f) (vcross f v))).
      { clear. intros f v U. destruct f as [fx fy], v as [x y]. unV. f_equal.
        - replace x with (x * (fx * fx + fy * fy)) at 1 by (rewrite U; rring). rring.
        - replace y with (y * (fx * fx + fy * fy)) at 1 by (rewrite U; rring). rring. }
      rewrite (Fn nn p Eu) at 1.
      assert (Z : vcross nn p * vdist w1 w0 = 0).
      { assert (Es : vscale nn (vdist w1 w0) = vrperp (vsub w1 w0)).
        { unfold nn, vdist. rewrite <- (rperp_mag (vsub w1 w0)). apply unit_scale. intros E. apply Nw. symmetry. apply sub_zero. apply mag_0. rewrite <- rperp_mag. apply mag_0. exact E. }
        replace (vcross nn p * vdist w1 w0) with (vcross (vscale nn (vdist w1 w0)) p) by (clear; destruct nn, p; set (m := vdist w1 w0); clearbody m; unV; rring).
        rewrite Es. rewrite <- P0. clear. destruct w0, w1, p. unV. rring. }
      assert (vcross nn p = 0). { set (z := vcross nn p) in *. clearbody z. clear - Z Md. un. nra. }
      rewrite H. set (z := vdot nn p). clearbody z. clear. destruct nn. unV. f_equal; rring. }
    assert (Pm : vmag p = d). { rewrite Pn, mag_scale. replace (vmag nn) with 1. 2:{ unfold vmag. rewrite Eu. symmetry; apply sqrt_1. } rewrite Rabs_right; un; lra. }
    split; [now rewrite Pm|]. split; [exists d; split; [lra|exact Pn]|].
    intros x y X Y. rewrite dist_sym. rewrite <- Pm. unfold vdist.
    assert (Dx : diff s1 s2 (vsub y x)) by (exists x, y; auto). specialize (Ax _ Dx).
    assert (M01 : Rmax (vdot w0 (vperp (vsub w1 w0))) (vdot w1 (vperp (vsub w1 w0))) = - (d * vdist w1 w0)).
    { un. rewrite En. replace (vdot w1 (vperp (vsub w1 w0))) with (vdot w0 (vperp (vsub w1 w0))) by (clear; destruct w0, w1; unV; rring).
      unfold Rmax. destruct Rle_dec; clear; destruct w0, w1; unV; rring. }
    unR. rewrite M01 in Ax.
    assert (Eperp : vperp (vsub w1 w0) = vscale nn (- vdist w1 w0)).
    { assert (Es : vscale nn (vdist w1 w0) = vrperp (vsub w1 w0)).
      { unfold nn, vdist. rewrite <- (rperp_mag (vsub w1 w0)). apply unit_scale. intros E. apply Nw. symmetry. apply sub_zero. apply mag_0. rewrite <- rperp_mag. apply mag_0. exact E. }
      replace (vperp (vsub w1 w0)) with (vneg (vrperp (vsub w1 w0))) by (clear; destruct w0, w1; unV; f_equal; rring). rewrite <- Es.
      set (m := vdist w1 w0). clearbody m. clear. destruct nn. unV. f_equal; rring. }
    rewrite Eperp in Ax.
    apply mag_minimal with (n := nn); fold d; try lra.
    + rewrite <- mag_sq, Pm, Eu. unR. lra.
    + set (m := vdist w1 w0) in *. clearbody m. set (z := vsub y x) in *. clearbody z.
      assert (E3 : vdot z (vscale nn (- m)) = - (vdot nn z * m)) by (clear; destruct z, nn; unV; rring). rewrite E3 in Ax. set (q := vdot nn z) in *. clearbody q. clear - Ax Md. unR. un. nra.
    + intros E. rewrite E in Eu. clear - Eu. unV. un. lra.
  - (* the second end *)
    assert (Et : t = 1) by lra. specialize (Tp1 Et). clear Tin Tm1.
    assert (Pw : p = w1). { rewrite Ep, Et. replace ((1 + 1) / 2) with 1 by lra. apply lerp_1. }
    destruct (Rleb_spec d 0) as [Dz|Dz]; cbn [orb cp_d cp_n].
    { split; [exact Hd|]. intros; lra. }
    split; [apply mag_nonneg|]. intros Pp. split; [reflexivity|]. split.
    { exists (vmag p + tiny). split; [un; lra|]. set (m := vmag p) in *. clearbody m. clear - Pp tiny_pos. destruct p. unV. un. f_equal; field; lra. }
    intros x y X Y. rewrite dist_sym. unfold vdist. assert (Dx : diff s1 s2 (vsub y x)) by (exists x, y; auto). specialize (Ax _ Dx).
    assert (M01 : Rmax (vdot w0 (vneg p)) (vdot w1 (vneg p)) = - vdot p p).
    { rewrite Rmax_right; [rewrite Pw; clear; destruct w1; unV; rring|]. rewrite Pw. clear - Tp1. destruct w0, w1. unV. un. lra. }
    unR. rewrite M01 in Ax. set (z := vsub y x) in *. clearbody z.
    apply mag_minimal with (n := p); try apply dot_nonneg; try (un; lra).
    + clear - Ax. destruct z, p. unV. un. lra.
    + intros E. clear - E Pp. rewrite E in Pp. assert (vmag (@vzero RNum) = 0) by (now apply mag_0). un. lra.
  - (* the first end *)
    assert (Et : t = -1) by lra. specialize (Tm1 Et). clear Tin Tp1.
    assert (Pw : p = w0). { rewrite Ep, Et. replace ((1 + -1) / 2) with 0 by lra. apply lerp_0. }
    destruct (Rleb_spec d 0) as [Dz|Dz]; cbn [orb cp_d cp_n].
    { split; [exact Hd|]. intros; lra. }
    split; [apply mag_nonneg|]. intros Pp. split; [reflexivity|]. split.
    { exists (vmag p + tiny). split; [un; lra|]. set (m := vmag p) in *. clearbody m. clear - Pp tiny_pos. destruct p. unV. un. f_equal; field; lra. }
    intros x y X Y. rewrite dist_sym. unfold vdist. assert (Dx : diff s1 s2 (vsub y x)) by (exists x, y; auto). specialize (Ax _ Dx).
    assert (M01 : Rmax (vdot w0 (vneg p)) (vdot w1 (vneg p)) = - vdot p p).
    { rewrite Rmax_left; [rewrite Pw; clear; destruct w0; unV; rring|]. rewrite Pw. clear - Tm1. destruct w0, w1. unV. un. lra. }
    unR. rewrite M01 in Ax. set (z := vsub y x) in *. clearbody z.
    apply mag_minimal with (n := p); try apply dot_nonneg; try (un; lra).
    + clear - Ax. destruct z, p. unV. un. lra.
    + intros E. clear - E Pp. rewrite E in Pp. assert (vmag (@vzero RNum) = 0) by (now apply mag_0). un. lra.
Qed.
End Closest.

(** ** EPA stays inside the difference *)
Lemma side_fold {A} (f : nat -> nat -> R) (L : nat) : forall (l : list A) i j (md : R) mini i' j' md' mini',
  fold_left (fun (st : nat * nat * @num RNum * nat) (_ : A) => let '(i, j, md, mini) := st in if nltb (f i j) md then (j, S j, f i j, i) else (j, S j, md, mini)) l (i, j, md, mini) = (i', j', md', mini') ->
  (i < L)%nat -> (mini < L)%nat -> (j + length l <= L)%nat -> (mini' < L)%nat.
Proof.
  induction l as [|x l IH]; intros i j md mini i' j' md' mini' E Hi Hm Hj; cbn [fold_left] in E.
  - inversion E; subst; auto.
  - cbn in Hj. destruct (nltb _ _); apply IH in E; auto; lia.
Qed.
Lemma nearest_side_in (hull : list (@mpoint RNum)) : hull <> [] -> (nearest_side hull < length hull)%nat.
Proof.
  intros H. unfold nearest_side. destruct (fold_left _ _ _) as [[[i j] md] mini] eqn:E. assert (0 < length hull)%nat by (destruct hull; [congruence|cbn; lia]).
  refine (side_fold (fun i j => closest_dist (mp_ab (nth i hull _)) (mp_ab (nth j hull _))) (length hull) hull _ _ _ _ _ _ _ _ E _ _ _); lia.
Qed.
Lemma rebuild_in (p : @mpoint RNum) : forall rest last x, In x (rebuild last rest p) -> In x rest.
Proof.
  induction rest as [|h1 tl IH]; intros last x; cbn [rebuild]; [auto|]. destruct point_greater.
  - intros [<-|H]; [left; auto|right; eauto].
  - intros H. right. eauto.
Qed.
Section Gjk.
Variable tiny : R.
Hypothesis tiny_pos : 0 <= tiny.

Lemma epa_closest s1 s2 : nonempty s1 -> nonempty s2 -> forall fuel hull it c, hull <> [] -> (forall v, In v hull -> good s1 s2 v) -> @epa_recurse RNum tiny fuel s1 s2 hull it = Some c ->
  exists v0 v1, good s1 s2 v0 /\ good s1 s2 v1 /\ c = closest_points tiny v0 v1.
Proof.
  intros N1 N2. induction fuel as [|fuel IH]; intros hull it c Hh G; [discriminate|]. cbn [epa_recurse].
  set (mini := nearest_side hull). set (next := Nat.modulo (mini + 1) (length hull)).
  set (v0 := nth mini hull _). set (v1 := nth next hull _). set (p := ctx_support _ _ _).
  assert (L : (0 < length hull)%nat) by (destruct hull; [congruence|cbn; lia]).
  assert (G0 : good s1 s2 v0) by (apply G, nth_In, nearest_side_in, Hh).
  assert (G1 : good s1 s2 v1) by (apply G, nth_In, Nat.mod_upper_bound; lia).
  assert (Gp : good s1 s2 p) by (apply support_good; auto).
  destruct (_ && _)%bool.
  - intros E. refine (IH _ _ _ _ _ E); [discriminate|]. intros v [<-|H]; auto. apply rebuild_in, in_app_iff in H as [H|H].
    + apply G. rewrite <- (firstn_skipn next hull). apply in_app_iff. auto.
    + apply G. rewrite <- (firstn_skipn next hull). apply in_app_iff. auto.
  - intros E. inversion E; subst. eauto.
Qed.

Lemma origin_triangle s1 s2 (u v w : rvec) : diff s1 s2 u -> diff s1 s2 v -> diff s1 s2 w -> 0 < vcross v u -> 0 < vcross w v -> 0 <= vcross u w -> diff s1 s2 vzero.
Proof.
  intros U V W A B C.
  (* weights cross(w,v), cross(u,w), cross(v,u) *)
  set (a := vcross w v) in *. set (b := vcross u w) in *. set (c := vcross v u) in *.
  assert (E : vadd (vadd (vscale u a) (vscale v b)) (vscale w c) = vzero).
  { unfold a, b, c. clear. destruct u, v, w. unV. f_equal; rring. }
  clearbody a b c. un.
  assert (H1 : diff s1 s2 (vlerp u v (b / (a + b))%R)). { apply diff_mix; auto. apply frac01; lra. }
  replace (@vzero RNum) with (vlerp (vlerp u v (b / (a + b))%R) w (c / (a + b + c))%R).
  - apply diff_mix; auto. apply frac01; lra.
  - assert (Ex : forall x y z : R, x * a + y * b + z * c = 0 -> (x * (1 - b / (a + b)) + y * (b / (a + b))) * (1 - c / (a + b + c)) + z * (c / (a + b + c)) = 0).
    { intros x y z H. transitivity ((x * a + y * b + z * c) / (a + b + c)); [field; split; lra|rewrite H; field; lra]. }
    clear - E Ex. destruct u as [ux uy], v as [v_x v_y], w as [wx wy]. unfold vadd, vscale, vzero in E. cbn [vx vy] in E. unR. injection E as E1 E2.
    unfold vlerp, vadd, vscale, vzero. cbn [vx vy]. unR. f_equal; apply Ex; assumption.
Qed.
Lemma lerp_t_bound (a b : rvec) (t m : R) : -1 <= t <= 1 -> Rabs (vx a) <= m /\ Rabs (vy a) <= m -> Rabs (vx b) <= m /\ Rabs (vy b) <= m ->
  Rabs (vx (lerp_t a b t)) <= m /\ Rabs (vy (lerp_t a b t)) <= m.
Proof.
  intros T [A1 A2] [B1 B2]. rewrite (lerp_t_lerp _ _ t _ eq_refl). assert (H : 0 <= (1 + t) / 2 <= 1) by lra. set (h := (1 + t) / 2) in *. clearbody h.
  destruct (abs_bounds _ _ A1), (abs_bounds _ _ A2), (abs_bounds _ _ B1), (abs_bounds _ _ B2). unfold vlerp, vadd, vscale. cbn [vx vy]. unR.
  split; apply Rabs_le; un; nra.
Qed.

(** What a result of GJK tells about two shapes. *)
Definition gjk_tells (s1 s2 : shape) (c : @cpoints RNum) (e : ending) : Prop :=
  core s1 (cp_a c) /\ core s2 (cp_b c) /\
  match e with
  | Axis => 0 <= cp_d c /\ (0 < cp_d c -> cp_d c = vdist (cp_a c) (cp_b c) /\
      (exists k, cp_d c <= k <= cp_d c + tiny /\ vsub (cp_b c) (cp_a c) = vscale (cp_n c) k) /\
      forall x y, core s1 x -> core s2 y -> cp_d c <= vdist x y)
  | Overlap => exists x, core s1 x /\ core s2 x
  | Limit => True
  end.
Lemma gjk_told s1 s2 : nonempty s1 -> nonempty s2 -> modest s1 -> modest s2 -> forall fuel v0 v1 it c e, good s1 s2 v0 -> good s1 s2 v1 ->
  @gjk_recurse RNum tiny fuel s1 s2 v0 v1 it = Some (c, e) -> gjk_tells s1 s2 c e.
Proof.
  intros N1 N2 M1 M2. induction fuel as [|fuel IH]; intros v0 v1 it c e G0 G1; [discriminate|]. cbn [gjk_recurse].
  destruct (Nat.ltb 30 it).
  { intros E; inversion E; subst. destruct (cp_core tiny _ _ _ _ G0 G1) as (A & B & _). split; [|split]; auto. }
  destruct (point_greater (mp_ab v1) (mp_ab v0) vzero) eqn:P; [apply IH; auto|].
  assert (Cr : 0 <= vcross (mp_ab v0) (mp_ab v1)).
  { apply not_true_iff_false in P. rewrite pg_real in P. destruct (mp_ab v0), (mp_ab v1). unV. un. lra. }
  clear P. pose proof (closest_t_spec (mp_ab v0) (mp_ab v1)) as [T _].
  set (t := closest_t (mp_ab v0) (mp_ab v1)) in *.
  match goal with |- context [ctx_support s1 s2 ?m] => set (n := m) in * end.
  assert (Nb : Rabs (vx n) <= 4 * IZR (2 ^ 500) /\ Rabs (vy n) <= 4 * IZR (2 ^ 500)).
  { pose proof (diff_bound _ _ _ M1 M2 (good_diff _ _ _ G0)) as D0. pose proof (diff_bound _ _ _ M1 M2 (good_diff _ _ _ G1)) as D1. pose proof big_half. unfold n. destruct (_ && _)%bool.
    - destruct D0 as [X0 Y0], D1 as [X1 Y1]. pose proof (abs_sub _ _ _ _ X1 X0). pose proof (abs_sub _ _ _ _ Y1 Y0). unfold vperp, vsub. cbn [vx vy]. unR. rewrite Rabs_Ropp. lra.
    - destruct (lerp_t_bound _ _ t _ T D0 D1) as [A B]. unfold vneg. cbn [vx vy]. unR. rewrite !Rabs_Ropp. un. lra. }
  destruct Nb as [Nx Ny].
  pose proof (ctx_max s1 s2 n N1 N2 M1 M2 Nx Ny) as Mx. pose proof (support_good s1 s2 n N1 N2) as Gp. set (p := ctx_support s1 s2 n) in *.
  destruct (point_greater (mp_ab p) (mp_ab v0) vzero && point_greater (mp_ab v1) (mp_ab p) vzero)%bool eqn:O.
  { unfold epa. destruct (@epa_recurse RNum tiny 30 s1 s2 [v0; p; v1] 1) as [c'|] eqn:Ee; [|discriminate]. intros E; inversion E; subst.
    apply (epa_closest s1 s2 N1 N2) in Ee as (w0 & w1 & W0 & W1 & ->); [|discriminate|intros v [<-|[<-|[<-|[]]]]; auto].
    destruct (cp_core tiny _ _ _ _ W0 W1) as (A & B & _). split; [|split]; auto.
    apply andb_true_iff in O as [O1 O2]. rewrite pg_real in O1, O2.
    assert (Z : forall x : rvec, vsub x vzero = x) by (intros; veq). rewrite !Z in O1, O2.
    destruct (origin_triangle s1 s2 (mp_ab v0) (mp_ab p) (mp_ab v1)) as (x & y & X & Y & Exy); auto; try (apply good_diff; auto).
    exists x. split; auto. symmetry in Exy. apply (proj1 (sub_zero y x)) in Exy. rewrite <- Exy; exact Y. }
  destruct (check_axis (mp_ab v0) (mp_ab v1) (mp_ab p) n) eqn:Ca.
  { intros E; inversion E; subst. destruct (cp_core tiny _ _ _ _ G0 G1) as (A & B & _). split; [|split]; auto.
    unfold check_axis in Ca. apply Rleb_true in Ca. apply (cp_axis tiny tiny_pos); auto. intros x Hx. eapply Rle_trans; [apply Mx; exact Hx|exact Ca]. }
  destruct (nltb (closest_dist _ _) _); apply IH; auto.
Qed.
Lemma gjk_result (a b : nshape) id c e : nonempty (ns_s a) -> nonempty (ns_s b) -> modest (ns_s a) -> modest (ns_s b) -> @gjk RNum tiny a b id = Some (c, e) -> gjk_tells (ns_s a) (ns_s b) c e.
Proof.
  intros N1 N2 M1 M2. unfold gjk. destruct (_ && _)%bool; [|discriminate]. destruct (gjk_start a b id) as [v0 v1] eqn:S. destruct (start_good a b id v0 v1 N1 N2 S) as [G0 G1].
  apply gjk_told; auto.
Qed.

(* whatever the ending, the result comes from a pair of points of the difference *)
Lemma gjk_closest s1 s2 : nonempty s1 -> nonempty s2 -> forall fuel v0 v1 it c e, good s1 s2 v0 -> good s1 s2 v1 ->
  @gjk_recurse RNum tiny fuel s1 s2 v0 v1 it = Some (c, e) -> exists w0 w1, good s1 s2 w0 /\ good s1 s2 w1 /\ c = closest_points tiny w0 w1.
Proof.
  intros N1 N2. induction fuel as [|fuel IH]; intros v0 v1 it c e G0 G1; [discriminate|]. cbn [gjk_recurse].
  destruct (Nat.ltb 30 it); [intros E; inversion E; subst; eauto|].
  destruct (point_greater (mp_ab v1) (mp_ab v0) vzero); [apply IH; auto|].
  match goal with |- context [ctx_support s1 s2 ?m] => set (n := m) in * end. pose proof (support_good s1 s2 n N1 N2) as Gp. set (p := ctx_support s1 s2 n) in *.
  destruct (point_greater (mp_ab p) (mp_ab v0) vzero && point_greater (mp_ab v1) (mp_ab p) vzero)%bool.
  { unfold epa. destruct (@epa_recurse RNum tiny 30 s1 s2 [v0; p; v1] 1) as [c'|] eqn:Ee; [|discriminate]. intros E; inversion E; subst.
    apply (epa_closest s1 s2 N1 N2) in Ee; [auto|discriminate|intros v [<-|[<-|[<-|[]]]]; auto]. }
  destruct check_axis; [intros E; inversion E; subst; eauto|]. destruct (nltb (closest_dist _ _) _); apply IH; auto.
Qed.
End Gjk.
