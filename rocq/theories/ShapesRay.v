(** Proofs about segment queries of circles and segments (Shapes.v) over the reals. *)
From Coq Require Import ZArith Reals Lra Psatz List Bool Lia.
From Verif Require Import Num NumReal Vec BB Transform Shapes ShapesSpec VecReal ShapesPoint.
Import ListNotations.
Local Open Scope R_scope.
Ltac un := change (@num RNum) with R in *.

Lemma add_sub (c v : rvec) : vsub (vadd c v) c = v.
Proof. veq. Qed.
Lemma sub_add (c v : rvec) : vadd c (vsub v c) = v.
Proof. veq. Qed.

(** ** The quadratic *)
Lemma quad_first (qa qb c0 : R) : 0 < qa -> 0 < c0 -> 0 <= qb * qb - qa * c0 ->
  let t := (- qb - sqrt (qb * qb - qa * c0)) / qa in
  qa * t * t + 2 * qb * t + c0 = 0 /\ (forall u, u < t -> 0 < qa * u * u + 2 * qb * u + c0) /\ qa * t + qb <= 0.
Proof.
  intros A C D t. assert (S : sqrt (qb * qb - qa * c0) * sqrt (qb * qb - qa * c0) = qb * qb - qa * c0) by (apply sqrt_sqrt; exact D).
  pose proof (sqrt_pos (qb * qb - qa * c0)) as P. set (s := sqrt (qb * qb - qa * c0)) in *. clearbody s.
  assert (T : qa * t = - qb - s) by (subst t; field; lra). clearbody t. repeat split.
  - assert (qa * (qa * t * t + 2 * qb * t + c0) = 0); [|nra].
    replace (qa * (qa * t * t + 2 * qb * t + c0)) with ((qa * t) * (qa * t) + 2 * qb * (qa * t) + qa * c0) by ring. rewrite T. nra.
  - intros u U. assert (qa * u < - qb - s) by (rewrite <- T; apply Rmult_lt_compat_l; assumption).
    assert (0 < qa * (qa * u * u + 2 * qb * u + c0)); [|nra].
    replace (qa * (qa * u * u + 2 * qb * u + c0)) with ((qa * u + qb) * (qa * u + qb) - s * s) by (rewrite S; ring). nra.
  - lra.
Qed.
Lemma quad_hit (qa qb c0 u : R) : 0 < qa -> 0 < c0 -> 0 <= u -> qa * u * u + 2 * qb * u + c0 <= 0 ->
  0 <= qb * qb - qa * c0 /\ 0 <= (- qb - sqrt (qb * qb - qa * c0)) / qa <= u.
Proof.
  intros A C U G.
  assert (D : 0 <= qb * qb - qa * c0).
  { pose proof (Rle_0_sqr (qa * u + qb)) as Q. unfold Rsqr in Q.
    assert (qa * (qa * u * u + 2 * qb * u + c0) <= 0) by nra. nra. }
  split; [exact D|].
  assert (S : sqrt (qb * qb - qa * c0) * sqrt (qb * qb - qa * c0) = qb * qb - qa * c0) by (apply sqrt_sqrt; exact D).
  pose proof (sqrt_pos (qb * qb - qa * c0)) as P. set (s := sqrt (qb * qb - qa * c0)) in *. clearbody s.
  set (t := _ / qa). assert (T : qa * t = - qb - s) by (subst t; field; lra). clearbody t.
  assert (G' : (qa * u + qb) * (qa * u + qb) <= s * s).
  { rewrite S. assert (qa * (qa * u * u + 2 * qb * u + c0) <= 0) by nra. nra. }
  assert (QC : 0 < qa * c0) by (apply Rmult_lt_0_compat; assumption).
  assert (QB : qb < 0).
  { destruct (Rlt_dec qb 0) as [L|L]; [exact L|]. exfalso. assert (s * s < qb * qb) by lra. assert (0 <= qa * u) by (apply Rmult_le_pos; lra). nra. }
  assert (s < - qb) by nra. assert (- s <= qa * u + qb) by nra. split; nra.
Qed.

(** ** Circles *)
Lemma lerp_sq (a b c : rvec) (t : R) :
  vdot (vsub (vlerp a b t) c) (vsub (vlerp a b t) c) =
  (vdot (vsub b a) (vsub b a)) * t * t + 2 * vdot (vsub a c) (vsub b a) * t + vdot (vsub a c) (vsub a c).
Proof. unV. rring. Qed.
(* what a hit says about a disc at c of radius r1 swept into by a circle of radius r2 *)
Definition disc_hit (c : rvec) (r1 : R) (a b : rvec) (r2 : R) (i : sinfo) : Prop :=
  si_hit i = true /\ 0 <= si_alpha i <= 1 /\ vdist (vlerp a b (si_alpha i)) c = r1 + r2 /\
  (forall u, 0 <= u < si_alpha i -> r1 + r2 < vdist (vlerp a b u) c) /\
  vmag (si_normal i) = 1 /\ vlerp a b (si_alpha i) = vadd c (vscale (si_normal i) (r1 + r2)) /\
  si_point i = vadd c (vscale (si_normal i) r1) /\ 0 <= vdot (si_normal i) (vsub a b).
Lemma circle_ray (c : rvec) (r1 : R) (a b : rvec) (r2 : R) info : a <> b -> 0 < r1 + r2 -> r1 + r2 < vdist a c ->
  (circle_segment_query c r1 a b r2 info = info /\ (forall t, 0 <= t <= 1 -> r1 + r2 < vdist (vlerp a b t) c)) \/
  disc_hit c r1 a b r2 (circle_segment_query c r1 a b r2 info).
Proof.
  intros NE RS OUT. unfold circle_segment_query.
  set (da := vsub a c). set (db := vsub b c).
  assert (QA : (vdot da da - n2 * vdot da db + vdot db db)%num = vdot (vsub b a) (vsub b a)) by (subst da db; unV; rring).
  assert (QB : (vdot da db - vdot da da)%num = vdot da (vsub b a)) by (subst da db; unV; rring).
  rewrite QA, QB. change (@nsqrt RNum) with sqrt. unR.
  assert (A : 0 < vdot (vsub b a) (vsub b a)).
  { destruct (Rle_lt_or_eq_dec _ _ (dot_nonneg (vsub b a))) as [L|E]; [exact L|]. exfalso. apply NE. symmetry in E. apply dot_0 in E. symmetry. apply sub_zero. exact E. }
  assert (C : 0 < vdot da da - (r1 + r2) * (r1 + r2)).
  { assert (N : ~ vdist a c <= r1 + r2) by lra. unfold vdist in N. rewrite mag_le in N by lra. fold da in N. un. lra. }
  set (qa := vdot (vsub b a) (vsub b a)) in *. set (qb := vdot da (vsub b a)) in *. set (c0 := vdot da da - (r1 + r2) * (r1 + r2)) in *.
  assert (F : forall t, vdot (vsub (vlerp a b t) c) (vsub (vlerp a b t) c) - (r1 + r2) * (r1 + r2) = qa * t * t + 2 * qb * t + c0).
  { intros t. rewrite lerp_sq. subst qa qb c0. fold da. un. ring. }
  assert (IN : forall t, vdist (vlerp a b t) c <= r1 + r2 <-> qa * t * t + 2 * qb * t + c0 <= 0).
  { intros t. unfold vdist. rewrite mag_le by lra. rewrite <- F. un. split; lra. }
  assert (MISS : forall i, (0 <= qb * qb - qa * c0 -> ~ 0 <= (- qb - sqrt (qb * qb - qa * c0)) / qa <= 1) -> i = info ->
     i = info /\ (forall t, 0 <= t <= 1 -> r1 + r2 < vdist (vlerp a b t) c)).
  { intros i H E. split; [exact E|]. intros t T. apply Rnot_le_lt. intros L. apply IN in L. destruct (quad_hit qa qb c0 t A C (proj1 T) L) as [D Q]. apply (H D). lra. }
  destruct (Rleb_spec 0 (qb * qb - qa * c0)) as [D|D]; [|left; apply MISS; [intros; lra|reflexivity]].
  destruct (quad_first qa qb c0 A C D) as (Z & E & G).
  set (t := (- qb - sqrt (qb * qb - qa * c0)) / qa) in *.
  destruct (Rleb_spec 0 t) as [T0|T0]; [|left; apply MISS; [intros; lra|reflexivity]].
  destruct (Rleb_spec t 1) as [T1|T1]; [|left; apply MISS; [intros; lra|reflexivity]]. cbn [andb]. clearbody t. clear MISS.
  right. unfold disc_hit. cbn [si_hit si_alpha si_normal si_point].
  assert (P : vlerp da db t = vsub (vlerp a b t) c) by (subst da db; veq).
  assert (DT : vdist (vlerp a b t) c = r1 + r2).
  { unfold vdist. apply sq_eq; [apply mag_nonneg|lra|]. pose proof (mag_sq (vsub (vlerp a b t) c)) as M. un. specialize (F t). change (@nmul RNum) with Rmult in M. lra. }
  assert (NZ : vsub (vlerp a b t) c <> vzero).
  { intros X. unfold vdist in DT. apply mag_0 in X. un. lra. }
  assert (U : vscale (vunit (vlerp da db t)) (r1 + r2) = vsub (vlerp a b t) c).
  { rewrite P. unR. rewrite <- DT. unfold vdist. apply unit_scale. exact NZ. }
  split; [reflexivity|]. split; [lra|]. split; [exact DT|]. split; [|split; [|split; [|split]]].
  - intros u UT. apply Rnot_le_lt. intros L. apply IN in L. specialize (E u (proj2 UT)). lra.
  - rewrite P. apply unit_mag. exact NZ.
  - etransitivity; [|symmetry; apply (f_equal (vadd c) U)]. set (l := vlerp a b t). clearbody l. clear. veq.
  - set (n := vunit (vlerp da db t)) in *. clearbody n. clear -U.
    assert (E : vlerp a b t = vadd c (vscale n (r1 + r2))) by (rewrite U; set (l := vlerp a b t); clearbody l; clear; veq). rewrite E. clear. veq.
  - assert (X : (r1 + r2) * vdot (vunit (vlerp da db t)) (vsub a b) = - (qa * t + qb)).
    { transitivity (vdot (vscale (vunit (vlerp da db t)) (r1 + r2)) (vsub a b)); [unV; rring|]. rewrite U. subst qa qb da. unV. rring. }
    un. nra.
Qed.

(** ** The frame of a segment: f is a unit vector *)
Lemma frame_dot (f v w : rvec) : vdot f f = 1 -> vdot v w = vcross f v * vcross f w + vdot f v * vdot f w.
Proof. intros F. transitivity (vdot v w * vdot f f); [rewrite F; rring|unV; rring]. Qed.
Lemma frame_cross (f v w : rvec) : vdot f f = 1 -> vcross v w = vdot f v * vcross f w - vcross f v * vdot f w.
Proof. intros F. transitivity (vcross v w * vdot f f); [rewrite F; rring|unV; rring]. Qed.
(* in the frame: the capsule around [0, k] x {0} and a point moving as (x + u p, y + u q) *)
Lemma sq_abs (y r : R) : 0 <= r -> y * y <= r * r -> - r <= y <= r.
Proof. intros. split; nra. Qed.
Lemma sumsq_0 (a b : R) : a * a + b * b <= 0 * 0 -> a = 0 /\ b = 0.
Proof. intros H. pose proof (Rle_0_sqr a) as A. pose proof (Rle_0_sqr b) as B. unfold Rsqr in *. split; nra. Qed.
Lemma between_coord (x0 p u0 u c : R) : u0 <= u -> (x0 + u0 * p - c) * (x0 + u * p - c) <= 0 -> exists v, u0 <= v <= u /\ x0 + v * p = c.
Proof.
  intros L H. destruct (Req_dec (x0 + u0 * p - c) 0) as [E|E]; [exists u0; split; [lra|lra]|].
  destruct (Req_dec (x0 + u * p - c) 0) as [E'|E']; [exists u; split; [lra|lra]|].
  assert (p <> 0). { intros ->. nra. }
  exists ((c - x0) / p). assert (V : (c - x0) / p * p = c - x0) by (field; assumption). split; [|lra].
  set (v := (c - x0) / p) in *. clearbody v.
  assert ((u0 - v) * (u - v) * (p * p) <= 0) by nra. assert (0 < p * p) by nra. assert ((u0 - v) * (u - v) <= 0) by nra. nra.
Qed.
Lemma cap_disc (x y p q k r u s : R) : 0 <= r -> r < y -> k <> 0 -> 0 <= u -> 0 <= s <= 1 ->
  0 < (p * (r - y) + q * x) * (p * (r - y) + q * (x - k)) ->
  (x + u * p - s * k) * (x + u * p - s * k) + (y + u * q) * (y + u * q) <= r * r ->
  exists v, 0 <= v <= u /\ ((x + v * p) * (x + v * p) + (y + v * q) * (y + v * q) <= r * r \/ (x + v * p - k) * (x + v * p - k) + (y + v * q) * (y + v * q) <= r * r).
Proof.
  intros R0 Y K U S CR T.
  assert (YU : - r <= y + u * q <= r) by (apply sq_abs; [exact R0|]; pose proof (Rle_0_sqr (x + u * p - s * k)) as Q; unfold Rsqr in Q; lra).
  assert (Q : q < 0) by nra.
  set (u0 := (r - y) / q). assert (U0 : u0 * q = r - y) by (subst u0; field; lra). clearbody u0.
  assert (L0 : 0 <= u0 <= u) by (split; nra).
  assert (CR' : 0 < (x + u0 * p) * (x + u0 * p - k)).
  { assert (E : (p * (r - y) + q * x) * (p * (r - y) + q * (x - k)) = q * q * ((x + u0 * p) * (x + u0 * p - k))) by (rewrite <- U0; ring). rewrite E in CR. nra. }
  (* end by end *)
  assert (YV : forall v, u0 <= v <= u -> (y + v * q) * (y + v * q) <= r * r).
  { intros v V. assert (y + u * q <= y + v * q <= y + u0 * q) by nra. nra. }
  assert (KK : 0 < k * k) by nra.
  destruct (Rle_dec ((x + u0 * p) * (x + u * p)) 0) as [C1|C1].
  { destruct (between_coord x p u0 u 0 (proj2 L0)) as [v [V E]]; [nra|]. exists v. split; [lra|]. left. specialize (YV v V). rewrite E. lra. }
  destruct (Rle_dec ((x + u0 * p - k) * (x + u * p - k)) 0) as [C2|C2].
  { destruct (between_coord x p u0 u k (proj2 L0)) as [v [V E]]; [nra|]. exists v. split; [lra|]. right. specialize (YV v V). replace (x + v * p - k) with 0 by lra. lra. }
  exists u. split; [lra|]. set (xu := x + u * p) in *. set (x0 := x + u0 * p) in *. clearbody xu x0.
  assert (CU : 0 < xu * (xu - k)). { assert (0 < (x0 * xu) * ((x0 - k) * (xu - k))) by (apply Rmult_lt_0_compat; lra). nra. }
  assert (XS : (xu - s * k) * (xu - s * k) = xu * xu - 2 * s * (xu * k) + s * s * (k * k)) by ring.
  destruct (Rle_dec (xu * k) 0) as [N|N].
  - left. assert (0 <= s * s * (k * k)) by nra. nra.
  - right. assert (k * k < xu * k) by nra.
    replace ((xu - k) * (xu - k)) with (xu * xu - 2 * (xu * k) + k * k) by ring.
    assert (0 <= (1 - s) * (2 * (xu * k) - (1 + s) * (k * k))) by (apply Rmult_le_pos; nra). nra.
Qed.

(** ** Segments *)
Lemma core_end_a g : core (SSegment g) (sg_ta g).
Proof. exists 0. split; [lra|]. destruct (sg_ta g), (sg_tb g). unV. f_equal; rring. Qed.
Lemma core_end_b g : core (SSegment g) (sg_tb g).
Proof. exists 1. split; [lra|]. destruct (sg_ta g), (sg_tb g). unV. f_equal; rring. Qed.
Lemma lerp_move (a b : rvec) (t u : R) : vdist (vlerp a b u) (vlerp a b t) = Rabs (u - t) * vdist b a.
Proof. unfold vdist. replace (vsub (vlerp a b u) (vlerp a b t)) with (vscale (vsub b a) (u - t)) by veq. apply mag_scale. Qed.
(* at the first touch the distance is exact *)
Lemma first_exact s a b r t : first_touch s a b r t -> 0 < t -> forall k, core s k -> radius_of s + r <= vdist (vlerp a b t) k.
Proof.
  intros (T & _ & FT) T0 k K. apply Rnot_lt_le. intros L.
  set (e := radius_of s + r - vdist (vlerp a b t) k). assert (E : 0 < e) by (subst e; lra).
  pose proof (dist_nonneg b a) as M. set (m := vdist b a) in *.
  set (du := Rmin (t / 2) (e / (m + 1))).
  assert (D0 : 0 < du) by (apply Rmin_glb_lt; [lra|]; apply Rdiv_lt_0_compat; lra).
  assert (D1 : du <= t / 2) by apply Rmin_l. assert (D2 : du * m <= e).
  { assert (du <= e / (m + 1)) by apply Rmin_r. assert (e / (m + 1) * (m + 1) = e) by (field; lra). assert (du * (m + 1) <= e / (m + 1) * (m + 1)) by (apply Rmult_le_compat_r; lra). lra. }
  apply (FT (t - du)); [lra|]. exists k. split; [exact K|].
  eapply Rle_trans; [apply (dist_triangle _ (vlerp a b t))|]. rewrite lerp_move. fold m.
  replace (t - du - t) with (- du) by ring. rewrite Rabs_Ropp, Rabs_right by lra. subst e. lra.
Qed.
Lemma closest_unique P (A B c : rvec) (r : R) : A <> B -> between A B c -> vdist P c = r -> (forall k, between A B k -> r <= vdist P k) -> forall q, between A B q -> vdot (vsub P c) (vsub q c) <= 0.
Proof.
  intros NE C D M. set (c0 := closest_point_on_segment P A B).
  assert (C0 : between A B c0) by apply closest_between.
  pose proof (closest_angle P A B c NE C) as AN. fold c0 in AN.
  pose proof (closest_dist P A B NE) as [_ CD]. fold c0 in CD. specialize (CD c C). specialize (M c0 C0).
  assert (E : vdist P c0 = vdist P c) by (rewrite D in *; un; lra).
  assert (EC : c = c0).
  { apply sub_zero, dot_0. pose proof (dot_nonneg (vsub c c0)) as N.
    assert (S : vdot (vsub P c) (vsub P c) = vdot (vsub P c0) (vsub P c0)) by (rewrite <- !mag_sq; unfold vdist in E; rewrite E; reflexivity).
    assert (S' : vdot (vsub P c) (vsub P c) = vdot (vsub P c0) (vsub P c0) - 2 * vdot (vsub P c0) (vsub c c0) + vdot (vsub c c0) (vsub c c0)) by (clearbody c0; unV; rring).
    un. lra. }
  intros q Q. rewrite EC. apply closest_angle; assumption.
Qed.
(* an end disc hit first is a good hit of the capsule *)
Lemma end_hit g a b r2 c i : 0 <= sg_r g -> 0 <= r2 -> 0 < sg_r g + r2 -> sg_ta g <> sg_tb g -> core (SSegment g) c ->
  disc_hit c (sg_r g) a b r2 i -> ~ touches (SSegment g) a b r2 0 -> (forall u, 0 <= u < si_alpha i -> ~ touches (SSegment g) a b r2 u) -> good_hit (SSegment g) a b r2 i.
Proof.
  intros R1 R2 RS NE CC (H & AL & DT & E & NM & PO & SP & FA) Z FT.
  assert (F : first_touch (SSegment g) a b r2 (si_alpha i)).
  { split; [exact AL|]. split; [|exact FT]. exists c. split; [exact CC|]. rewrite DT. apply Rle_refl. }
  assert (A0 : 0 < si_alpha i). { destruct (Req_dec (si_alpha i) 0) as [X|X]; [|lra]. exfalso. destruct F as (_ & F & _). rewrite X in F. exact (Z F). }
  pose proof (first_exact _ _ _ _ _ F A0) as FE. simpl radius_of in FE.
  pose proof (closest_unique _ _ _ c _ NE CC DT FE) as AN.
  split; [exact F|]. split; [|split; [exact NM|split; [exact FA|exists c; simpl radius_of; auto]]].
  rewrite SP. simpl radius_of. set (r := sg_r g + r2) in *.
  replace (vadd c (vscale (si_normal i) (sg_r g))) with (vadd c (vscale (vsub (vlerp a b (si_alpha i)) c) (sg_r g / r))).
  - replace (sg_r g) with (sg_r g / r * vdist (vlerp a b (si_alpha i)) c) at 2 by (rewrite DT; rfield; un; lra).
    apply beyond_dist; [exact CC|exact AN|]. apply Rmult_le_pos; [exact R1|]. left. apply Rinv_0_lt_compat. exact RS.
  - rewrite PO. clear -RS. destruct c as [cx cy], (si_normal i) as [nx ny]. subst r. unV. un. f_equal; field; lra.
Qed.

Section Capsule.
Variable g : @segment RNum.
Variables a b : rvec.
Variable r2 : R.
Let A := sg_ta g.
Let B := sg_tb g.
Let r := sg_r g + r2.
Hypothesis R1 : 0 <= sg_r g.
Hypothesis R2 : 0 <= r2.
Hypothesis NE : sg_ta g <> sg_tb g.
Variable f : rvec.
Hypothesis F1 : vdot f f = 1.
Hypothesis FW : vdot f (vsub (sg_tb g) (sg_ta g)) = 0.
Hypothesis OUT : sg_r g + r2 < vdot f (vsub a (sg_ta g)).
Let k := vcross f (vsub B A).
Let x := vcross f (vsub a A).
Let y := vdot f (vsub a A).
Let p := vcross f (vsub b a).
Let q := vdot f (vsub b a).
Lemma cap_k : k <> 0.
Proof.
  intros Z. apply NE. symmetry. apply sub_zero. apply dot_0. unfold k, A, B in Z. rewrite (frame_dot f), Z, FW by exact F1. un. ring.
Qed.
Lemma cap_dist (u s : R) : vdot (vsub (vlerp a b u) (vlerp A B s)) (vsub (vlerp a b u) (vlerp A B s)) = (x + u * p - s * k) * (x + u * p - s * k) + (y + u * q) * (y + u * q).
Proof.
  rewrite (frame_dot f) by exact F1.
  assert (E1 : vcross f (vsub (vlerp a b u) (vlerp A B s)) = x + u * p - s * k) by (subst x p k; unV; rring).
  assert (E2 : vdot f (vsub (vlerp a b u) (vlerp A B s)) = y + u * q).
  { transitivity (y + u * q - s * vdot f (vsub (sg_tb g) (sg_ta g))); [subst y q A B; unV; rring|rewrite FW; un; ring]. }
  rewrite E1, E2. reflexivity.
Qed.
Lemma cap_touch (u : R) : touches (SSegment g) a b r2 u <-> exists s, 0 <= s <= 1 /\ (x + u * p - s * k) * (x + u * p - s * k) + (y + u * q) * (y + u * q) <= r * r.
Proof.
  split.
  - intros [c [[s [S ->]] D]]. exists s. split; [exact S|]. simpl radius_of in D. fold r in D. fold A B in D. rewrite <- cap_dist. apply mag_le; [subst r; un; lra|exact D].
  - intros [s [S D]]. exists (vlerp A B s). split; [exists s; split; [exact S|reflexivity]|]. simpl radius_of. fold r. unfold vdist. apply mag_le; [subst r; un; lra|]. rewrite cap_dist. exact D.
Qed.
Lemma cap_above (u : R) : r < y + u * q -> ~ touches (SSegment g) a b r2 u.
Proof.
  intros H T. apply cap_touch in T. destruct T as [s [S T]]. assert (0 <= r) by (subst r; un; lra).
  pose proof (Rle_0_sqr (x + u * p - s * k)) as Q. unfold Rsqr in Q. assert (r * r < (y + u * q) * (y + u * q)) by nra. lra.
Qed.
Lemma cap_start : ~ touches (SSegment g) a b r2 0.
Proof. apply cap_above. subst r y A. un. lra. Qed.
(* straight onto the side *)
Lemma cap_side (t : R) : 0 <= t <= 1 -> y + t * q = r -> q < 0 -> (p * (r - y) + q * x) * (p * (r - y) + q * (x - k)) <= 0 ->
  good_hit (SSegment g) a b r2 (SInfo true (vsub (vlerp a b t) (vscale f r2)) f t).
Proof.
  intros T Y Q CR. pose proof cap_k as K.
  set (s := (x + t * p) / k). assert (S : s * k = x + t * p) by (subst s; field; exact K).
  assert (S01 : 0 <= s <= 1).
  { assert (E : (p * (r - y) + q * x) * (p * (r - y) + q * (x - k)) = q * q * (k * k) * (s * (s - 1))).
    { replace (r - y) with (t * q) by lra. transitivity (q * q * ((x + t * p) * (x + t * p - k))); [ring|]. rewrite <- S. ring. }
    rewrite E in CR. assert (0 < q * q) by nra. assert (0 < k * k) by nra. assert (0 < q * q * (k * k)) by (apply Rmult_lt_0_compat; assumption).
    assert (s * (s - 1) <= 0) by nra. nra. }
  clearbody s. set (c := vlerp A B s).
  assert (CC : core (SSegment g) c) by (exists s; split; [exact S01|reflexivity]).
  assert (PC : vsub (vlerp a b t) c = vscale f r).
  { apply sub_zero. apply dot_0. rewrite (frame_dot f) by exact F1.
    assert (E1 : vcross f (vsub (vsub (vlerp a b t) c) (vscale f r)) = 0).
    { transitivity (x + t * p - s * k); [subst c x p k; unV; rring|]. un. lra. }
    assert (E2 : vdot f (vsub (vsub (vlerp a b t) c) (vscale f r)) = 0).
    { transitivity (y + t * q - s * vdot f (vsub (sg_tb g) (sg_ta g)) - r * vdot f f); [subst c y q A B; unV; rring|]. rewrite FW, F1. un. lra. }
    rewrite E1, E2. un. ring. }
  assert (PO : vlerp a b t = vadd c (vscale f r)) by (rewrite <- PC; symmetry; apply sub_add).
  assert (SP : vsub (vlerp a b t) (vscale f r2) = vadd c (vscale f (sg_r g))).
  { rewrite PO. subst r. clearbody c. destruct c as [cx cy], f as [fx fy]. unV. f_equal; rring. }
  unfold good_hit. cbn [si_hit si_alpha si_normal si_point]. simpl radius_of. fold r.
  assert (FM : vmag f = 1).
  { apply sq_eq; [apply mag_nonneg|lra|]. pose proof (mag_sq f) as M. rewrite F1 in M. un. change (@nmul RNum) with Rmult in M. lra. }
  split; [|split; [|split; [exact FM|split; [|exists c; auto]]]].
  - split; [exact T|]. split.
    + exists c. split; [exact CC|]. unfold vdist. rewrite PC, mag_scale, FM. simpl radius_of. fold r. rewrite Rabs_right; [un; lra|]. subst r. un. lra.
    + intros u U. apply cap_above. nra.
  - rewrite SP. replace (sg_r g) with (vdist (vadd c (vscale f (sg_r g))) c) at 2.
    + apply nearest_dist; [exact CC|]. intros z [sz [_ ->]].
      replace (vdot (vsub (vadd c (vscale f (sg_r g))) c) (vsub (vlerp (sg_ta g) (sg_tb g) sz) c)) with (sg_r g * (sz - s) * vdot f (vsub (sg_tb g) (sg_ta g))); [rewrite FW; un; lra|]. subst c A B. unV. rring.
    + unfold vdist. rewrite add_sub. rewrite mag_scale, FM, Rabs_right by (un; lra). un. ring.
  - replace (vdot f (vsub a b)) with (- q); [un; lra|]. subst q. unV. rring.
Qed.
Lemma cap_ends (u : R) : 0 < (p * (r - y) + q * x) * (p * (r - y) + q * (x - k)) -> 0 <= u -> touches (SSegment g) a b r2 u ->
  0 < r /\ exists v, 0 <= v <= u /\ (vdist (vlerp a b v) (sg_ta g) <= r \/ vdist (vlerp a b v) (sg_tb g) <= r).
Proof.
  intros CR U T. apply cap_touch in T. destruct T as [s [S T]]. assert (R0 : 0 <= r) by (subst r; un; lra).
  assert (Y : r < y) by (subst r y A; un; lra).
  destruct (cap_disc x y p q k r u s R0 Y cap_k U S CR T) as [v [V D]].
  assert (E0 : vlerp A B 0 = sg_ta g) by (subst A B; destruct (sg_ta g), (sg_tb g); unV; f_equal; rring).
  assert (E1 : vlerp A B 1 = sg_tb g) by (subst A B; destruct (sg_ta g), (sg_tb g); unV; f_equal; rring).
  pose proof (cap_dist v 0) as D0. pose proof (cap_dist v 1) as D1. rewrite E0 in D0. rewrite E1 in D1.
  split.
  - destruct (Rle_lt_or_eq_dec _ _ R0) as [L|L]; [exact L|]. exfalso. clearbody r x y p q k. clear -D CR L. subst r. un.
    destruct D as [D|D]; apply sumsq_0 in D; destruct D as [D1 D2].
    + replace (p * (0 - y) + q * x) with (q * (x + v * p) - p * (y + v * q)) in CR by ring. rewrite D1, D2 in CR. lra.
    + replace (p * (0 - y) + q * (x - k)) with (q * (x + v * p - k) - p * (y + v * q)) in CR by ring. rewrite D1, D2 in CR. lra.
  - exists v. split; [exact V|]. destruct D as [D|D]; [left|right]; unfold vdist; apply mag_le; try exact R0.
    + rewrite D0. un. nra.
    + rewrite D1. un. nra.
Qed.
End Capsule.

Definition faces (d : R) (n : rvec) : rvec := if Rltb 0 d then vneg n else n.
Lemma faces_facts (n w v : rvec) : vdot n n = 1 -> vdot n w = 0 -> let f := faces (vdot (vneg v) n) n in
  vdot f f = 1 /\ vdot f w = 0 /\ vdot f v = Rabs (vdot n v).
Proof.
  intros N W. unfold faces. assert (E : vdot (vneg v) n = - vdot n v) by (unV; rring). rewrite E.
  destruct (Rltb_spec 0 (- vdot n v)) as [L|L].
  - split; [rewrite <- N; unV; rring|]. split; [transitivity (- vdot n w); [unV; rring|rewrite W; un; ring]|]. rewrite Rabs_left by (un; lra). unV. rring.
  - split; [exact N|]. split; [exact W|]. rewrite Rabs_right; [reflexivity|]. un. lra.
Qed.
Lemma far_start s a b r : ~ touches s a b r 0 -> forall c, core s c -> radius_of s + r < vdist a c.
Proof.
  intros Z c C. apply Rnot_le_lt. intros L. apply Z. exists c. split; [exact C|].
  replace (vlerp a b 0) with a; [exact L|]. destruct a, b. unV. f_equal; rring.
Qed.
Lemma two_discs (g : @segment RNum) (a b : rvec) (r2 : R) : 0 <= sg_r g -> 0 <= r2 -> 0 < sg_r g + r2 -> sg_ta g <> sg_tb g -> a <> b -> ~ touches (SSegment g) a b r2 0 ->
  (forall u, 0 <= u <= 1 -> touches (SSegment g) a b r2 u -> exists v, 0 <= v <= u /\ (vdist (vlerp a b v) (sg_ta g) <= sg_r g + r2 \/ vdist (vlerp a b v) (sg_tb g) <= sg_r g + r2)) ->
  let i1 := circle_segment_query (sg_ta g) (sg_r g) a b r2 (blank b) in
  let i2 := circle_segment_query (sg_tb g) (sg_r g) a b r2 (blank b) in
  let i := if Rltb (si_alpha i1) (si_alpha i2) then i1 else i2 in
  (si_hit i = true -> good_hit (SSegment g) a b r2 i) /\ (forall t, 0 <= t < 1 -> touches (SSegment g) a b r2 t -> si_hit i = true).
Proof.
  intros R1 R2 RS NE AB Z ENDS.
  pose proof (circle_ray (sg_ta g) (sg_r g) a b r2 (blank b) AB RS (far_start _ _ _ _ Z _ (core_end_a g))) as H1.
  pose proof (circle_ray (sg_tb g) (sg_r g) a b r2 (blank b) AB RS (far_start _ _ _ _ Z _ (core_end_b g))) as H2.
  cbv zeta. set (i1 := circle_segment_query (sg_ta g) _ _ _ _ _) in *. set (i2 := circle_segment_query (sg_tb g) _ _ _ _ _) in *. clearbody i1 i2.
  assert (GOOD : forall c i, core (SSegment g) c -> disc_hit c (sg_r g) a b r2 i ->
     (forall v, 0 <= v < si_alpha i -> sg_r g + r2 < vdist (vlerp a b v) (sg_ta g)) -> (forall v, 0 <= v < si_alpha i -> sg_r g + r2 < vdist (vlerp a b v) (sg_tb g)) -> good_hit (SSegment g) a b r2 i).
  { intros c i C D N1 N2. apply (end_hit g a b r2 c i); auto. intros u U T. pose proof D as (_ & AL & _).
    destruct (ENDS u) as [v [V [X|X]]]; [un; lra|exact T| |].
    - specialize (N1 v). un. lra.
    - specialize (N2 v). un. lra. }
  destruct H1 as [[-> M1]|D1], H2 as [[-> M2]|D2].
  - cbn [si_alpha si_hit blank]. unR. destruct (Rltb_spec 1 1) as [|_]; [lra|]. split; [discriminate|]. intros t T H. exfalso.
    destruct (ENDS t) as [v [V [X|X]]]; [un; lra|exact H|specialize (M1 v)|specialize (M2 v)]; un; lra.
  - pose proof D2 as (H2 & AL & _ & E2 & _). cbn [si_alpha blank]. unR. destruct (Rltb_spec 1 (si_alpha i2)); [un; lra|].
    split; [|intros; exact H2]. intros _. apply (GOOD (sg_tb g)); [apply core_end_b|exact D2|intros v V; apply M1; un; lra|exact E2].
  - pose proof D1 as (H1 & AL & _ & E1 & _). cbn [si_alpha blank]. unR. destruct (Rltb_spec (si_alpha i1) 1) as [L|L].
    + split; [|intros; exact H1]. intros _. apply (GOOD (sg_ta g)); [apply core_end_a|exact D1|exact E1|intros v V; apply M2; un; lra].
    + split; [discriminate|]. intros t T H. exfalso.
      destruct (ENDS t) as [v [V [X|X]]]; [un; lra|exact H|specialize (E1 v)|specialize (M2 v)]; un; lra.
  - pose proof D1 as (H1 & AL1 & _ & E1 & _). pose proof D2 as (H2 & AL2 & _ & E2 & _). destruct (Rltb_spec (si_alpha i1) (si_alpha i2)) as [L|L].
    + split; [|intros; exact H1]. intros _. apply (GOOD (sg_ta g)); [apply core_end_a|exact D1|exact E1|intros v V; apply E2; un; lra].
    + split; [|intros; exact H2]. intros _. apply (GOOD (sg_tb g)); [apply core_end_b|exact D2|intros v V; apply E1; un; lra|exact E2].
Qed.
Lemma segment_ray (g : @segment RNum) (a b : rvec) (r2 : R) i : 0 <= sg_r g -> 0 <= r2 -> sg_ta g <> sg_tb g ->
  vdot (sg_tn g) (sg_tn g) = 1 -> vdot (sg_tn g) (vsub (sg_tb g) (sg_ta g)) = 0 ->
  sg_r g + r2 < Rabs (vdot (sg_tn g) (vsub a (sg_ta g))) ->
  shape_segment_query (SSegment g) a b r2 = Some i ->
  (si_hit i = true -> good_hit (SSegment g) a b r2 i) /\ (forall t, 0 <= t < 1 -> touches (SSegment g) a b r2 t -> si_hit i = true).
Proof.
  intros R1 R2 NE N1 NW OUT.
  destruct (faces_facts (sg_tn g) (vsub (sg_tb g) (sg_ta g)) (vsub a (sg_ta g)) N1 NW) as (F1 & FW & FV).
  set (d := vdot (vneg (vsub a (sg_ta g))) (sg_tn g)) in *.
  set (f := faces d (sg_tn g)) in *. rewrite <- FV in OUT.
  pose proof (cap_start g a b r2 R1 R2 f F1 FW OUT) as Z.
  unfold shape_segment_query. cbn [shape_point_query].
  destruct (segment_query g a R1 NE) as [[[c [C DC]] _] _].
  change (@nleb RNum) with Rleb. destruct (Rleb_spec (pi_dist (segment_point_query g a)) r2) as [L|L].
  { exfalso. pose proof (far_start _ _ _ _ Z c C) as X. simpl radius_of in X. un. lra. }
  clear c C DC L. intros E. injection E as <-.
  cbn [class_segment_query]. unfold segment_segment_query.
  replace (vdot (vsub (sg_ta g) a) (sg_tn g)) with d by (subst d; clear; destruct (sg_ta g), a, (sg_tn g); unV; rring).
  change (@nltb RNum) with Rltb. change (@nleb RNum) with Rleb. change (@neqb RNum) with Reqb.
  replace (if Rltb (@n0 RNum) d then vneg (sg_tn g) else sg_tn g) with f by reflexivity.
  set (r := (sg_r g + r2)%num). change (sg_r g + r2) with r in OUT.
  set (k := vcross f (vsub (sg_tb g) (sg_ta g))). set (x := vcross f (vsub a (sg_ta g))). set (y := vdot f (vsub a (sg_ta g))) in *.
  set (p := vcross f (vsub b a)). set (q := vdot f (vsub b a)).
  assert (C1 : vcross (vsub b a) (vadd (sg_ta g) (vsub (vscale f r) a)) = - (p * (r - y) + q * x)).
  { rewrite (frame_cross f) by exact F1. fold p q.
    assert (E1 : vcross f (vadd (sg_ta g) (vsub (vscale f r) a)) = - x) by (subst x; clearbody f r; unV; rring).
    assert (E2 : vdot f (vadd (sg_ta g) (vsub (vscale f r) a)) = r - y).
    { transitivity (r * vdot f f - y); [subst y; clearbody f r; unV; rring|]. rewrite F1. un. ring. }
    rewrite E1, E2. un. ring. }
  assert (C2 : vcross (vsub b a) (vadd (sg_tb g) (vsub (vscale f r) a)) = - (p * (r - y) + q * (x - k))).
  { rewrite (frame_cross f) by exact F1. fold p q.
    assert (E1 : vcross f (vadd (sg_tb g) (vsub (vscale f r) a)) = k - x) by (subst x k; clearbody f r; unV; rring).
    assert (E2 : vdot f (vadd (sg_tb g) (vsub (vscale f r) a)) = r - y).
    { transitivity (r * vdot f f - y + vdot f (vsub (sg_tb g) (sg_ta g))); [subst y; clearbody f r; unV; rring|]. rewrite F1, FW. un. ring. }
    rewrite E1, E2. un. ring. }
  rewrite C1, C2.
  assert (AD : exists sg : R, sg * sg = 1 /\ d = sg * y /\ vdot (vsub b a) (sg_tn g) = - (sg * q) /\ (if Rltb (@n0 RNum) d then (d - r)%num else (d + r)%num) = sg * (y - r)).
  { assert (DY : d = if Rltb 0 d then y else - y).
    { subst y f. unfold faces. destruct (Rltb 0 d); subst d; clear; destruct (sg_ta g), a, (sg_tn g); unV; rring. }
    assert (QN : vdot (vsub b a) (sg_tn g) = if Rltb 0 d then - q else q).
    { subst q f. unfold faces. destruct (Rltb 0 d); clear; destruct b, a, (sg_tn g); unV; rring. }
    change (@n0 RNum) with (IZR 0) in *. destruct (Rltb 0 d).
    - exists 1. split; [ring|]. split; [un; lra|]. split; [un; lra|]. rewrite DY. unR. un. ring.
    - exists (-1). split; [ring|]. split; [un; lra|]. split; [un; lra|]. rewrite DY. unR. un. ring. }
  destruct AD as (sg & SG & D1 & D2 & D3). rewrite D3, D2.
  pose proof (cap_above g a b r2 R1 R2 f F1 FW) as ABOVE. pose proof (cap_side g a b r2 R1 R2 NE f F1 FW) as SIDE. pose proof (cap_ends g a b r2 R1 R2 NE f F1 FW OUT) as ENDS.
  change (sg_r g + r2) with r in ABOVE, SIDE, ENDS. fold k x y p q in ABOVE, SIDE, ENDS.
  clearbody d. unR. un.
  replace (- (p * (r - y) + q * x) * - (p * (r - y) + q * (x - k))) with ((p * (r - y) + q * x) * (p * (r - y) + q * (x - k))) by ring.
  replace (- (sg * (y - r)) * (- (sg * q) - sg * (y - r))) with ((y - r) * (y + q - r)) by (transitivity (sg * sg * ((y - r) * (y + q - r))); [rewrite SG|]; ring).
  destruct (Rleb_spec ((p * (r - y) + q * x) * (p * (r - y) + q * (x - k))) 0) as [CR|CR].
  - destruct (Rltb_spec ((y - r) * (y + q - r)) 0) as [H|H].
    + assert (Q : q < 0) by nra. set (t := _ / _).
      assert (T : t * q = r - y).
      { assert (sg <> 0) by nra. assert (DN : - (sg * (y - r)) - (- (sg * q) - sg * (y - r)) = sg * q) by ring. subst t. rewrite DN. field. split; lra. }
      clearbody t. assert (Y1 : y + q - r < 0) by nra. clear - T Q Y1 OUT SIDE CR. assert (0 <= t <= 1) by (split; nra).
      split; [|reflexivity]. intros _. apply SIDE; [exact OUT|assumption|lra|exact Q|exact CR].
    + split; [discriminate|]. intros t T X. exfalso. revert X. apply ABOVE. assert (r <= y + q) by nra. nra.
  - destruct (Reqb_spec r 0) as [R0|R0]; cbn [negb].
    + split; [discriminate|]. intros t T X. exfalso. destruct (ENDS t CR (proj1 T) X) as [RP _]. lra.
    + assert (RP : 0 < sg_r g + r2) by (subst r; unR; un; lra).
      apply (two_discs g a b r2 R1 R2 RP NE).
      * intros ->. assert (p = 0) by (subst p; clearbody f; clear; destruct b, f; unV; rring). assert (q = 0) by (subst q; clearbody f; clear; destruct b, f; unV; rring). rewrite H, H0 in CR. lra.
      * exact Z.
      * intros u U T. destruct (ENDS u CR (proj1 U) T) as [_ V]. exact V.
Qed.
(** A circle. *)
Lemma circle_cast (c : @circle RNum) (a b : rvec) (r2 : R) i : 0 <= ci_r c -> 0 <= r2 -> 0 < ci_r c + r2 -> a <> b -> shape_segment_query (SCircle c) a b r2 = Some i ->
  (si_hit i = true -> first_touch (SCircle c) a b r2 (si_alpha i) /\ (r2 + ci_r c < vdist a (ci_tc c) -> good_hit (SCircle c) a b r2 i)) /\
  (forall t, 0 <= t <= 1 -> touches (SCircle c) a b r2 t -> si_hit i = true).
Proof.
  intros R1 R2 RS AB. unfold shape_segment_query. cbn [shape_point_query class_segment_query].
  assert (PD : pi_dist (circle_point_query c a) = vdist a (ci_tc c) - ci_r c) by reflexivity. rewrite PD. change (@nleb RNum) with Rleb.
  assert (A0 : vlerp a b 0 = a) by (destruct a, b; unV; f_equal; rring).
  destruct (Rleb_spec (vdist a (ci_tc c) - ci_r c) r2) as [L|L]; intros E; injection E as <-.
  - cbn [si_hit si_alpha]. split; [|reflexivity]. intros _. split; [|un; intros; lra]. unR. split; [lra|]. split; [|intros; lra].
    exists (ci_tc c). split; [reflexivity|]. rewrite A0. simpl radius_of. un. lra.
  - destruct (circle_ray (ci_tc c) (ci_r c) a b r2 (blank b) AB RS) as [[-> M]|D]; [un; lra| |].
    + split; [discriminate|]. intros t T [k [-> X]]. simpl radius_of in X. specialize (M t T). un. lra.
    + pose proof D as (H & AL & DT & EA & NM & PO & SP & FA). split; [|intros; exact H]. intros _.
      assert (F : first_touch (SCircle c) a b r2 (si_alpha (circle_segment_query (ci_tc c) (ci_r c) a b r2 (blank b)))).
      { split; [exact AL|]. split; [exists (ci_tc c); split; [reflexivity|]; rewrite DT; apply Rle_refl|]. intros u U [k [-> X]]. simpl radius_of in X. specialize (EA u U). un. lra. }
      split; [exact F|]. intros _. split; [exact F|]. split; [|split; [exact NM|split; [exact FA|exists (ci_tc c); simpl; auto]]].
      rewrite SP. simpl radius_of. assert (DP : vdist (vadd (ci_tc c) (vscale (si_normal (circle_segment_query (ci_tc c) (ci_r c) a b r2 (blank b))) (ci_r c))) (ci_tc c) = ci_r c).
      { unfold vdist. rewrite add_sub, mag_scale, NM, Rabs_right by (un; lra). un. ring. }
      split; [exists (ci_tc c); split; [reflexivity|exact DP]|]. intros z ->. un. lra.
Qed.
