(** Proofs about segment queries of polygons (Shapes.v) over the reals. *)
From Coq Require Import ZArith Reals Lra Psatz List Bool Lia Arith.
From Verif Require Import Num NumReal Vec BB Transform Shapes ShapesSpec VecReal ShapesPoint ShapesRay ShapesPoly.
Import ListNotations.
Local Open Scope R_scope.

Lemma vec_dec (x y : rvec) : {x = y} + {x <> y}.
Proof. destruct x as [a b], y as [c d]. destruct (Req_EM_T a c) as [E|E]; [|right; congruence]. destruct (Req_EM_T b d) as [F|F]; [left; congruence|right; congruence]. Qed.
(** ** Distances to the hull exist *)
Lemma inside_dec vs p : inside vs p \/ exists a b, In (a, b) (sides vs) /\ vcross (vsub b a) (vsub p a) < 0.
Proof.
  unfold inside. induction (sides vs) as [|[x y] l IH]; [left; intros a b []|].
  destruct (Rlt_dec (vcross (vsub y x) (vsub p x)) 0) as [H|H]; [right; exists x, y; split; [left; reflexivity|exact H]|].
  destruct IH as [IH|(a & b & I & IH)]; [left; intros a b [E|I]; [inversion E; subst; un; lra|auto]|right; exists a, b; split; [right; exact I|exact IH]].
Qed.
Lemma sides_nonempty vs : (3 <= length vs)%nat -> sides vs <> [].
Proof.
  intros L E. destruct vs as [|v vs]; [simpl in L; lia|]. assert (In (v, v) [] \/ True) by auto.
  destruct (nth_error (v :: vs) (length (v :: vs) - 1)) as [a|] eqn:N; [|apply nth_error_None in N; simpl in *; lia].
  assert (I : In (a, v) (sides (v :: vs))) by (apply sides_nth; exists 0%nat; split; [reflexivity|exact N]). rewrite E in I. exact I.
Qed.
Lemma boundary_dist vs p : convex vs -> (3 <= length vs)%nat -> exists d, is_dist (on_boundary vs) p d.
Proof.
  intros C L. destruct (list_argmin (fun e => vdist p (closest_point_on_segment p (fst e) (snd e))) (sides vs) (sides_nonempty vs L)) as ([x y] & I & M).
  cbn [fst snd] in M. exists (vdist p (closest_point_on_segment p x y)). split.
  - exists (closest_point_on_segment p x y). split; [exists x, y; split; [exact I|apply closest_between]|reflexivity].
  - intros q (a & b & J & B). specialize (M _ J). cbn [fst snd] in M. eapply Rle_trans; [exact M|]. apply (closest_dist p a b); [eapply side_ne; eauto|exact B].
Qed.
Lemma hull_dist vs p : convex vs -> (3 <= length vs)%nat -> exists d, is_dist (hull vs) p d.
Proof.
  intros C L. destruct (inside_dec vs p) as [I|(a & b & I & H)].
  - exists 0. split; [exists p; split; [apply inside_hull; assumption|apply dist_self]|]. intros q _. apply dist_nonneg.
  - destruct (boundary_dist vs p C L) as [d D]. exists d. apply outside_dist; auto. intros HP. pose proof (hull_inside vs p C HP a b I) as X. un. lra.
Qed.
(** ** The first touch exists *)
Lemma first_exists s a b r u : (forall p, exists d, is_dist (core s) p d) -> 0 <= u -> touches s a b r u ->
  exists t, 0 <= t <= u /\ touches s a b r t /\ forall v, 0 <= v < t -> ~ touches s a b r v.
Proof.
  intros DE U TU. set (E := fun t => 0 <= t <= u /\ forall v, 0 <= v < t -> ~ touches s a b r v).
  destruct (completeness E) as [T [UB LUB]].
  - exists u. intros t [H _]. lra.
  - exists 0. split; [lra|]. intros v V. lra.
  - assert (T0 : 0 <= T) by (apply UB; split; [lra|intros; lra]).
    assert (T1 : T <= u) by (apply LUB; intros t [H _]; lra).
    assert (EARLY : forall v, 0 <= v < T -> ~ touches s a b r v).
    { intros v V TV. assert (T <= v); [|lra]. apply LUB. intros t [H H']. apply Rnot_lt_le. intros L. apply (H' v); [lra|exact TV]. }
    exists T. split; [lra|]. split; [|exact EARLY].
    destruct (DE (vlerp a b T)) as [d [[k [K D]] M]]. destruct (Rle_dec d (radius_of s + r)) as [L|L]; [exists k; split; [exact K|un; lra]|].
    exfalso. set (g := d - (radius_of s + r)). assert (G : 0 < g) by (subst g; lra).
    pose proof (dist_nonneg b a) as MN. set (m := vdist b a) in *.
    assert (NEAR : forall v, Rabs (v - T) * m < g -> ~ touches s a b r v).
    { intros v V [q [Q DQ]]. specialize (M q Q). pose proof (dist_triangle (vlerp a b T) (vlerp a b v) q) as TR. rewrite (lerp_move a b v T) in TR. fold m in TR.
      rewrite <- Rabs_Ropp in TR. replace (- (T - v)) with (v - T) in TR by ring. subst g. un. lra. }
    destruct (Rle_lt_or_eq_dec _ _ T1) as [LT|EQ].
    + set (e := Rmin (u - T) (g / (m + 1) / 2)).
      assert (GM : 0 < g / (m + 1)) by (apply Rdiv_lt_0_compat; lra).
      assert (E0 : 0 < e) by (apply Rmin_glb_lt; lra). assert (E1 : e <= u - T) by apply Rmin_l. assert (E2 : e <= g / (m + 1) / 2) by apply Rmin_r.
      assert (GG : g / (m + 1) * (m + 1) = g) by (field; lra). set (h := g / (m + 1)) in *. clearbody h e.
      assert (T + e <= T); [|lra]. apply UB. split; [lra|]. intros v V. destruct (Rlt_dec v T) as [B|B]; [apply EARLY; lra|]. apply NEAR. rewrite Rabs_right by lra.
      assert ((v - T) * m <= e * m) by (apply Rmult_le_compat_r; lra). assert (e * m <= h / 2 * m) by (apply Rmult_le_compat_r; lra). nra.
    + subst u. apply (NEAR T); [|exact TU]. rewrite Rminus_diag_eq by reflexivity. rewrite Rabs_R0. lra.
Qed.
Lemma first_unique s a b r t u : first_touch s a b r t -> first_touch s a b r u -> t = u.
Proof.
  intros (T & TT & FT) (U & TU & FU). destruct (Rtotal_order t u) as [L|[E|L]]; [exfalso; apply (FU t); [lra|exact TT]|exact E|exfalso; apply (FT u); [lra|exact TU]].
Qed.
(** A disc around a point of a convex core, hit first. *)
Lemma disc_good s a b (r2 : R) c i : (forall x y t, core s x -> core s y -> 0 <= t <= 1 -> core s (vlerp x y t)) -> 0 <= radius_of s -> 0 < radius_of s + r2 -> core s c ->
  disc_hit c (radius_of s) a b r2 i -> ~ touches s a b r2 0 -> first_touch s a b r2 (si_alpha i) -> good_hit s a b r2 i.
Proof.
  intros CV R1 RS CC (H & AL & DT & E & NM & PO & SP & FA) Z F.
  assert (A0 : 0 < si_alpha i). { destruct (Req_dec (si_alpha i) 0) as [X|X]; [|un; lra]. exfalso. destruct F as (_ & F & _). rewrite X in F. exact (Z F). }
  pose proof (first_exact _ _ _ _ _ F A0) as FE.
  assert (AN : forall q, core s q -> vdot (vsub (vlerp a b (si_alpha i)) c) (vsub q c) <= 0) by (apply nearest_angle; [exact CV|exact CC|rewrite DT; exact FE]).
  split; [exact F|]. split; [|split; [exact NM|split; [exact FA|exists c; auto]]].
  rewrite SP. set (R1' := radius_of s) in *. clearbody R1'.
  replace (vadd c (vscale (si_normal i) R1')) with (vadd c (vscale (vsub (vlerp a b (si_alpha i)) c) (R1' / (R1' + r2)))).
  - replace R1' with (R1' / (R1' + r2) * vdist (vlerp a b (si_alpha i)) c) at 3 by (rewrite DT; field; lra).
    apply beyond_dist; [exact CC|exact AN|]. apply Rmult_le_pos; [exact R1|]. left. apply Rinv_0_lt_compat. exact RS.
  - rewrite PO. clear -RS. destruct c as [cx cy], (si_normal i) as [nx ny]. unV. un. f_equal; field; lra.
Qed.

(** ** One side *)
Lemma cross_normal (u v x : rvec) : u <> v -> vcross (side_normal u v) x * vdist v u = vdot (vsub v u) x.
Proof.
  intros N. assert (M : 0 < vmag (vsub v u)) by (apply mag_pos; intros Z; apply N; symmetry; apply sub_zero; exact Z).
  unfold side_normal, vunit. rewrite rperp_mag. unfold vdist. set (m := vmag (vsub v u)) in *. clearbody m. destruct u as [ax ay], v as [bx by_], x as [ux uy]. unV. un. field. lra.
Qed.
Lemma dot_lerp (n a b : rvec) (t : R) : vdot n (vlerp a b t) = (1 - t) * vdot n a + t * vdot n b.
Proof. unV. rring. Qed.

Section PolyRay.
Variable s : @poly RNum.
Variables a b : rvec.
Variable r2 : R.
Let vs := map pl_v (po_dst s).
Let rsum := po_r s + r2.
Hypothesis OK : shape_ok (SPoly s).
Hypothesis R2 : 0 <= r2.
Hypothesis OUT : ~ touches (SPoly s) a b r2 0.
Hypothesis NP : forall u v, In (u, v) (sides (map pl_v (po_dst s))) -> vdot (side_normal u v) (vsub b a) <> 0.
Lemma pr_convex : convex vs.
Proof. apply OK. Qed.
Lemma pr_len : (3 <= length vs)%nat.
Proof. subst vs. rewrite map_length. apply OK. Qed.
Lemma pr_r0 : 0 <= po_r s.
Proof. apply OK. Qed.
Lemma pr_core_mix x y t : core (SPoly s) x -> core (SPoly s) y -> 0 <= t <= 1 -> core (SPoly s) (vlerp x y t).
Proof. intros; apply hull_mix; assumption. Qed.
(* beyond a side nothing is touched *)
Lemma pr_beyond u v t : In (u, v) (sides vs) -> rsum < vdot (side_normal u v) (vsub (vlerp a b t) v) -> ~ touches (SPoly s) a b r2 t.
Proof.
  intros I H [k [K D]]. simpl radius_of in D. change (po_r s + r2) with rsum in D.
  assert (NE := side_ne vs u v pr_convex pr_len I).
  pose proof (proj2 (proj1 (side_normal_sign u v k NE)) (hull_inside vs k pr_convex K u v I)) as NK.
  pose proof (dot_le (side_normal u v) (vsub (vlerp a b t) k)) as CS.
  assert (NM : vmag (side_normal u v) = 1).
  { apply sq_eq; [apply mag_nonneg|lra|]. pose proof (mag_sq (side_normal u v)) as Q. rewrite side_normal_unit in Q by exact NE. un. change (@nmul RNum) with Rmult in Q. lra. }
  rewrite NM in CS. change (vmag (vsub (vlerp a b t) k)) with (vdist (vlerp a b t) k) in CS.
  assert (E : vdot (side_normal u v) (vsub (vlerp a b t) k) = vdot (side_normal u v) (vsub (vlerp a b t) v) - vdot (side_normal u v) (vsub k v)).
  { set (n := side_normal u v). set (l := vlerp a b t). clearbody n l. unV. rring. }
  un. lra.
Qed.
(* a contact with the flat part of a side *)
Lemma pr_contact u v k t : In (u, v) (sides vs) -> between u v k -> 0 <= t <= 1 -> vlerp a b t = vadd k (vscale (side_normal u v) rsum) ->
  0 <= vdot (side_normal u v) (vsub a v) - rsum -> good_hit (SPoly s) a b r2 (SInfo true (vsub (vlerp a b t) (vscale (side_normal u v) r2)) (side_normal u v) t) /\
  0 < vdot (side_normal u v) (vsub a v) - rsum /\ vdot (side_normal u v) (vsub a v) - rsum = t * (vdot (side_normal u v) a - vdot (side_normal u v) b).
Proof.
  intros I B T P D. assert (NE := side_ne vs u v pr_convex pr_len I). set (n := side_normal u v) in *.
  assert (NN : vdot n n = 1) by (apply side_normal_unit; exact NE).
  assert (NM : vmag n = 1) by (apply sq_eq; [apply mag_nonneg|lra|]; pose proof (mag_sq n) as Q; rewrite NN in Q; un; change (@nmul RNum) with Rmult in Q; lra).
  assert (K0 : vdot n (vsub k v) = 0).
  { apply (side_normal_sign u v k NE). destruct B as [z [_ ->]]. rewrite cross_lerp. replace (vcross (vsub v u) (vsub u u)) with 0 by (unV; rring). replace (vcross (vsub v u) (vsub v u)) with 0 by (unV; rring). un. ring. }
  assert (CK : core (SPoly s) k) by (apply boundary_hull; exists u, v; auto).
  assert (NP' : vdot n (vsub (vlerp a b t) v) = rsum).
  { rewrite P. transitivity (vdot n (vsub k v) + rsum * vdot n n); [clearbody n rsum; unV; rring|]. rewrite K0, NN. un. ring. }
  assert (LIN : forall w : R, vdot n (vsub (vlerp a b w) v) = vdot n (vsub a v) + w * vdot n (vsub b a)) by (intros w; clearbody n; unV; rring).
  rewrite LIN in NP'.
  assert (R0 : 0 <= po_r s) by apply pr_r0.
  assert (T0 : t <> 0).
  { intros ->. apply OUT. exists k. split; [exact CK|]. rewrite P. unfold vdist. rewrite add_sub, mag_scale, NM. simpl radius_of. change (po_r s + r2) with rsum. rewrite Rabs_right; [un; lra|subst rsum; un; lra]. }
  assert (ND : vdot n (vsub b a) < 0).
  { specialize (NP u v I). fold n in NP. destruct (Rtotal_order (vdot n (vsub b a)) 0) as [L|[E|L]]; [exact L|contradiction|]. exfalso. un. nra. }
  assert (DP : 0 < vdot n (vsub a v) - rsum) by (un; nra).
  split; [|split; [exact DP|]].
  - assert (SP : vsub (vlerp a b t) (vscale n r2) = vadd k (vscale n (po_r s))).
    { rewrite P. subst rsum. clearbody n. clear. destruct k as [kx ky], n as [nx ny]. unV. f_equal; rring. }
    unfold good_hit. cbn [si_alpha si_point si_normal]. simpl radius_of. fold rsum.
    split; [|split; [|split; [exact NM|split; [|exists k; auto]]]].
    + split; [exact T|]. split.
      * exists k. split; [exact CK|]. rewrite P. unfold vdist. rewrite add_sub, mag_scale, NM. simpl radius_of. fold rsum. rewrite Rabs_right; [un; lra|subst rsum; un; lra].
      * intros w W. apply (pr_beyond u v w I). fold n. rewrite LIN. un. nra.
    + rewrite SP. assert (DR : vdist (vadd k (vscale n (po_r s))) k = po_r s) by (unfold vdist; rewrite add_sub, mag_scale, NM, Rabs_right by (un; lra); un; ring).
      rewrite <- DR at 2. apply nearest_dist; [exact CK|]. intros z HZ. rewrite add_sub.
      pose proof (proj2 (proj1 (side_normal_sign u v z NE)) (hull_inside vs z pr_convex HZ u v I)) as NZ. fold n in NZ.
      replace (vdot (vscale n (po_r s)) (vsub z k)) with (po_r s * (vdot n (vsub z v) - vdot n (vsub k v))) by (clearbody n; unV; rring). rewrite K0. un. nra.
    + replace (vdot n (vsub a b)) with (- vdot n (vsub b a)) by (clearbody n; unV; rring). un. lra.
  - replace (vdot n a - vdot n b) with (- vdot n (vsub b a)) by (clearbody n; unV; rring). un. lra.
Qed.
Lemma pr_side q u info : In (u, pl_v q) (sides vs) -> pl_n q = side_normal u (pl_v q) ->
  let i := poly_side_query a b rsum r2 u q info in i = info \/ (si_hit i = true /\ good_hit (SPoly s) a b r2 i).
Proof.
  intros I NQ i. subst i. unfold poly_side_query. rewrite NQ. set (v := pl_v q) in *. assert (NE := side_ne vs u v pr_convex pr_len I).
  pose proof (NP u v I) as NPI. set (n := side_normal u v) in *.
  change (@nltb RNum) with Rltb. change (@nleb RNum) with Rleb. change (@n0 RNum) with (IZR 0). change (@n1 RNum) with (IZR 1). change (@nsub RNum) with Rminus. change (@ndiv RNum) with Rdiv. un.
  set (D := vdot a n - vdot v n - rsum).
  destruct (Rltb_spec D 0) as [L|L]; [left; reflexivity|].
  set (t := D / (vdot a n - vdot b n)).
  destruct (Rltb_spec t 0) as [T0|T0]; [left; reflexivity|]. destruct (Rltb_spec 1 t) as [T1|T1]; [left; reflexivity|]. cbn [orb].
  destruct (Rleb_spec (vcross n u) (vcross n (vlerp a b t))) as [C1|C1]; [|left; reflexivity].
  destruct (Rleb_spec (vcross n (vlerp a b t)) (vcross n v)) as [C2|C2]; [|left; reflexivity]. cbn [andb].
  right. split; [reflexivity|].
  assert (AB : vdot a n - vdot b n <> 0). { intros Z. apply NPI. transitivity (- (vdot a n - vdot b n)); [clearbody n; unV; rring|]. rewrite Z. un. ring. }
  assert (TD : t * (vdot a n - vdot b n) = D) by (subst t; field; exact AB).
  assert (DE : D = vdot n (vsub a v) - rsum) by (subst D; clearbody n; unV; rring).
  set (k := vsub (vlerp a b t) (vscale n rsum)).
  assert (NN : vdot n n = 1) by (apply side_normal_unit; exact NE).
  (* k is on the line of the side *)
  assert (K0 : vdot n (vsub k v) = 0).
  { assert (X : vdot n (vsub k v) = D - t * (vdot a n - vdot b n) + (rsum - rsum * vdot n n)) by (subst k; rewrite DE; clearbody n rsum; clear; unV; rring).
    rewrite X, TD, NN. un. ring. }
  assert (KC : vcross n k = vcross n (vlerp a b t)) by (subst k; clearbody n rsum; unV; rring).
  assert (B : between u v k).
  { assert (M : 0 < vdist v u) by (apply mag_pos; intros Z; apply NE; symmetry; apply sub_zero; exact Z).
    assert (W : vcross n v - vcross n u = vdist v u).
    { apply (Rmult_eq_reg_r (vdist v u)); [|lra]. transitivity (vcross n v * vdist v u - vcross n u * vdist v u); [un; ring|]. unfold n. 
      pose proof (cross_normal u v v NE) as E1. pose proof (cross_normal u v u NE) as E2. change (@nmul RNum) with Rmult in *. un. rewrite E1, E2.
      unfold vdist. pose proof (mag_sq (vsub v u)) as Q. change (@nmul RNum) with Rmult in Q. rewrite Q. unV. rring. }
    set (z := (vcross n k - vcross n u) / vdist v u). assert (Z : z * vdist v u = vcross n k - vcross n u) by (subst z; field; lra).
    exists z. split; [rewrite KC in Z; clearbody z; un; split; nra|].
    assert (FR : forall x y : rvec, vcross n x = vcross n y -> vdot n x = vdot n y -> x = y).
    { intros x y X Y. apply sub_zero. apply dot_0. rewrite (frame_dot n) by exact NN.
      replace (vcross n (vsub x y)) with (vcross n x - vcross n y) by (clearbody n; unV; rring). replace (vdot n (vsub x y)) with (vdot n x - vdot n y) by (clearbody n; unV; rring). rewrite X, Y. un. ring. }
    apply FR.
    - transitivity (vcross n u + z * (vcross n v - vcross n u)); [rewrite W; un; lra|]. clearbody n z. unV. rring.
    - assert (NU : vdot n (vsub u v) = 0).
      { apply (side_normal_sign u v u NE). unV. rring. }
      transitivity (vdot n (vsub k v) + vdot n v); [clearbody n k; unV; rring|]. rewrite K0. transitivity (vdot n v + (1 - z) * vdot n (vsub u v)); [rewrite NU; un; ring|]. clearbody n z. unV. rring. }
  assert (P : vlerp a b t = vadd k (vscale n rsum)).
  { subst k. set (l := vlerp a b t). clearbody l n rsum. clear. destruct l as [lx ly], n as [nx ny]. unV. f_equal; rring. }
  apply (pr_contact u v k t I B); [lra|exact P|]. fold n. rewrite <- DE. lra.
Qed.
(* the query finds such a contact *)
Lemma pr_found q u k t info : In (u, pl_v q) (sides vs) -> pl_n q = side_normal u (pl_v q) -> between u (pl_v q) k -> 0 <= t <= 1 ->
  vlerp a b t = vadd k (vscale (pl_n q) rsum) -> 0 <= vdot (pl_n q) (vsub a (pl_v q)) - rsum ->
  si_hit (poly_side_query a b rsum r2 u q info) = true /\ good_hit (SPoly s) a b r2 (poly_side_query a b rsum r2 u q info).
Proof.
  intros I NQ B T P D. rewrite NQ in *. set (v := pl_v q) in *. assert (NE := side_ne vs u v pr_convex pr_len I).
  destruct (pr_contact u v k t I B T P D) as (GH & D1 & D2). pose proof (NP u v I) as NPI. unfold poly_side_query. rewrite NQ. fold v. set (n := side_normal u v) in *.
  change (@nltb RNum) with Rltb. change (@nleb RNum) with Rleb. change (@n0 RNum) with (IZR 0). change (@n1 RNum) with (IZR 1). change (@nsub RNum) with Rminus. change (@ndiv RNum) with Rdiv. un.
  set (D' := vdot a n - vdot v n - rsum).
  assert (DE : D' = vdot n (vsub a v) - rsum) by (subst D'; clearbody n; unV; rring).
  assert (AN : vdot a n - vdot b n = vdot n a - vdot n b) by (clearbody n; unV; rring).
  assert (TE : D' / (vdot a n - vdot b n) = t).
  { rewrite AN, DE, D2. field. intros Z. rewrite Z in D2. un. lra. }
  rewrite TE. destruct (Rltb_spec D' 0) as [L|L]; [un; lra|]. destruct (Rltb_spec t 0) as [T0|T0]; [lra|]. destruct (Rltb_spec 1 t) as [T1|T1]; [lra|]. cbn [orb].
  assert (PC : vcross n (vlerp a b t) = vcross n k) by (rewrite P; clearbody n rsum; unV; rring).
  assert (M : 0 < vdist v u) by (apply mag_pos; intros Z; apply NE; symmetry; apply sub_zero; exact Z).
  pose proof (cross_normal u v v NE) as E1. pose proof (cross_normal u v u NE) as E2. fold n in E1, E2.
  assert (LE : vcross n u <= vcross n v).
  { apply (Rmult_le_reg_r (vdist v u)); [exact M|]. change (@nmul RNum) with Rmult in *. un. rewrite E1, E2. pose proof (dot_nonneg (vsub v u)) as Q. replace (vdot (vsub v u) v) with (vdot (vsub v u) u + vdot (vsub v u) (vsub v u)) by (unV; rring). un. lra. }
  assert (KB : vcross n u <= vcross n k <= vcross n v).
  { destruct B as [z [Z ->]]. replace (vcross n (vlerp u v z)) with ((1 - z) * vcross n u + z * vcross n v) by (clearbody n; unV; rring). un. split; nra. }
  rewrite PC. destruct (Rleb_spec (vcross n u) (vcross n k)) as [C1|C1]; [|un; lra]. destruct (Rleb_spec (vcross n k) (vcross n v)) as [C2|C2]; [|un; lra]. cbn [andb]. split; [reflexivity|exact GH].
Qed.
(* the first touch is a contact with a side or with the disc of a vertex *)
Lemma pr_first t : 0 <= t <= 1 -> touches (SPoly s) a b r2 t -> (forall v, 0 <= v < t -> ~ touches (SPoly s) a b r2 v) ->
  (exists u v k, In (u, v) (sides vs) /\ between u v k /\ vlerp a b t = vadd k (vscale (side_normal u v) rsum) /\ 0 <= vdot (side_normal u v) (vsub a v) - rsum) \/
  (0 < rsum /\ exists v, In v vs /\ vdist (vlerp a b t) v <= rsum).
Proof.
  intros T TT FT. assert (R0 := pr_r0). assert (C := pr_convex). assert (L := pr_len).
  assert (T0 : 0 < t) by (destruct (Req_dec t 0) as [->|X]; [contradiction|lra]).
  assert (F : first_touch (SPoly s) a b r2 t) by (split; [exact T|split; assumption]).
  pose proof (first_exact _ _ _ _ _ F T0) as FE. simpl radius_of in FE. change (po_r s + r2) with rsum in FE.
  destruct TT as [k [K DK]]. simpl radius_of in DK. change (po_r s + r2) with rsum in DK. set (P := vlerp a b t) in *.
  destruct (Req_dec rsum 0) as [Z|NZ].
  - (* zero radius *)
    left. assert (PK : P = k) by (apply sub_zero, mag_0; pose proof (mag_nonneg (vsub P k)) as X; unfold vdist in DK; un; lra).
    assert (AO : ~ hull vs a). { intros X. apply OUT. exists a. split; [exact X|]. rewrite lerp_0, dist_self. simpl radius_of. un. lra. }
    rewrite <- PK in K. destruct (exit_point (sides vs) P a (hull_inside vs P C K)) as (w & W & A & X).
    assert (HW : hull vs (vlerp P a w)) by (apply inside_hull; assumption).
    destruct X as [->|(u & v & I & E0 & E1)]; [rewrite lerp_1 in HW; contradiction|].
    assert (W0 : w = 0).
    { destruct (Req_dec w 0) as [|NW]; [assumption|exfalso]. set (tw := (t * (1 - w))%R). apply (FT tw); [subst tw; split; nra|]. exists (vlerp P a w). split; [exact HW|].
      replace (vlerp a b tw) with (vlerp P a w) by (subst P tw; clear; destruct a, b; unV; f_equal; rring). rewrite dist_self. simpl radius_of. un. lra. }
    subst w. rewrite lerp_0 in E0. assert (NE := side_ne vs u v C L I). exists u, v, P. split; [exact I|]. split; [apply (hull_side vs u v P C I K); exact E0|]. split.
    + rewrite Z. set (n := side_normal u v). clearbody n P. clear. destruct P, n. unV. f_equal; rring.
    + rewrite Z. rewrite Rminus_0_r. apply Rnot_lt_le. intros N. pose proof (proj1 (proj1 (side_normal_sign u v a NE))) as X. specialize (X (Rlt_le _ _ N)). un. lra.
  - assert (RP : 0 < rsum) by (subst rsum; un; lra).
    assert (PO : ~ hull vs P). { intros X. specialize (FE P X). rewrite dist_self in FE. lra. }
    destruct (cross_boundary vs k P C L K PO) as (q & (u & v & I & B) & DQ).
    assert (CQ : hull vs q) by (apply boundary_hull; exists u, v; auto).
    assert (EQ : vdist P q = rsum) by (apply Rle_antisym; [un; lra|apply FE; exact CQ]). clear k K DK DQ.
    assert (NE := side_ne vs u v C L I). pose proof B as [z [ZB EZ]].
    destruct (Req_dec z 0) as [Z0|Z0]; [right; split; [exact RP|]; exists u; split; [apply (side_in vs u v I)|]; subst z; rewrite lerp_0 in EZ; subst q; un; lra|].
    destruct (Req_dec z 1) as [Z1|Z1]; [right; split; [exact RP|]; exists v; split; [apply (side_in vs u v I)|]; subst z; rewrite lerp_1 in EZ; subst q; un; lra|].
    left. exists u, v, q. split; [exact I|]. split; [exact B|]. set (n := side_normal u v).
    assert (NN : vdot n n = 1) by (apply side_normal_unit; exact NE).
    assert (NM : vmag n = 1) by (apply sq_eq; [apply mag_nonneg|lra|]; pose proof (mag_sq n) as Q; rewrite NN in Q; un; change (@nmul RNum) with Rmult in Q; lra).
    assert (AN : forall x, hull vs x -> vdot (vsub P q) (vsub x q) <= 0).
    { apply nearest_angle; [intros; apply hull_mix; assumption|exact CQ|]. rewrite EQ. exact FE. }
    destruct (side_in vs u v I) as [IU IV].
    assert (PW : vdot (vsub P q) (vsub v u) = 0).
    { pose proof (AN u (hull_in vs u IU)) as A1. pose proof (AN v (hull_in vs v IV)) as A2.
      assert (E1 : vdot (vsub P q) (vsub u q) = - z * vdot (vsub P q) (vsub v u)).
      { set (e := vsub P q). clearbody e. rewrite EZ. clear. destruct e, u, v. unV. rring. }
      assert (E2 : vdot (vsub P q) (vsub v q) = (1 - z) * vdot (vsub P q) (vsub v u)).
      { set (e := vsub P q). clearbody e. rewrite EZ. clear. destruct e, u, v. unV. rring. }
      rewrite E1 in A1. rewrite E2 in A2. set (y := vdot (vsub P q) (vsub v u)) in *. clearbody y. un. nra. }
    assert (M : 0 < vdist v u) by (apply mag_pos; intros Y; apply NE; symmetry; apply sub_zero; exact Y).
    assert (CN : vcross n (vsub P q) = 0).
    { apply (Rmult_eq_reg_r (vdist v u)); [|lra]. pose proof (cross_normal u v (vsub P q) NE) as E. fold n in E. change (@nmul RNum) with Rmult in E. un. rewrite E, Rmult_0_l. rewrite <- PW. unV. rring. }
    set (e := vdot n (vsub P q)).
    assert (PE : vsub P q = vscale n e).
    { apply sub_zero, dot_0. rewrite (frame_dot n) by exact NN.
      replace (vcross n (vsub (vsub P q) (vscale n e))) with (vcross n (vsub P q)) by (clearbody n e P; unV; rring).
      replace (vdot n (vsub (vsub P q) (vscale n e))) with (vdot n (vsub P q) - e * vdot n n) by (clearbody n e P; unV; rring). rewrite CN, NN. subst e. un. ring. }
    assert (EA : Rabs e = rsum). { rewrite <- EQ. unfold vdist. rewrite PE, mag_scale, NM. un. ring. }
    (* a third vertex fixes the side *)
    assert (TH : exists x, In x vs /\ vdot n (vsub x v) < 0).
    { destruct (Rle_dec 0 0) as [_|X]; [|lra].
      assert (exists x, In x vs /\ x <> u /\ x <> v) as (x & X & XU & XV).
      { destruct vs as [|v0 [|v1 [|v2 l]]] eqn:EV; try (simpl in L; lia).
        assert (D01 : v0 <> v1). { intros ->. pose proof (C 0 1 2 v1 v1 v2)%nat as Y. specialize (Y ltac:(lia) ltac:(lia) eq_refl eq_refl eq_refl). assert (Z : vcross (vsub v1 v1) (vsub v2 v1) = 0) by (clear; unV; rring). un. lra. }
        assert (D02 : v0 <> v2). { intros ->. pose proof (C 0 1 2 v2 v1 v2)%nat as Y. specialize (Y ltac:(lia) ltac:(lia) eq_refl eq_refl eq_refl). assert (Z : vcross (vsub v1 v2) (vsub v2 v2) = 0) by (clear; unV; rring). un. lra. }
        assert (D12 : v1 <> v2). { intros ->. pose proof (C 0 1 2 v0 v2 v2)%nat as Y. specialize (Y ltac:(lia) ltac:(lia) eq_refl eq_refl eq_refl). assert (Z : vcross (vsub v2 v0) (vsub v2 v0) = 0) by (clear; unV; rring). un. lra. }
        destruct (vec_dec v0 u) as [E0|E0]; [|destruct (vec_dec v0 v) as [E0'|E0']; [|exists v0; split; [left; reflexivity|auto]]].
        - destruct (vec_dec v1 v) as [E1|E1]; [exists v2; split; [right; right; left; reflexivity|split; congruence]|exists v1; split; [right; left; reflexivity|split; congruence]].
        - destruct (vec_dec v1 u) as [E1|E1]; [exists v2; split; [right; right; left; reflexivity|split; congruence]|exists v1; split; [right; left; reflexivity|split; congruence]]. }
      exists x. split; [exact X|]. destruct (side_vertex vs u v x C I X) as [Y|[Y|Y]]; [contradiction|contradiction|].
      destruct (side_normal_sign u v x NE) as [S1 S2]. fold n in S1, S2. assert (vdot n (vsub x v) <= 0) by (apply S1; un; lra). destruct (Req_dec (vdot n (vsub x v)) 0) as [Q|Q]; [apply S2 in Q; un; lra|un; lra]. }
    assert (Q0 : vdot n (vsub q v) = 0).
    { apply (side_normal_sign u v q NE). rewrite EZ, cross_lerp. replace (vcross (vsub v u) (vsub u u)) with 0 by (clear; unV; rring). replace (vcross (vsub v u) (vsub v u)) with 0 by (clear; unV; rring). un. ring. }
    assert (EP : e = rsum).
    { destruct TH as (x & X & XN). pose proof (AN x (hull_in vs x X)) as Y. rewrite PE in Y.
      replace (vdot (vscale n e) (vsub x q)) with (e * (vdot n (vsub x v) - vdot n (vsub q v))) in Y by (clearbody n e; clear; destruct n, x, q, v; unV; rring). rewrite Q0 in Y.
      assert (0 <= e) by (un; nra). rewrite Rabs_right in EA by lra. exact EA. }
    split; [rewrite <- EP, <- PE, sub_add; reflexivity|].
    (* the cast comes from outside *)
    set (dn := vdot n (vsub b a)).
    assert (LIN : vdot n (vsub P v) = vdot n (vsub a v) + t * dn) by (subst P dn; clearbody n; clear; destruct n, a, b, v; unV; rring).
    assert (PN : vdot n (vsub P v) = rsum).
    { transitivity (vdot n (vsub P q) + vdot n (vsub q v)); [clearbody n P; clear; destruct n, P, q, v; unV; rring|]. rewrite Q0. fold e. un. lra. }
    apply Rnot_lt_le. intros NEG. assert (DN : 0 < dn) by (un; nra).
    set (c := vdot (vsub b a) (vsub v u) / (vdist v u * vdist v u)).
    set (h := Rmin (t / 2) (Rmin (rsum / dn) (Rmin (z / (Rabs c + 1)) ((1 - z) / (Rabs c + 1))))).
    pose proof (Rabs_pos c) as AC. set (ac := Rabs c + 1) in *. assert (ACP : 0 < ac) by (subst ac; lra).
    assert (H1 : h <= t / 2) by apply Rmin_l.
    assert (H2 : h <= rsum / dn) by (eapply Rle_trans; [apply Rmin_r|apply Rmin_l]).
    assert (H3 : h <= z / ac) by (eapply Rle_trans; [apply Rmin_r|]; eapply Rle_trans; [apply Rmin_r|apply Rmin_l]).
    assert (H4 : h <= (1 - z) / ac) by (eapply Rle_trans; [apply Rmin_r|]; eapply Rle_trans; [apply Rmin_r|apply Rmin_r]).
    assert (H0 : 0 < h). { subst h. apply Rmin_glb_lt; [lra|]. apply Rmin_glb_lt; [apply Rdiv_lt_0_compat; un; lra|]. apply Rmin_glb_lt; apply Rdiv_lt_0_compat; lra. }
    assert (H2' : h * dn <= rsum). { apply Rmult_le_compat_r with (r := dn) in H2; [|lra]. replace (rsum / dn * dn) with rsum in H2 by (field; lra). exact H2. }
    assert (H3' : h * ac <= z). { apply Rmult_le_compat_r with (r := ac) in H3; [|lra]. replace (z / ac * ac) with z in H3 by (field; lra). exact H3. }
    assert (H4' : h * ac <= 1 - z). { apply Rmult_le_compat_r with (r := ac) in H4; [|lra]. replace ((1 - z) / ac * ac) with (1 - z) in H4 by (field; lra). exact H4. }
    assert (CB : - ac <= c <= ac) by (subst ac; unfold Rabs; destruct (Rcase_abs c); lra).
    assert (C2 : c * (vdist v u * vdist v u) = vdot (vsub b a) (vsub v u)) by (subst c; field; lra).
    clearbody h ac c.
    set (th := (t - h)%R). set (zc := (z - h * c)%R). set (rd := (rsum - h * dn)%R). assert (ZC : 0 <= zc <= 1) by (subst zc; nra). assert (RD : 0 <= rd) by (subst rd; lra).
    apply (FT th); [subst th; lra|]. exists (vlerp u v zc). split.
    { apply boundary_hull. exists u, v. split; [exact I|]. exists zc. split; [exact ZC|reflexivity]. }
    simpl radius_of. change (po_r s + r2) with rsum.
    assert (PE2 : vlerp a b t = vadd q (vscale n rsum)) by (rewrite <- EP, <- PE; fold P; rewrite sub_add; reflexivity).
    assert (DEC : vsub b a = vadd (vscale (vsub v u) c) (vscale n dn)).
    { apply sub_zero, dot_0. rewrite (frame_dot n) by exact NN.
      assert (NV : vdot n (vsub v u) = 0). { transitivity (- vdot n (vsub u v)); [clearbody n; clear; destruct n, u, v; unV; rring|]. assert (NU : vdot n (vsub u v) = 0) by (apply (side_normal_sign u v u NE); clear; unV; rring). rewrite NU. un. ring. }
      replace (vdot n (vsub (vsub b a) (vadd (vscale (vsub v u) c) (vscale n dn)))) with (vdot n (vsub b a) - c * vdot n (vsub v u) - dn * vdot n n) by (clearbody n dn; clear; destruct n, u, v, a, b; unV; rring).
      rewrite NV, NN. fold dn.
      assert (Y : vcross n (vsub (vsub b a) (vadd (vscale (vsub v u) c) (vscale n dn))) = 0).
      { transitivity (vcross n (vsub b a) - c * vcross n (vsub v u)); [clearbody n dn; clear; destruct n, u, v, a, b; unV; rring|].
        apply (Rmult_eq_reg_r (vdist v u)); [|lra].
        pose proof (cross_normal u v (vsub b a) NE) as E1. pose proof (cross_normal u v (vsub v u) NE) as E2. fold n in E1, E2. change (@nmul RNum) with Rmult in *. un.
        pose proof (mag_sq (vsub v u)) as Q. change (@nmul RNum) with Rmult in Q. fold (vdist v u) in Q. un. rewrite <- Q in E2.
        assert (E3 : vdot (vsub v u) (vsub b a) = vdot (vsub b a) (vsub v u)) by (clear; destruct u, v, a, b; unV; rring). rewrite E3 in E1. nra. }
      rewrite Y. un. ring. }
    assert (X : vsub (vlerp a b th) (vlerp u v zc) = vscale n rd).
    { transitivity (vsub (vsub (vlerp a b t) (vscale (vsub b a) h)) (vsub q (vscale (vscale (vsub v u) c) h))).
      { rewrite EZ. subst th zc. clear. destruct a, b, u, v. unV. f_equal; rring. }
      rewrite PE2, DEC. subst rd. clearbody n dn rsum. clear. destruct n, q, u, v. unV. f_equal; rring. }
    unfold vdist. rewrite X, mag_scale, NM, Rabs_right by lra. subst rd. un. nra.
Qed.
End PolyRay.

(** ** The two loops *)
Section Loops.
Variable G : sinfo -> Prop.
Lemma sides_loop (f : rvec * plane -> @sinfo RNum -> @sinfo RNum) l : (forall e i, In e l -> f e i = i \/ G (f e i)) -> forall i0,
  let r := fold_left (fun i e => f e i) l i0 in (r = i0 \/ G r) /\ (G i0 -> G r) /\ ((exists e, In e l /\ forall i, G (f e i)) -> G r).
Proof.
  induction l as [|e l IH]; intros H i0; cbn [fold_left]; cbv zeta.
  - split; [left; reflexivity|]. split; [auto|]. intros (e & [] & _).
  - destruct (IH (fun e' i I => H e' i (or_intror I)) (f e i0)) as (A & B & C). destruct (H e i0 (or_introl eq_refl)) as [S|S].
    + split; [rewrite S in A at 2; exact A|]. split; [intros X; apply B; rewrite S; exact X|]. intros (e' & [<-|I] & F); [apply B; apply F|apply C; eauto].
    + split; [right; auto|]. auto.
Qed.
End Loops.
Lemma discs_loop (f : @plane RNum -> @sinfo RNum) l : forall i0 : @sinfo RNum,
  let r := fold_left (fun i q => if Rltb (si_alpha (f q)) (si_alpha i) then f q else i) l i0 in
  (r = i0 \/ exists q, In q l /\ r = f q /\ si_alpha (f q) < si_alpha i0) /\ si_alpha r <= si_alpha i0 /\ forall q, In q l -> si_alpha r <= si_alpha (f q).
Proof.
  induction l as [|q l IH]; intros i0; cbn [fold_left]; cbv zeta.
  - split; [left; reflexivity|]. split; [apply Rle_refl|intros q []].
  - destruct (Rltb_spec (si_alpha (f q)) (si_alpha i0)) as [L|L].
    + destruct (IH (f q)) as (A & B & C). split; [|split; [un; lra|intros q' [<-|I]; auto]].
      right. destruct A as [A|(q' & I & A & A')]; [exists q; split; [left; reflexivity|auto]|exists q'; split; [right; exact I|split; [exact A|un; lra]]].
    + destruct (IH i0) as (A & B & C). split; [|split; [exact B|intros q' [<-|I]; [un; lra|auto]]].
      destruct A as [A|(q' & I & A)]; [left; exact A|right; exists q'; split; [right; exact I|exact A]].
Qed.
(** ** A polygon *)
Lemma poly_ray (s : @poly RNum) (a b : rvec) (r2 : R) : shape_ok (SPoly s) -> 0 <= r2 -> ~ touches (SPoly s) a b r2 0 ->
  (forall u v, In (u, v) (sides (map pl_v (po_dst s))) -> vdot (side_normal u v) (vsub b a) <> 0) ->
  let i := poly_segment_query s a b r2 (blank b) in
  (si_hit i = true -> good_hit (SPoly s) a b r2 i) /\ (forall t, 0 <= t < 1 -> touches (SPoly s) a b r2 t -> si_hit i = true).
Proof.
  intros OK R2 OUT NP i. pose proof OK as (R0 & L & C & PL). set (vs := map pl_v (po_dst s)) in *.
  assert (LV : (3 <= length vs)%nat) by (subst vs; rewrite map_length; exact L).
  destruct (rev (po_dst s)) as [|x r] eqn:RV; [apply (f_equal (@length _)) in RV; rewrite rev_length in RV; cbn in RV; lia|].
  destruct (pairs_sides (po_dst s) x r PL RV) as (P1 & P2 & P3). fold vs in P1, P2.
  assert (EV : po_dst s = rev r ++ [x]) by (rewrite <- (rev_involutive (po_dst s)), RV; reflexivity).
  assert (SD : combine (map pl_v (skipn (length (po_dst s) - 1) (po_dst s) ++ po_dst s)) (po_dst s) = pairs (pl_v x) (po_dst s)).
  { unfold pairs. f_equal. rewrite EV at 1 2. rewrite skipn_last. reflexivity. }
  set (good := fun j : sinfo => si_hit j = true /\ good_hit (SPoly s) a b r2 j).
  set (rsum := (po_r s + r2)%R).
  set (f := fun (e : rvec * plane) j => poly_side_query a b rsum r2 (fst e) (snd e) j).
  set (i1 := fold_left (fun j e => f e j) (pairs (pl_v x) (po_dst s)) (blank b)).
  destruct (sides_loop good f (pairs (pl_v x) (po_dst s))) with (i0 := @blank RNum b) as (S1 & _ & S2).
  { intros [u q] j I. destruct (P1 u q I) as [I1 I2]. apply (pr_side s a b r2 OK R2 OUT NP q u j I1 I2). }
  fold i1 in S1, S2.
  (* the first touch, if any before the end *)
  assert (FIRST : forall t, 0 <= t < 1 -> touches (SPoly s) a b r2 t -> exists w, 0 <= w <= t /\ first_touch (SPoly s) a b r2 w /\
            (good i1 \/ (0 < rsum /\ exists q, In q (po_dst s) /\ vdist (vlerp a b w) (pl_v q) <= rsum))).
  { intros t T TT. destruct (first_exists (SPoly s) a b r2 t (fun p => hull_dist vs p C LV) (proj1 T) TT) as (w & W & TW & FW).
    exists w. split; [exact W|]. assert (W1 : 0 <= w <= 1) by lra. split; [split; [exact W1|split; assumption]|].
    destruct (pr_first s a b r2 OK R2 OUT w W1 TW FW) as [(u & v & k & I & B & E & D)|(RP & v & V & D)].
    - left. apply S2. destruct (P2 u v I) as (q & Q & <-). exists (u, q). split; [exact Q|]. intros j. destruct (P1 u q Q) as [I1 I2].
      rewrite <- I2 in E, D. exact (pr_found s a b r2 OK R2 OUT NP q u k w j I1 I2 B W1 E D).
    - right. split; [exact RP|]. apply in_map_iff in V. destruct V as (q & <- & Q). exists q. auto. }
  assert (AB : a <> b).
  { intros ->. destruct (sides vs) as [|[u v] l] eqn:E; [exact (sides_nonempty vs LV E)|]. apply (NP u v); [left; reflexivity|]. set (n := side_normal u v). clearbody n. clear. destruct n, b. unV. rring. }
  assert (FAR := far_start _ _ _ _ OUT). simpl radius_of in FAR.
  assert (TOUCH : forall j, good j -> touches (SPoly s) a b r2 (si_alpha j)) by (intros j [_ [(_ & X & _) _]]; exact X).
  subst i. unfold poly_segment_query. rewrite SD. change (@nltb RNum) with Rltb. change (@n0 RNum) with (IZR 0). change ((po_r s + r2)%num) with rsum. cbv zeta. change (fold_left _ (pairs (pl_v x) (po_dst s)) (blank b)) with i1.
  destruct (Rltb_spec 0 rsum) as [RP|RP].
  - set (g := fun q : @plane RNum => circle_segment_query (pl_v q) (po_r s) a b r2 (blank b)).
    destruct (discs_loop g (po_dst s) i1) as (D1 & D2 & D3). set (i2 := fold_left _ _ _) in D1, D2, D3.
    change (fold_left _ (po_dst s) i1) with i2.
    assert (VX : forall q, In q (po_dst s) -> core (SPoly s) (pl_v q)) by (intros q Q; apply hull_in, in_map, Q).
    assert (DISC : forall q, In q (po_dst s) -> (g q = blank b /\ forall t, 0 <= t <= 1 -> rsum < vdist (vlerp a b t) (pl_v q)) \/ disc_hit (pl_v q) (po_r s) a b r2 (g q)).
    { intros q Q. apply (circle_ray (pl_v q) (po_r s) a b r2 (blank b) AB RP). apply FAR, VX, Q. }
    assert (REACH : forall t, 0 <= t < 1 -> touches (SPoly s) a b r2 t -> exists w, 0 <= w <= t /\ first_touch (SPoly s) a b r2 w /\ si_alpha i2 <= w).
    { intros t T TT. destruct (FIRST t T TT) as (w & W & F & [GI|(_ & q & Q & D)]); exists w; (split; [exact W|split; [exact F|]]).
      - rewrite (first_unique _ _ _ _ _ _ F (proj1 (proj2 GI))). exact D2.
      - eapply Rle_trans; [exact (D3 q Q)|]. destruct (DISC q Q) as [[_ X]|(_ & AL & _ & X & _)]; [specialize (X w ltac:(lra)); un; lra|].
        apply Rnot_lt_le. intros Y. specialize (X w ltac:(un; lra)). change (po_r s + r2) with rsum in X. un. lra. }
    assert (KIND : i2 = blank b \/ good i2 \/ exists q, In q (po_dst s) /\ disc_hit (pl_v q) (po_r s) a b r2 i2).
    { destruct D1 as [D1|(q & Q & D1 & _)]; [rewrite D1; destruct S1; auto|]. destruct (DISC q Q) as [[X _]|X]; [left; congruence|right; right; exists q; rewrite D1; auto]. }
    assert (RS : 0 < radius_of (SPoly s) + r2) by exact RP.
    split.
    + intros H. destruct KIND as [K|[K|(q & Q & K)]]; [rewrite K in H; discriminate|apply K|].
      pose proof K as (_ & AL & DT & _).
      apply (disc_good (SPoly s) a b r2 (pl_v q)); [intros; apply hull_mix; assumption|exact R0|exact RS|apply VX, Q|exact K|exact OUT|].
      assert (TI : touches (SPoly s) a b r2 (si_alpha i2)) by (exists (pl_v q); split; [apply VX, Q|]; rewrite DT; apply Rle_refl).
      split; [exact AL|]. split; [exact TI|]. intros u U TU. destruct (REACH u ltac:(un; lra) TU) as (w & W & _ & X). un. lra.
    + intros t T TT. destruct (REACH t T TT) as (w & W & _ & X). destruct KIND as [K|[K|(q & Q & K)]]; [|apply K|apply K]. rewrite K in X. cbn in X. un. lra.
  - split.
    + intros H. destruct S1 as [S1|S1]; [rewrite S1 in H; discriminate|apply S1].
    + intros t T TT. destruct (FIRST t T TT) as (w & _ & _ & [GI|(X & _)]); [apply GI|un; lra].
Qed.
Lemma poly_cast (s : @poly RNum) (a b : rvec) (r2 : R) i : shape_ok (SPoly s) -> in_range (SPoly s) a -> 0 <= r2 ->
  (forall u v, In (u, v) (sides (map pl_v (po_dst s))) -> vcross (vsub v u) (vsub b a) <> 0) ->
  shape_segment_query (SPoly s) a b r2 = Some i ->
  (si_hit i = true -> first_touch (SPoly s) a b r2 (si_alpha i) /\ (~ touches (SPoly s) a b r2 0 -> good_hit (SPoly s) a b r2 i)) /\
  (forall t, 0 <= t < 1 -> touches (SPoly s) a b r2 t -> si_hit i = true).
Proof.
  intros OK IR R2 NP'.
  assert (NP : forall u v, In (u, v) (sides (map pl_v (po_dst s))) -> vdot (side_normal u v) (vsub b a) <> 0).
  { intros u v I Z. apply (NP' u v I). pose proof OK as (_ & L & C & _). pose proof (side_normal_dot u v (vsub b a) (side_ne _ u v C ltac:(rewrite map_length; exact L) I)) as E. rewrite Z in E. change (@nmul RNum) with Rmult in E. un. lra. }
  unfold shape_segment_query. destruct (shape_point_query (SPoly s) a) as [n|] eqn:Q; [|discriminate].
  pose proof (query_signed _ _ _ OK IR Q) as SG. change (@nleb RNum) with Rleb.
  assert (TZ : touches (SPoly s) a b r2 0 <-> pi_dist n <= r2).
  { unfold touches. rewrite lerp_0. destruct SG as [[D [k [K X]]]|[D [[k [K E]] M]]].
    - split; intros _; [un; lra|]. exists k. split; [exact K|un; lra].
    - split; [intros (q & KQ & X); specialize (M q KQ); un; lra|]. intros X. exists k. split; [exact K|un; lra]. }
  destruct (Rleb_spec (pi_dist n) r2) as [L|L]; intros E; injection E as <-.
  - cbn [si_hit si_alpha]. split; [|reflexivity]. intros _. change (@n0 RNum) with (IZR 0). split; [|intros X; exfalso; apply X, TZ, L].
    split; [lra|]. split; [apply TZ, L|]. intros u U. lra.
  - assert (OUT : ~ touches (SPoly s) a b r2 0) by (intros X; apply TZ in X; un; lra).
    destruct (poly_ray s a b r2 OK R2 OUT NP) as [A B]. cbn [class_segment_query]. split; [|exact B]. intros H. split; [exact (proj1 (A H))|intros _; exact (A H)].
Qed.
