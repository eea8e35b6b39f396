(** Contacts of circles with circles, segments and polygons, over the reals (for C41 and C42). *)
From Coq Require Import ZArith NArith Reals List Bool Lra Psatz Lia PeanoNat.
From Verif Require Import Num NumReal Vec BB Transform VecReal Shapes ShapesSpec ShapesPoint ShapesRay ShapesPoly Narrow NarrowFloat NarrowGjk.
Import ListNotations.
Local Open Scope R_scope.

(** A contact between a disc around p of radius r1 and one around q of radius r2, with normal n. *)
Definition touching (p q : rvec) (r1 r2 : R) (n : rvec) (c : @cpoint RNum) : Prop :=
  vmag n = 1 /\ vscale n (vdist p q) = vsub q p /\ ct_a c = vadd p (vscale n r1) /\ ct_b c = vsub q (vscale n r2) /\ ct_d c = vdist p q - (r1 + r2).

Lemma toward (p q k : rvec) : vmag k = 1 -> let n := if negb (neqb (nsqrt (vmagsq (vsub q p))) n0) then vscale (vsub q p) (ndiv n1 (nsqrt (vmagsq (vsub q p)))) else k in
  vmag n = 1 /\ vscale n (vdist p q) = vsub q p.
Proof.
  intros K. cbv zeta. unfold vmagsq. change (nsqrt (vdot (vsub q p) (vsub q p))) with (vmag (vsub q p)). rewrite dist_sym. unfold vdist.
  unR. destruct (Reqb_spec (vmag (vsub q p)) 0) as [E|E]; cbn [negb].
  - split; auto. rewrite E. apply mag_0 in E. rewrite E. generalize k. clear. intros k. veq.
  - assert (D : vsub q p <> vzero) by (intros H; apply E, mag_0, H).
    change (vscale (vsub q p) (1 / vmag (vsub q p))%R) with (vunit (vsub q p)). split; [now apply unit_mag|now apply unit_scale].
Qed.
Lemma contact_made (p q n : rvec) (r1 r2 : R) : vmag n = 1 -> vscale n (vdist p q) = vsub q p ->
  let p1 := vadd p (vscale n r1) in let p2 := vadd q (vscale n (- r2)%R) in
  touching p q r1 r2 n (CPoint p1 p2 (vdot (vsub p2 p1) n)).
Proof.
  intros U E. cbv zeta. split; [exact U|]. split; [exact E|]. cbn [ct_a ct_b ct_d]. split; [reflexivity|].
  assert (N : vdot n n = 1) by (rewrite <- mag_sq, U; unR; ring).
  split; [generalize p q n; clear; intros; veq|].
  assert (Q : q = vadd p (vscale n (vdist p q))) by (rewrite E; symmetry; apply sub_add).
  set (d := vdist p q) in *. clearbody d. subst q. clear U E. destruct p as [px py], n as [nx ny]. unV. un.
  transitivity ((d - r1 - r2) * (nx * nx + ny * ny)); [ring|]. rewrite N. ring.
Qed.
Lemma near_iff (p q : rvec) (m : R) : 0 <= m -> nltb (vmagsq (vsub q p)) (m * m) = true <-> vdist p q < m.
Proof. intros M. rewrite dist_sym. unfold vdist, vmagsq. rewrite mag_lt by exact M. apply Rltb_true. Qed.

Section Circle.
Variable tiny : R.

Lemma circles (a b : nshape) (c1 c2 : @circle RNum) : ns_s a = SCircle c1 -> ns_s b = SCircle c2 -> 0 <= ci_r c1 -> 0 <= ci_r c2 ->
  exists n l, @shapes_collide RNum tiny a b = Some (n, l) /\
  (vdist (ci_tc c1) (ci_tc c2) < ci_r c1 + ci_r c2 -> exists c, l = [c] /\ touching (ci_tc c1) (ci_tc c2) (ci_r c1) (ci_r c2) n c) /\
  (ci_r c1 + ci_r c2 <= vdist (ci_tc c1) (ci_tc c2) -> l = []).
Proof.
  intros Ea Eb R1 R2. unfold shapes_collide, collide, order. rewrite Ea, Eb. cbn [Nat.ltb Nat.leb Nat.add Nat.mul nth_error table]. rewrite ?Ea, ?Eb. cbn [nth_error table Nat.add Nat.mul]. unfold call. rewrite Ea, Eb.
  unfold circle_to_circle. set (p := ci_tc c1). set (q := ci_tc c2).
  assert (M : 0 <= ci_r c1 + ci_r c2) by lra. pose proof (near_iff p q _ M) as Nr.
  destruct (toward p q (V n1 n0)) as [U E].
  { unfold vmag. replace (vdot _ _) with (1 : @num RNum); [apply sqrt_1|]. unV. rring. }
  destruct (nltb _ _) eqn:T.
  - pose proof (proj1 Nr eq_refl) as L. eexists. eexists. split; [reflexivity|]. split; [|intros; un; lra]. intros _. eexists. split; [reflexivity|].
    apply contact_made; auto.
  - eexists. eexists. split; [reflexivity|]. split; [|auto]. intros H. apply Nr in H. discriminate.
Qed.

Lemma between_swap (a b q : rvec) : between a b q -> between b a q.
Proof. intros (t & T & ->). assert (H : 0 <= 1 - t <= 1) by lra. exists (1 - t). split; auto. set (u := 1 - t) in *. assert (t = 1 - u) by (unfold u; ring). clearbody u. subst t. veq. Qed.
Lemma is_dist_ext (K L : rvec -> Prop) p d : (forall q, K q <-> L q) -> is_dist K p d -> is_dist L p d.
Proof. intros E ((q & Hq & D) & M). split; [exists q; split; auto; now apply E|]. intros x X. apply M, E, X. Qed.

(** The circle is not turned away by the tangents of the segment at the closest point k. *)
Definition accepted (g : @segment RNum) (n k : rvec) : Prop :=
  (k = sg_ta g -> 0 <= vdot n (tangent g (sg_at g))) /\ (k = sg_tb g -> 0 <= vdot n (tangent g (sg_bt g))).

Lemma circle_segment (a b : nshape) (c : @circle RNum) (g : @segment RNum) : ns_s a = SCircle c -> ns_s b = SSegment g -> 0 <= ci_r c -> 0 <= sg_r g ->
  sg_ta g <> sg_tb g -> vmag (sg_tn g) = 1 ->
  exists n l k, @shapes_collide RNum tiny a b = Some (n, l) /\ between (sg_ta g) (sg_tb g) k /\ is_dist (between (sg_ta g) (sg_tb g)) (ci_tc c) (vdist (ci_tc c) k) /\
  (vdist (ci_tc c) k < ci_r c + sg_r g -> vmag n = 1 /\ (k = ci_tc c -> n = sg_tn g) /\ (accepted g n k -> exists p, l = [p] /\ touching (ci_tc c) k (ci_r c) (sg_r g) n p) /\ (~ accepted g n k -> l = [])) /\
  (ci_r c + sg_r g <= vdist (ci_tc c) k -> l = []).
Proof.
  intros Ea Eb R1 R2 Ng Tn. unfold shapes_collide, collide, order. rewrite Ea, Eb. cbn [Nat.ltb Nat.leb Nat.add Nat.mul nth_error table]. rewrite ?Ea, ?Eb. cbn [nth_error table Nat.add Nat.mul]. unfold call. rewrite Ea, Eb.
  unfold circle_to_segment. set (p := ci_tc c).
  set (A := sg_ta g) in *. set (B := sg_tb g) in *. set (t := clamp01 _).
  set (k := vadd A (vscale (vsub B A) t)).
  assert (Hk : k = closest_point_on_segment p B A) by reflexivity.
  assert (Bk : between A B k) by (apply between_swap; rewrite Hk; apply closest_between).
  assert (Dk : is_dist (between A B) p (vdist p k)).
  { rewrite Hk. eapply is_dist_ext; [|apply ShapesPoint.closest_dist; congruence]. intros q; split; apply between_swap. }
  assert (T0 : neqb t n0 = true <-> k = A).
  { unR. rewrite Reqb_true. split; intros H.
    - unfold k. rewrite H. clearbody A B. clear. veq.
    - unfold k in H. assert (Z : vscale (vsub B A) t = vzero) by (rewrite <- (add_sub A (vscale (vsub B A) t)), H; clearbody A; clear; veq).
      assert (M : vmag (vscale (vsub B A) t) = 0) by (rewrite Z; now apply mag_0). rewrite mag_scale in M.
      assert (0 < vmag (vsub B A)) by (apply mag_pos; intros Hz; apply Ng; symmetry; now apply (proj1 (sub_zero B A))).
      apply Rmult_integral in M as [M|M]; [|un; lra]. destruct (Req_dec t 0) as [X|X]; auto. apply Rabs_no_R0 in X. contradiction. }
  assert (T1 : neqb t n1 = true <-> k = B).
  { unR. rewrite Reqb_true. split; intros H.
    - unfold k. rewrite H. clearbody A B. clear. veq.
    - unfold k in H. assert (Z : vscale (vsub B A) (t - 1)%R = vzero).
      { replace (vscale (vsub B A) (t - 1)%R) with (vsub (vadd A (vscale (vsub B A) t)) B) by (clearbody A B t; clear; veq). rewrite H. clearbody B. clear. veq. }
      assert (M : vmag (vscale (vsub B A) (t - 1)%R) = 0) by (rewrite Z; now apply mag_0). rewrite mag_scale in M.
      assert (0 < vmag (vsub B A)) by (apply mag_pos; intros Hz; apply Ng; symmetry; now apply (proj1 (sub_zero B A))).
      apply Rmult_integral in M as [M|M]; [|un; lra]. destruct (Req_dec (t - 1) 0) as [X|X]; [un; lra|]. apply Rabs_no_R0 in X. contradiction. }
  assert (M : 0 <= ci_r c + sg_r g) by lra. pose proof (near_iff p k _ M) as Nr.
  destruct (toward p k (sg_tn g) Tn) as [U E].
  assert (Ez : k = p -> (if negb (neqb (nsqrt (vmagsq (vsub k p))) n0) then vscale (vsub k p) (ndiv n1 (nsqrt (vmagsq (vsub k p)))) else sg_tn g) = sg_tn g).
  { intros H. rewrite H. unfold vmagsq. change (nsqrt (vdot (vsub p p) (vsub p p))) with (vdist p p). rewrite dist_self. unR. destruct (Reqb_spec 0 0); [reflexivity|lra]. }
  destruct (nltb (vmagsq (vsub k p)) _) eqn:T.
  2:{ eexists. eexists. exists k. split; [reflexivity|]. split; [exact Bk|]. split; [exact Dk|]. split; [|auto]. intros H. apply Nr in H. discriminate. }
  pose proof (proj1 Nr eq_refl) as L. clear Nr T.
  set (n := if negb (neqb (nsqrt (vmagsq (vsub k p))) n0) then _ else _) in *.
  match goal with |- context [if ?x then push _ _ _ _ else _] => destruct x eqn:Ac end.
  - eexists. eexists. exists k. split; [reflexivity|]. split; [exact Bk|]. split; [exact Dk|]. split; [|intros; un; lra]. intros _. split; [exact U|]. split; [exact Ez|]. split.
    + intros _. eexists. split; [reflexivity|]. apply contact_made; auto.
    + intros Na. exfalso. apply Na. apply andb_true_iff in Ac as [A1 A2]. apply orb_true_iff in A1, A2. split; intros H.
      * apply T0 in H. rewrite H in A1. destruct A1 as [A1|A1]; [discriminate|]. now apply Rleb_true in A1.
      * apply T1 in H. rewrite H in A2. destruct A2 as [A2|A2]; [discriminate|]. now apply Rleb_true in A2.
  - eexists. eexists. exists k. split; [reflexivity|]. split; [exact Bk|]. split; [exact Dk|]. split; [|auto]. intros _. split; [exact U|]. split; [exact Ez|]. split; [|auto].
    intros [A1 A2]. exfalso. apply not_true_iff_false in Ac. apply Ac. apply andb_true_iff. split; apply orb_true_iff.
    + destruct (neqb t n0) eqn:X; [right|left; reflexivity]. apply Rleb_true. apply A1, T0. reflexivity.
    + destruct (neqb t n1) eqn:X; [right|left; reflexivity]. apply Rleb_true. apply A2, T1. reflexivity.
Qed.

(** Two circles the other way round, unless they are concentric. *)
Lemma circles_swapped (a b : nshape) (c1 c2 : @circle RNum) n l : ns_s a = SCircle c1 -> ns_s b = SCircle c2 -> ci_tc c1 <> ci_tc c2 ->
  @shapes_collide RNum tiny a b = Some (n, l) -> exists n', @shapes_collide RNum tiny b a = Some (n', map (fun c => CPoint (ct_b c) (ct_a c) (ct_d c)) l) /\ (l <> [] -> n' = vneg n).
Proof.
  intros Ea Eb Ne. unfold shapes_collide, collide, order. rewrite Ea, Eb. cbn [Nat.ltb Nat.leb Nat.add Nat.mul nth_error table]. rewrite ?Ea, ?Eb. cbn [nth_error table Nat.add Nat.mul]. unfold call. rewrite Ea, Eb.
  unfold circle_to_circle. set (p := ci_tc c1) in *. set (q := ci_tc c2) in *.
  assert (S : vmagsq (vsub p q) = vmagsq (vsub q p)) by (clearbody p q; clear; destruct p, q; unfold vmagsq; unV; rring). rewrite S.
  replace (nadd (ci_r c2) (ci_r c1)) with (nadd (ci_r c1) (ci_r c2)) by (unR; rring).
  destruct (nltb _ _); [|intros E; inversion E; subst; eexists; split; [reflexivity|]; intros []; reflexivity].
  change (nsqrt (vmagsq (vsub q p))) with (vmag (vsub q p)). assert (Mp : 0 < vmag (vsub q p)) by (apply mag_pos; intros H; apply Ne; symmetry; now apply (proj1 (sub_zero q p))).
  unR. destruct (Reqb_spec (vmag (vsub q p)) 0) as [H|_]; [un; lra|]. cbn [negb].
  set (m := vmag (vsub q p)) in *. clearbody m. set (z := (1 / m)%R). clearbody z. set (r1 := ci_r c1). set (r2 := ci_r c2). clearbody p q r1 r2. clear - p.
  intros E; inversion E; subst; clear E.
  eexists. split; [cbn [nf_arr push with_n app map nf_n nc_p1 nc_p2]|].
  - do 2 f_equal. cbn [map]. f_equal. cbn [ct_a ct_b ct_d]. f_equal; [veq|veq|destruct p, q; unV; rring].
  - intros _. cbn. destruct p, q. unV. f_equal; rring.
Qed.

(** ** Circle against polygon: how the reported distance relates to that of GJK *)
Lemma closest_distance (v0 v1 : @mpoint RNum) s1 s2 : good s1 s2 v0 -> good s1 s2 v1 ->
  let c := @closest_points RNum 0 v0 v1 in
  vdot (vsub (cp_b c) (cp_a c)) (cp_n c) = cp_d c /\ (vdot (cp_n c) (cp_n c) = 1 \/ cp_n c = vzero /\ cp_d c = 0).
Proof.
  intros G0 G1. cbv zeta. destruct (cp_core 0 s1 s2 v0 v1 G0 G1) as (_ & _ & D). rewrite D. clear D. unfold closest_points.
  set (w0 := mp_ab v0). set (w1 := mp_ab v1). set (t := closest_t w0 w1). set (p := lerp_t w0 w1 t). clearbody t p.
  destruct (_ || _)%bool eqn:O; cbn [cp_n cp_d].
  - split; [clearbody w0 w1; set (u := vunit _); clearbody u; destruct u, p; clear; unV; rring|].
    destruct (vec_eq_dec w0 w1) as [->|Nw]; [right|left; now apply edge_normal_unit].
    replace (vsub w1 w1) with (@vzero RNum) by (clearbody w1; clear; veq). rewrite unit_zero. split; auto. clear. destruct p. unV. rring.
  - apply orb_false_iff in O as [O _]. apply Rleb_false in O.
    assert (Np : p <> vzero). { intros E. rewrite E in O. set (u := vunit _) in O. clearbody u. clear - O. destruct u. unV. un. lra. }
    apply mag_pos in Np. unR. rewrite Rplus_0_r. pose proof (mag_sq p) as Q. set (m := vmag p) in *. clearbody m. clear O. clear - Np Q. destruct p as [x y].
    assert (F : forall u : R, u * (1 / m) * m = u) by (intros; field; un; lra). unV. un.
    assert (E1 : (x * (1 / m)) * (x * (1 / m)) + (y * (1 / m)) * (y * (1 / m)) = 1). { transitivity ((x * x + y * y) / (m * m)); [field; lra|]. rewrite <- Q. field. lra. }
    split; [|left; exact E1]. transitivity ((x * x + y * y) / m); [field; lra|]. rewrite <- Q. field. lra.
Qed.
End Circle.

Lemma circle_poly (a b : nshape) (c : @circle RNum) (q : @poly RNum) n l : ns_s a = SCircle c -> ns_s b = SPoly q -> po_dst q <> [] -> 0 <= ci_r c -> po_r q = 0 ->
  @shapes_collide RNum 0 a b = Some (n, l) -> forall x, In x l -> ct_d x <= 0.
Proof.
  intros Ea Eb Nq R1 R2. unfold shapes_collide, collide, order. rewrite Ea, Eb. cbn [Nat.ltb Nat.leb Nat.add Nat.mul nth_error table]. rewrite ?Ea, ?Eb. cbn [nth_error table Nat.add Nat.mul]. unfold call. rewrite Ea, Eb.
  unfold circle_to_poly. destruct (gjk _ _ _ _) as [[pts e]|] eqn:G; [|discriminate].
  assert (Na : nonempty (ns_s a)) by (rewrite Ea; intros ? X; discriminate). assert (Nb : nonempty (ns_s b)) by (rewrite Eb; intros ? X; inversion X; subst; auto).
  unfold gjk in G. destruct (_ && _)%bool; [|discriminate]. destruct (gjk_start a b _) as [v0 v1] eqn:S. destruct (start_good a b _ v0 v1 Na Nb S) as [G0 G1].
  destruct (gjk_closest 0 _ _ Na Nb _ _ _ _ _ _ G0 G1 G) as (w0 & w1 & W0 & W1 & ->).
  destruct (closest_distance w0 w1 _ _ W0 W1) as [D1 D2]. set (pts := closest_points _ w0 w1) in *. clearbody pts.
  destruct (nleb _ _) eqn:Le; intros E; inversion E; subst; clear E; [|intros ? []].
  apply Rleb_true in Le. cbn [map nf_arr push with_n app with_id nf_n nc_p1 nc_p2]. intros x [<-|[]]. cbn [ct_d]. rewrite R2 in *.
  set (A := cp_a pts) in *. set (B := cp_b pts) in *. set (m := cp_n pts) in *. set (d := cp_d pts) in *. clearbody A B m d.
  set (r := ci_r c) in *. clearbody r. unR. un.
  assert (X : vdot (vsub (vadd B (vscale m 0)) (vadd A (vscale m r))) m = d - r * vdot m m).
  { rewrite <- D1. clear. destruct A, B, m. unV. rring. }
  eapply Rle_trans; [apply Req_le; exact X|]. clear X. destruct D2 as [D2|[-> D2]]; [rewrite D2; un; lra|]. rewrite D2. clear. unV. un. lra.
Qed.
