(** Consequences for ShapesCollideInfo, counterexamples and examples (for C41, C42, C43, C54). *)
From Coq Require Import ZArith NArith Reals List Bool Lra Psatz Lia PeanoNat Floats.
From Verif Require Import Num NumReal NumFloat Vec BB Transform VecReal Shapes ShapesSpec ShapesPoint ShapesRay ShapesPoly ShapesMain Narrow NarrowFloat NarrowTerm NarrowGjk NarrowCircle.
Import ListNotations.

(** ** For any arithmetic *)
Section Any.
Context {Nm : Num}.
Variable tiny : num.

(* shapes of different kinds, the other way round *)
Lemma swap_kinds (a b : nshape) n l : (order a < order b)%nat -> shapes_collide tiny a b = Some (n, l) ->
  shapes_collide tiny b a = Some (vneg n, map (fun c => CPoint (ct_b c) (ct_a c) (vdot (vsub (ct_b c) (ct_a c)) (vneg n))) l).
Proof.
  intros L. unfold shapes_collide, collide.
  replace (Nat.ltb (order b) (order a)) with false by (symmetry; apply Nat.ltb_ge; lia).
  replace (Nat.ltb (order a) (order b)) with true by (symmetry; apply Nat.ltb_lt; lia).
  destruct (nth_error table _) as [r|]; [|discriminate]. destruct (call tiny r a b _) as [i|]; [|discriminate].
  intros E; inversion E; subst. rewrite map_map. reflexivity.
Qed.
Lemma swap_points (a b : nshape) n l : (order a < order b)%nat -> shapes_collide tiny a b = Some (n, l) ->
  exists l', shapes_collide tiny b a = Some (vneg n, l') /\ map ct_a l' = map ct_b l /\ map ct_b l' = map ct_a l.
Proof. intros L E. eexists. split; [exact (swap_kinds a b n l L E)|]. rewrite !map_map. split; reflexivity. Qed.

Definition gap_ok (n : vec) (c : ncontact) : Prop := nleb (vdot (vsub (nc_p2 c) (nc_p1 c)) n) n0 = true.
Lemma contact_points_gap e1 e2 pts i : nf_arr i = [] -> let j := contact_points tiny e1 e2 pts i in forall c, In c (nf_arr j) -> gap_ok (nf_n j) c.
Proof.
  intros E. cbv zeta. unfold contact_points. destruct (nltb _ (cp_d pts)); [rewrite E; intros ? []|].
  match goal with |- context [nleb ?x n0] => destruct (nleb x n0) eqn:A end;
  match goal with |- context [nleb ?x n0] => destruct (nleb x n0) eqn:B end;
  cbn [push with_n nf_arr nf_n app]; rewrite E; cbn [app]; intros c H.
  - destruct H as [<-|[<-|[]]]; assumption.
  - destruct H as [<-|[]]; assumption.
  - destruct H as [<-|[]]; assumption.
  - destruct H.
Qed.
Lemma sorted_gap (a b : nshape) n l : (1 <= order a <= order b)%nat -> shapes_collide tiny a b = Some (n, l) -> forall c, In c l -> nleb (ct_d c) n0 = true.
Proof.
  intros L. unfold shapes_collide, collide.
  replace (Nat.ltb (order b) (order a)) with false by (symmetry; apply Nat.ltb_ge; lia).
  destruct (nth_error table _) as [r|] eqn:T; [|discriminate]. destruct (call tiny r a b _) as [i|] eqn:C; [|discriminate].
  intros E; inversion E; subst; clear E. intros c H. apply in_map_iff in H as (x & <- & H). cbn [ct_d].
  assert (K : gap_ok (nf_n i) x); [|exact K].
  unfold order in *. destruct (ns_s a) as [c1|g1|p1] eqn:Ea, (ns_s b) as [c2|g2|p2] eqn:Eb; cbn in L; try lia; cbn in T; injection T as <-; unfold call in C; rewrite Ea, Eb in C.
  - unfold segment_to_segment in C. destruct gjk as [[pts e]|]; [|discriminate]. injection C as <-.
    destruct (nltb _ (cp_d pts)); [destruct H|]. match type of H with context [if ?z then contact_points _ _ _ _ _ else _] => destruct z end; [|destruct H].
    eapply contact_points_gap; [reflexivity|exact H].
  - unfold segment_to_poly in C. destruct gjk as [[pts e]|]; [|discriminate]. injection C as <-.
    match type of H with context [if ?z then contact_points _ _ _ _ _ else _] => destruct z end; [|destruct H].
    eapply contact_points_gap; [reflexivity|exact H].
  - unfold poly_to_poly in C. destruct gjk as [[pts e]|]; [|discriminate]. injection C as <-.
    match type of H with context [if ?z then contact_points _ _ _ _ _ else _] => destruct z end; [|destruct H].
    eapply contact_points_gap; [reflexivity|exact H].
Qed.
End Any.

(** ** Over the reals: contacts and distances *)
Section Real.
Local Open Scope R_scope.
Variable tiny : R.
Hypothesis tiny_pos : 0 <= tiny.

(** GJK stopped at a separating axis with a positive distance. *)
Definition separated (a b : nshape) : Prop := exists pts, @gjk RNum tiny a b 0 = Some (pts, Axis) /\ 0 < cp_d pts.
Lemma separated_exact (a b : nshape) n l : nonempty (ns_s a) -> nonempty (ns_s b) -> modest (ns_s a) -> modest (ns_s b) ->
  (order a <= order b)%nat -> (order b = 1 -> order a = 1)%nat -> (order b = 0 -> False)%nat -> separated a b -> @shapes_collide RNum tiny a b = Some (n, l) ->
  (l <> [] -> exists x y, core (ns_s a) x /\ core (ns_s b) y /\ vdist x y <= radius_of (ns_s a) + radius_of (ns_s b)) /\
  (order a = 0%nat -> (exists x y, core (ns_s a) x /\ core (ns_s b) y /\ vdist x y <= radius_of (ns_s a) + radius_of (ns_s b)) -> l <> []).
Proof.
  intros N1 N2 M1 M2 L S1 S0 (pts & G & Pd).
  destruct (gjk_result tiny tiny_pos a b 0 pts Axis N1 N2 M1 M2 G) as (CA & CB & _ & X). destruct (X Pd) as (D & _ & Min). clear X.
  unfold shapes_collide, collide. replace (Nat.ltb (order b) (order a)) with false by (symmetry; apply Nat.ltb_ge; lia).
  destruct (nth_error table _) as [r|] eqn:T; [|discriminate]. destruct (call _ r a b _) as [i|] eqn:C; [|discriminate].
  intros E; inversion E; subst; clear E.
  assert (K : (nf_arr i <> [] -> cp_d pts <= radius_of (ns_s a) + radius_of (ns_s b)) /\ (order a = 0%nat -> cp_d pts <= radius_of (ns_s a) + radius_of (ns_s b) -> nf_arr i <> [])).
  { unfold order in *. destruct (ns_s a) as [c1|g1|p1] eqn:Ea, (ns_s b) as [c2|g2|p2] eqn:Eb; cbn in L, S1, S0; try lia; cbn in T; injection T as <-; unfold call in C; rewrite Ea, Eb in C; cbn [radius_of].
    - unfold circle_to_poly in C. cbn [nf_id] in C. rewrite G in C. injection C as <-. destruct (Rleb _ _) eqn:Q; [apply Rleb_true in Q|apply Rleb_false in Q]; cbn.
      + split; [auto|discriminate].
      + split; [intros H; exfalso; apply H; reflexivity|]. intros _ H. exfalso. unR. un. lra.
    - unfold segment_to_segment in C. cbn [nf_id] in C. rewrite G in C. injection C as <-. split; [|discriminate].
      destruct (Rltb _ _) eqn:Q; [intros H; exfalso; apply H; reflexivity|]. apply Rltb_false in Q. auto.
    - unfold segment_to_poly in C. cbn [nf_id] in C. rewrite G in C. injection C as <-. split; [|discriminate].
      destruct (Rleb _ _) eqn:Q; [|intros H; exfalso; apply H; reflexivity]. apply Rleb_true in Q. unR. un. intros; lra.
    - unfold poly_to_poly in C. cbn [nf_id] in C. rewrite G in C. injection C as <-. split; [|discriminate].
      destruct (Rleb _ _) eqn:Q; [|intros H; exfalso; apply H; reflexivity]. apply Rleb_true in Q. unR. un. intros; lra. }
  destruct K as [K1 K2]. split.
  - intros H. exists (cp_a pts), (cp_b pts). split; auto. split; auto. rewrite <- D. apply K1. intros Z. apply H. rewrite Z. reflexivity.
  - intros O (x & y & X & Y & Q) Z. apply map_eq_nil in Z. apply K2 in Z; auto. specialize (Min x y X Y). lra.
Qed.
End Real.

(** ** Counterexamples in float64 *)
(* math.SmallestNonzeroFloat64 *)
Definition ftiny : float := 0x1p-1074%float.
(* a shape of a body at the origin, as NewShape and CacheBB leave it *)
Definition made (s : @shape FNum) (hash : N) : @nshape FNum := NShape (fst (shape_cache s tf_identity)) (snd (shape_cache s tf_identity)) hash.
Definition as_circle (x y r : float) : @shape FNum := SCircle (Circle (fvec x y) (fvec 0 0) r).
Definition as_segment (a b : @vec FNum) (r : float) : @shape FNum := SSegment (new_segment a b r).
Definition as_poly (vs : list (@vec FNum)) (r : float) : @shape FNum := SPoly (@Poly FNum r [] (match set_verts (length vs) vs with Some ps => ps | None => [] end)).
Definition crate : list (@vec FNum) := [fvec 0 0; fvec 2 0; fvec 2 1; fvec 0 1].

Lemma take_contact (a b : @nshape FNum) (P : @vec FNum -> @cpoint FNum -> bool) :
  match @shapes_collide FNum ftiny a b with Some (n, [c]) => P n c | _ => false end = true ->
  exists n c, @shapes_collide FNum ftiny a b = Some (n, [c]) /\ P n c = true.
Proof. destruct (shapes_collide _ a b) as [[n [|c [|? ?]]]|]; try discriminate. eauto. Qed.

(* a circle two and a half lengths away from a crate, level with its bottom side *)
Lemma phantom_contact : exists (a b : @nshape FNum) n c, a = made (as_circle 5.5 0 0.5) 1 /\ b = made (as_poly crate 0) 2 /\
  @shapes_collide FNum ftiny a b = Some (n, [c]) /\ bb_intersects (ns_bb a) (ns_bb b) = false.
Proof.
  destruct (take_contact (made (as_circle 5.5 0 0.5) 1) (made (as_poly crate 0) 2) (fun _ _ => true)) as (n & c & E & _); [vm_compute; reflexivity|].
  exists (made (as_circle 5.5 0 0.5) 1), (made (as_poly crate 0) 2), n, c. split; [reflexivity|]. split; [reflexivity|]. split; [exact E|]. vm_compute. reflexivity.
Qed.
(* a circle of radius 1 whose centre is 1/2 to the right of the crate, level with its bottom side: pushed up instead of sideways *)
Lemma wrong_normal : exists (a b : @nshape FNum) n c, a = made (as_circle 2.5 0 1) 1 /\ b = made (as_poly crate 0) 2 /\
  @shapes_collide FNum ftiny a b = Some (n, [c]) /\ vx n = 0%float /\ vy n = 1%float /\ ct_d c = (-1)%float.
Proof.
  destruct (take_contact (made (as_circle 2.5 0 1) 1) (made (as_poly crate 0) 2) (fun n c => (vx n =? 0) && (vy n =? 1) && (ct_d c =? -1))%float) as (n & c & E & H); [vm_compute; reflexivity|].
  assert (V : match @shapes_collide FNum ftiny (made (as_circle 2.5 0 1) 1) (made (as_poly crate 0) 2) with Some (n, [c]) => (vx n, vy n, ct_d c) | _ => (0, 0, 0)%float end = (0, 1, -1)%float) by (vm_compute; reflexivity).
  rewrite E in V. injection V as V1 V2 V3.
  exists (made (as_circle 2.5 0 1) 1), (made (as_poly crate 0) 2), n, c. repeat split; auto.
Qed.
(* two thin segments on one line, a gap of 2 between them *)
Lemma collinear_contacts : exists (a b : @nshape FNum) n l, a = made (as_segment (fvec 0 0) (fvec 1 0) 0.125) 1 /\ b = made (as_segment (fvec 3 0) (fvec 4 0) 0.125) 2 /\
  @shapes_collide FNum ftiny a b = Some (n, l) /\ length l = 2%nat /\ bb_intersects (ns_bb a) (ns_bb b) = false.
Proof.
  assert (V : match @shapes_collide FNum ftiny (made (as_segment (fvec 0 0) (fvec 1 0) 0.125) 1) (made (as_segment (fvec 3 0) (fvec 4 0) 0.125) 2) with Some (_, l) => Nat.eqb (length l) 2 | _ => false end = true) by (vm_compute; reflexivity).
  exists (made (as_segment (fvec 0 0) (fvec 1 0) 0.125) 1), (made (as_segment (fvec 3 0) (fvec 4 0) 0.125) 2).
  destruct (shapes_collide _ _ _) as [[n l]|]; [|discriminate]. exists n, l. split; [reflexivity|]; split; [reflexivity|]; split; [reflexivity|]; split; [now apply Nat.eqb_eq|vm_compute; reflexivity].
Qed.
(* a segment and a circle overlapping by 1/2: -1/2 in one order, +1/2 in the other *)
Lemma swapped_distance : exists (a b : @nshape FNum) n c n' c', a = made (as_segment (fvec 0 0) (fvec 2 0) 0.5) 1 /\ b = made (as_circle 1 0.5 0.5) 2 /\
  @shapes_collide FNum ftiny b a = Some (n, [c]) /\ ct_d c = (-0.5)%float /\
  @shapes_collide FNum ftiny a b = Some (n', [c']) /\ ct_d c' = 0.5%float.
Proof.
  set (a := made (as_segment (fvec 0 0) (fvec 2 0) 0.5) 1). set (b := made (as_circle 1 0.5 0.5) 2).
  destruct (take_contact b a (fun _ _ => true)) as (n & c & E & _); [vm_compute; reflexivity|].
  destruct (take_contact a b (fun _ _ => true)) as (n' & c' & E' & _); [vm_compute; reflexivity|].
  assert (V : match @shapes_collide FNum ftiny b a with Some (n, [c]) => ct_d c | _ => 0%float end = (-0.5)%float) by (vm_compute; reflexivity). rewrite E in V.
  assert (V' : match @shapes_collide FNum ftiny a b with Some (n, [c]) => ct_d c | _ => 0%float end = 0.5%float) by (vm_compute; reflexivity). rewrite E' in V'.
  exists a, b, n, c, n', c'. repeat split; auto.
Qed.
(* circle against a crate with rounded corners, overlapping by 3/4: Distance is +1/4 *)
Lemma rounded_distance : exists (a b : @nshape FNum) n c, a = made (as_circle 1 1.25 0.5) 1 /\ b = made (as_poly crate 0.5) 2 /\
  @shapes_collide FNum ftiny a b = Some (n, [c]) /\ ct_d c = 0.25%float.
Proof.
  set (a := made (as_circle 1 1.25 0.5) 1). set (b := made (as_poly crate 0.5) 2).
  destruct (take_contact a b (fun _ _ => true)) as (n & c & E & _); [vm_compute; reflexivity|].
  assert (V : match @shapes_collide FNum ftiny a b with Some (n, [c]) => ct_d c | _ => 0%float end = 0.25%float) by (vm_compute; reflexivity). rewrite E in V.
  exists a, b, n, c. repeat split; auto.
Qed.
(* concentric circles: the same normal in both orders *)
Lemma concentric_normal : exists (a b : @nshape FNum) n c n' c', a = made (as_circle 0 0 1) 1 /\ b = made (as_circle 0 0 2) 2 /\
  @shapes_collide FNum ftiny a b = Some (n, [c]) /\ @shapes_collide FNum ftiny b a = Some (n', [c']) /\ vx n = 1%float /\ vx n' = 1%float.
Proof.
  set (a := made (as_circle 0 0 1) 1). set (b := made (as_circle 0 0 2) 2).
  destruct (take_contact a b (fun _ _ => true)) as (n & c & E & _); [vm_compute; reflexivity|].
  destruct (take_contact b a (fun _ _ => true)) as (n' & c' & E' & _); [vm_compute; reflexivity|].
  assert (V : match @shapes_collide FNum ftiny a b with Some (n, [c]) => vx n | _ => 0%float end = 1%float) by (vm_compute; reflexivity). rewrite E in V.
  assert (V' : match @shapes_collide FNum ftiny b a with Some (n, [c]) => vx n | _ => 0%float end = 1%float) by (vm_compute; reflexivity). rewrite E' in V'.
  exists a, b, n, c, n', c'. repeat split; auto.
Qed.

(** ** Examples meeting the hypotheses *)
Section Examples.
Local Open Scope R_scope.
(* two parallel segments, 3 apart *)
Definition low : @nshape RNum := NShape (SSegment (rsegment (rv (-1) 0) (rv 1 0) (rv 0 (-1)) 1)) (@mkBB RNum (-2) (-1) 2 1) 1.
Definition high : @nshape RNum := NShape (SSegment (rsegment (rv (-1) 3) (rv 1 3) (rv 0 (-1)) 1)) (@mkBB RNum (-2) 2 2 4) 2.
Ltac decide_reals := repeat match goal with
  | |- context [Rltb ?x ?y] => let H := fresh in (assert (H : Rltb x y = true) by (apply Rltb_true; lra)) || (assert (H : Rltb x y = false) by (apply Rltb_false; lra)); rewrite H; clear H; cbn [andb orb negb]
  | |- context [Rleb ?x ?y] => let H := fresh in (assert (H : Rleb x y = true) by (apply Rleb_true; lra)) || (assert (H : Rleb x y = false) by (apply Rleb_false; lra)); rewrite H; clear H; cbn [andb orb negb]
  end.
Lemma low_support (x y : R) : support (ns_s low) (rv x y) = if Rltb x (- x) then SPoint (rv (-1) 0) 0 else SPoint (rv 1 0) 1.
Proof.
  unfold support, low, rsegment, rv, vdot. cbn [ns_s sg_ta sg_tb vx vy]. unR. replace (1 * x + 0 * y) with x by lra. replace (-1 * x + 0 * y) with (- x) by lra. reflexivity.
Qed.
Lemma high_support (x y : R) : support (ns_s high) (rv x y) = if Rltb x (- x) then SPoint (rv (-1) 3) 0 else SPoint (rv 1 3) 1.
Proof.
  unfold support, high, rsegment, rv, vdot. cbn [ns_s sg_ta sg_tb vx vy]. unR.
  assert (E : Rltb (1 * x + 3 * y) (-1 * x + 3 * y) = Rltb x (- x)) by (destruct (Rltb_spec x (- x)); [apply Rltb_true|apply Rltb_false]; lra). rewrite E. reflexivity.
Qed.
Lemma low_high : exists pts, @gjk RNum 0 low high 0 = Some (pts, Axis) /\ cp_d pts = 3.
Proof.
  unfold gjk. cbn [has_points ns_s low high andb]. change (SSegment (rsegment (rv (-1) 0) (rv 1 0) (rv 0 (-1)) 1)) with (ns_s low). change (SSegment (rsegment (rv (-1) 3) (rv 1 3) (rv 0 (-1)) 1)) with (ns_s high).
  assert (Sp : forall x y : R, ctx_support (ns_s low) (ns_s high) (rv x y) = new_mpoint (if Rltb (- x) (- - x) then SPoint (rv (-1) 0) 0 else SPoint (rv 1 0) 1) (if Rltb x (- x) then SPoint (rv (-1) 3) 0 else SPoint (rv 1 3) 1)).
  { intros x y. unfold ctx_support. replace (vneg (rv x y)) with (rv (- x) (- y)) by reflexivity. now rewrite low_support, high_support. }
  unfold gjk_start. cbn [N.eqb negb]. 
  replace (vperp (vsub (bb_center (ns_bb low)) (bb_center (ns_bb high)))) with (rv 3 0).
  2:{ unfold bb_center, low, high, vlerp, rv. cbn [ns_bb bL bB bR bT]. unV. f_equal; field. }
  replace (vneg (rv 3 0)) with (rv (-3) 0) by (unfold rv; unV; f_equal; lra).
  rewrite !Sp. decide_reals. 
  set (v0 := new_mpoint _ _). set (v1 := new_mpoint _ _).
  assert (E0 : mp_ab v0 = rv 2 3) by (unfold v0, new_mpoint, rv; cbn [mp_ab sp_p]; unV; f_equal; lra).
  assert (E1 : mp_ab v1 = rv (-2) 3) by (unfold v1, new_mpoint, rv; cbn [mp_ab sp_p]; unV; f_equal; lra).
  assert (T : closest_t (rv 2 3) (rv (-2) 3) = 0).
  { unfold closest_t, clamp, vmagsq, rv. unV. replace ((_ + _) / _) with 0 by field. decide_reals. unfold Rmin. destruct Rle_dec; lra. }
  generalize 60%nat. intros fuel. cbn [gjk_recurse Nat.ltb Nat.leb]. rewrite E0, E1, T.
  assert (P1 : point_greater (rv (-2) 3) (rv 2 3) vzero = false). { apply not_true_iff_false. rewrite pg_real. unfold rv. unV. lra. }
  rewrite P1.
  assert (In1 : nltb (nneg n1) (0 : @num RNum) = true) by (apply Rltb_true; unR; lra). assert (In2 : nltb (0 : @num RNum) n1 = true) by (apply Rltb_true; unR; lra).
  rewrite In1, In2. cbn [andb].
  replace (vperp (vsub (rv (-2) 3) (rv 2 3))) with (rv 0 (-4)) by (unfold rv; unV; f_equal; lra).
  rewrite Sp. decide_reals. set (p := new_mpoint _ _).
  assert (Ep : mp_ab p = rv 0 3) by (unfold p, new_mpoint, rv; cbn [mp_ab sp_p]; unV; f_equal; lra). rewrite Ep.
  assert (P2 : point_greater (rv 0 3) (rv 2 3) vzero = false). { apply not_true_iff_false. rewrite pg_real. unfold rv. unV. lra. }
  rewrite P2. cbn [andb].
  assert (Ca : check_axis (rv 2 3) (rv (-2) 3) (rv 0 3) (rv 0 (-4)) = true).
  { unfold check_axis, rv. apply Rleb_true. unV. unfold Rmax. destruct Rle_dec; lra. }
  rewrite Ca. eexists. split; [reflexivity|].
  unfold closest_points. rewrite E0, E1, T, In1, In2. cbn [andb]. rewrite orb_true_r. cbn [cp_d].
  replace (lerp_t (rv 2 3) (rv (-2) 3) 0) with (rv 0 3) by (unfold lerp_t, rv; unV; f_equal; field).
  replace (vrperp (vsub (rv (-2) 3) (rv 2 3))) with (rv 0 4) by (unfold rv; unV; f_equal; lra).
  unfold vunit. assert (M : vmag (rv 0 4) = 4). { apply sq_eq; [apply mag_nonneg|lra|]. pose proof (mag_sq (rv 0 4)) as Q. unR. un. rewrite Q. unfold rv. unV. lra. }
  rewrite M. unfold rv. unV. field.
Qed.
Lemma between_le (a b q : rvec) (m : R) : Rabs (vx a) <= m /\ Rabs (vy a) <= m -> Rabs (vx b) <= m /\ Rabs (vy b) <= m -> between a b q -> Rabs (vx q) <= m /\ Rabs (vy q) <= m.
Proof.
  intros [A1 A2] [B1 B2] (t & T & ->). destruct (abs_bounds _ _ A1), (abs_bounds _ _ A2), (abs_bounds _ _ B1), (abs_bounds _ _ B2). unfold vlerp, vadd, vscale. cbn [vx vy]. unR.
  split; apply Rabs_le; un; nra.
Qed.
Lemma low_high_ok : nonempty (ns_s low) /\ nonempty (ns_s high) /\ modest (ns_s low) /\ modest (ns_s high) /\ separated 0 low high.
Proof.
  assert (X : forall x : R, -3 <= x <= 3 -> Rabs x <= IZR (2 ^ 500)).
  { intros x H. apply Rle_trans with 3; [apply Rabs_le; lra|]. apply IZR_le. vm_compute. discriminate. }
  split; [intros p E; discriminate|]. split; [intros p E; discriminate|]. split; [|split].
  - intros q Hq. cbn [core ns_s low] in Hq. eapply between_le; [| |exact Hq]; cbn; split; apply X; lra.
  - intros q Hq. cbn [core ns_s high] in Hq. eapply between_le; [| |exact Hq]; cbn; split; apply X; lra.
  - destruct low_high as (pts & G & D). exists pts. split; auto. un. lra.
Qed.
Lemma low_segment : exists g, ns_s low = SSegment g /\ sg_ta g <> sg_tb g /\ vmag (sg_tn g) = 1 /\ 0 <= sg_r g.
Proof.
  eexists. split; [reflexivity|]. cbn [sg_ta sg_tb sg_tn sg_r rsegment]. split; [|split; [|lra]].
  - intros E. apply (f_equal vx) in E. cbn in E. lra.
  - apply sq_eq; [apply mag_nonneg|lra|]. pose proof (mag_sq (rv 0 (-1))) as Q. unR. un. rewrite Q. unfold rv. unV. lra.
Qed.
(* circles overlapping by 1 *)
Definition disc1 : @nshape RNum := NShape (SCircle (Circle (rv 0 0) (rv 0 0) 4)) (@mkBB RNum (-4) (-4) 4 4) 1.
Definition disc2 : @nshape RNum := NShape (SCircle (Circle (rv 3 4) (rv 3 4) 2)) (@mkBB RNum 1 2 5 6) 2.
Lemma discs_near : vdist (rv 0 0) (rv 3 4) = 5.
Proof. apply sq_eq; [apply dist_nonneg|lra|]. unfold vdist. pose proof (mag_sq (vsub (rv 0 0) (rv 3 4))) as Q. unR. un. rewrite Q. unfold rv. unV. lra. Qed.
End Examples.
(* two crates overlapping in a corner: two contacts *)
Lemma crates_touch : match @shapes_collide FNum ftiny (made (as_poly crate 0) 1) (made (as_poly [fvec 1.5 0.5; fvec 3.5 0.5; fvec 3.5 1.5; fvec 1.5 1.5] 0) 2) with Some (n, l) => (length l =? 2)%nat | None => false end = true.
Proof. vm_compute. reflexivity. Qed.
Lemma crate_solid : solid (ns_s (made (as_poly crate 0) 1)).
Proof. intros p E. assert (H : has_points (ns_s (made (as_poly crate 0) 1)) = true) by (vm_compute; reflexivity). rewrite E in H. cbn in H. destruct (po_dst p); discriminate. Qed.
