(** Shapes: statements put together, thin ray casts (C14), counterexamples and examples. *)
From Coq Require Import ZArith Reals Lra Psatz List Bool Lia Floats.
From Verif Require Import Num NumReal NumFloat Vec BB BBProofs Transform BBTree BBTreeSpec BBTreeProofs BBTreeRay BBTreeInv BBTreeMain.
From Verif Require Import Shapes ShapesSpec VecReal ShapesPoint ShapesRay ShapesPoly ShapesPolyRay.
Import ListNotations.
Local Open Scope R_scope.

(** ** Thin ray casts through the trees *)
Lemma point_lerp (a b : rvec) t : Rpoint a b t = vlerp a b t.
Proof. destruct a as [ax ay], b as [bx by_]. unfold Rpoint. unV. f_equal; rring. Qed.
Lemma touch_entry s a b (c : @bb RNum) (u : R) : 0 <= radius_of s -> 0 <= u <= 1 -> touches s a b 0 u -> (forall q, covers s q -> bb_contains_vect c q = true) -> bb_segment_query c a b <= u.
Proof.
  intros R0 U [k [K D]] B. assert (CV : covers s (vlerp a b u)) by (exists k; split; [exact K|un; lra]).
  apply B, in_box_model in CV. assert (I : RIn (Rpoint a b u) c) by (rewrite point_lerp; exact CV).
  destruct (segment_query_spec c a b) as [(_ & _ & _ & S)|(_ & S)]; [destruct I; lra|destruct I; lra|apply S; assumption|exfalso; exact (S u U I)].
Qed.
Lemma castable_touch s a b (r : R) i : 0 <= r -> castable s a b r -> shape_segment_query s a b r = Some i -> si_hit i = true -> first_touch s a b r (si_alpha i).
Proof.
  intros R0. destruct s as [c|g|p]; cbn [castable].
  - intros (C0 & RS & AB) E H. destruct (circle_cast c a b r i C0 R0 RS AB E) as [A _]. exact (proj1 (A H)).
  - intros (G0 & NE & N1 & NW & OUT) E H. destruct (segment_ray g a b r i G0 R0 NE N1 NW OUT E) as [A _]. exact (proj1 (A H)).
  - intros (OK & IR & NP) E H. destruct (poly_cast p a b r i OK IR R0 NP E) as [A _]. exact (proj1 (A H)).
Qed.
Lemma castable_radius s a b r : castable s a b r -> 0 <= radius_of s.
Proof. destruct s; simpl; tauto. Qed.
Lemma thin_cast (world : nat -> shape) (refused : nat -> bool) (a b : rvec) (x : @index RNum) : reached x ->
  (forall i, castable (world i) a b 0) -> (forall d i c q, key_box x (d, i) = Some c -> covers (world i) q -> bb_contains_vect c q = true) ->
  let r : R * option nat := segment_query_first (N:=RNum) x (cast world refused a b 0) a b in
  (forall d i info, In i (x_leaves x d) -> refused i = false -> shape_segment_query (world i) a b 0 = Some info -> si_hit info = true -> fst r <= si_alpha info) /\
  (r = (1, None) \/ exists d i info, In i (x_leaves x d) /\ refused i = false /\ snd r = Some i /\ shape_segment_query (world i) a b 0 = Some info /\ si_hit info = true /\
     fst r = si_alpha info /\ fst r < 1 /\ first_touch (world i) a b 0 (fst r)).
Proof.
  intros RX CA BX.
  destruct (segment_first_spec (cast world refused a b 0) a b x RX) as (_ & L & O).
  - intros d i c u KB CU. unfold cast in CU. destruct (shape_segment_query (world i) a b 0) as [info|] eqn:Q; [|discriminate].
    destruct (si_hit info) eqn:H; [|discriminate]. destruct (refused i); [discriminate|]. injection CU as <-.
    destruct (castable_touch (world i) a b 0 info (Rle_refl 0) (CA i) Q H) as (U & T & _).
    apply (touch_entry (world i)); auto; [eapply castable_radius; apply CA|intros q; apply (BX d i c q KB)].
  - intros r. fold r in L, O. split.
    + intros d i info I RF Q H. apply (L d i); [exact I|]. unfold cast. rewrite Q, H, RF. reflexivity.
    + destruct O as [O|(d & i & I & S & CU & L1)]; [left; exact O|right]. unfold cast in CU. destruct (shape_segment_query (world i) a b 0) as [info|] eqn:Q; [|discriminate].
      destruct (si_hit info) eqn:H; [|discriminate]. destruct (refused i) eqn:RF; [discriminate|]. cbn [andb negb] in CU. injection CU as CU.
      exists d, i, info. split; [exact I|]. split; [exact RF|]. split; [exact S|]. split; [exact Q|]. split; [exact H|]. split; [symmetry; exact CU|]. split; [exact L1|].
      rewrite <- CU. apply (castable_touch (world i) a b 0 info (Rle_refl 0) (CA i) Q H).
Qed.

(** ** Thick ray casts miss shapes (C14) *)
Definition fcircle (x y r : float) : @circle FNum := Circle (fvec x y) (fvec x y) r.
Definition thick_world (i : nat) : @shape FNum := SCircle (match i with 0%nat => fcircle 0 0 1 | _ => fcircle 100 0 1 end).
Definition thick_box (i : nat) : @bb FNum := match i with 0%nat => fbb (-1) (-1) 1 1 | _ => fbb 99 (-1) 101 1 end%float.
Definition no_vel (_ : nat) : @vec FNum := fvec 0 0.
Definition thick_hist : list (@xop FNum) := [XInsert false 0; XInsert false 1]%nat.
Definition thick_index : @index FNum := xrun (index0 thick_box no_vel) thick_hist.
Lemma thick_reached : reached thick_index.
Proof.
  exists thick_box, no_vel, thick_hist. split; [|split; [|reflexivity]].
  - intros i. split; [destruct i as [|i]; (split; [split; vm_compute; reflexivity|]); repeat split; vm_compute; reflexivity|split; vm_compute; reflexivity].
  - assert (K : forall x d (l : list nat), x_leaves (N:=FNum) x d = l -> forall i, ~ In i l -> ~ In i (x_leaves x d)) by (intros x d l -> i H; exact H).
    unfold thick_hist; cbn [xvalid_all].
    split. { cbn [xvalid]. eapply K; [vm_compute; reflexivity|]. cbn. tauto. }
    split; [|exact I]. cbn [xvalid]. eapply K; [vm_compute; reflexivity|]. cbn. intuition lia.
Qed.
Lemma thick_missed : exists (x : @index FNum) (world : nat -> @shape FNum) (a b : @vec FNum) (radius : float),
  reached x /\ (forall i, In i [0; 1]%nat -> In i (x_leaves x false) /\ snd (shape_cache (world i) tf_identity) = x_box x i) /\
  snd (segment_query_first x (cast world (fun _ => false) a b radius) a b) = None /\
  exists info, shape_segment_query (world 0%nat) a b radius = Some info /\ si_hit info = true /\ (si_alpha info <? 1)%float = true.
Proof.
  exists thick_index, thick_world, (fvec (-5) 2.5), (fvec 5 2.5), 2%float.
  split; [exact thick_reached|]. split; [|split].
  - assert (XB : x_box thick_index = thick_box) by (unfold thick_index, thick_hist; cbn [xrun fold_left xstep]; rewrite !insert_xbox; reflexivity). rewrite XB.
    replace (x_leaves thick_index false) with [1; 0]%nat by (vm_compute; reflexivity).
    intros i [<-|[<-|[]]]; (split; [cbn; auto|]); cbn [thick_world thick_box shape_cache circle_cache snd]; unfold bb_circle, bb_extents, fbb; f_equal; vm_compute; reflexivity.
  - vm_compute. reflexivity.
  - eexists. split; [reflexivity|]. split; vm_compute; reflexivity.
Qed.
(* without the second shape the same cast finds the first *)
Lemma alone_found : snd (segment_query_first (xrun (index0 thick_box no_vel) [XInsert false 0%nat]) (cast thick_world (fun _ => false) (fvec (-5) 2.5) (fvec 5 2.5) 2%float) (fvec (-5) 2.5) (fvec 5 2.5)) = Some 0%nat.
Proof. vm_compute. reflexivity. Qed.

(** ** Point queries: counterexamples in float64 *)
Lemma centre_nan : exists (c : @circle FNum) (p : @vec FNum), (0 <? ci_r c)%float = true /\ p = ci_tc c /\ is_nan (vx (pi_point (circle_point_query c p))) = true.
Proof. exists (fcircle 0 0 1), (fvec 0 0). split; [reflexivity|]. split; [reflexivity|]. vm_compute. reflexivity. Qed.
Definition fsegment (a b : @vec FNum) (r : float) : @segment FNum := fst (segment_cache (new_segment a b r) tf_identity).
Lemma short_segment_nan : exists (a : @vec FNum) (r : float) (p : @vec FNum), is_nan (pi_dist (segment_point_query (fsegment a a r) p)) = true.
Proof. exists (fvec 0 0), 1%float, (fvec 3 4). vm_compute. reflexivity. Qed.
Definition fpoly (vs : list (@vec FNum)) (r : float) : option (@poly FNum) :=
  match set_verts (length vs) vs with Some ps => Some (fst (poly_cache (@Poly FNum r [] ps) tf_identity)) | None => None end.
Lemma edge_nan : exists (q : @poly FNum) (p : @vec FNum) i, fpoly [fvec (-1) (-1); fvec 1 (-1); fvec 1 1; fvec (-1) 1] 0 = Some q /\ poly_point_query q p = Some i /\ is_nan (vx (pi_point i)) = true.
Proof.
  assert (X : match fpoly [fvec (-1) (-1); fvec 1 (-1); fvec 1 1; fvec (-1) 1] 0 with
              | Some q => match poly_point_query q (fvec 1 0.5) with Some i => is_nan (vx (pi_point i)) | None => false end
              | None => false end = true) by (vm_compute; reflexivity).
  destruct (fpoly [fvec (-1) (-1); fvec 1 (-1); fvec 1 1; fvec (-1) 1] 0) as [q|]; [|discriminate].
  destruct (poly_point_query q (fvec 1 0.5)) as [i|] eqn:Q; [|discriminate]. exists q, (fvec 1 0.5), i. auto.
Qed.
(** The point query of a thick segment at a point of its middle line does not give a surface point. *)
Definition rv (x y : R) : rvec := @V RNum x y.
Definition rsegment (a b n : rvec) (r : R) : @segment RNum := Segment a b n a b n r vzero vzero (V n1 n0).
Lemma core_point : exists (g : @segment RNum) (p : rvec), shape_ok (SSegment g) /\ ~ is_dist (core (SSegment g)) (pi_point (segment_point_query g p)) (sg_r g).
Proof.
  set (g := rsegment (rv 0 0) (rv 10 0) (rv 0 (-1)) 1). exists g, (rv 5 0).
  assert (OK : shape_ok (SSegment g)) by (split; [simpl; lra|]; simpl; intros E; inversion E; lra).
  split; [exact OK|]. intros D.
  assert (ON : core (SSegment g) (rv 5 0)) by (exists (1 / 2); split; [lra|]; simpl; unfold rv; unV; f_equal; lra).
  destruct OK as [R0 NE]. destruct (segment_query g (rv 5 0) R0 NE) as (_ & _ & _ & H). destruct (H ON) as [E _]. rewrite E in D.
  destruct D as [_ D]. specialize (D _ ON). rewrite dist_self in D. simpl in D. lra.
Qed.

(** ** Ray casts: counterexamples in float64 *)
Lemma inside_point : exists (c : @circle FNum) (a b : @vec FNum) i, shape_segment_query (SCircle c) a b 0%float = Some i /\ si_hit i = true /\ si_alpha i = 0%float /\ si_point i = b /\
  (ci_r c <? vdist (si_point i) (ci_tc c))%float = true.
Proof. exists (fcircle 0 0 1), (fvec 0.5 0), (fvec 10 0). eexists. split; [reflexivity|]. repeat split; vm_compute; reflexivity. Qed.
(* from beside the end of a thick segment: the reported fraction is 1/2, at 1/4 the point is already deep inside *)
Lemma late_hit : exists (g : @segment FNum) (a b k : @vec FNum) i, sg_r g = 1%float /\ shape_segment_query (SSegment g) a b 0%float = Some i /\ si_hit i = true /\ si_alpha i = 0.5%float /\
  k = vlerp (sg_ta g) (sg_tb g) 0.0125%float /\ vdist (vlerp a b 0.25%float) k = 0.75%float.
Proof. exists (fsegment (fvec 0 0) (fvec 10 0) 1), (fvec (-1.5) 0.5), (fvec 5 1.5). eexists. eexists. split; [reflexivity|]. split; [reflexivity|]. repeat split; vm_compute; reflexivity. Qed.
(* the same start, ending inside the segment: no hit is reported *)
Lemma lost_hit : exists (g : @segment FNum) (a b k : @vec FNum) i, sg_r g = 1%float /\ shape_segment_query (SSegment g) a b 0%float = Some i /\ si_hit i = false /\
  k = vlerp (sg_ta g) (sg_tb g) 0.2%float /\ vdist b k = 0.75%float.
Proof. exists (fsegment (fvec 0 0) (fvec 10 0) 1), (fvec (-1.5) 0.5), (fvec 2 0.75). eexists. eexists. split; [reflexivity|]. split; [reflexivity|]. repeat split; vm_compute; reflexivity. Qed.

(** ** Examples meeting the hypotheses *)
Definition square : list rvec := [rv (-1) (-1); rv 1 (-1); rv 1 1; rv (-1) 1].
Definition square_poly : @poly RNum := Poly (1 / 2) (planes_of square) (planes_of square).
Lemma square_convex : convex square.
Proof.
  intros i j k a b c IJ JK A B C. assert (k < 4)%nat by (change 4%nat with (length square); apply nth_error_Some; congruence).
  assert (j < 3)%nat by lia. assert (i < 2)%nat by lia.
  destruct i as [|[|i]]; [| |lia]; (destruct j as [|[|[|j]]]; try lia); (destruct k as [|[|[|[|k]]]]; try lia); cbn in A, B, C;
    injection A as <-; injection B as <-; injection C as <-; unfold rv; unV; lra.
Qed.
Lemma square_ok : shape_ok (SPoly square_poly) /\ in_range (SPoly square_poly) (rv 3 0).
Proof.
  assert (E : map pl_v (po_dst square_poly) = square) by apply planes_vertices.
  split.
  - split; [simpl; lra|]. split; [simpl; lia|]. rewrite E. split; [exact square_convex|reflexivity].
  - cbn [in_range]. rewrite E. exists (rv 1 1). split.
    + exists (rv 1 (-1)), (rv 1 1). split; [right; right; left; reflexivity|]. exists 1. split; [lra|]. unfold rv; unV. f_equal; lra.
    + eapply Rle_lt_trans; [apply (dist_triangle _ (rv 1 0))|].
      assert (BIG : 3 < RMaxFloat) by (unfold RMaxFloat; apply IZR_lt; reflexivity). 
      assert (D1 : vdist (rv 3 0) (rv 1 0 : rvec) <= 2) by (unfold vdist; apply mag_le; [lra|]; unfold rv; unV; lra).
      assert (D2 : vdist (rv 1 0) (rv 1 1 : rvec) <= 1) by (unfold vdist; apply mag_le; [lra|]; unfold rv; unV; lra).
      un. unR. lra.
Qed.
Definition turn : @transform RNum := Tf (3 / 5) (4 / 5) (- (4 / 5)) (3 / 5) 7 (-2).
Lemma turn_rigid : rigid turn.
Proof. unfold rigid, turn. cbn. lra. Qed.
(** A shape of the space that the segment meets is found. *)
Lemma castable_found s a b (r t : R) : 0 <= r -> castable s a b r -> 0 <= t < 1 -> touches s a b r t ->
  exists i, shape_segment_query s a b r = Some i /\ si_hit i = true /\ si_alpha i <= t.
Proof.
  intros R0 CA T TT. assert (exists i, shape_segment_query s a b r = Some i) as [i E].
  { destruct s as [c|g|p]; [eexists; reflexivity|eexists; reflexivity|]. unfold shape_segment_query. cbn [shape_point_query]. unfold poly_point_query.
    destruct CA as ((_ & L & _) & _). destruct (rev (po_dst p)) as [|x l] eqn:RV; [apply (f_equal (@length _)) in RV; rewrite rev_length in RV; cbn in RV; lia|].
    destruct (fold_left (poly_round a) (po_dst p) _) as [[[[? ?] ?] ?] ?]. eexists. reflexivity. }
  exists i. split; [exact E|]. assert (H : si_hit i = true).
  { destruct s as [c|g|p]; cbn [castable] in CA.
    - destruct CA as (C0 & RS & AB). destruct (circle_cast c a b r i C0 R0 RS AB E) as [_ B]. apply (B t); [lra|exact TT].
    - destruct CA as (G0 & NE & N1 & NW & OUT). destruct (segment_ray g a b r i G0 R0 NE N1 NW OUT E) as [_ B]. exact (B t T TT).
    - destruct CA as (OK & IR & NP). destruct (poly_cast p a b r i OK IR R0 NP E) as [_ B]. exact (B t T TT). }
  split; [exact H|]. destruct (castable_touch s a b r i R0 CA E H) as (_ & _ & F). apply Rnot_lt_le. intros X. apply (F t); [un; lra|exact TT].
Qed.
Lemma thin_found (world : nat -> shape) (refused : nat -> bool) (a b : rvec) (x : @index RNum) d i (t : R) : reached x ->
  (forall i, castable (world i) a b 0) -> (forall d i c q, key_box x (d, i) = Some c -> covers (world i) q -> bb_contains_vect c q = true) ->
  In i (x_leaves x d) -> refused i = false -> 0 <= t < 1 -> touches (world i) a b 0 t ->
  exists j, snd (segment_query_first (N:=RNum) x (cast world refused a b 0) a b) = Some j /\ (fst (segment_query_first (N:=RNum) x (cast world refused a b 0) a b) : R) <= t.
Proof.
  intros RX CA BX I RF T TT. destruct (castable_found (world i) a b 0 t (Rle_refl 0) (CA i) T TT) as (info & E & H & AL).
  destruct (thin_cast world refused a b x RX CA BX) as [LE FOUND]. set (r := segment_query_first x _ a b) in *.
  pose proof (LE d i info I RF E H) as X. assert (F : (fst r : R) <= t) by (eapply Rle_trans; eassumption).
  destruct FOUND as [Y|(d' & j & info' & _ & _ & S & _)]; [rewrite Y in F; cbn [fst] in F; un; lra|exists j; auto].
Qed.
Definition ring (_ : nat) : @shape RNum := SCircle (Circle (rv (1 / 2) (1 / 2)) (rv (1 / 2) (1 / 2)) (1 / 2)).
Lemma ring_witness : exists x : @index RNum, reached x /\ In 3%nat (x_leaves x false) /\ (forall i, castable (ring i) (rv (-1) (1 / 2)) (rv 3 (1 / 2)) 0) /\
  (forall d i c q, key_box x (d, i) = Some c -> covers (ring i) q -> bb_contains_vect c q = true) /\ touches (ring 3) (rv (-1) (1 / 2)) (rv 3 (1 / 2)) 0 (1 / 4).
Proof.
  exists (do_insert (index0 ray_box ray_vel) false 3). split; [|split; [|split; [|split]]].
  - exists ray_box, ray_vel, [XInsert false 3]. split; [exact ray_good|]. split; [|reflexivity]. cbn [xvalid_all]. split; [cbn; tauto|exact I].
  - left; reflexivity.
  - intros i. cbn. split; [lra|]. split; [lra|]. intros E. injection E as E. lra.
  - intros d i c q KB [k [-> D]]. assert (c = rbb 0 0 1 1) as ->.
    { destruct d; cbn in KB; [discriminate|]. destruct (Nat.eqb 3 i) eqn:E; [|cbn in KB; repeat (destruct i as [|i]; try discriminate)]. 
      apply Nat.eqb_eq in E. subst i. cbn in KB. inversion KB. reflexivity. }
    cbn [ring ci_tc radius_of ci_r] in D. assert (Q : vdot (vsub q (rv (1 / 2) (1 / 2))) (vsub q (rv (1 / 2) (1 / 2))) <= 1 / 2 * (1 / 2)).
    { pose proof (mag_sq (vsub q (rv (1 / 2) (1 / 2)))) as M. pose proof (mag_nonneg (vsub q (rv (1 / 2) (1 / 2)))) as P. fold (vdist q (rv (1 / 2) (1 / 2))) in M, P. change (@nmul RNum) with Rmult in M. rewrite <- M. apply Rmult_le_compat; try exact P; exact D. }
    clear D. destruct q as [qx qy]. unfold rv in Q. unV. un. apply in_box_model. unfold in_box, rbb. cbn. set (x := qx - 1 / 2) in Q. set (y := qy - 1 / 2) in Q. assert (X : x = qx - 1 / 2) by reflexivity. assert (Y : y = qy - 1 / 2) by reflexivity. clearbody x y. assert (- (1 / 2) <= x <= 1 / 2) by (split; nra). assert (- (1 / 2) <= y <= 1 / 2) by (split; nra). lra.
  - exists (rv (1 / 2) (1 / 2)). split; [reflexivity|]. simpl radius_of. unfold vdist. apply mag_le; [lra|]. unfold rv. unV. lra.
Qed.
(** Casts against a thick segment and a rounded square. *)
Lemma cast_examples :
  (let g := rsegment (rv 0 0) (rv 10 0) (rv 0 (-1)) 1 in castable (SSegment g) (rv 2 5) (rv 4 (-5)) (1 / 2) /\ touches (SSegment g) (rv 2 5) (rv 4 (-5)) (1 / 2) (1 / 2)) /\
  (castable (SPoly square_poly) (rv 3 0) (rv (-3) 1) (1 / 4) /\ ~ touches (SPoly square_poly) (rv 3 0) (rv (-3) 1) (1 / 4) 0 /\ touches (SPoly square_poly) (rv 3 0) (rv (-3) 1) (1 / 4) (1 / 2)).
Proof.
  split.
  - split.
    + cbn. split; [lra|]. split; [intros E; injection E as E; lra|]. split; [unfold rv; unV; lra|]. split; [unfold rv; unV; lra|].
      replace (vdot (rv 0 (-1)) (vsub (rv 2 5) (rv 0 0))) with (-5) by (unfold rv; unV; lra). rewrite Rabs_left by lra. lra.
    + exists (rv 3 0). split; [exists (3 / 10); split; [lra|]; cbn; unfold rv; unV; f_equal; lra|]. simpl radius_of. unfold vdist. apply mag_le; [lra|]. unfold rv. unV. lra.
  - destruct square_ok as [OK IR]. assert (E : map pl_v (po_dst square_poly) = square) by apply planes_vertices. split; [|split].
    + cbn [castable]. split; [exact OK|]. split; [exact IR|]. rewrite E. intros u v I. cbn in I. 
      destruct I as [I|[I|[I|[I|[]]]]]; injection I as <- <-; unfold rv; unV; lra.
    + intros [k [K D]]. rewrite lerp_0 in D. cbn [core] in K. rewrite E in K.
      assert (KX : vx k <= 1).
      { clear D. induction K as [v I|p q t P HP Q HQ T]; [cbn in I; repeat (destruct I as [<-|I]; [cbn; lra|]); destruct I|].
        revert HP HQ T. destruct p as [px py], q as [qx qy]. unV. intros. un. nra. }
      simpl radius_of in D. assert (Q : vdot (vsub (rv 3 0) k) (vsub (rv 3 0) k) <= 3 / 4 * (3 / 4)).
      { pose proof (mag_sq (vsub (rv 3 0) k)) as M. pose proof (mag_nonneg (vsub (rv 3 0) k)) as P. fold (vdist (rv 3 0) k) in M, P. change (@nmul RNum) with Rmult in M. rewrite <- M. assert (D2 : vdist (rv 3 0) k <= 3 / 4) by (eapply Rle_trans; [exact D|cbn; lra]). apply Rmult_le_compat; try exact P; exact D2. }
      destruct k as [kx ky]. cbn in KX. unfold rv in Q. revert Q. unV. un. intros. nra.
    + assert (G : forall h : R, h = 1 / 2 -> touches (SPoly square_poly) (rv 3 0) (rv (-3) 1) (1 / 4) h); [|apply G; reflexivity]. intros h HH.
      assert (M : vlerp (rv 3 0) (rv (-3) 1) h = rv 0 (1 / 2)) by (subst h; unfold rv; unV; f_equal; lra). exists (rv 0 (1 / 2)). split; [|rewrite M, dist_self; simpl radius_of; lra].
      cbn [core]. rewrite E. apply inside_hull; [exact square_convex|cbn; lia|]. intros u v I. cbn in I. destruct I as [I|[I|[I|[I|[]]]]]; injection I as <- <-; unfold rv; unV; lra.
Qed.
