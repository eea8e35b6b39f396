(** Proofs for C66. *)
From Coq Require Import ZArith NArith Reals Lra Psatz List Bool Lia Arith.
From Verif Require Import Num NumReal Vec BB Transform Body BodySpec Shapes ShapesSpec VecReal ShapesPoint ShapesRay ShapesPoly ShapesMade TransformProofs BodyProofs Solver Draw DrawSpec.
From Verif Require Space SpaceSpec SpaceInv SpaceMain SpaceEach SpaceEachProofs.
Import ListNotations.
Local Open Scope R_scope.

Section Draws.
Context {colour : Type}.

Lemma hull_unmap t vs q : hull (map (tf_apply t) vs) q -> exists k : Vec.vec, hull vs k /\ q = tf_apply t k.
Proof.
  intros H. induction H as [v V|a b u HA IA HB IB T].
  - apply in_map_iff in V. destruct V as [k [<- K]]. exists k. split; [apply hull_in, K|reflexivity].
  - destruct IA as [ka [KA ->]], IB as [kb [KB ->]]. exists (vlerp ka kb u). split; [apply hull_mix; assumption|]. symmetry. apply tf_lerp.
Qed.
Lemma cache_back (s : shape) (t : @transform RNum) s' b : ShapesSpec.rigid t -> shape_cache s t = (s', b) -> forall q, covers s' (tf_apply t q) -> local_covers s q.
Proof.
  intros RG E q [k [K D]]. pose proof (cache_core s t s' b E) as [R _].
  assert (C : exists k0, local_core s k0 /\ k = tf_apply t k0).
  { destruct s as [c|g|p]; simpl in E.
    - unfold circle_cache in E. inversion E; subst. simpl in *. eauto.
    - unfold segment_cache in E. destruct (if _ <? _ then _ else _)%num, (if _ <? _ then _ else _)%num. inversion E; subst. simpl in *. destruct K as [u [U ->]]. exists (vlerp (sg_a g) (sg_b g) u). split; [exists u; auto|]. symmetry. apply tf_lerp.
    - unfold poly_cache in E. destruct (fold_left _ _ _) as [[[? ?] ?] ?]. inversion E; subst. simpl in *. rewrite map_map in K. simpl in K. rewrite <- (map_map pl_v (tf_apply t)) in K. apply hull_unmap, K. }
  destruct C as [k0 [K0 ->]]. exists k0. split; [exact K0|]. rewrite ShapesPoint.rigid_dist in D by exact RG. rewrite <- R. exact D.
Qed.
Lemma painted_shape (d : drawer colour) an i s q : painted (draw_shape (N := RNum) d an i s) q <-> covers s q.
Proof.
  destruct s as [c|g|p]; cbn [draw_shape painted]; unfold covers; cbn [core radius_of]; [|reflexivity|reflexivity].
  split; [intros D; eexists; split; [reflexivity|exact D]|]. intros [k [-> D]]. exact D.
Qed.
Lemma coherent_rigid (b : Rbody) : coherent b -> ShapesSpec.rigid (b_tf b).
Proof.
  intros ->. unfold ShapesSpec.rigid, set_transform. cbn. unR. pose proof (sin2_cos2 (b_angle b)) as H. unfold Rsqr in H.
  change (@ncos RNum RTrig) with cos. change (@nsin RNum RTrig) with sin. repeat split; lra.
Qed.
Lemma draw_shape_ok (d : drawer colour) m i ops j s s' box : let b := history m i ops in shape_cache s (b_tf b) = (s', box) ->
  let c := draw_shape d (b_angle b) j s' in
  (forall q, painted c (local_to_world b q) <-> local_covers s q) /\ colours c = (Some (dr_outline d), dr_shape d j) /\
  (forall p an r o f, c = DCircle p an r o f -> vsub (local_to_world b (BB.rvec 1 0)) (local_to_world b (BB.rvec 0 0)) = BB.rvec (cos an) (sin an)).
Proof.
  intros b E c. pose proof (coherent_rigid b (history_coherent m i ops)) as RG. split.
  - intros q. unfold c. rewrite painted_shape. split; [apply (cache_back _ _ _ _ RG E)|apply (cache_rigid _ _ _ _ RG E)].
  - split; [unfold c; destruct s'; reflexivity|]. intros p an r o f X. unfold c in X. destruct s'; try discriminate X. cbn [draw_shape] in X.
    assert (X' : b_angle b = an) by (inversion X; reflexivity). rewrite <- X'. unfold local_to_world. rewrite (history_coherent m i ops : coherent b). unfold tf_apply, set_transform. cbn. change (@ncos RNum RTrig) with cos. change (@nsin RNum RTrig) with sin. apply vec_eq; unfold vsub; cbn; unR; ring.
Qed.

(** ** Springs *)
Lemma path_lines fill (a : Rvec) l : lines (draw_path (N := RNum) (colour := colour) fill (a :: l)) = combine (a :: l) l.
Proof. revert a. induction l as [|b l IH]; intros a; [reflexivity|]. change (lines (draw_path fill (a :: b :: l))) with ((a, b) :: lines (draw_path (colour := colour) fill (b :: l))). rewrite IH. reflexivity. Qed.
Lemma path_dots fill l : dots (draw_path (N := RNum) (colour := colour) fill l) = [].
Proof. induction l as [|a [|b l] IH]; try reflexivity. exact IH. Qed.
Lemma path_leads (a z : Rvec) l : leads a (combine (a :: l) (l ++ [z])) z.
Proof. revert a. induction l as [|b l IH]; intros a; cbn [combine app leads]; [auto|]. split; [reflexivity|apply IH]. Qed.
Lemma points_eq (a b : Rvec) : let s := 1 / vmag (vsub b a) in spring_points a b =
  map (fun v => BB.rvec (vx v * (vx b - vx a) + vy v * (- (vy b - vy a) * s) + vx a) (vx v * (vy b - vy a) + vy v * ((vx b - vx a) * s) + vy a)) spring_verts.
Proof. reflexivity. Qed.
Lemma verts_range v : In v (@spring_verts RNum) -> 0 <= vx v <= 1 /\ -6 <= vy v <= 6.
Proof. unfold spring_verts, nlit. cbn. intros H. repeat (destruct H as [<-|H]; [cbn; unR; lra|]). destruct H. Qed.
Lemma point_close (a b : Rvec) (t z : R) : a <> b -> 0 <= t <= 1 -> -6 <= z <= 6 ->
  let s := 1 / vmag (vsub b a) in
  close_to a b 6 (BB.rvec (t * (vx b - vx a) + z * (- (vy b - vy a) * s) + vx a) (t * (vy b - vy a) + z * ((vx b - vx a) * s) + vy a)).
Proof.
  intros NE T Z s. exists (vlerp a b t). split; [exists t; auto|].
  assert (NZ : vsub b a <> vzero) by (intros X; apply NE; symmetry; apply sub_zero, X).
  pose proof (mag_pos _ NZ) as P. pose proof (mag_sq (vsub b a)) as Q.
  unfold vdist. apply mag_le; [lra|]. destruct a as [ax ay], b as [bx by_]. cbn [vx vy] in *.
  set (m := vmag _) in *. unfold vdot, vsub in Q. cbn [vx vy] in Q. change (@num RNum) with R in *. 
  assert (S1 : s * s * ((bx - ax) * (bx - ax) + (by_ - ay) * (by_ - ay)) = 1).
  { replace ((bx - ax) * (bx - ax) + (by_ - ay) * (by_ - ay)) with (m * m) by (rewrite Q; unR; ring). unfold s. unR. field. lra. }
  clearbody s m. unV. cbn. unR.
  match goal with |- ?x <= _ => replace x with (z * z * (s * s * ((bx - ax) * (bx - ax) + (by_ - ay) * (by_ - ay)))) by ring end.
  rewrite S1. nra.
Qed.
Lemma points_ends (a b : Rvec) : exists l, spring_points a b = a :: l ++ [b] /\ length l = 13%nat.
Proof.
  exists (firstn 13 (skipn 1 (spring_points a b))). rewrite points_eq. set (s := 1 / _). clearbody s. unfold spring_verts, nlit. cbn [map fst snd vx vy firstn skipn app length].
  split; [|reflexivity]. destruct a as [ax ay], b as [bx by_]. cbn [vx vy].
  f_equal; [unfold BB.rvec; f_equal; unR; field|]. do 13 (apply f_equal2; [reflexivity|]). apply f_equal2; [|reflexivity]. unfold BB.rvec. f_equal; unR; field.
Qed.
Lemma spring_drawn (fill : colour) (a b : Rvec) : let l := lines (draw_path fill (spring_points a b)) in
  leads a l b /\ length l = 14%nat /\ (a <> b -> forall e, In e l -> close_to a b 6 (fst e) /\ close_to a b 6 (snd e)).
Proof.
  destruct (points_ends a b) as [l [E L]]. cbv zeta.
  assert (C : a <> b -> forall q, In q (spring_points a b) -> close_to a b 6 q).
  { intros NE q Q. rewrite points_eq in Q. apply in_map_iff in Q. destruct Q as [v [<- V]]. destruct (verts_range v V). apply point_close; auto. }
  rewrite E, path_lines. split; [|split].
  - rewrite app_comm_cons. assert (X : forall (A B : Type) (u v : list A) (w : list B), length u = length w -> combine (u ++ v) w = combine u w).
    { intros A B u. induction u as [|x u IH]; intros v [|y w] H; try discriminate H; [destruct v; reflexivity|]. cbn. f_equal. apply IH. injection H as H. exact H. }
    rewrite (X _ _ (a :: l) [b] (l ++ [b])) by (rewrite app_length; cbn [length]; rewrite L; reflexivity). apply path_leads.
  - rewrite combine_length. cbn [length]. rewrite app_length, L. reflexivity.
  - intros NE [x y] I. rewrite E in C. cbn [fst snd]. split; apply (C NE); [apply in_combine_l in I|apply in_combine_r in I]; auto. right. exact I.
Qed.

(** ** Joints and contacts *)
Lemma path_colour {N : Num} (fill : colour) l x : In x (draw_path fill l) -> colours x = (None, fill).
Proof. induction l as [|a [|b l] IH]; try (intros []; fail). intros [<-|I]; [reflexivity|]. apply IH, I. Qed.
Lemma joint_drawn (d : drawer colour) (H : @heap RNum) c k : let l := draw_constraint d H c k in
  (forall x, In x l -> colours x = (None, dr_constraint d)) /\
  match ends_of H c k with
  | None => l = []
  | Some (a, b) =>
      match k with
      | JPivot _ => dots l = [a; b] /\ lines l = []
      | JGroove p => dots l = [local_to_world (H (c_b c)) (gv_anchB p)] /\ lines l = [(a, b)]
      | JSpring _ => dots l = [a; b] /\ (a <> b -> leads a (lines l) b /\ length (lines l) = 14%nat /\ forall e, In e (lines l) -> close_to a b 6 (fst e) /\ close_to a b 6 (snd e))
      | _ => dots l = [a; b] /\ lines l = [(a, b)]
      end
  end.
Proof.
  cbv zeta. split.
  - intros x. destruct k; cbn [draw_constraint In]; intros I; repeat match goal with X : _ \/ _ |- _ => destruct X as [<-|X]; [reflexivity|] end; try contradiction.
    apply path_colour in I. exact I.
  - destruct k; cbn [ends_of draw_constraint]; try reflexivity; try (split; reflexivity).
    set (a := tf_apply _ _). set (b := tf_apply _ (sp_anchB p)). split.
    + change (a :: b :: dots (draw_path (dr_constraint d) (spring_points a b)) = [a; b]). rewrite path_dots. reflexivity.
    + intros NE. destruct (spring_drawn (dr_constraint d) a b) as (L & K & C). auto.
Qed.
Lemma contacts_drawn (d : drawer colour) (H : @heap RNum) s : s_cached s = false ->
  let set := contact_point_set H s in let n := cp_normal set in
  Forall2 (fun e pt => exists x y, e = DSegment x y (dr_point d) /\
      ((x, y) = (vsub (fst (fst pt)) (vscale n 2), vadd (snd (fst pt)) (vscale n 2)) \/ (y, x) = (vsub (fst (fst pt)) (vscale n 2), vadd (snd (fst pt)) (vscale n 2))))
    (draw_arbiter d H s) (cp_points set).
Proof.
  intros C. cbv zeta. unfold draw_arbiter, contact_point_set. cbn [cp_normal cp_points]. unfold arb_count. rewrite C, firstn_all.
  induction (s_contacts s) as [|k l IH]; cbn [map]; constructor; [|exact IH]. do 2 eexists. split; [reflexivity|].
  destruct (s_swapped s); cbn [fst snd]; [right|left]; f_equal; apply vec_eq; unfold vadd, vsub, vscale, vneg; cbn; unR; ring.
Qed.

(** ** The whole space *)
Lemma space_drawn {N : Num} (d : drawer colour) H shp jnt arb s : SpaceSpec.reachable s -> Space.s_lock s = 0%Z ->
  exists xs cs, draw_space d H shp jnt arb s =
      map (fun i => draw_shape d (b_angle (H (Space.sh_body (Space.s_shape s i)))) i (shp i)) xs ++
      flat_map (fun c => draw_constraint d H (fst (jnt c)) (snd (jnt c))) cs ++ flat_map (fun x => draw_arbiter d H (arb x)) (Space.s_arbs s) /\
    NoDup xs /\ (forall x, In x xs <-> Space.contains_shape s x = true) /\
    NoDup cs /\ (forall c, In c cs <-> Space.contains_constraint s c = true /\ Space.is_sleeping s (Space.co_a (Space.s_con s c)) = false /\ Space.is_sleeping s (Space.co_b (Space.s_con s c)) = false).
Proof.
  intros R L. destruct (SpaceEachProofs.index_lists s R L) as [A [B [C D]]].
  exists (map snd (Space.s_dix s) ++ map snd (Space.s_six s)), (Space.s_cons s). split; [unfold draw_space; rewrite map_app, <- app_assoc; reflexivity|]. split; [|split; [|split]].
  - apply SpaceInv.nd_app; auto. intros x X Y. apply C in X. apply D in Y. destruct X as [_ [X1 X2]], Y as [_ [Y|Y]]; congruence.
  - intros x. rewrite in_app_iff, C, D. split; [tauto|]. intros I. destruct (Space.is_sleeping s (Space.sh_body (Space.s_shape s x))) eqn:S; auto. destruct (Space.ty s (Space.sh_body (Space.s_shape s x))); auto; left; repeat split; auto; discriminate.
  - apply (SpaceMain.constraints_listed s 0 R L).
  - intros c. apply (SpaceMain.constraints_listed s c R L).
Qed.
End Draws.
