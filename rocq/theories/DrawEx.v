(** Concrete pictures for C66. *)
From Coq Require Import ZArith NArith Reals Lra List Bool Arith Floats.
From Verif Require Import Num NumReal NumFloat Vec Transform Body BodySpec Shapes ShapesSpec VecReal ShapesPoint TransformProofs BodyProofs Solver BB Draw DrawSpec DrawProofs.
From Verif Require Space SpaceSpec SpaceRuns.
Import ListNotations.
Local Open Scope float_scope.

(* a body of mass 1 at (x, y), not turned *)
Definition fb (x y : PrimFloat.float) : @body FNum :=
  @Body FNum 1%float 1%float 1%float 1%float 0%float 0%float 0%float (fvec 0 0) (fvec x y) (fvec 0 0) (fvec 0 0) (@Tf FNum 1%float 0%float 0%float 1%float x y) 0%float (fvec 0 0) 0%float.
(* the ground 0, the boxes 1 and 2 asleep on it, 3 falling; all shapes drawn as circles; a spring from 1 to 2 *)
Definition fh : @heap FNum := fun i => match i with 1%nat => fb 1 0 | 2%nat => fb 4 4 | _ => fb 0 0 end.
Definition fsh (i : nat) : @shape FNum := SCircle (Circle (fvec 0 0) (b_pos (fh i)) 1%float).
Definition fspring : @spring FNum := @Spring FNum (fvec 0 0) (fvec 0 0) 0%float (fun _ => 0%float) 0%float 0%float (fvec 0 0) (fvec 0 0) 0%float (fvec 0 0) 0%float.
Definition fpin : @pin FNum := @Pin FNum (fvec 0 0) (fvec 0 0) 1%float (fvec 0 0) (fvec 0 0) (fvec 0 0) 0%float 0%float 0%float.
Definition fcst : @cstr FNum := @Cstr FNum 1%nat 2%nat 1%float 1%float 1%float.
Definition fjn (_ : nat) : @cstr FNum * @jclass FNum := (fcst, JPin fpin).
Definition farb (_ : nat) : @sarb FNum :=
  @SArb FNum 1%nat 0%nat 0%float 0%float (fvec 0 0) (fvec 0 1) false true false [@Contact FNum (fvec 0 (-1)) (fvec 0 0) 0%float 0%float 0%float 0%float 0%float 0%float 0%float 0%Z].
Definition mute : drawer nat := Drawer 0%N 10%nat (fun i => i) 20%nat 30%nat.

Lemma flags_no_matter {colour} {N : Num} (d : drawer colour) (f : BinNums.N) H shp jnt arb s :
  draw_space (Drawer f (dr_outline d) (dr_shape d) (dr_constraint d) (dr_point d)) H shp jnt arb s = draw_space d H shp jnt arb s.
Proof.
  unfold draw_space. do 3 f_equal.
Qed.
Local Existing Instance FNum.
Import Space SpaceSpec SpaceRuns.
Lemma flags_ignored : exists s : @space FNum, reachable s /\ dr_flags mute = 0%N /\ draw_space mute fh fsh fjn farb s =
    [DCircle (fvec 0 0) 0%float 1%float 10%nat 3%nat; DCircle (fvec 4 4) 0%float 1%float 10%nat 2%nat; DCircle (fvec 1 0) 0%float 1%float 10%nat 1%nat; DCircle (fvec 0 0) 0%float 1%float 10%nat 0%nat].
Proof.
  destruct (sees_ex (runb piled_h piled0) (fun _ => true)) as [s [E _]]; [vm_compute; reflexivity|].
  assert (Q : forall A (f : space -> A) v, match runb piled_h piled0 with Some s => f s | None => v end = v -> f s = v) by (intros A f v; rewrite E; auto).
  exists s. split; [eapply runb_reachable; exact E|]. split; [reflexivity|]. apply (Q _ (fun s => draw_space mute fh fsh fjn farb s)). match goal with |- _ = ?v => vm_cast_no_check (eq_refl v) end.
Qed.
(* while body 2 is touched everything is drawn: the bodies 1 and 2 are awake again *)
Lemma awake_drawn : exists s : @space FNum, reachable s /\ draw_space mute fh fsh fjn farb s =
    [DCircle (fvec 4 4) 0%float 1%float 10%nat 2%nat; DCircle (fvec 1 0) 0%float 1%float 10%nat 1%nat; DCircle (fvec 0 0) 0%float 1%float 10%nat 3%nat; DCircle (fvec 0 0) 0%float 1%float 10%nat 0%nat;
     DDot 5%float (fvec 1 0) 20%nat; DDot 5%float (fvec 4 4) 20%nat; DSegment (fvec 1 0) (fvec 4 4) 20%nat;
     DSegment (fvec 1 (-3)) (fvec 0 2) 30%nat; DSegment (fvec 1 (-3)) (fvec 0 2) 30%nat].
Proof.
  destruct (sees_ex (runb (piled_h ++ [OTouch 2]) piled0) (fun _ => true)) as [s [E _]]; [vm_compute; reflexivity|].
  assert (Q : forall A (f : space -> A) v, match runb (piled_h ++ [OTouch 2]) piled0 with Some s => f s | None => v end = v -> f s = v) by (intros A f v; rewrite E; auto).
  exists s. split; [eapply runb_reachable; exact E|]. apply (Q _ (fun s => draw_space mute fh fsh fjn farb s)). match goal with |- _ = ?v => vm_cast_no_check (eq_refl v) end.
Qed.
(* the joint and the contacts of the sleeping bodies 1 and 2 are left out *)
Lemma sleeping_left_out : exists s : @space FNum, reachable s /\ s_lock s = 0%Z /\ contains_constraint s 0 = true /\ is_sleeping s 1 = true /\ b_arbs (s_body s 1) = [0%nat] /\
  dots (draw_space mute fh fsh fjn farb s) = [] /\ lines (draw_space mute fh fsh fjn farb s) = [].
Proof.
  destruct (sees_ex (runb piled_h piled0) (fun _ => true)) as [s [E _]]; [vm_compute; reflexivity|].
  assert (Q : forall A (f : space -> A) v, match runb piled_h piled0 with Some s => f s | None => v end = v -> f s = v) by (intros A f v; rewrite E; auto).
  exists s. split; [eapply runb_reachable; exact E|].
  split; [apply (Q _ s_lock); vm_compute; reflexivity|]. split; [apply (Q _ (fun s => contains_constraint s 0)); vm_compute; reflexivity|].
  split; [apply (Q _ (fun s => is_sleeping s 1)); vm_compute; reflexivity|]. split; [apply (Q _ (fun s => b_arbs (s_body s 1))); vm_compute; reflexivity|].
  split; [apply (Q _ (fun s => dots (draw_space mute fh fsh fjn farb s)))|apply (Q _ (fun s => lines (draw_space mute fh fsh fjn farb s)))]; match goal with |- _ = ?v => vm_cast_no_check (eq_refl v) end.
Qed.
(* a damped spring whose anchors coincide is drawn with NaN coordinates *)
Lemma short_spring : local_to_world (fh 0%nat) (sp_anchA fspring) = local_to_world (fh 3%nat) (sp_anchB fspring) /\
  length (lines (draw_constraint mute fh (@Cstr FNum 0%nat 3%nat 1%float 1%float 1%float) (JSpring fspring))) = 14%nat /\
  forallb (fun e => PrimFloat.is_nan (vx (fst e)) && PrimFloat.is_nan (vy (snd e))) (lines (draw_constraint mute fh (@Cstr FNum 0%nat 3%nat 1%float 1%float 1%float) (JSpring fspring))) = true.
Proof. split; [reflexivity|]. split; match goal with |- _ = ?v => vm_cast_no_check (eq_refl v) end. Qed.
Local Existing Instance RNum.
Local Open Scope R_scope.
(* a shape is drawn where it was when its box was last computed: after SetPosition the picture is old *)
Lemma stale_drawn : exists (ops : list bop) (s s' : @Shapes.shape RNum) (box : @bb RNum) (q : @vec RNum), let b := history 1 1 ops in let b' := set_position b (rvec 5 0) in
  shape_cache s (b_tf b) = (s', box) /\ local_covers s q /\ ~ painted (draw_shape mute (b_angle b') 0 s') (local_to_world b' q).
Proof.
  pose (s := SCircle (Circle (rvec 0 0) (rvec 0 0) 1)). exists [OpSetPosition (rvec 0 0)], s. destruct (shape_cache s (b_tf (history 1 1 [OpSetPosition (rvec 0 0)]))) as [s' box] eqn:E. exists s', box, (rvec 0 0). cbv zeta.
  split; [exact E|]. split; [exists (rvec 0 0); split; [reflexivity|]; apply mag_le; [cbn; lra|]; unfold vsub; cbn; unR; lra|].
  rewrite painted_shape. intros [k [K D]]. set (b := history 1 1 _) in *.
  assert (P : local_to_world (set_position b (rvec 5 0)) (rvec 0 0) = rvec 5 0) by apply (set_position_pos _ (rvec 5 0) (history_coherent 1 1 [OpSetPosition (rvec 0 0)])).
  assert (O : tf_apply (b_tf b) (rvec 0 0) = rvec 0 0) by apply (set_position_pos _ (rvec 0 0) (history_coherent 1 1 [])).
  rewrite P in D. assert (Z : s' = SCircle (Circle (rvec 0 0) (tf_apply (b_tf b) (rvec 0 0)) 1)) by exact (eq_sym (f_equal fst E)).
  subst s'. cbn [core radius_of ci_tc ci_r] in K, D. subst k.
  rewrite O in D. apply mag_le in D; [|lra]. unfold vsub in D. cbn in D. unR. lra.
Qed.
