(** A square above a segment: a world for the shapes of C71. *)
From Coq Require Import ZArith NArith Bool Reals List Lra Lia Arith.
From Verif Require Import Num NumReal Vec VecReal BB Transform Body BodySpec BodyProofs Solver SolverSpec Joints Persist SolverProofs6 ArbViewEx EquilProofs EquilEx ApartSpec ApartEx Shapes Narrow ShiftSpec ShiftProofs ShiftProofs2 ShiftEx ShiftShapeSpec ShiftShapes ShiftShapes2.
Import ListNotations.
Local Open Scope R_scope.

Definition floor_shape : @shape RNum := SSegment (new_segment (BB.rvec (-5) 0) (BB.rvec 5 0) (1 / 2)).
Definition square : @shape RNum := SPoly (@Poly RNum (1 / 10) [] (map (fun q => @Plane RNum (fst q) (snd q))
  [(BB.rvec (-1) (-1), BB.rvec 0 (-1)); (BB.rvec 1 (-1), BB.rvec 1 0); (BB.rvec 1 1, BB.rvec 0 1); (BB.rvec (-1) 1, BB.rvec (-1) 0)])).
Definition floor_square : spair := SPair 0 1 floor_shape square 17 23 plain plain 0 dirt.
Definition square_given : @given RNum := @Given RNum 10 (1 / 10) (1 / 2) (BB.rvec 0 (-1)) (9 / 10) 1 1 [1%nat] (fun _ _ => []).
Definition square_world : Rworld := @World RNum three_heap [] [].
Lemma seg_on g h t : ns_s (on_body (SSegment g) h t) = SSegment (Segment (sg_a g) (sg_b g) (sg_n g) (tf_apply t (sg_a g)) (tf_apply t (sg_b g)) (tf_apply_vector t (sg_n g)) (sg_r g) (sg_at g) (sg_bt g) (@V RNum (ta t) (tb t))).
Proof. unfold on_body. cbn [shape_cache]. unfold segment_cache. cbv zeta. destruct (vx _ <? vx _)%num, (vy _ <? vy _)%num; reflexivity. Qed.
Lemma poly_on p h t : ns_s (on_body (SPoly p) h t) = SPoly (Poly (po_r p) (map (fun q => Plane (tf_apply t (pl_v q)) (tf_apply_vector t (pl_n q))) (po_src p)) (po_src p)).
Proof. unfold on_body. cbn [shape_cache]. rewrite poly_box. cbv zeta. destruct (fold_left _ _ _) as [[[l r] b] tp]. reflexivity. Qed.
Lemma near_small (v : Rvec) : - 1000 <= (vx v : R) <= 1000 -> - 1000 <= (vy v : R) <= 1000 -> near far v.
Proof. intros A B. assert (1000 <= far) by (unfold far; apply IZR_le; vm_compute; discriminate). split; apply Rabs_iff; lra. Qed.
Lemma square_placed : placed_run 1 (BB.rvec 100 (-7)) [(square_given, [floor_square])] square_world.
Proof.
  cbn [placed_run fst snd]. split; [|exact I]. constructor; [|constructor].
  assert (E0 : move_all (N := RNum) (i_dt square_given) (i_dyn square_given) (w_heap square_world) 0%nat = ground) by reflexivity.
  assert (E1 : move_all (N := RNum) (i_dt square_given) (i_dyn square_given) (w_heap square_world) 1%nat = update_position (N := RNum) (three_heap 1%nat) 1) by reflexivity.
  unfold pair_placed. cbn [floor_square sp_ba sp_bb sp_sa sp_sb]. rewrite E0, E1. clear E0 E1.
  assert (T0 : b_tf ground = @Tf RNum 1 0 0 1 0 0).
  { rewrite ground_is. unfold tf_translate, set_transform. cbn. reflexivity. }
  assert (T1 : b_tf (update_position (N := RNum) (three_heap 1%nat) 1) = @Tf RNum 1 0 0 1 0 0).
  { cbn [three_heap]. rewrite unit_ub. unfold ub, update_position, set_transform, tf_new. cbn. unR. f_equal; rewrite ?Rplus_0_l, ?Rmult_0_l, ?cos_0, ?sin_0; ring. }
  rewrite T0, T1. unfold floor_shape, square. rewrite seg_on, poly_on. cbn [new_segment sg_a sg_b sg_n sg_r sg_at sg_bt po_r po_src map fst snd pl_v pl_n shift_shape shift_plane po_dst sg_ta sg_tb placed has_points].
  repeat match goal with |- _ /\ _ => split | |- Forall _ _ => constructor | |- near far _ => apply near_small | |- true = true => reflexivity end; unfold tf_apply, vadd; cbn; unR; lra.
Qed.
Lemma square_shifted x : shifted_world all x vzero square_world (@World RNum (fun i => shift_body x vzero (three_heap i)) [] []).
Proof. constructor; try reflexivity. intros i _. reflexivity. Qed.
