(** Concrete worlds for C40, C62 and C63. *)
From Coq Require Import ZArith Bool Reals List Lra Lia Psatz.
From Verif Require Import Num NumReal Vec VecReal BB Transform Body BodySpec BodyProofs Solver SolverSpec SolverProofs SolverProofs2 SolverProofs3 SolverProofs5 SolverProofs6 Joints JointsSpec JointsProofs EnergySpec EnergyProofs EnergyProofs2.
Import ListNotations.
Local Open Scope R_scope.

(** ** A groove joint that pushes its body off the groove *)
Definition gr_heap : Rheap := two (fixed 0 0) (ub (-1) (-1) 1 0 0).
Definition gr_joint : @groove RNum := new_groove (rvec (-10) 0) (rvec 10 0) (rvec 1 1).
Lemma gr_unit : vunit (rvec 20 0) = rvec 1 0.
Proof.
  unfold vunit. assert (M : vmag (rvec 20 0) = 20). { unfold vmag. unV. cbn [rvec vx vy]. unR. replace (20 * 20 + 0 * 0) with (Rsqr 20) by (unfold Rsqr; ring). apply sqrt_Rsqr. lra. }
  change (vmag (rvec 20 0)) with (vmag (N := RNum) (rvec 20 0)) in *. rewrite M. apply vec_ext; unV; cbn [rvec vx vy]; unR; field.
Qed.
Lemma gr_prestep : groove_prestep gr_heap (wcst 10) 1 gr_joint =
  Groove (N := RNum) (rvec 0 1) (rvec (-10) 0) (rvec 10 0) (rvec 1 1) (rvec 0 1) 0 (rvec 0 0) (rvec 1 1) (ktensor (gr_heap 0%nat) (gr_heap 1%nat) (rvec 0 0) (rvec 1 1)) (rvec 0 0) (rvec 0 0).
Proof.
  assert (G : gv_gn gr_joint = rvec 0 1). { unfold gr_joint, new_groove. cbn [gv_gn]. replace (vsub (rvec 10 0) (rvec (-10) 0)) with (rvec 20 0) by (apply vec_ext; unV; cbn; unR; ring). rewrite gr_unit. apply vec_ext; unV; cbn; unR; ring. }
  unfold groove_prestep. cbv zeta. rewrite G. cbn [gr_joint new_groove gv_ga gv_gb gv_anchB gv_j wcst c_a c_b c_maxbias c_errorbias].
  assert (A : anchor_arm (gr_heap 1%nat) (rvec 1 1) = rvec 1 1) by (unfold anchor_arm; apply vec_ext; unV; cbn; unR; ring).
  assert (N : tf_apply_vector (b_tf (gr_heap 0%nat)) (rvec 0 1) = rvec 0 1) by (apply vec_ext; unV; cbn; unR; ring).
  assert (T1 : tf_apply (b_tf (gr_heap 0%nat)) (rvec (-10) 0) = rvec (-10) 0) by (apply vec_ext; unV; cbn; unR; ring).
  assert (T2 : tf_apply (b_tf (gr_heap 0%nat)) (rvec 10 0) = rvec 10 0) by (apply vec_ext; unV; cbn; unR; ring).
  rewrite A, N, T1, T2. 

  assert (B1 : (vcross (vadd (b_pos (gr_heap 1%nat)) (rvec 1 1)) (rvec 0 1) <=? vcross (rvec (-10) 0) (rvec 0 1))%num = false) by (apply Rleb_false; unV; cbn; unR; lra).
  assert (B2 : (vcross (rvec 10 0) (rvec 0 1) <=? vcross (vadd (b_pos (gr_heap 1%nat)) (rvec 1 1)) (rvec 0 1))%num = false) by (apply Rleb_false; unV; cbn; unR; lra).
  rewrite B1, B2. match goal with |- Groove _ _ _ _ _ _ ?e _ _ _ _ = _ => assert (Er : e = rvec 0 0) by (apply vec_ext; unV; cbn; unR; ring); rewrite Er; clear Er end.
  f_equal. match goal with |- vclampmag (vscale ?e ?x) ?l = _ => assert (Ed : e = rvec 0 0) by (apply vec_ext; unV; cbn; unR; ring); rewrite Ed; generalize x; intros f end.
  replace (vscale (rvec 0 0) f) with (rvec 0 0) by (apply vec_ext; unV; cbn; unR; ring). unfold vclampmag. match goal with |- context [if ?b then _ else _] => replace b with false; [reflexivity|] end. symmetry. apply Rltb_false. unV. cbn. unR. lra.
Qed.
Definition gr_with (g : Rvec) : @groove RNum := Groove (N := RNum) (rvec 0 1) (rvec (-10) 0) (rvec 10 0) (rvec 1 1) (rvec 0 1) 0 (rvec 0 0) (rvec 1 1) (ktensor (gr_heap 0%nat) (gr_heap 1%nat) (rvec 0 0) (rvec 1 1)) g (rvec 0 0).
Lemma gr_apply (H : Rheap) g x y z : relative_velocity (H 0%nat) (H 1%nat) (rvec 0 0) (rvec 1 1) = rvec x y -> z = vy g - (x + 2 * y) / 3 -> -1 <= z <= 1 ->
  groove_apply H (wcst 10) 1 (gr_with g) = (apply_impulses H 0 1 (rvec 0 0) (rvec 1 1) (vsub (rvec 0 z) g), gr_with (rvec 0 z)).
Proof.
  intros V1 Z B. unfold groove_apply. cbn [gr_with gv_r1 gv_r2 gv_k gv_bias gv_j wcst c_a c_b gv_gn gv_ga gv_gb gv_anchB gv_tn gv_clamp]. rewrite V1.
  assert (C : groove_constrain (wcst 10) (gr_with g) (vadd g (mat2_transform (ktensor (gr_heap 0%nat) (gr_heap 1%nat) (rvec 0 0) (rvec 1 1)) (vsub (rvec 0 0) (rvec x y)))) 1 = rvec 0 z).
  { unfold groove_constrain. cbn [gr_with gv_tn gv_clamp wcst c_maxforce]. match goal with |- context [if ?b then _ else _] => replace b with false by (symmetry; apply Rltb_false; unR; lra) end.
    match goal with |- vclampmag ?e ?l = _ => assert (E : e = rvec 0 z) end.
    { apply vec_ext; unV; cbn; unR; rewrite ?Z; field. }
    rewrite E. unfold vclampmag. match goal with |- context [if ?b then _ else _] => replace b with false; [reflexivity|] end. symmetry. apply Rltb_false. unV. cbn. unR. nra. }
  unfold gr_with in C at 1 |- *. rewrite C. reflexivity.
Qed.
Lemma groove_iteration (dt : R) (H : Rheap) c p : iteration dt (World H [] [(c, JGroove p)]) = World (fst (groove_apply H c dt p)) [] [(c, JGroove (snd (groove_apply H c dt p)))].
Proof. unfold iteration. cbn [w_heap w_arbs w_joints arbs_apply joints_apply joint_apply]. destruct (groove_apply H c dt p). reflexivity. Qed.
Lemma gr_fixed (H : Rheap) n : relative_velocity (H 0%nat) (H 1%nat) (rvec 0 0) (rvec 1 1) = rvec (4 / 3) (- (2 / 3)) ->
  iterations n 1 (World H [] [(wcst 10, JGroove (gr_with (rvec 0 (- (1 / 3)))))]) = World H [] [(wcst 10, JGroove (gr_with (rvec 0 (- (1 / 3)))))].
Proof.
  intros V1. induction n; [reflexivity|]. cbn [iterations]. rewrite groove_iteration. rewrite (gr_apply H _ _ _ (- (1 / 3)) V1); [|cbn; lra|lra]. cbn [fst snd].
  replace (vsub (rvec 0 (- (1 / 3))) (rvec 0 (- (1 / 3)))) with (@vzero RNum) by (apply vec_ext; unV; cbn; unR; ring). rewrite impulses_zero. exact IHn.
Qed.
Lemma gr_world n slop bias : let w := World gr_heap [] [(wcst 10, JGroove gr_joint)] in let H' := w_heap (solve (S n) slop bias vzero 1 1 1 [1%nat] w) in
  vdot (relative_velocity (gr_heap 0%nat) (gr_heap 1%nat) (rvec 0 0) (rvec 1 1)) (rvec 0 1) = 0 /\
  vdot (relative_velocity (H' 0%nat) (H' 1%nat) (rvec 0 0) (rvec 1 1)) (rvec 0 1) = - (2 / 3) /\ energy [0; 1]%nat gr_heap = / 2 /\ energy [0; 1]%nat H' = / 2 + 1 / 9.
Proof.
  cbv zeta. split; [unV; cbn; unR; ring|].
  assert (U : forall i, unforced (gr_heap i)) by (intros [|i]; split; reflexivity). assert (W : all_weighed gr_heap) by (intros [|i]; [split; right; split; reflexivity|split; left; cbn; ring]).
  unfold solve. set (dc := if negb _ then _ else _). clearbody dc. unfold prestep_all. cbn [w_heap w_arbs w_joints map joints_prestep joint_prestep]. rewrite gr_prestep. fold (gr_with (rvec 0 0)).
  unfold integrate_all, cached_all. cbn [w_heap w_arbs w_joints]. pose proof (idle_integrate 1 [1%nat] gr_heap U) as I. cbv zeta in I. change (fold_left _ [1%nat] gr_heap) with (fold_left (fun H i => upd H i (update_velocity (H i) (@vzero RNum) 1 1)) [1%nat] gr_heap). set (H2 := fold_left _ [1%nat] gr_heap) in *. clearbody H2.
  cbn [fold_left joint_cached fst snd]. unfold groove_cached. cbn [gr_with gv_r1 gv_r2 gv_j]. replace (vscale (rvec 0 0) dc) with (@vzero RNum) by (apply vec_ext; unV; cbn; unR; ring). rewrite impulses_zero.
  assert (W2 : all_weighed H2). { intros i. destruct (W i) as (M1 & M2). destruct (I i) as (V1 & V2 & (B1 & B2 & B3 & B4 & _)). unfold weighed. rewrite V1, V2, B1, B2, B3, B4. auto. }
  assert (V2 : relative_velocity (H2 0%nat) (H2 1%nat) (rvec 0 0) (rvec 1 1) = rvec 1 0). { unfold relative_velocity. destruct (I 0%nat) as (-> & -> & _). destruct (I 1%nat) as (-> & -> & _). apply vec_ext; unV; cbn; unR; ring. }
  assert (E2 : energy [0; 1]%nat H2 = / 2). { unfold energy. cbn [Rsum map fold_right]. unfold kinetic. destruct (I 0%nat) as (-> & -> & (-> & _ & -> & _)). destruct (I 1%nat) as (-> & -> & (-> & _ & -> & _)). cbn. unR. field. }
  cbn [iterations]. rewrite groove_iteration. rewrite (gr_apply H2 _ _ _ (- (1 / 3)) V2); [|cbn; lra|lra]. cbn [fst snd]. set (j := vsub (rvec 0 (- (1 / 3))) (rvec 0 0)). assert (Ej : j = rvec 0 (- (1 / 3))) by (apply vec_ext; unV; cbn; unR; ring). clearbody j. subst j.
  assert (F2 : forall i, b_minv (H2 i) = b_minv (gr_heap i) /\ b_iinv (H2 i) = b_iinv (gr_heap i)) by (intros i; destruct (I i) as (_ & _ & (_ & -> & _ & -> & _)); auto).
  destruct (relvel_after H2 0 1 (rvec 0 0) (rvec 1 1) (rvec 0 (- (1 / 3))) ltac:(discriminate)) as [X Y]. cbv zeta in X, Y. rewrite V2 in X, Y. destruct (F2 0%nat) as [A1 A2]. destruct (F2 1%nat) as [A3 A4]. rewrite A1, A2, A3, A4 in X, Y.
  pose proof (energy_imp [0; 1]%nat H2 0 1 (rvec 0 0) (rvec 1 1) (rvec 0 (- (1 / 3))) W2 ltac:(repeat constructor; cbn; lia) ltac:(cbn; auto) ltac:(cbn; auto) ltac:(discriminate)) as E3. rewrite V2, E2 in E3. unfold work in E3. rewrite A1, A2, A3, A4 in E3.
  set (H3 := apply_impulses H2 0 1 _ _ _) in *. clearbody H3. assert (V3 : relative_velocity (H3 0%nat) (H3 1%nat) (rvec 0 0) (rvec 1 1) = rvec (4 / 3) (- (2 / 3))).
  { apply vec_ext; cbn [rvec vx vy]; [rewrite X|rewrite Y]; cbn; unR; field. }
  rewrite gr_fixed by exact V3. cbn [w_heap]. split; [rewrite V3; unV; cbn; unR; ring|]. split; [unfold energy, kinetic; cbn; unR; field|]. rewrite E3. unV. cbn. unR. field.
Qed.

(** ** A pivot joint at its force limit *)
Definition pl_heap : Rheap := two (fixed 0 0) (@Body RNum 1 1 (1 / 99) 99 0 0 0 (rvec 0 0) (rvec (-1) 0) (rvec (- (16 / 100)) (- (12 / 100))) (rvec 0 0) (tf_translate (rvec (-1) 0)) 0 (rvec 0 0) 0).
Definition pl_old : @pivot RNum := Pivot (N := RNum) (rvec 0 0) (rvec 1 0) (rvec 0 0) (rvec 0 0) (mat2_zero (N := RNum)) (rvec (72 / 100) (6588 / 10000)) (rvec 0 0).
Definition pl_pivot : @pivot RNum := pivot_prestep pl_heap (wcst 1) 1 pl_old.
Lemma pl_prestep : pl_pivot = Pivot (N := RNum) (rvec 0 0) (rvec 1 0) (rvec 0 0) (rvec 1 0) (ktensor (pl_heap 0%nat) (pl_heap 1%nat) (rvec 0 0) (rvec 1 0)) (rvec (72 / 100) (6588 / 10000)) (rvec 0 0).
Proof.
  unfold pl_pivot, pivot_prestep. cbv zeta. cbn [pl_old pv_anchA pv_anchB pv_j wcst c_a c_b c_maxbias c_errorbias].
  assert (A : anchor_arm (pl_heap 1%nat) (rvec 1 0) = rvec 1 0) by (unfold anchor_arm; apply vec_ext; unV; cbn; unR; ring).
  assert (B : anchor_arm (pl_heap 0%nat) (rvec 0 0) = rvec 0 0) by (unfold anchor_arm; apply vec_ext; unV; cbn; unR; ring). rewrite A, B.
  f_equal. match goal with |- vclampmag (vscale ?e ?x) ?l = _ => assert (Ed : e = rvec 0 0) by (apply vec_ext; unV; cbn; unR; ring); rewrite Ed; generalize x; intros f end.
  replace (vscale (rvec 0 0) f) with (rvec 0 0) by (apply vec_ext; unV; cbn; unR; ring). unfold vclampmag. match goal with |- context [if ?b then _ else _] => replace b with false; [reflexivity|] end. symmetry. apply Rltb_false. unV. cbn. unR. lra.
Qed.
Lemma pl_clamp : vclampmag (rvec (88 / 100) (66 / 100)) (1 * 1) = rvec (8 / 10) (6 / 10).
Proof.
  unfold vclampmag. match goal with |- context [if ?b then _ else _] => replace b with true by (symmetry; apply Rltb_true; unV; cbn; unR; lra) end.
  unfold vunit. assert (M : vmag (rvec (88 / 100) (66 / 100)) = 11 / 10). { unfold vmag. unV. cbn [rvec vx vy]. unR. replace (88 / 100 * (88 / 100) + 66 / 100 * (66 / 100)) with (Rsqr (11 / 10)) by (unfold Rsqr; field). apply sqrt_Rsqr. lra. }
  rewrite M. apply vec_ext; unV; cbn [rvec vx vy]; unR; field.
Qed.
Lemma pl_weighed : all_weighed pl_heap.
Proof. intros [|i]; [split; right; split; reflexivity|split; left; cbn; field]. Qed.
Lemma pl_gains : local_to_world (pl_heap 0%nat) (pv_anchA pl_old) = local_to_world (pl_heap 1%nat) (pv_anchB pl_old) /\ vmag (pv_j pl_old) < c_maxforce (wcst 1) * 1 /\
  pv_bias pl_pivot = vzero /\ energy [0; 1]%nat pl_heap < energy [0; 1]%nat (fst (joint_apply pl_heap (wcst 1) 1 (JPivot pl_pivot))).
Proof.
  split; [apply vec_ext; unV; cbn; unR; ring|]. split.
  - apply Rle_lt_trans with (sqrt (Rsqr (99 / 100))); [|rewrite sqrt_Rsqr by lra; cbn; unR; lra]. apply sqrt_le_1_alt. unV. cbn. unR. unfold Rsqr. lra.
  - rewrite pl_prestep. split; [reflexivity|]. cbn [joint_apply]. unfold pivot_apply. cbn [pv_r1 pv_r2 pv_k pv_bias pv_j wcst c_a c_b c_maxforce].
    match goal with |- context [vclampmag ?e _] => assert (E : e = rvec (88 / 100) (66 / 100)) by (apply vec_ext; unV; cbn; unR; field); rewrite E end. change (vclampmag _ _) with (vclampmag (rvec (88 / 100) (66 / 100)) (1 * 1)). rewrite pl_clamp. cbn [fst].
    rewrite energy_imp; [|exact pl_weighed|repeat constructor; cbn; lia|cbn; auto|cbn; auto|discriminate]. unfold work. unV. cbn. unR. lra.
Qed.

(** ** Friction that lets go *)
Definition fr_heap : Rheap := two (fixed 0 0) (ub 0 1 10 1 0).
Definition fr_old : Rcontact := @Contact RNum (rvec 0 0) (rvec 0 0) 0 0 0 1 1 0 0 0%Z.
Definition fr_arb : Rsarb := @SArb RNum 0 1 0 1 (rvec 0 0) (rvec 0 1) false false false [fr_old].
Lemma fr_gains : let c := contact_prestep fr_heap fr_arb 1 (1 / 10) (1 / 10) fr_old in
  Rabs (k_jt c) <= s_u fr_arb * k_jn c /\ energy [0; 1]%nat fr_heap < energy [0; 1]%nat (fst (contact_apply fr_heap fr_arb c)).
Proof.
  cbv zeta. split; [cbn; rewrite Rabs_right by lra; lra|].
  unfold contact_apply. cbv zeta. cbn [fst]. rewrite energy_imp; [|apply bias_weighed; intros [|i]; [split; right; split; reflexivity|split; left; cbn; ring]|repeat constructor; cbn; lia|cbn; auto|cbn; auto|discriminate].
  rewrite energy_bias. unfold work. match goal with |- context [nclamp _ (- (s_u fr_arb * ?j))%num _] => assert (J : j = 0) end.
  { change (nmax (Num := RNum)) with Rmax. apply Rmax_right. unV. cbn. unR. right. field. }
  rewrite J. match goal with |- context [nclamp ?x ?l ?h] => assert (T : nclamp x l h = 0) by (rewrite RnclampE; cbn; unR; [rcases; lra|lra]); rewrite T end.
  rewrite bias_relvel. match goal with |- context [apply_bias_impulses ?h ?x ?y ?z ?w ?j ?i] => set (HB := apply_bias_impulses h x y z w j); pose proof (bias_frame h x y z w j) as F; fold HB in F end. clearbody HB.
  destruct (frame_minv _ _ 0%nat F) as [F1 F2]. destruct (frame_minv _ _ 1%nat F) as [F3 F4]. cbn [fr_arb s_a s_b]. rewrite F1, F2, F3, F4. unV. cbn. unR. lra.
Qed.

(** ** Worlds that meet the hypotheses *)
Lemma unit_placed x y u v w : placed (ub x y u v w).
Proof. intros p. apply vec_ext; unfold local_to_world, tf_apply; cbn [ub b_tf b_pos b_angle b_cog tf_translate tf_new ta tb tc td ttx tty rvec vx vy]; rewrite cos_0, sin_0; unR; ring. Qed.
Lemma fixed_placed x y : placed (fixed x y).
Proof. intros p. apply vec_ext; unfold local_to_world, tf_apply; cbn [fixed b_tf b_pos b_angle b_cog tf_translate tf_new ta tb tc td ttx tty rvec vx vy]; rewrite cos_0, sin_0; unR; ring. Qed.
Lemma two_coasting a b x y u v w : forall i, coasting (two (fixed a b) (ub x y u v w) i).
Proof.
  intros [|i]; cbn [two]; (split; [split; [|]|]).
  - right. split; reflexivity.
  - right. split; reflexivity.
  - cbn. split; [lra|]. split; [lra|]. split; [reflexivity|]. split; [reflexivity|apply fixed_placed].
  - left. cbn. ring.
  - left. cbn. ring.
  - cbn. split; [lra|]. split; [lra|]. split; [reflexivity|]. split; [reflexivity|apply unit_placed].
Qed.
(** A pin, a motor and a frictionless contact between a fixed body and a moving one. *)
Definition en_heap : Rheap := two (fixed 0 0) (ub 0 2 3 (-4) 5).
Definition en_arb : Rsarb := @SArb RNum 0 1 0 0 (rvec 0 0) (rvec 0 1) false true false [@Contact RNum (rvec 0 1) (rvec 0 (-1)) 0 0 0 0 0 0 0 0%Z].
Definition en_world : Rworld := World en_heap [en_arb] [(wcst 10, JPin (new_pin en_heap 0 1 (rvec 0 0) (rvec 1 0))); (wcst 10, JMotor (new_motor (N := RNum) 0))].
Example en_loses n : energy [0; 1]%nat (w_heap (solve n (1 / 10) (1 / 10) vzero 1 1 1 [1%nat] en_world)) <= 25.
Proof.
  replace 25 with (energy [0; 1]%nat (w_heap en_world)) by (unfold energy, kinetic; cbn; unR; field). apply energy_lost.
  - repeat constructor; cbn; lia.
  - apply two_coasting.
  - lra.
  - intros s [<-|[]]. unfold smooth, pushable. cbn -[Rle Rlt]. unV. cbn. unR. repeat split; auto; try lra; destruct H as [<-|[]]; reflexivity.
  - intros c k [X|[X|[]]]; apply pair_equal_spec in X as [<- <-]; cbn [wcst c_a c_b c_maxbias c_maxforce]; (split; [cbn; auto|]); (split; [cbn; auto|]); (split; [lra|]); (split; [lra|]); split.
    + apply pin_made; reflexivity.
    + unfold lossy, pushable. cbn. repeat split; try lra. discriminate.
    + apply motor_made.
    + unfold lossy, turnable. cbn. repeat split; try lra. discriminate.
  - intros m Hm c p I. exfalso. assert (Z : forall m, map (fun x => match snd x with JPivot _ => true | _ => false end) (w_joints (solve m (1 / 10) (1 / 10) vzero 1 1 1 [1%nat] en_world)) = [false; false]).
    { clear. intros m. rewrite solve_S. assert (G : forall m (w : Rworld), map (fun x => match snd x with JPivot _ => true | _ => false end) (w_joints (iterations m 1 w)) = map (fun x => match snd x with JPivot _ => true | _ => false end) (w_joints w)).
      { clear. induction m; intros w; cbn [iterations]; auto. rewrite IHm. unfold iteration. destruct (arbs_apply _ _) as [H arbs]. assert (X : forall l H, map (fun x : Rjoint => match snd x with JPivot _ => true | _ => false end) (snd (joints_apply (N := RNum) H 1 l)) = map (fun x : Rjoint => match snd x with JPivot _ => true | _ => false end) l).
        { clear. induction l as [|[c k] l IH]; intros H; cbn [joints_apply]; auto. destruct (joint_apply H c 1 k) as [H1 k1] eqn:E. specialize (IH H1). destruct (joints_apply H1 1 l) as [H2 l2]. cbn [snd map fst] in *. rewrite IH. f_equal.
          unfold joint_apply in E. destruct k; repeat match type of E with context [let '(_, _) := ?e in _] => destruct e end; injection E as <- <-; reflexivity. }
        specialize (X (w_joints w) H). destruct (joints_apply _ _ _). exact X. }
      rewrite G. reflexivity. }
    specialize (Z m). apply (in_map (fun x => match snd x with JPivot _ => true | _ => false end)) in I. rewrite Z in I. destruct I as [I|[I|[]]]; discriminate.
Qed.
(** A pivot, one iteration: its impulse is 3, below its limit 10. *)
Definition pv_heap : Rheap := two (fixed 0 0) (ub 0 2 3 0 5).
Definition pv_joint : @pivot RNum := new_pivot2 (rvec 0 2) (rvec 0 0).
Lemma pv_held : held 1 (solve 1 (1 / 10) (1 / 10) vzero 1 1 1 [] (World pv_heap [] [(wcst 10, JPivot pv_joint)])).
Proof.
  intros c p I. unfold solve, prestep_all, integrate_all, cached_all in I. cbn [w_heap w_arbs w_joints map joints_prestep joint_prestep fold_left joint_cached fst snd iterations] in I. set (dc := if negb _ then _ else _) in I. clearbody dc.
  set (p1 := pivot_prestep _ _ _ _) in I.
  assert (P1 : pv_r1 p1 = rvec 0 2 /\ pv_r2 p1 = rvec 0 0 /\ pv_k p1 = ktensor (pv_heap 0%nat) (pv_heap 1%nat) (rvec 0 2) (rvec 0 0) /\ pv_j p1 = rvec 0 0 /\ pv_bias p1 = rvec 0 0).
  { assert (A : anchor_arm (pv_heap 0%nat) (rvec 0 2) = rvec 0 2) by (unfold anchor_arm; apply vec_ext; unV; cbn; unR; ring). assert (B : anchor_arm (pv_heap 1%nat) (rvec 0 0) = rvec 0 0) by (unfold anchor_arm; apply vec_ext; unV; cbn; unR; ring).
    unfold p1, pivot_prestep. cbv zeta. cbn [pv_joint new_pivot2 pv_anchA pv_anchB pv_j pv_r1 pv_r2 pv_k pv_bias wcst c_a c_b c_maxbias c_errorbias]. rewrite A, B. split; [reflexivity|]. split; [reflexivity|]. split; [reflexivity|]. split; [reflexivity|].
    match goal with |- vclampmag (vscale ?e ?x) ?l = _ => assert (Ed : e = rvec 0 0) by (apply vec_ext; unV; cbn; unR; ring); rewrite Ed; generalize x; intros f end.
    replace (vscale (rvec 0 0) f) with (rvec 0 0) by (apply vec_ext; unV; cbn; unR; ring). unfold vclampmag. match goal with |- context [if ?b then _ else _] => replace b with false; [reflexivity|] end. symmetry. apply Rltb_false. unV. cbn. unR. lra. }
  clearbody p1. destruct P1 as (R1 & R2 & K & J & B). unfold pivot_cached in I. rewrite J in I. replace (vscale (rvec 0 0) dc) with (@vzero RNum) in I by (apply vec_ext; unV; cbn; unR; ring). rewrite impulses_zero in I.
  unfold iteration in I. cbn [w_heap w_arbs w_joints arbs_apply joints_apply joint_apply] in I. unfold pivot_apply in I. cbn [w_joints In] in I. destruct I as [I|[]]. apply pair_equal_spec in I as [<- I]. injection I as <-. cbn [pv_j]. rewrite R1, R2, K, J, B.
  match goal with |- vmag (vclampmag ?e _) < _ => assert (E : e = rvec (-3) 0) by (apply vec_ext; unV; cbn; unR; field); rewrite E; clear E end.
  apply Rle_lt_trans with (sqrt (Rsqr 3)); [|rewrite sqrt_Rsqr by lra; cbn; unR; lra]. apply sqrt_le_1_alt. unfold vclampmag. match goal with |- context [if ?b then _ else _] => replace b with false by (symmetry; apply Rltb_false; unV; cbn; unR; lra) end. unV. cbn. unR. unfold Rsqr. lra.
Qed.
(** A groove joint at the centre of its body, where the conditions of C40_groove_exact hold. *)
Definition ge_heap : Rheap := two (fixed 0 0) (ub 0 0 1 (-1) 0).
Definition ge_joint : @groove RNum := new_groove (rvec (-10) 0) (rvec 10 0) (rvec 0 0).
Lemma ge_conditions : let p1 := groove_prestep ge_heap (wcst 10) 1 ge_joint in let n := gv_tn p1 in vdot n n = 1 /\ gv_clamp p1 = 0 /\
  b_iinv (ge_heap 0%nat) * (vdot (gv_r1 p1) n * vcross (gv_r1 p1) n) + b_iinv (ge_heap 1%nat) * (vdot (gv_r2 p1) n * vcross (gv_r2 p1) n) = 0 /\ vmag (gv_j (snd (groove_apply ge_heap (wcst 10) 1 p1))) < c_maxforce (wcst 10) * 1.
Proof.
  assert (P : groove_prestep ge_heap (wcst 10) 1 ge_joint =
    Groove (N := RNum) (rvec 0 1) (rvec (-10) 0) (rvec 10 0) (rvec 0 0) (rvec 0 1) 0 (rvec 0 0) (rvec 0 0) (ktensor (ge_heap 0%nat) (ge_heap 1%nat) (rvec 0 0) (rvec 0 0)) (rvec 0 0) (rvec 0 0)).
  { assert (G : gv_gn ge_joint = rvec 0 1). { unfold ge_joint, new_groove. cbn [gv_gn]. replace (vsub (rvec 10 0) (rvec (-10) 0)) with (rvec 20 0) by (apply vec_ext; unV; cbn; unR; ring). rewrite gr_unit. apply vec_ext; unV; cbn; unR; ring. }
    unfold groove_prestep. cbv zeta. rewrite G. cbn [ge_joint new_groove gv_ga gv_gb gv_anchB gv_j wcst c_a c_b c_maxbias c_errorbias].
    assert (A : anchor_arm (ge_heap 1%nat) (rvec 0 0) = rvec 0 0) by (unfold anchor_arm; apply vec_ext; unV; cbn; unR; ring).
    assert (N : tf_apply_vector (b_tf (ge_heap 0%nat)) (rvec 0 1) = rvec 0 1) by (apply vec_ext; unV; cbn; unR; ring).
    assert (T1 : tf_apply (b_tf (ge_heap 0%nat)) (rvec (-10) 0) = rvec (-10) 0) by (apply vec_ext; unV; cbn; unR; ring).
    assert (T2 : tf_apply (b_tf (ge_heap 0%nat)) (rvec 10 0) = rvec 10 0) by (apply vec_ext; unV; cbn; unR; ring).
    rewrite A, N, T1, T2.
    assert (B1 : (vcross (vadd (b_pos (ge_heap 1%nat)) (rvec 0 0)) (rvec 0 1) <=? vcross (rvec (-10) 0) (rvec 0 1))%num = false) by (apply Rleb_false; unV; cbn; unR; lra).
    assert (B2 : (vcross (rvec 10 0) (rvec 0 1) <=? vcross (vadd (b_pos (ge_heap 1%nat)) (rvec 0 0)) (rvec 0 1))%num = false) by (apply Rleb_false; unV; cbn; unR; lra).
    rewrite B1, B2. match goal with |- Groove _ _ _ _ _ _ ?e _ _ _ _ = _ => assert (Er : e = rvec 0 0) by (apply vec_ext; unV; cbn; unR; ring); rewrite Er; clear Er end.
    f_equal. match goal with |- vclampmag (vscale ?e ?x) ?l = _ => assert (Ed : e = rvec 0 0) by (apply vec_ext; unV; cbn; unR; ring); rewrite Ed; generalize x; intros f end.
    replace (vscale (rvec 0 0) f) with (rvec 0 0) by (apply vec_ext; unV; cbn; unR; ring). unfold vclampmag. match goal with |- context [if ?b then _ else _] => replace b with false; [reflexivity|] end. symmetry. apply Rltb_false. unV. cbn. unR. lra. }
  cbv zeta. rewrite P. cbn [gv_tn gv_clamp gv_r1 gv_r2]. split; [unV; cbn; unR; ring|]. split; [reflexivity|]. split; [unV; cbn; unR; ring|]. unfold groove_apply. cbn [snd gv_j gv_r1 gv_r2 gv_k gv_bias wcst c_a c_b]. unfold groove_constrain. cbn [gv_tn gv_clamp c_maxforce].
  match goal with |- context [if ?b then _ else _] => replace b with false by (symmetry; apply Rltb_false; unR; lra) end. match goal with |- vmag (vclampmag ?e _) < _ => assert (E : e = rvec 0 1) by (apply vec_ext; unV; cbn; unR; field); rewrite E; clear E end.
  apply Rle_lt_trans with (sqrt (Rsqr 1)); [|rewrite sqrt_Rsqr by lra; cbn; unR; lra]. apply sqrt_le_1_alt. unfold vclampmag. match goal with |- context [if ?b then _ else _] => replace b with false by (symmetry; apply Rltb_false; unV; cbn; unR; lra) end. unV. cbn. unR. unfold Rsqr. lra.
Qed.
(** Two unit bodies 3 apart, joined by a spring, moving apart. *)
Definition sq_heap : Rheap := two (ub 0 0 (-1) 0 2) (ub 3 0 1 0 (-1)).
Definition sq_spring : @spring RNum := new_spring (N := RNum) (rvec 0 0) (rvec 0 0) 1 2 (1 / 2).
Lemma sq_conditions : (forall i, b_force (sq_heap i) = vzero /\ b_torque (sq_heap i) = 0) /\ movable_pair (sq_heap 0%nat) (sq_heap 1%nat) /\
  vsub (vadd (b_pos (sq_heap 1%nat)) (anchor_arm (sq_heap 1%nat) (sp_anchB sq_spring))) (vadd (b_pos (sq_heap 0%nat)) (anchor_arm (sq_heap 0%nat) (sp_anchA sq_spring))) = rvec 3 0 /\ vmag (rvec 3 0) = 3.
Proof.
  split; [intros [|i]; split; reflexivity|]. split; [unfold movable_pair; cbn; lra|]. split; [apply vec_ext; unV; cbn; unR; ring|].
  unfold vmag. unV. cbn [rvec vx vy]. unR. replace (3 * 3 + 0 * 0) with (Rsqr 3) by (unfold Rsqr; ring). apply sqrt_Rsqr. lra.
Qed.
(** ** The findings in the form of the theorems *)
Lemma gr_satisfied : satisfied gr_heap (wcst 10) (JGroove gr_joint).
Proof.
  cbn [satisfied wcst c_a c_b gr_joint new_groove gv_ga gv_gb gv_gn gv_j gv_anchB]. split; [intros E; apply (f_equal (@vx RNum)) in E; cbn in E; lra|]. split; [reflexivity|]. split; [reflexivity|]. exists (1 / 2). split; [lra|].
  apply vec_ext; unV; cbn; unR; field.
Qed.
Lemma groove_gains : exists w : Rworld, (forall i, coasting (w_heap w i)) /\ w_arbs w = [] /\
  (exists c p, w_joints w = [(c, JGroove p)] /\ satisfied (w_heap w) c (JGroove p) /\ pushable (w_heap w) (c_a c) (c_b c) /\ 0 <= c_maxforce c * 1 /\ 0 <= c_maxbias c) /\
  forall n slop bias, energy [0; 1]%nat (w_heap (solve (S n) slop bias vzero 1 1 1 [1%nat] w)) = energy [0; 1]%nat (w_heap w) + 1 / 9.
Proof.
  exists (World gr_heap [] [(wcst 10, JGroove gr_joint)]). split; [apply two_coasting|]. split; [reflexivity|]. split.
  - exists (wcst 10), gr_joint. split; [reflexivity|]. split; [apply gr_satisfied|]. split; [unfold pushable; cbn; repeat split; try lra; discriminate|]. cbn. lra.
  - intros n slop bias. destruct (gr_world n slop bias) as (_ & _ & E1 & E2). cbv zeta in E2. rewrite E2. cbn [w_heap]. rewrite E1. reflexivity.
Qed.
Lemma groove_never : exists (w : Rworld) (c : Rcstr) (p : @groove RNum) (r1 r2 n : Rvec), w_arbs w = [] /\ w_joints w = [(c, JGroove p)] /\ satisfied (w_heap w) c (JGroove p) /\
  normal_relative_velocity (w_heap w (c_a c)) (w_heap w (c_b c)) r1 r2 n = 0 /\
  r1 = gv_r1 (groove_prestep (w_heap w) c 1 p) /\ r2 = gv_r2 (groove_prestep (w_heap w) c 1 p) /\ n = gv_tn (groove_prestep (w_heap w) c 1 p) /\ gv_bias (groove_prestep (w_heap w) c 1 p) = vzero /\
  forall k slop bias, let H' := w_heap (solve (S k) slop bias vzero 1 1 1 [1%nat] w) in
  normal_relative_velocity (H' (c_a c)) (H' (c_b c)) r1 r2 n = - (2 / 3).
Proof.
  exists (World gr_heap [] [(wcst 10, JGroove gr_joint)]), (wcst 10), gr_joint, (rvec 0 0), (rvec 1 1), (rvec 0 1). cbn [w_heap w_arbs w_joints]. rewrite gr_prestep. split; [reflexivity|]. split; [reflexivity|]. split; [apply gr_satisfied|].
  split; [apply (gr_world 0 0 0)|]. repeat (split; [reflexivity|]). intros k slop bias. apply (gr_world k slop bias).
Qed.
Lemma limit_gains : exists (H : Rheap) (c : Rcstr) (p : @pivot RNum), (forall i, weighed (H i)) /\ pushable H (c_a c) (c_b c) /\
  local_to_world (H (c_a c)) (pv_anchA p) = local_to_world (H (c_b c)) (pv_anchB p) /\ vmag (pv_j p) < c_maxforce c * 1 /\
  let p1 := pivot_prestep H c 1 p in pv_bias p1 = vzero /\ energy [0; 1]%nat H < energy [0; 1]%nat (fst (joint_apply H c 1 (JPivot p1))).
Proof.
  exists pl_heap, (wcst 1), pl_old. split; [exact pl_weighed|]. split; [unfold pushable; cbn; repeat split; try lra; discriminate|]. exact pl_gains.
Qed.
Lemma release_gains : exists (H : Rheap) (s : Rsarb) (c : Rcontact), (forall i, weighed (H i)) /\ pushable H (s_a s) (s_b s) /\ vdot (s_n s) (s_n s) = 1 /\ s_svr s = vzero /\ s_e s = 0 /\
  0 <= k_jn c /\ Rabs (k_jt c) <= s_u s * k_jn c /\
  energy [0; 1]%nat H < energy [0; 1]%nat (fst (contact_apply H s (contact_prestep H s 1 (1 / 10) (1 / 10) c))).
Proof.
  exists fr_heap, fr_arb, fr_old. split; [intros i; apply two_coasting|]. split; [unfold pushable; cbn; repeat split; try lra; discriminate|]. split; [unV; cbn; unR; ring|]. split; [reflexivity|]. split; [reflexivity|]. split; [cbn; lra|].
  exact fr_gains.
Qed.
