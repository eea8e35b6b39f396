(** Concrete worlds for C68. *)
From Coq Require Import ZArith NArith Bool Reals List Lra Lia Arith.
From Verif Require Import Num NumReal Vec VecReal BB BBProofs Transform Body BodySpec BodyProofs Solver SolverSpec SolverProofs SolverProofs2 SolverProofs6 Joints JointsSpec JointsProofs
  Narrow Persist ArbView ArbViewSpec ArbViewProofs ArbViewEx EquilSpec EquilProofs EquilProofs2 EquilProofs3.
Import ListNotations.
Local Open Scope R_scope.

(** Bodies made by the API: a unit body at a place, and a static one at the origin. *)
Definition unit_at (x y : R) : Rbody := history 1 1 [OpSetPosition (BB.rvec x y)].
Definition ground : Rbody := history 1 1 [OpSetType Static []].
Lemma small_type (n : Z) (b : Rbody) : (0 <= n <= 2)%Z -> b_idle b = 0 -> b_mass b = IZR n -> b_type b = Dynamic.
Proof.
  intros Hn I M. unfold b_type. rewrite I, M. pose proof (Reqb_inf_small 0 ltac:(lia)) as A. pose proof (Reqb_inf_small n ltac:(lia)) as B.
  change (neqb (Num := RNum)) with Reqb. change (ninf (Num := RNum)) with RMaxFloat. now rewrite A, B.
Qed.
Lemma activate_idle (b : Rbody) : b_idle b = 0 -> activate b = b.
Proof. intros I. unfold activate. destruct (btype_eqb _ _); auto. destruct b. cbn in I. subst. reflexivity. Qed.
Lemma new_unit : new_body (N := RNum) 1 1 = ub 0 0 0 0 0.
Proof.
  unfold new_body. cbv zeta. set (b0 := Body _ _ _ _ _ _ _ _ _ _ _ _ _ _ _).
  assert (E1 : set_mass b0 1 = set_mass_fields b0 1 (1 / 1) 0 0) by (unfold set_mass; rewrite activate_idle by reflexivity; reflexivity). rewrite E1.
  assert (E2 : forall m n i j k, set_moment (set_mass_fields b0 m n i j) k = set_mass_fields b0 m n k (1 / k)) by (intros; unfold set_moment; rewrite activate_idle by reflexivity; reflexivity). rewrite E2.
  unfold set_angle. rewrite activate_idle by reflexivity. unfold b0, ub, set_transform, set_tf_field, set_angle_field, set_mass_fields, tf_translate. cbn.
  unfold BB.rvec, vzero. f_equal; try (unR; field). unfold tf_new. cbn. unR. rewrite cos_0, sin_0. f_equal; ring.
Qed.
Lemma unit_ub x y : unit_at x y = ub x y 0 0 0.
Proof.
  unfold unit_at, history. cbn [fold_left bstep]. rewrite new_unit. unfold set_position. rewrite activate_idle by reflexivity. unfold ub, set_transform, set_tf_field, set_pos_field, tf_translate. cbn.
  unfold BB.rvec, vzero. f_equal; [apply vec_ext; cbn; unR; ring|]. unfold tf_new. cbn. unR. rewrite cos_0, sin_0. f_equal; ring.
Qed.
Lemma ground_is : ground = @Body RNum RMaxFloat 0 RMaxFloat 0 0 0 0 (BB.rvec 0 0) (BB.rvec 0 0) (BB.rvec 0 0) (BB.rvec 0 0) (tf_translate (BB.rvec 0 0)) RMaxFloat (BB.rvec 0 0) 0.
Proof. unfold ground, history. cbn [fold_left bstep]. rewrite new_unit. unfold set_type_num. rewrite ub_dynamic. reflexivity. Qed.

(** Two unit balls on each other and on the ground, a weight on a pivot, a weight on a spring and a body on a slope, held by
    friction.  Gravity 1, steps of 1. *)
Definition eq_heap : Rheap := fun i => match i with
  | 1%nat => unit_at 0 1 | 2%nat => unit_at 0 3 | 3%nat => unit_at 5 (-1) | 4%nat => unit_at 7 (-2) | 5%nat => unit_at 10 0 | _ => ground end.
Definition plain : @material RNum := Material 0 1 (BB.rvec 0 0).
Definition info1 (n p : Rvec) (h : N) : @ninfo RNum := NInfo n [NContact p p h] 0%N.
Definition dirt (i : nat) : Rcontact := @Contact RNum (BB.rvec 9 9) (BB.rvec 9 9) 9 9 9 9 9 9 9 9%Z.
Definition eq_touch : list touch :=
  [Touch 0 1 plain plain false dirt (info1 (BB.rvec 0 1) (BB.rvec 0 0) 7%N);
   Touch 1 2 plain plain false dirt (info1 (BB.rvec 0 1) (BB.rvec 0 2) 8%N);
   Touch 0 5 plain plain false dirt (info1 (BB.rvec (- (3 / 5)) (4 / 5)) (BB.rvec 10 0) 9%N)].
Definition pushing (r1 r2 : Rvec) (jn jt : R) (h : Z) : Rcontact := @Contact RNum r1 r2 9 9 9 jn jt 9 9 h.
Definition eq_arbs : list Rsarb :=
  [@SArb RNum 0 1 0 1 vzero (BB.rvec 0 1) false false false [pushing (BB.rvec 0 0) (BB.rvec 0 (-1)) 2 0 7%Z];
   @SArb RNum 1 2 0 1 vzero (BB.rvec 0 1) false false false [pushing (BB.rvec 0 1) (BB.rvec 0 (-1)) 1 0 8%Z];
   @SArb RNum 0 5 0 1 vzero (BB.rvec (- (3 / 5)) (4 / 5)) false false false [pushing (BB.rvec 10 0) (BB.rvec 0 0) (4 / 5) (- (3 / 5)) 9%Z]].
Definition eq_joints : list Rjoint :=
  [(@Cstr RNum 0 3 2 0 1, JPivot (@Pivot RNum (BB.rvec 5 0) (BB.rvec 0 1) (BB.rvec 5 0) (BB.rvec 0 1) (Mat2 0 0 0 0) (BB.rvec 0 1) vzero));
   (@Cstr RNum 0 4 2 0 1, JSpring (@Spring RNum (BB.rvec 7 0) (BB.rvec 0 0) 1 (default_spring_force (N := RNum) 1 1) 0 0 (BB.rvec 7 0) (BB.rvec 0 0) 0 (BB.rvec 0 (-1)) (-1)))].
Definition eq_world : Rworld := World eq_heap eq_arbs eq_joints.
Definition eq_pace (d : R) : pace := Pace (BB.rvec 0 (-1)) d 1 (1 / 10) [1; 2; 3; 4; 5]%nat.
Lemma ub_fields x y : let b := ub x y 0 0 0 in still b /\ mover b /\ b_pos b = BB.rvec x y /\ b_mass b = 1 /\ b_minv b = 1 /\ b_iinv b = 1 /\ b_angle b = 0.
Proof. cbv zeta. split; [repeat split|]. split; [|repeat split]. split; [apply ub_dynamic|]. cbn. split; [lra|right; lra]. Qed.
Lemma ub_world x y u v : local_to_world (ub x y 0 0 0) (BB.rvec u v) = BB.rvec (x + u) (y + v).
Proof. unfold local_to_world, ub, tf_apply, tf_translate, BB.rvec. cbn. unR. f_equal; ring. Qed.
Lemma ub_arm x y u v : arm (ub x y 0 0 0) (BB.rvec u v) = BB.rvec u v.
Proof. unfold arm. rewrite ub_world. unfold ub, BB.rvec, vsub. cbn. unR. f_equal; ring. Qed.
Lemma ground_world u v : local_to_world ground (BB.rvec u v) = BB.rvec u v /\ arm ground (BB.rvec u v) = BB.rvec u v.
Proof. unfold arm. rewrite ground_is. unfold local_to_world, tf_apply, tf_translate, vsub, BB.rvec. cbn. unR. split; f_equal; ring. Qed.
Lemma ground_fields : still ground /\ anchored ground /\ b_pos ground = BB.rvec 0 0.
Proof. rewrite ground_is. repeat split. Qed.
Lemma eq_at i : eq_heap i = match i with 1%nat => ub 0 1 0 0 0 | 2%nat => ub 0 3 0 0 0 | 3%nat => ub 5 (-1) 0 0 0 | 4%nat => ub 7 (-2) 0 0 0 | 5%nat => ub 10 0 0 0 0 | _ => ground end.
Proof. unfold eq_heap. repeat (destruct i as [|i]; try apply unit_ub; try reflexivity). Qed.
Lemma rvec2 (a b c d : R) : a = c -> b = d -> BB.rvec a b = BB.rvec c d. Proof. now intros -> ->. Qed.
Lemma eq_presses : Forall2 (presses (1 / 10) eq_heap) eq_touch eq_arbs.
Proof.
  destruct ground_fields as (_ & _ & GP).
  assert (ONE : NoDup [7%N] /\ NoDup [8%N] /\ NoDup [9%N]) by (repeat split; repeat constructor; cbn; tauto). destruct ONE as (N7 & N8 & N9).
  unfold eq_touch, eq_arbs, info1. repeat apply Forall2_cons; try apply Forall2_nil.
  all: unfold presses; cbn [t_a t_b t_ma t_mb t_info nf_n nf_arr s_a s_b s_n s_first s_cached s_contacts map nc_hash mt_sv mt_u plain]; rewrite !eq_at, ?GP.
  all: repeat (split; [first [reflexivity|discriminate|assumption]|]); apply Forall2_cons; [|apply Forall2_nil]; cbn [pushing k_r1 k_r2 k_hash k_jn k_jt nc_p1 nc_p2 nc_hash ub b_pos].
  all: unfold vsub, BB.rvec, vdot; cbn [vx vy]; unR.
  all: split; [f_equal; ring|]; split; [f_equal; ring|]; split; [reflexivity|]; split; [lra|]; split; [|lra].
  - rewrite Rabs_R0. lra.
  - rewrite Rabs_R0. lra.
  - rewrite Rabs_left; lra.
Qed.
Lemma mag1 (y : R) : vmag (BB.rvec 0 y) = Rabs y.
Proof. unfold vmag, vdot, BB.rvec. cbn. unR. rewrite <- sqrt_Rsqr_abs. f_equal. unfold Rsqr. ring. Qed.
Lemma eq_carry d : d = 1 -> forall c k, In (c, k) eq_joints -> carries d 1 eq_heap c k /\ solvable eq_heap c k.
Proof.
  intros D c k. unfold eq_joints. intros [E|[E|[]]]; apply pair_equal_spec in E as [<- <-].
  - split.
    + cbn [carries c_a c_b pv_anchA pv_anchB pv_r1 pv_r2 pv_j c_maxforce]. rewrite !eq_at. destruct (ground_world 5 0) as [-> ->]. rewrite ub_world, ub_arm, mag1, Rabs_R1.
      split; [apply rvec2; ring|]. split; [reflexivity|]. split; [reflexivity|]. lra.
    + unfold solvable. cbn [c_a c_b c_maxforce c_maxbias]. rewrite !eq_at. destruct ground_fields as (_ & (-> & ->) & _). cbn. lra.
  - assert (AP : apart ground (ub 7 (-2) 0 0 0) (BB.rvec 7 0) (BB.rvec 0 0) = 2).
    { unfold apart. destruct (ground_world 7 0) as [-> _]. rewrite ub_world. replace (vsub _ _) with (BB.rvec 0 (-2)) by (unfold BB.rvec, vsub; cbn; unR; f_equal; ring). rewrite mag1, Rabs_left; lra. }
    split.
    + cbn [carries c_a c_b sp_anchA sp_anchB sp_r1 sp_r2 sp_n sp_j sp_force]. cbv zeta. rewrite !eq_at, AP. destruct (ground_world 7 0) as [-> ->]. rewrite ub_world, ub_arm.
      split; [lra|]. split; [reflexivity|]. split; [reflexivity|]. split; [unfold BB.rvec, vscale, vsub; cbn; unR; f_equal; ring|]. split; [unfold default_spring_force; unR; ring|]. now left.
    + unfold solvable. cbn [c_a c_b c_maxforce c_maxbias]. rewrite !eq_at. destruct ground_fields as (_ & (-> & ->) & _). cbn. lra.
Qed.
Lemma eq_balanced i : In i [1; 2; 3; 4; 5]%nat -> balanced (BB.rvec 0 (-1)) 1 eq_world i.
Proof.
  intros Hi. unfold balanced. cbv zeta. cbn [w_heap w_arbs w_joints eq_world]. rewrite eq_at.
  cbn [In] in Hi. destruct Hi as [<-|[<-|[<-|[<-|[<-|[]]]]]]; (split; [apply vec_ext|right]); unfold Vsum, Rsum, eq_arbs, eq_joints, joint_push, joint_twist, arb_twist, contact_twist, cross, each_view, seen_by, total_impulse, arb_count, vrotate, BB.rvec, vadd, vscale, vzero, vneg;
    cbn; unR; lra.
Qed.
Theorem eq_ok : equilibrium (eq_pace 1) eq_touch eq_world.
Proof.
  constructor; cbn [q_dt q_dyn q_g q_slop q_d eq_pace eq_world w_heap w_arbs w_joints].
  - lra.
  - repeat constructor; cbn; lia.
  - intros i Hi. split; [|now apply eq_balanced]. rewrite eq_at. cbn [In] in Hi. destruct Hi as [<-|[<-|[<-|[<-|[<-|[]]]]]]; apply ub_fields.
  - intros i Hi. rewrite eq_at. destruct ground_fields as (_ & G & _). do 6 (destruct i as [|i]; [first [exact G|exfalso; apply Hi; cbn; tauto]|]). exact G.
  - intros i. rewrite eq_at. destruct ground_fields as (G & _). do 6 (destruct i as [|i]; [first [exact G|apply ub_fields]|]). exact G.
  - intros i. unfold eq_heap, unit_at, ground. do 6 (destruct i as [|i]; [eauto|]). eauto.
  - exact eq_presses.
  - intros t [<-|[<-|[<-|[]]]]; cbn [t_a t_b]; rewrite !eq_at; destruct ground_fields as (_ & (A & B) & _); cbn [ub b_iinv b_minv]; rewrite ?A, ?B; lra.
  - now apply eq_carry.
Qed.

(** A weight on a spring, and the same in a space with damping: the push of the spring is damped with the velocity, the weight is not, so the
    weight starts to fall. *)
Definition sp_heap : Rheap := fun i => match i with 1%nat => unit_at 0 (-2) | _ => ground end.
Definition sp_hung : @spring RNum := @Spring RNum (BB.rvec 0 0) (BB.rvec 0 0) 0 (default_spring_force (N := RNum) 1 1) 0 0 (BB.rvec 0 0) (BB.rvec 0 0) 0 (BB.rvec 0 (-1)) (-1).
Definition sp_cstr : Rcstr := @Cstr RNum 0 1 2 0 1.
Definition sp_world : Rworld := World sp_heap [] [(sp_cstr, JSpring sp_hung)].
Definition sp_pace (d : R) : pace := Pace (BB.rvec 0 (-1)) d 1 (1 / 10) [1]%nat.
Lemma sp_at i : sp_heap i = match i with 1%nat => ub 0 (-2) 0 0 0 | _ => ground end.
Proof. unfold sp_heap. repeat (destruct i as [|i]; try apply unit_ub; try reflexivity). Qed.
Lemma sp_carry d : d = 1 -> forall c k, In (c, k) (w_joints sp_world) -> carries d 1 sp_heap c k /\ solvable sp_heap c k.
Proof.
  intros D c k [E|[]]. apply pair_equal_spec in E as [<- <-].
  assert (AP : apart ground (ub 0 (-2) 0 0 0) (BB.rvec 0 0) (BB.rvec 0 0) = 2).
  { unfold apart. destruct (ground_world 0 0) as [-> _]. rewrite ub_world. replace (vsub _ _) with (BB.rvec 0 (-2)) by (unfold BB.rvec, vsub; cbn; unR; f_equal; ring). rewrite mag1, Rabs_left; lra. }
  split.
  - cbn [carries sp_cstr sp_hung c_a c_b sp_anchA sp_anchB sp_r1 sp_r2 sp_n sp_j sp_force]. cbv zeta. rewrite !sp_at, AP. destruct (ground_world 0 0) as [-> ->]. rewrite ub_world, ub_arm.
    split; [lra|]. split; [reflexivity|]. split; [reflexivity|]. split; [unfold BB.rvec, vscale, vsub; cbn; unR; f_equal; ring|]. split; [unfold default_spring_force; unR; ring|]. now left.
  - unfold solvable. cbn [sp_cstr c_a c_b c_maxforce c_maxbias]. rewrite !sp_at. destruct ground_fields as (_ & (-> & ->) & _). cbn. lra.
Qed.
Lemma sp_ok : equilibrium (sp_pace 1) [] sp_world.
Proof.
  constructor; cbn [q_dt q_dyn q_g q_slop q_d sp_pace sp_world w_heap w_arbs w_joints].
  - lra.
  - repeat constructor; cbn; lia.
  - intros i [<-|[]]. split; [rewrite sp_at; apply ub_fields|]. unfold balanced. cbv zeta. cbn [w_heap w_arbs w_joints]. rewrite sp_at.
    split; [apply vec_ext|right]; unfold Vsum, Rsum, joint_push, joint_twist, arb_twist, cross, each_view, BB.rvec, vadd, vscale, vzero; cbn; unR; lra.
  - intros i Hi. rewrite sp_at. destruct ground_fields as (_ & G & _). do 2 (destruct i as [|i]; [first [exact G|exfalso; apply Hi; cbn; tauto]|]). exact G.
  - intros i. rewrite sp_at. destruct ground_fields as (G & _). do 2 (destruct i as [|i]; [first [exact G|apply ub_fields]|]). exact G.
  - intros i. unfold sp_heap, unit_at, ground. do 2 (destruct i as [|i]; [eauto|]). eauto.
  - constructor.
  - intros t [].
  - now apply sp_carry.
Qed.
Lemma slack_iterations n (dt : R) : forall (w : Rworld) c p, w_arbs w = [] -> w_joints w = [(c, JSpring p)] -> sp_vcoef p = 0 -> w_heap (iterations n dt w) = w_heap w.
Proof.
  induction n as [|n IH]; intros w c p A J V; cbn [iterations]; [reflexivity|]. unfold iteration. rewrite A, J. cbn [arbs_apply joints_apply joint_apply]. unfold spring_apply. cbv zeta. rewrite V.
  match goal with |- context [apply_impulses ?H _ _ _ _ (vscale ?n ?x)] => assert (Z : vscale n x = vzero) by (apply scale_zero; unR; ring); rewrite Z end. rewrite impulses_zero.
  match goal with |- w_heap (iterations n dt ?w') = _ => change (w_heap w) with (w_heap w'); apply (IH w' c _ eq_refl eq_refl) end. reflexivity.
Qed.
Lemma one_prestep (H : Rheap) c s slop bias dt :
  prestep_all (N := RNum) slop bias dt (World H [] [(c, JSpring s)]) = World (fst (spring_prestep H c dt s)) [] [(c, JSpring (snd (spring_prestep H c dt s)))].
Proof. unfold prestep_all. cbn [w_heap w_joints w_arbs map joints_prestep joint_prestep]. destruct (spring_prestep H c dt s). reflexivity. Qed.
Lemma one_carry (H : Rheap) c s : (forall i, coherent (H i)) -> (carries 1 1 H c (JSpring s) /\ solvable H c (JSpring s)) -> good 1 0 1 0 H -> sp_damping s = 0 ->
  let H1 := fst (spring_prestep H c 1 s) in
  sp_vcoef (snd (spring_prestep H c 1 s)) = 0 /\ good 1 0 1 0 H1 /\ Mom 1 0 1 0 H1 = Mom 1 0 1 0 H + Jnt 1 0 1 0 (c, JSpring s) /\ hframe H H1.
Proof.
  intros CO JT G D. cbv zeta.
  assert (VC : sp_vcoef (snd (spring_prestep H c 1 s)) = 0).
  { unfold spring_prestep. cbv zeta. cbn [snd sp_vcoef]. rewrite D. unR. match goal with |- 1 - nexp ?x = 0 => replace x with 0 by ring end. change (1 - exp 0 = 0). rewrite exp_0. ring. }
  pose proof (joints_carry H 1 1 [(c, JSpring s)] CO) as J1.
  pose proof (joints_prestep_mom 1 0 1 0 1 [(c, JSpring s)] H G) as PM.
  pose proof (joint_prestep_frame H c 1 (JSpring s)) as FR.
  specialize (J1 ltac:(intros c' k' [X|[]]; injection X as <- <-; exact JT) H (hframe_refl H)).
  cbn [joints_prestep joint_prestep] in J1, PM, FR. destruct (spring_prestep H c 1 s) as [H1 p]. cbn [snd fst] in *. split; [exact VC|].
  destruct PM as (G1 & E & _). split; [exact G1|]. split; [|exact FR]. rewrite E. destruct J1 as [_ J2].
  pose proof (load_sum 1 0 1 0 _ _ J2) as LS. unfold Rsum in LS |- *. cbn [fold_right springy snd] in LS |- *. lra.
Qed.
Lemma sp_prestep slop bias : let w1 := prestep_all (N := RNum) slop bias 1 sp_world in
  exists p, w_joints w1 = [(sp_cstr, JSpring p)] /\ w_arbs w1 = [] /\ sp_vcoef p = 0 /\ good 1 0 1 0 (w_heap w1) /\ Mom 1 0 1 0 (w_heap w1) = 1 /\ hframe sp_heap (w_heap w1).
Proof.
  cbv zeta. destruct sp_ok as [_ _ MV _ _ HI _ _ JT].
  assert (CO : forall i, coherent (sp_heap i)) by (intros i; destruct (HI i) as (m & j & ops & E); change (w_heap sp_world i) with (sp_heap i) in E; rewrite E; apply history_coherent).
  assert (G : good 1 0 1 0 sp_heap) by (destruct (MV 1%nat (or_introl eq_refl)) as [(_ & M & _) _]; split; [now right|now left]).
  destruct (one_carry sp_heap sp_cstr sp_hung CO (JT _ _ (or_introl eq_refl)) G eq_refl) as (VC & G1 & M1 & FR).
  assert (JV : Jnt 1 0 1 0 (sp_cstr, JSpring sp_hung) = 1).
  { unfold sp_hung, sp_cstr. cbn [Jnt c_a c_b sp_r1 sp_r2 sp_n sp_j]. unfold Imp, sides, eff, cross, BB.rvec, vscale. cbn. unR. ring. }
  assert (M0 : Mom 1 0 1 0 sp_heap = 0) by (unfold Mom; rewrite sp_at; unfold ub, BB.rvec; cbn; unR; ring).
  rewrite JV, M0 in M1. unfold sp_world. rewrite one_prestep. cbn [w_heap w_joints w_arbs].
  revert VC G1 M1 FR. generalize (spring_prestep sp_heap sp_cstr 1 sp_hung). intros [H1 p]. cbn [fst snd]. intros VC G1 M1 FR.
  exists p. repeat split; auto; try apply G1; try apply FR. lra.
Qed.
Lemma sp_solve n (w1 : Rworld) p : w_joints w1 = [(sp_cstr, JSpring p)] -> w_arbs w1 = [] -> sp_vcoef p = 0 -> good 1 0 1 0 (w_heap w1) -> Mom 1 0 1 0 (w_heap w1) = 1 -> hframe sp_heap (w_heap w1) ->
  vy (b_vel (w_heap (iterations n 1 (cached_all (N := RNum) 1 (integrate_all (N := RNum) (BB.rvec 0 (-1)) (1 / 2)%R 1 [1%nat] w1))) 1%nat)) = - (1 / 2).
Proof.
  intros WJ WA VC GW MW FW. assert (ND : NoDup [1%nat]) by (repeat constructor; cbn; tauto).
  set (w2 := integrate_all _ _ _ _ _). assert (C : w_heap (cached_all (N := RNum) 1 w2) = w_heap w2) by (unfold cached_all, w2, integrate_all; cbn [w_heap w_arbs w_joints]; rewrite WA, WJ; reflexivity).
  rewrite (slack_iterations n 1 (cached_all (N := RNum) 1 w2) sp_cstr p); [|exact WA|exact WJ|exact VC]. rewrite C. clear C.
  assert (T : b_type (w_heap w1 1%nat) = Dynamic) by (rewrite (type_frame _ _ (FW 1%nat)), sp_at; apply ub_dynamic).
  destruct (integrate_mom 1 0 1 0 (BB.rvec 0 (-1)) (1 / 2)%R 1 [1%nat] w1 ND (or_introl eq_refl) GW T) as [_ M2]. cbv zeta in M2. fold w2 in M2. rewrite MW in M2.
  assert (FX : frc 0 1 0 (BB.rvec 0 (-1)) (w_heap w1 1%nat) = -1).
  { unfold frc. destruct (FW 1%nat) as (-> & _ & _ & _ & _ & -> & _ & _ & -> & _). rewrite sp_at. unfold ub, BB.rvec. cbn. unR. ring. }
  rewrite FX in M2. unfold Mom in M2. assert (MM : b_mass (w_heap w2 1%nat) = 1).
  { unfold w2, integrate_all. cbn [w_heap fold_left]. unfold upd. cbn [Nat.eqb]. unfold update_velocity. rewrite T. cbn. destruct (FW 1%nat) as (-> & _). rewrite sp_at. reflexivity. }
  rewrite MM in M2. unR. lra.
Qed.
Lemma sp_falls n bias : vy (b_vel (w_heap (space_step (sp_pace (1 / 2)) [] sp_world (n, bias)) 1%nat)) = - (1 / 2).
Proof.
  destruct sp_ok as [_ _ _ _ ST HI _ _ _]. cbn [sp_world w_heap] in *.
  assert (CO : forall i, coherent (sp_heap i)) by (intros i; destruct (HI i) as (m & j & ops & ->); apply history_coherent).
  unfold space_step, full_step. cbn [fst snd sp_pace q_dyn q_dt q_d q_g q_slop sp_world w_heap w_arbs w_joints]. rewrite (move_rest sp_heap 1 [1%nat] ST CO). unfold found_again. cbn [combine map].
  unfold solve. cbv zeta. match goal with |- context [cached_all ?x _] => assert (DT : x = 1) end.
  { replace (neqb (Num := RNum) 1 n0) with false by (symmetry; unR; rcases; auto; lra). cbn [negb]. unR. field. }
  rewrite DT. clear DT. destruct (sp_prestep (1 / 10)%R bias) as (p & A & B & C & D & E & F). fold sp_world. set (w1 := prestep_all _ _ _ _) in *. clearbody w1. exact (sp_solve n w1 p A B C D E F).
Qed.
Lemma damped_equilibrium : exists g dt slop L ts w, equilibrium (Pace g 1 dt slop L) ts w /\
  forall n bias, exists i, w_heap (space_step (Pace g (1 / 2) dt slop L) ts w (n, bias)) i <> w_heap w i.
Proof.
  exists (BB.rvec 0 (-1)), 1, (1 / 10), [1%nat], [], sp_world. split; [exact sp_ok|]. intros n bias. exists 1%nat. intros E. pose proof (sp_falls n bias) as X. cbn [sp_pace] in X. unfold sp_pace in X. rewrite E in X.
  cbn [sp_world w_heap] in X. rewrite sp_at in X. cbn in X. lra.
Qed.
