From Coq Require Import ZArith Bool Reals List Lra Lia Permutation.
From Verif Require Import Num NumReal Vec BB Transform TransformProofs Body BodySpec.
Import ListNotations.
Local Open Scope R_scope.

(** The transform is the one computed from position, angle and centre of gravity. *)
Definition coherent (b : Rbody) : Prop := b_tf b = b_tf (set_transform b (b_pos b) (b_angle b)).

Ltac unB := unfold set_mass_fields, set_angle_field, set_vel_fields, set_force_fields, set_cog_field, set_pos_field,
  set_tf_field, set_idle_field, set_bias_fields in *;
  cbn [b_mass b_minv b_moi b_iinv b_angle b_w b_torque b_cog b_pos b_vel b_force b_tf b_idle b_vbias b_wbias] in *.

Lemma activate_fields (b : Rbody) :
  b_mass (activate b) = b_mass b /\ b_minv (activate b) = b_minv b /\ b_moi (activate b) = b_moi b /\ b_iinv (activate b) = b_iinv b /\
  b_angle (activate b) = b_angle b /\ b_w (activate b) = b_w b /\ b_cog (activate b) = b_cog b /\ b_pos (activate b) = b_pos b /\
  b_vel (activate b) = b_vel b /\ b_tf (activate b) = b_tf b /\ b_torque (activate b) = b_torque b /\ b_force (activate b) = b_force b /\
  b_vbias (activate b) = b_vbias b /\ b_wbias (activate b) = b_wbias b.
Proof. unfold activate. destruct (btype_eqb _ _); unB; repeat split. Qed.
Ltac act b := let H := fresh "ACT" in pose proof (activate_fields b) as H; destruct H as (Ama&Ami&Amo&Aii&Aan&Aw&Acg&Apo&Ave&Atf&Ato&Afo&Avb&Awb).

(** Frame fields: everything [coherent] looks at. *)
Definition same_frame (b c : Rbody) : Prop := b_tf b = b_tf c /\ b_pos b = b_pos c /\ b_angle b = b_angle c /\ b_cog b = b_cog c.
Lemma set_transform_frame (b c : Rbody) p a : b_cog b = b_cog c -> b_tf (set_transform b p a) = b_tf (set_transform c p a).
Proof. intros E. unfold set_transform. unB. now rewrite E. Qed.
Lemma coherent_frame (b c : Rbody) : same_frame b c -> coherent c -> coherent b.
Proof.
  unfold coherent. intros (E1 & E2 & E3 & E4) H. rewrite E1, H, E2, E3. now apply set_transform_frame.
Qed.
Lemma activate_frame (b : Rbody) : same_frame (activate b) b.
Proof. act b. repeat split; auto. Qed.

Lemma set_transform_coherent (b : Rbody) : coherent (set_transform b (b_pos b) (b_angle b)).
Proof. unfold coherent, set_transform. unB. reflexivity. Qed.
Lemma set_angle_coherent (b : Rbody) a : coherent (set_angle b a).
Proof. unfold coherent, set_angle, set_transform. unB. reflexivity. Qed.
Lemma set_position_coherent (b : Rbody) p : coherent (set_position b p).
Proof. unfold coherent, set_position, set_transform. unB. reflexivity. Qed.
Lemma new_body_coherent m i : coherent (new_body m i).
Proof. apply set_angle_coherent. Qed.
Lemma accumulate_coherent (b : Rbody) l : coherent b -> coherent (accumulate b l).
Proof. intros H. unfold accumulate. destruct (negb _); [exact H|]. apply set_position_coherent. Qed.
Lemma set_type_coherent (b : Rbody) bt l : coherent b -> coherent (set_type_num b bt l).
Proof.
  intros H. unfold set_type_num. destruct (btype_eqb _ _); [exact H|].
  destruct bt.
  - apply accumulate_coherent. eapply coherent_frame; [|exact H]. repeat split.
  - eapply coherent_frame; [|exact H]. repeat split.
  - eapply coherent_frame; [|exact H]. repeat split.
Qed.
Lemma update_position_coherent (b : Rbody) dt : coherent (update_position b dt).
Proof. unfold coherent, update_position, set_transform. unB. reflexivity. Qed.

Lemma bstep_coherent b o : coherent b -> coherent (bstep b o).
Proof.
  intros H. act b. destruct o; cbn [bstep];
  try (eapply coherent_frame; [|exact H]; unfold set_mass, set_moment, set_velocity, set_angular_velocity, set_force, set_torque,
    apply_impulse_local, apply_impulse_world, apply_impulse, apply_force_local, apply_force_world; unB; repeat split; assumption).
  - apply set_position_coherent.
  - apply set_angle_coherent.
  - now apply accumulate_coherent.
  - now apply set_type_coherent.
  - unfold update_velocity. destruct (b_type b); try exact H; (eapply coherent_frame; [|exact H]; repeat split).
  - apply update_position_coherent.
Qed.
Lemma history_coherent m i ops : coherent (history m i ops).
Proof.
  unfold history. pose proof (new_body_coherent m i) as H. revert H. generalize (new_body (N:=RNum) m i).
  induction ops as [|o ops IH]; cbn; intros b H; auto. apply IH. now apply bstep_coherent.
Qed.

Lemma coherent_rigid b : coherent b -> rigid (b_tf b).
Proof.
  unfold coherent. intros ->. unfold set_transform, rigid. unB. unT.
  pose proof (sin2_cos2 (b_angle b)) as H. unfold Rsqr in H. repeat split; lra.
Qed.
Lemma coherent_cog b : coherent b -> local_to_world b (b_cog b) = b_pos b.
Proof. unfold coherent, local_to_world. intros ->. unfold set_transform. unB. apply vec_eq; unT; rring. Qed.

Lemma conversions b : coherent b -> forall p q : Rvec,
  world_to_local b (local_to_world b p) = p /\ local_to_world b (world_to_local b p) = p /\
  vdist (local_to_world b p) (local_to_world b q) = vdist p q.
Proof.
  intros H p q. apply coherent_rigid in H as R1. unfold world_to_local, local_to_world.
  rewrite rigid_inverse_eq by auto. pose proof (rigid_det _ R1) as D.
  split; [|split]; [apply inverse_apply|apply inverse_apply|now apply rigid_dist]; lra.
Qed.

Lemma set_position_pos b p : coherent b -> position (set_position b p) = p.
Proof.
  intros H. act b. unfold position, set_position, set_transform. unB.
  rewrite !Acg, !Atf, !Aan, H. unfold set_transform. unB. apply vec_eq; unT; rring.
Qed.
Lemma set_position_translates b p q : coherent b ->
  local_to_world (set_position b p) q = vadd (local_to_world b q) (vsub p (position b)).
Proof.
  intros H. act b. unfold local_to_world, position, set_position, set_transform. unB.
  rewrite !Acg, !Atf, !Aan, H. unfold set_transform. unB. apply vec_eq; unT; rring.
Qed.
Lemma set_angle_cog b a : coherent b ->
  local_to_world (set_angle b a) (b_cog b) = local_to_world b (b_cog b) /\
  b_angle (set_angle b a) = a /\ b_cog (set_angle b a) = b_cog b /\
  (forall q, tf_apply_vector (b_tf (set_angle b a)) q = rvec (vx q * cos a - vy q * sin a) (vx q * sin a + vy q * cos a)).
Proof.
  intros H. rewrite (coherent_cog b H). act b. unfold set_angle, set_transform, local_to_world. unB.
  rewrite !Acg, !Apo. repeat split.
  - apply vec_eq; unT; rring.
  - intros q. unfold rvec. apply vec_eq; unT; rring.
Qed.

(** The accumulation loop only writes mass, moment and centre of gravity. *)
Lemma accum_step_other (b : Rbody) s :
  let c := accum_step b s in b_tf c = b_tf b /\ b_angle c = b_angle b /\ b_idle c = b_idle b /\ b_pos c = b_pos b /\
  b_vel c = b_vel b /\ b_w c = b_w b /\ b_torque c = b_torque b /\ b_force c = b_force b /\ b_vbias c = b_vbias b /\ b_wbias c = b_wbias b /\
  b_minv c = b_minv b /\ b_iinv c = b_iinv b.
Proof. unfold accum_step. cbn zeta. destruct (nltb _ _); unB; repeat split. Qed.
Lemma accum_fold_other l : forall b : Rbody,
  let c := fold_left accum_step l b in b_tf c = b_tf b /\ b_angle c = b_angle b /\ b_idle c = b_idle b /\ b_pos c = b_pos b /\
  b_vel c = b_vel b /\ b_w c = b_w b /\ b_torque c = b_torque b /\ b_force c = b_force b /\ b_vbias c = b_vbias b /\ b_wbias c = b_wbias b /\
  b_minv c = b_minv b /\ b_iinv c = b_iinv b.
Proof.
  induction l as [|s l IH]; intros b; cbn [fold_left]; [repeat split|]. cbn zeta in *.
  pose proof (IH (accum_step b s)) as H. pose proof (accum_step_other b s) as K. cbn zeta in K.
  destruct H as (?&?&?&?&?&?&?&?&?&?&?&?), K as (?&?&?&?&?&?&?&?&?&?&?&?). repeat split; etransitivity; eassumption.
Qed.
Lemma accumulate_position b l : coherent b -> position (accumulate b l) = position b /\ b_tf (accumulate b l) = b_tf b /\ b_angle (accumulate b l) = b_angle b.
Proof.
  intros H. unfold accumulate. destruct (negb _); [auto|].
  set (b0 := set_cog_field _ _).
  pose proof (accum_fold_other l b0) as K. cbn zeta in K. set (c := fold_left accum_step l b0) in *.
  destruct K as (K1&K2&_).
  set (d := set_mass_fields c _ _ _ _). act d.
  assert (b_tf (set_position d (position b0)) = b_tf b) as E.
  { unfold set_position, set_transform. unB. rewrite Acg, Atf, Aan. unfold d, b0, position in *. unB. rewrite K1, K2, H.
    unfold set_transform. unB. apply tf_eq; unT; rring. }
  split; [|split].
  - unfold position at 1. now rewrite E.
  - exact E.
  - unfold set_position, set_transform. unB. rewrite Aan. unfold d, b0 in *. unB. exact K2.
Qed.

(** ** Mass accumulation *)
Lemma Rsum_cons {A} (f : A -> R) x l : Rsum f (x :: l) = f x + Rsum f l.
Proof. reflexivity. Qed.
Lemma Rsum_perm {A} (f : A -> R) l l' : Permutation l l' -> Rsum f l = Rsum f l'.
Proof. induction 1; rewrite ?Rsum_cons; try lra; auto. Qed.

(** State of the loop: mass, first moments and second moment after the shapes seen so far. *)
Definition acc_inv (b : Rbody) (M X Y J : R) : Prop :=
  b_mass b = M /\ b_mass b * vx (b_cog b) = X /\ b_mass b * vy (b_cog b) = Y /\
  b_moi b + M * (vx (b_cog b) * vx (b_cog b) + vy (b_cog b) * vy (b_cog b)) = J /\ 0 <= M /\ (M = 0 -> vx (b_cog b) = 0 /\ vy (b_cog b) = 0 /\ b_moi b = 0).
Definition second (s : Rinfo) : R := mi_m s * mi_i s + mi_m s * (vx (mi_cog s) * vx (mi_cog s) + vy (mi_cog s) * vy (mi_cog s)).
Lemma acc_step_inv b M X Y J s : acc_inv b M X Y J -> 0 <= mi_m s ->
  acc_inv (accum_step b s) (M + mi_m s) (X + mi_m s * vx (mi_cog s)) (Y + mi_m s * vy (mi_cog s)) (J + second s).
Proof.
  intros (H1 & H2 & H3 & H4 & H5 & H6) Hm. unfold accum_step. cbn zeta. unR.
  destruct (Rltb_spec 0 (mi_m s)) as [L|L].
  - set (m := mi_m s) in *. unfold acc_inv. unB. rewrite H1 in *. unfold vlerp. unT.
    assert (M + m <> 0) by lra.
    unfold second. fold m. cbn. repeat split; try lra.
    + rewrite <- H2. rfield. lra.
    + rewrite <- H3. rfield. lra.
    + rewrite <- H4. rfield. lra.
  - assert (mi_m s = 0) as E by lra. unfold acc_inv, second. rewrite E. repeat split; try lra; try (apply H6; lra).
Qed.
Lemma acc_fold_inv l : forall b M X Y J, acc_inv b M X Y J -> Forall (fun s => 0 <= mi_m s) l ->
  acc_inv (fold_left accum_step l b) (M + total_mass l) (X + first_x l) (Y + first_y l) (J + Rsum second l).
Proof.
  unfold total_mass, first_x, first_y.
  induction l as [|s l IH]; intros b M X Y J H HF; cbn [fold_left].
  - cbn. now rewrite !Rplus_0_r.
  - inversion HF; subst. rewrite !Rsum_cons, <- !Rplus_assoc. apply IH; auto. apply acc_step_inv; auto.
Qed.
Lemma total_mass_nonneg l : Forall (fun s => 0 <= mi_m s) l -> 0 <= total_mass l.
Proof. unfold total_mass. induction 1; [cbn; lra|rewrite Rsum_cons; lra]. Qed.
Lemma moment_about_split c l :
  moment_about c l = Rsum second l - 2 * (vx c * first_x l + vy c * first_y l) + total_mass l * (vx c * vx c + vy c * vy c).
Proof.
  unfold moment_about, second, first_x, first_y, total_mass. induction l as [|s l IH]; [cbn; lra|]. rewrite !Rsum_cons, IH. lra.
Qed.

Definition accum0 (b : Rbody) : Rbody := set_cog_field (set_mass_fields b 0 (b_minv b) 0 (b_iinv b)) (@V RNum 0 0).
Lemma accumulate_fields (b : Rbody) l : b_type b = Dynamic ->
  let c := fold_left accum_step l (accum0 b) in let d := accumulate b l in
  b_mass d = b_mass c /\ b_moi d = b_moi c /\ b_cog d = b_cog c /\ b_minv d = 1 / b_mass c /\ b_iinv d = 1 / b_moi c.
Proof.
  intros HT. unfold accumulate. rewrite HT. cbn [btype_eqb negb].
  change (set_cog_field (set_mass_fields b n0 (b_minv b) n0 (b_iinv b)) vzero) with (accum0 b). cbn zeta.
  set (c := fold_left accum_step l (accum0 b)). set (d := set_mass_fields c _ _ _ _). act d.
  unfold set_position, set_transform. unB. rewrite Ama, Ami, Amo, Aii, Acg. unfold d. unB. repeat split.
Qed.
Lemma accum0_inv b : acc_inv (accum0 b) 0 0 0 0.
Proof. unfold acc_inv, accum0. unB. cbn [vx vy]. unR. repeat split; lra. Qed.

Lemma accumulate_mass (b : Rbody) l : b_type b = Dynamic -> Forall (fun s => 0 <= mi_m s) l -> 0 < total_mass l ->
  let d := accumulate b l in
  b_mass d = total_mass l /\
  vx (b_cog d) = first_x l / total_mass l /\ vy (b_cog d) = first_y l / total_mass l /\
  b_moi d = moment_about (b_cog d) l /\
  b_minv d = / b_mass d /\ b_iinv d = / b_moi d.
Proof.
  intros HT HF HM. cbn zeta. destruct (accumulate_fields b l HT) as (E1 & E2 & E3 & E4 & E5).
  destruct (acc_fold_inv l _ 0 0 0 0 (accum0_inv b) HF) as (I1 & I2 & I3 & I4 & _).
  rewrite E1, E2, E3, E4, E5 in *. set (c := fold_left accum_step l (accum0 b)) in *.
  rewrite !Rplus_0_l in *. rewrite I1 in *. repeat split; try (unfold Rdiv; lra).
  - rewrite <- I2. rfield. lra.
  - rewrite <- I3. rfield. lra.
  - rewrite moment_about_split, <- I4, <- I2, <- I3. lra.
Qed.

Lemma acc_inv_unique b c M X Y J : acc_inv b M X Y J -> acc_inv c M X Y J -> b_mass b = b_mass c /\ b_moi b = b_moi c /\ b_cog b = b_cog c.
Proof.
  intros (A1 & A2 & A3 & A4 & A5 & A6) (B1 & B2 & B3 & B4 & B5 & B6).
  destruct (Req_dec M 0) as [E|E].
  - destruct (A6 E) as (? & ? & ?), (B6 E) as (? & ? & ?). repeat split; try congruence. apply vec_eq; congruence.
  - assert (vx (b_cog b) = vx (b_cog c)) as Ex.
    { apply Rmult_eq_reg_l with M; auto. rewrite A1 in A2. rewrite B1 in B2. lra. }
    assert (vy (b_cog b) = vy (b_cog c)) as Ey.
    { apply Rmult_eq_reg_l with M; auto. rewrite A1 in A3. rewrite B1 in B3. lra. }
    split; [congruence|split; [|now apply vec_eq]]. rewrite Ex, Ey in A4. lra.
Qed.
Lemma accumulate_perm (b : Rbody) l l' : Permutation l l' -> Forall (fun s => 0 <= mi_m s) l ->
  accumulate b l = accumulate b l'.
Proof.
  intros HP HF. assert (Forall (fun s : Rinfo => 0 <= mi_m s) l') as HF' by (eapply Permutation_Forall; eauto).
  unfold accumulate. destruct (negb _); [reflexivity|].
  change (set_cog_field (set_mass_fields b n0 (b_minv b) n0 (b_iinv b)) vzero) with (accum0 b). cbn zeta.
  assert (fold_left accum_step l (accum0 b) = fold_left accum_step l' (accum0 b)) as ->; [|reflexivity].
  pose proof (acc_fold_inv l _ 0 0 0 0 (accum0_inv b) HF) as I.
  pose proof (acc_fold_inv l' _ 0 0 0 0 (accum0_inv b) HF') as I'.
  unfold total_mass, first_x, first_y in *. rewrite !(Rsum_perm _ _ _ HP) in I.
  destruct (acc_inv_unique _ _ _ _ _ _ I I') as (F1 & F2 & F3).
  pose proof (accum_fold_other l (accum0 b)) as K. pose proof (accum_fold_other l' (accum0 b)) as K'. cbn zeta in K, K'.
  set (c := fold_left accum_step l _) in *. set (c' := fold_left accum_step l' _) in *.
  destruct K as (?&?&?&?&?&?&?&?&?&?&?&?), K' as (?&?&?&?&?&?&?&?&?&?&?&?).
  destruct c, c'. unB. congruence.
Qed.

(** ** Integration (C52) *)
Lemma update_velocity_kinematic (b : Rbody) g d dt : b_type b = Kinematic -> update_velocity b g d dt = b.
Proof. intros E. unfold update_velocity. now rewrite E. Qed.
Lemma update_velocity_spec (b : Rbody) g d dt : b_type b <> Kinematic ->
  let c := update_velocity b g d dt in
  b_force c = rvec 0 0 /\ b_torque c = 0 /\
  b_vel c = rvec (d * vx (b_vel b) + (vx g + vx (b_force b) * b_minv b) * dt) (d * vy (b_vel b) + (vy g + vy (b_force b) * b_minv b) * dt) /\
  b_w c = d * b_w b + b_torque b * b_iinv b * dt /\
  b_tf c = b_tf b /\ b_pos c = b_pos b /\ b_angle c = b_angle b.
Proof.
  intros E. unfold update_velocity. destruct (b_type b); try congruence; unB; unfold rvec; repeat split; try (apply vec_eq; unT; rring); unR; rring.
Qed.
Lemma update_position_spec (b : Rbody) dt :
  let c := update_position b dt in
  b_vbias c = rvec 0 0 /\ b_wbias c = 0 /\ b_vel c = b_vel b /\ b_w c = b_w b /\
  b_angle c = b_angle b + (b_w b + b_wbias b) * dt /\
  local_to_world c (b_cog c) = rvec (vx (b_pos b) + (vx (b_vel b) + vx (b_vbias b)) * dt) (vy (b_pos b) + (vy (b_vel b) + vy (b_vbias b)) * dt) /\
  b_cog c = b_cog b.
Proof.
  cbn zeta. pose proof (coherent_cog _ (update_position_coherent b dt)) as C. rewrite C.
  unfold update_position, set_transform. unB. unfold rvec. repeat split.
Qed.
Lemma update_position_rest (b : Rbody) dt : coherent b ->
  b_vel b = rvec 0 0 -> b_vbias b = rvec 0 0 -> b_w b = 0 -> b_wbias b = 0 ->
  b_tf (update_position b dt) = b_tf b /\ b_pos (update_position b dt) = b_pos b /\ b_angle (update_position b dt) = b_angle b.
Proof.
  intros H E1 E2 E3 E4.
  assert (b_pos (update_position b dt) = b_pos b) as P.
  { unfold update_position, set_transform. unB. rewrite E1, E2. unfold rvec. apply vec_eq; unT; rring. }
  assert (b_angle (update_position b dt) = b_angle b) as A.
  { unfold update_position, set_transform. unB. rewrite E3, E4. unR. rring. }
  repeat split; auto. pose proof (update_position_coherent b dt) as C. unfold coherent in C. rewrite C, P, A, H.
  apply set_transform_frame. unfold update_position, set_transform. unB. reflexivity.
Qed.

Lemma velocity_local_world (b : Rbody) p : velocity_at_local b p = velocity_at_world b (local_to_world b p).
Proof. unfold velocity_at_local, velocity_at_world, local_to_world. apply vec_eq; unT; rring. Qed.

Lemma Reqb_inf_small z : (Z.abs z <= 1000)%Z -> Reqb (IZR z) RMaxFloat = false.
Proof.
  intros H. apply Reqb_false. unfold RMaxFloat. intros E. apply eq_IZR in E.
  assert (1000 < (2 ^ 53 - 1) * 2 ^ 971)%Z by reflexivity. lia.
Qed.
Lemma Reqb_inf_0 : Reqb 0 RMaxFloat = false. Proof. now apply Reqb_inf_small. Qed.
Lemma new_body_dynamic (m i : R) : m <> RMaxFloat -> b_type (new_body (N:=RNum) m i) = Dynamic.
Proof.
  intros Hm. apply Reqb_false in Hm.
  unfold new_body, set_angle, set_transform, set_moment, set_mass.
  set (b0 := Body _ _ _ _ _ _ _ _ _ _ _ _ _ _ _).
  assert (activate b0 = b0) as E.
  { unfold activate. destruct (btype_eqb _ _); reflexivity. }
  rewrite E. set (b1 := set_mass_fields b0 _ _ _ _).
  assert (activate b1 = b1) as E1.
  { unfold activate. destruct (btype_eqb _ _); reflexivity. }
  rewrite E1. set (b2 := set_mass_fields b1 _ _ _ _).
  assert (activate b2 = b2) as E2.
  { unfold activate. destruct (btype_eqb _ _); reflexivity. }
  rewrite E2. unfold b_type, b2, b1, b0. unB. unR. rewrite Reqb_inf_0, Hm. reflexivity.
Qed.

Definition desync_infos : list Rinfo := [@MassInfo RNum 1 1 1 (rvec 1 0)].
Lemma set_transform_desync :
  exists (b : @body RNum) (p q : @vec RNum), (exists m i ops, b = history m i ops) /\
  position (set_position (set_transform b q PI) p) <> p.
Proof.
  exists (history 1 1 [OpAccumulate desync_infos]), (rvec 0 0), (rvec 0 0).
  split; [now exists 1, 1, [OpAccumulate desync_infos]|].
  set (b := history _ _ _).
  assert (b_cog b = rvec 1 0 /\ b_angle b = 0) as [E A].
  { destruct (accumulate_position _ desync_infos (new_body_coherent 1 1)) as (_ & _ & HA).
    assert (b_type (new_body (N:=RNum) 1 1) = Dynamic) as HT.
    { apply new_body_dynamic. apply Reqb_false. now apply (Reqb_inf_small 1). }
    assert (Forall (fun s : @massinfo RNum => 0 <= mi_m s) desync_infos) as HF by (repeat constructor; cbn; lra).
    assert (0 < total_mass desync_infos) as HM by (cbn; lra).
    destruct (accumulate_mass _ _ HT HF HM) as (_ & Ex & Ey & _).
    split.
    - apply vec_eq; unfold b, history; cbn [fold_left bstep]; [rewrite Ex|rewrite Ey]; cbn; field.
    - unfold b, history. cbn [fold_left bstep]. rewrite HA. unfold new_body, set_angle, set_transform. unB. reflexivity. }
  intros H. apply (f_equal (@vx RNum)) in H. revert H. act (set_transform b (rvec 0 0) PI).
  unfold position, set_position. unB. unfold set_transform at 1. unB. rewrite Acg, Atf, Aan.
  unfold set_transform. unB. rewrite E, A. unfold rvec. unT. rewrite cos_PI, sin_PI, cos_0, sin_0. lra.
Qed.
