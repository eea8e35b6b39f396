From Coq Require Import ZArith Bool Reals List Lra Lia Psatz.
From Verif Require Import Num NumReal Vec BB BBProofs Transform TransformProofs Body BodySpec BodyProofs Solver SolverSpec SolverProofs.
Import ListNotations.
Local Open Scope R_scope.

(** ** Angular momentum *)
Definition am1 (b : Rbody) : R := b_moi b * b_w b + b_mass b * (vx (b_pos b) * vy (b_vel b) - vy (b_pos b) * vx (b_vel b)).
Lemma angmom_am1 L H : angmom L H = Rsum (fun i => am1 (H i)) L.
Proof. reflexivity. Qed.
Lemma kick_am1 (b : Rbody) r j : b_mass b * b_minv b = 1 -> b_moi b * b_iinv b = 1 ->
  am1 (kick b r j) - am1 b = (vx (b_pos b) + vx r) * vy j - (vy (b_pos b) + vy r) * vx j.
Proof.
  intros M I. unfold am1, kick. cbn. unR.
  transitivity ((b_moi b * b_iinv b) * (vx r * vy j - vy r * vx j) + (b_mass b * b_minv b) * (vx (b_pos b) * vy j - vy (b_pos b) * vx j)); [ring|].
  rewrite M, I. ring.
Qed.
Lemma imp_angmom L H a b r1 r2 (j : @vec RNum) : NoDup L -> Din L a b -> movable L H -> rotatable L H ->
  angmom L (apply_impulses H a b r1 r2 j) = angmom L H +
    (((vx (b_pos (H b)) + vx r2) - (vx (b_pos (H a)) + vx r1)) * vy j - ((vy (b_pos (H b)) + vy r2) - (vy (b_pos (H a)) + vy r1)) * vx j).
Proof.
  intros ND [Ha Hb] M I. rewrite !angmom_am1. unfold apply_impulses. cbv zeta.
  pose proof (two_upd am1 H b (kick (H b) r2 j) a (fun H => kick (H a) r1 (V (- vx j)%num (- vy j)%num)) L ND Hb Ha) as E.
  cbv zeta beta in E. rewrite E. clear E. rewrite kick_am1 by auto.
  set (H1 := upd H b _).
  assert (E1 : b_mass (H1 a) = b_mass (H a) /\ b_minv (H1 a) = b_minv (H a) /\ b_moi (H1 a) = b_moi (H a) /\ b_iinv (H1 a) = b_iinv (H a) /\ b_pos (H1 a) = b_pos (H a)).
  { unfold H1, upd. destruct (Nat.eqb_spec a b); subst; cbn; repeat split. }
  destruct E1 as (E1 & E2 & E3 & E4 & E5).
  rewrite kick_am1; [|rewrite E1, E2; auto|rewrite E3, E4; auto]. rewrite E5. cbn [vx vy]. unR. ring.
Qed.
Definition spin (L : list nat) (H : Rheap) : R := Rsum (fun i => b_moi (H i) * b_w (H i)) L.
Lemma setw_angmom L (H : Rheap) i w k (w' : Rheap -> R) : NoDup L -> In i L -> In k L ->
  let H1 := upd H i (set_w (H i) w) in
  angmom L (upd H1 k (set_w (H1 k) (w' H1))) = angmom L H + b_moi (H i) * (w - b_w (H i)) + b_moi (H k) * (w' H1 - b_w (H1 k)).
Proof.
  intros ND Hi Hk H1. rewrite !angmom_am1.
  pose proof (two_upd am1 H i (set_w (H i) w) k (fun H1 => set_w (H1 k) (w' H1)) L ND Hi Hk) as E. cbv zeta beta in E.
  unfold H1. rewrite E. clear E. fold H1.
  assert (E3 : b_moi (H1 k) = b_moi (H k)) by (unfold H1, upd; destruct (Nat.eqb_spec k i); subst; reflexivity).
  unfold am1, set_w. cbn. rewrite E3. ring.
Qed.
Lemma torque_angmom L H a b j : NoDup L -> Din L a b -> rotatable L H -> angmom L (apply_torque H a b j) = angmom L H.
Proof.
  intros ND [Ha Hb] I. unfold apply_torque. cbv zeta.
  pose proof (setw_angmom L H a (b_w (H a) - j * b_iinv (H a)) b (fun H => b_w (H b) + j * b_iinv (H b)) ND Ha Hb) as E.
  cbv zeta beta in E. etransitivity; [exact E|]. clear E. pose proof (I a Ha) as Ia. pose proof (I b Hb) as Ib.
  set (H1 := upd H a (set_w (H a) _)).
  assert (E3 : b_iinv (H1 b) = b_iinv (H b)) by (unfold H1, upd; destruct (Nat.eqb_spec b a); subst; reflexivity).
  cbv beta. change (b_iinv (upd _ _ _ b)) with (b_iinv (H1 b)). rewrite E3. unR. transitivity (angmom L H - j * (b_moi (H a) * b_iinv (H a)) + j * (b_moi (H b) * b_iinv (H b))); [ring|]. rewrite Ia, Ib. ring.
Qed.
Lemma damp_torque (H : Rheap) a b j i : apply_damp H a b j i = apply_torque H a b (- j) i.
Proof.
  unfold apply_damp, apply_torque, upd, set_w, set_vel_fields. unR. cbv zeta.
  destruct (Nat.eqb_spec i b), (Nat.eqb_spec b a), (Nat.eqb_spec i a); subst; cbn; f_equal; try ring; congruence.
Qed.
Lemma damp_angmom L H a b j : NoDup L -> Din L a b -> rotatable L H -> angmom L (apply_damp H a b j) = angmom L H.
Proof.
  intros ND D I. rewrite <- (torque_angmom L H a b (- j) ND D I). unfold angmom. apply Rsum_ext. intros i _. now rewrite damp_torque.
Qed.

(** Rotary joints. *)
Lemma rotary_prestep_angmom L (H : Rheap) c dt k : NoDup L -> Din L (c_a c) (c_b c) -> rotatable L H -> rotary k ->
  angmom L (fst (joint_prestep H c dt k)) = angmom L H.
Proof. intros ND D I R. destruct k; cbn in R; try tauto; cbn; try reflexivity. now apply torque_angmom. Qed.
Lemma rotary_cached_angmom L (H : Rheap) c dt k : NoDup L -> Din L (c_a c) (c_b c) -> rotatable L H -> rotary k ->
  angmom L (joint_cached H c dt k) = angmom L H.
Proof. intros ND D I R. destruct k; cbn in R; try tauto; cbn; try reflexivity; now apply torque_angmom. Qed.
Lemma rotary_apply_angmom L (H : Rheap) c dt k : NoDup L -> Din L (c_a c) (c_b c) -> rotatable L H -> rotary k ->
  angmom L (fst (joint_apply H c dt k)) = angmom L H.
Proof.
  intros ND D I R. destruct k; cbn in R; try tauto; cbn.
  - now apply torque_angmom.
  - unfold rlimit_apply. destruct neqb; [reflexivity|]. cbn. now apply torque_angmom.
  - unfold ratchet_apply. destruct neqb; [reflexivity|]. cbn. now apply torque_angmom.
  - now apply damp_angmom.
Qed.

(** Central joints: the impulse lies on the line through both anchors. *)
Definition jn (k : @jclass RNum) : @vec RNum := match k with JPin p => pn_n p | JSlide p => sl_n p | JSpring p => sp_n p | _ => vzero end.
Definition jr1 (k : @jclass RNum) : @vec RNum := match k with JPin p => pn_r1 p | JSlide p => sl_r1 p | JSpring p => sp_r1 p | _ => vzero end.
Definition jr2 (k : @jclass RNum) : @vec RNum := match k with JPin p => pn_r2 p | JSlide p => sl_r2 p | JSpring p => sp_r2 p | _ => vzero end.
Definition lined (H : Rheap) (c : Rcstr) (k : @jclass RNum) : Prop :=
  is_central k /\
  ((vx (b_pos (H (c_b c))) + vx (jr2 k)) - (vx (b_pos (H (c_a c))) + vx (jr1 k))) * vy (jn k) -
  ((vy (b_pos (H (c_b c))) + vy (jr2 k)) - (vy (b_pos (H (c_a c))) + vy (jr1 k))) * vx (jn k) = 0.
Lemma lined_prestep (H : Rheap) c dt k : is_central k -> lined H c (snd (joint_prestep H c dt k)).
Proof.
  intros Ce. destruct k; cbn in Ce; try tauto; split; try exact I.
  - cbn. set (r1 := anchor_arm _ _). set (r2 := anchor_arm _ _).
    destruct negb; unfold vscale, vadd, vsub; cbn; unR; ring.
  - cbn. unfold slide_prestep. set (r1 := anchor_arm _ _). set (r2 := anchor_arm _ _). cbv zeta.
    destruct nltb; [|destruct nltb]; cbn; unfold vunit, vscale, vneg, vadd, vsub, vzero; cbn; unR; ring.
  - cbn. set (r1 := anchor_arm _ _). set (r2 := anchor_arm _ _).
    destruct negb; unfold vscale, vadd, vsub; cbn; unR; ring.
Qed.
Lemma lined_frame (H H' : Rheap) c k : (forall i, b_pos (H' i) = b_pos (H i)) -> lined H c k -> lined H' c k.
Proof. intros F [A B]. split; [exact A|]. now rewrite !F. Qed.
Lemma lined_apply (H : Rheap) c dt k : lined H c k -> lined (fst (joint_apply H c dt k)) c (snd (joint_apply H c dt k)).
Proof.
  intros HL. assert (F : forall i, b_pos (fst (joint_apply H c dt k) i) = b_pos (H i)).
  { pose proof (joint_apply_Q hframe Dall hframe_refl (fun H a b r1 r2 j _ => imp_frame H a b r1 r2 j) (fun H a b j _ => torque_frame H a b j)
      (fun H a b j r _ => gear_frame H a b j r) (fun H a b j _ => damp_frame H a b j) H c dt k I) as Fr.
    intros i. apply (Fr i). }
  eapply lined_frame; [exact F|]. destruct HL as [A B]. destruct k; cbn in A; try tauto; split; try exact I; try exact B.
  - cbn. unfold slide_apply. destruct veqb; cbn; exact I.
  - cbn. unfold slide_apply. destruct veqb; cbn; exact B.
Qed.
Lemma lined_imp L (H : Rheap) c k s : NoDup L -> Din L (c_a c) (c_b c) -> movable L H -> rotatable L H -> lined H c k ->
  angmom L (apply_impulses H (c_a c) (c_b c) (jr1 k) (jr2 k) (vscale (jn k) s)) = angmom L H.
Proof.
  intros ND D M I [_ B]. rewrite imp_angmom by auto. cbn. unR.
  match goal with |- _ + ?e = _ => assert (e = 0); [|lra] end.
  rewrite <- (Rmult_0_l s), <- B. ring.
Qed.
Lemma central_cached L (H : Rheap) c dt k : NoDup L -> Din L (c_a c) (c_b c) -> movable L H -> rotatable L H -> lined H c k ->
  angmom L (joint_cached H c dt k) = angmom L H.
Proof.
  intros ND D M I B. pose proof (fun s => lined_imp L H c k s ND D M I B) as E. destruct B as [A _].
  destruct k; cbn in A; try tauto; cbn; first [reflexivity | apply E].
Qed.
Lemma central_apply L (H : Rheap) c dt k : NoDup L -> Din L (c_a c) (c_b c) -> movable L H -> rotatable L H -> lined H c k ->
  angmom L (fst (joint_apply H c dt k)) = angmom L H.
Proof.
  intros ND D M I B. pose proof (fun s => lined_imp L H c k s ND D M I B) as E. destruct B as [A _].
  destruct k; cbn in A; try tauto; cbn; try apply E. unfold slide_apply. destruct veqb; [reflexivity|]. apply E.
Qed.
(** A spring's PreStep also pushes. *)
Lemma central_prestep L (H : Rheap) c dt k : NoDup L -> Din L (c_a c) (c_b c) -> movable L H -> rotatable L H -> is_central k ->
  angmom L (fst (joint_prestep H c dt k)) = angmom L H.
Proof.
  intros ND D M I Ce. pose proof (lined_prestep H c dt k Ce) as B. pose proof (fun s => lined_imp L H c _ s ND D M I B) as E.
  destruct k; cbn in Ce; try tauto; cbn in *; try reflexivity. apply E.
Qed.
Lemma joint_apply_frame (H : Rheap) c dt k : hframe H (fst (joint_apply H c dt k)).
Proof.
  exact (joint_apply_Q hframe Dall hframe_refl (fun H a b r1 r2 j _ => imp_frame H a b r1 r2 j) (fun H a b j _ => torque_frame H a b j)
      (fun H a b j r _ => gear_frame H a b j r) (fun H a b j _ => damp_frame H a b j) H c dt k I).
Qed.
Lemma joint_prestep_frame (H : Rheap) c dt k : hframe H (fst (joint_prestep H c dt k)).
Proof.
  exact (joint_prestep_Q hframe Dall hframe_refl (fun H a b r1 r2 j _ => imp_frame H a b r1 r2 j) (fun H a b j _ => torque_frame H a b j) H c dt k I).
Qed.
Lemma joint_cached_frame (H : Rheap) c dt k : hframe H (joint_cached H c dt k).
Proof.
  exact (joint_cached_Q hframe Dall hframe_refl (fun H a b r1 r2 j _ => imp_frame H a b r1 r2 j) (fun H a b j _ => torque_frame H a b j)
      (fun H a b j r _ => gear_frame H a b j r) H c dt k I).
Qed.
Lemma rotatable_frame L (H H' : Rheap) : hframe H H' -> rotatable L H -> rotatable L H'.
Proof. intros F M i Hi. destruct (F i) as (_ & _ & -> & -> & _). now apply M. Qed.
Lemma central_iter L n : forall (H : Rheap) c dt k, NoDup L -> Din L (c_a c) (c_b c) -> movable L H -> rotatable L H -> lined H c k ->
  angmom L (fst (joint_iter n c dt (H, k))) = angmom L H.
Proof.
  induction n as [|n IH]; intros H c dt k ND D M I B; [reflexivity|]. cbn [joint_iter fst snd].
  rewrite <- (central_apply L H c dt k) by auto. pose proof (joint_apply_frame H c dt k) as F. pose proof (lined_apply H c dt k B) as B'.
  destruct (joint_apply H c dt k) as [H' k']. cbn in *. apply IH; auto; [eapply movable_frame|eapply rotatable_frame]; eauto.
Qed.
Lemma rotary_iter L n : forall (H : Rheap) c dt k, NoDup L -> Din L (c_a c) (c_b c) -> rotatable L H -> rotary k ->
  angmom L (fst (joint_iter n c dt (H, k))) = angmom L H.
Proof.
  induction n as [|n IH]; intros H c dt k ND D I B; [reflexivity|]. cbn [joint_iter fst snd].
  rewrite <- (rotary_apply_angmom L H c dt k) by auto. pose proof (joint_apply_frame H c dt k) as F.
  assert (B' : rotary (snd (joint_apply H c dt k))).
  { destruct k; cbn in B; try tauto; cbn; unfold rlimit_apply, ratchet_apply; try destruct neqb; exact Logic.I. }
  destruct (joint_apply H c dt k) as [H' k']. cbn in *. apply IH; auto. eapply rotatable_frame; eauto.
Qed.
Lemma joint_step_angmom L n (H : Rheap) c dt dtcoef k : NoDup L -> Din L (c_a c) (c_b c) -> movable L H -> rotatable L H ->
  is_central k \/ rotary k -> angmom L (joint_step n c dt dtcoef H k) = angmom L H.
Proof.
  intros ND D M I K. unfold joint_step. pose proof (joint_prestep_frame H c dt k) as F1.
  destruct K as [K|K].
  - rewrite <- (central_prestep L H c dt k) by auto. pose proof (lined_prestep H c dt k K) as B.
    destruct (joint_prestep H c dt k) as [H1 k1]. cbn in *.
    pose proof (movable_frame L _ _ F1 M) as M1. pose proof (rotatable_frame L _ _ F1 I) as I1.
    assert (B1 : lined H1 c k1) by (eapply lined_frame; [|exact B]; intros i; apply (F1 i)).
    pose proof (joint_cached_frame H1 c dtcoef k1) as F2.
    rewrite <- (central_cached L H1 c dtcoef k1) by auto.
    apply central_iter; auto; [eapply movable_frame; eauto|eapply rotatable_frame; eauto|].
    eapply lined_frame; [|exact B1]. intros i. apply (F2 i).
  - rewrite <- (rotary_prestep_angmom L H c dt k) by auto.
    assert (K1 : rotary (snd (joint_prestep H c dt k))) by (destruct k; cbn in K; try tauto; cbn; exact Logic.I || (unfold ratchet_prestep; destruct nltb; exact Logic.I)).
    destruct (joint_prestep H c dt k) as [H1 k1]. cbn in *. pose proof (rotatable_frame L _ _ F1 I) as I1.
    pose proof (joint_cached_frame H1 c dtcoef k1) as F2.
    rewrite <- (rotary_cached_angmom L H1 c dtcoef k1) by auto. apply rotary_iter; auto. eapply rotatable_frame; eauto.
Qed.
(** Gears trade angular momentum by the ratio: a spun up by s/ratio per s taken from b. *)
Lemma gear_weighted (H : Rheap) a b j r : a <> b -> r <> 0 ->
  b_moi (H a) * b_iinv (H a) = 1 -> b_moi (H b) * b_iinv (H b) = 1 ->
  let H' := apply_gear H a b j (1 / r) in
  r * (b_moi (H' a) * b_w (H' a)) + b_moi (H' b) * b_w (H' b) = r * (b_moi (H a) * b_w (H a)) + b_moi (H b) * b_w (H b).
Proof.
  intros Hab Hr Ia Ib. unfold apply_gear, upd. cbv zeta. rewrite !Nat.eqb_refl.
  destruct (Nat.eqb_spec a b); [tauto|]. destruct (Nat.eqb_spec b a); [congruence|]. cbn. unR.
  transitivity (r * (b_moi (H a) * b_w (H a)) - j * (b_moi (H a) * b_iinv (H a)) * (r * (1 / r)) + b_moi (H b) * b_w (H b) + j * (b_moi (H b) * b_iinv (H b))); [field; auto|].
  rewrite Ia, Ib. field. auto.
Qed.
