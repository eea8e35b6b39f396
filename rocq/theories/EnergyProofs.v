(** Proofs for C62. *)
From Coq Require Import ZArith Bool Reals List Lra Lia Psatz.
From Verif Require Import Num NumReal Vec VecReal BB Transform Body BodySpec BodyProofs Solver SolverSpec SolverProofs SolverProofs2 SolverProofs3 SolverProofs5 Joints JointsSpec JointsProofs EnergySpec.
Import ListNotations.
Local Open Scope R_scope.

(** ** What an impulse does to the energy *)
Definition push (b : Rbody) (r j : Rvec) : R := vdot j (vadd (b_vel b) (vscale (vperp r) (b_w b))) + / 2 * (b_minv b * vdot j j + b_iinv b * (vcross r j * vcross r j)).
Lemma kinetic_kick (b : Rbody) (r j : Rvec) : weighed b -> kinetic (kick b r j) = kinetic b + push b r j.
Proof.
  intros [M I]. unfold kinetic, push, kick. cbn [set_vel_fields b_vel b_w b_mass b_moi b_minv b_iinv vx vy]. unV. cbn [vx vy]. unR.
  destruct b; cbn in *. destruct b_vel as [p q]. cbn in *. set (z := vx r * vy j - vy r * vx j).
  replace (vx j * (p + - vy r * b_w) + vy j * (q + vx r * b_w)) with (vx j * p + vy j * q + z * b_w) by (unfold z; ring). clearbody z. set (x := vx j). set (y := vy j). clearbody x y. clear r j.
  assert (X : b_mass * ((p + x * b_minv) * (p + x * b_minv) + (q + y * b_minv) * (q + y * b_minv)) = b_mass * (p * p + q * q) + 2 * (x * p + y * q) + b_minv * (x * x + y * y)).
  { destruct M as [M|[-> M]].
    - replace (b_mass * ((p + x * b_minv) * (p + x * b_minv) + (q + y * b_minv) * (q + y * b_minv))) with (b_mass * (p * p + q * q) + (b_mass * b_minv) * (2 * (x * p + y * q) + b_minv * (x * x + y * y))) by ring. rewrite M. ring.
    - injection M as -> ->. unR. ring. }
  assert (Y : b_moi * ((b_w + b_iinv * z) * (b_w + b_iinv * z)) = b_moi * (b_w * b_w) + 2 * (z * b_w) + b_iinv * (z * z)).
  { destruct I as [I|[-> ->]]; [|ring]. replace (b_moi * ((b_w + b_iinv * z) * (b_w + b_iinv * z))) with (b_moi * (b_w * b_w) + (b_moi * b_iinv) * (2 * (z * b_w) + b_iinv * (z * z))) by ring. rewrite I. ring. }
  rewrite X, Y. lra.
Qed.
Lemma kinetic_w (b : Rbody) (w t : R) : weighed b -> w = b_w b + t * b_iinv b -> kinetic (set_w b w) = kinetic b + t * b_w b + / 2 * (t * t * b_iinv b).
Proof.
  intros [_ I] ->. unfold kinetic, set_w. cbn [set_vel_fields b_vel b_w b_mass b_moi b_minv b_iinv]. destruct b; cbn in *.
  assert (Y : b_moi * ((b_w + t * b_iinv) * (b_w + t * b_iinv)) = b_moi * (b_w * b_w) + 2 * (t * b_w) + t * t * b_iinv).
  { destruct I as [I|[-> ->]]; [|ring]. replace (b_moi * ((b_w + t * b_iinv) * (b_w + t * b_iinv))) with (b_moi * (b_w * b_w) + (b_moi * b_iinv) * (2 * (t * b_w) + t * t * b_iinv)) by ring. rewrite I. ring. }
  lra.
Qed.
Lemma kick_weighed b r j : weighed b -> weighed (kick b r j).
Proof.
  intros [M I]. split; [destruct M as [M|[M1 M2]]|destruct I as [I|[I1 I2]]]; [left; exact M| |left; exact I|]; right; cbn; rewrite ?M1, ?M2, ?I1, ?I2; (split; [reflexivity|]); unV; cbn; unR; [f_equal; ring|ring].
Qed.
Lemma set_w_weighed b (w t : R) : weighed b -> w = b_w b + t * b_iinv b -> weighed (set_w b w).
Proof. intros [M I] ->. split; [exact M|]. destruct I as [I|[I1 I2]]; [left; exact I|right]. cbn. rewrite I1, I2. split; [reflexivity|]. unR. ring. Qed.
Definition all_weighed (H : Rheap) : Prop := forall i, weighed (H i).
Lemma upd_weighed (H : Rheap) i b : all_weighed H -> weighed b -> all_weighed (upd H i b).
Proof. intros A W k. unfold upd. destruct (Nat.eqb k i); auto. Qed.
Lemma upd_other (H : Rheap) i b k : k <> i -> upd H i b k = H k.
Proof. intros X. unfold upd. apply Nat.eqb_neq in X. now rewrite X. Qed.
Definition work (A B : Rbody) (r1 r2 j : Rvec) : R :=
  (b_minv A + b_minv B) * vdot j j + b_iinv A * (vcross r1 j * vcross r1 j) + b_iinv B * (vcross r2 j * vcross r2 j).
Lemma energy_imp L (H : Rheap) a b r1 r2 j : all_weighed H -> NoDup L -> In a L -> In b L -> a <> b ->
  energy L (apply_impulses H a b r1 r2 j) = energy L H + vdot j (relative_velocity (H a) (H b) r1 r2) + / 2 * work (H a) (H b) r1 r2 j.
Proof.
  intros W ND Ia Ib Ne. unfold energy, apply_impulses. cbv zeta.
  pose proof (two_upd kinetic H b (kick (H b) r2 j) a (fun H => kick (H a) r1 (V (- vx j)%num (- vy j)%num)) L ND Ib Ia) as E. cbv zeta beta in E. rewrite E. clear E.
  rewrite upd_other by auto. rewrite !kinetic_kick by auto. unfold push, work. unV. cbn. unR. ring.
Qed.
Lemma imp_weighed (H : Rheap) a b r1 r2 j : all_weighed H -> all_weighed (apply_impulses H a b r1 r2 j).
Proof. intros W. unfold apply_impulses. cbv zeta. apply upd_weighed; [apply upd_weighed; auto; apply kick_weighed, W|]. apply kick_weighed, upd_weighed; auto. apply kick_weighed, W. Qed.
Lemma energy_gear L (H : Rheap) a b (j r : R) : all_weighed H -> NoDup L -> In a L -> In b L -> a <> b ->
  energy L (apply_gear (N := RNum) H a b j r) = energy L H + j * (b_w (H b) - r * b_w (H a)) + / 2 * (j * j * (r * r * b_iinv (H a) + b_iinv (H b))).
Proof.
  intros W ND Ia Ib Ne. unfold energy, apply_gear. cbv zeta.
  pose proof (two_upd kinetic H a (set_w (H a) (b_w (H a) - j * b_iinv (H a) * r)%num) b (fun H => set_w (H b) (b_w (H b) + j * b_iinv (H b))%num) L ND Ia Ib) as E. cbv zeta beta in E. rewrite E. clear E.
  rewrite upd_other by auto. rewrite (kinetic_w (H b) _ j) by (auto; unR; reflexivity). rewrite (kinetic_w (H a) _ (- (j * r))) by (auto; unR; ring). unR. ring.
Qed.
Lemma gear_weighed (H : Rheap) a b (j r : R) : all_weighed H -> all_weighed (apply_gear (N := RNum) H a b j r).
Proof.
  intros W. unfold apply_gear. cbv zeta. assert (W1 : all_weighed (upd H a (set_w (H a) (b_w (H a) - j * b_iinv (H a) * r)%num))).
  { apply upd_weighed; auto. apply (set_w_weighed _ _ (- (j * r))); auto. unR. ring. }
  apply upd_weighed; auto. apply (set_w_weighed _ _ j); auto.
Qed.
Lemma torque_is_gear (H : Rheap) a b (j : R) : apply_torque (N := RNum) H a b j = apply_gear (N := RNum) H a b j 1.
Proof. unfold apply_torque, apply_gear. cbv zeta. unR. replace (b_w (H a) - j * b_iinv (H a) * 1) with (b_w (H a) - j * b_iinv (H a)) by ring. reflexivity. Qed.
Lemma damp_is_gear (H : Rheap) a b (j : R) : apply_damp (N := RNum) H a b j = apply_gear (N := RNum) H a b (- j) 1.
Proof.
  unfold apply_damp, apply_gear. cbv zeta. unR. replace (b_w (H a) - - j * b_iinv (H a) * 1) with (b_w (H a) + j * b_iinv (H a)) by ring. set (H1 := upd H a _). clearbody H1.
  replace (b_w (H1 b) + - j * b_iinv (H1 b)) with (b_w (H1 b) - j * b_iinv (H1 b)) by ring. reflexivity.
Qed.
(** A part of the impulse that stops the relative motion takes energy away. *)
Lemma spend (u k m j l : R) : 0 < k -> m * k = 1 -> 0 <= l <= 1 -> j = l * (- u * m) -> j * u + / 2 * (j * j * k) <= 0.
Proof.
  intros K M [L0 L1] ->. assert (P : 0 < m) by (apply (Rmult_lt_reg_r k); lra).
  replace (l * (- u * m) * u + / 2 * (l * (- u * m) * (l * (- u * m)) * k)) with (- (m * (u * u)) * (l - l * l / 2 * (m * k))) by field. rewrite M.
  assert (A : 0 <= m * (u * u)) by (apply Rmult_le_pos; nra). assert (Z : 0 <= l * (1 - l)) by (apply Rmult_le_pos; lra).
  assert (B : 0 <= l - l * l / 2 * 1) by lra. pose proof (Rmult_le_pos _ _ A B). lra.
Qed.
Lemma clamp_part (p d lo hi : R) : lo <= p <= hi -> exists l, 0 <= l <= 1 /\ nclamp (N := RNum) (p + d)%R lo hi - p = l * d.
Proof.
  intros [A B]. rewrite RnclampE by lra. destruct (Rleb (p + d) lo) eqn:E1.
  - apply Rleb_true in E1. destruct (Req_dec d 0) as [->|Nd]; [exists 1; split; lra|]. assert (D : d < 0) by lra. exists ((lo - p) / d). split; [|field; lra]. split.
    + apply Rmult_le_reg_r with (- d); [lra|]. replace ((lo - p) / d * - d) with (p - lo) by (field; lra). lra.
    + apply Rmult_le_reg_r with (- d); [lra|]. replace ((lo - p) / d * - d) with (p - lo) by (field; lra). lra.
  - destruct (Rleb hi (p + d)) eqn:E2.
    + apply Rleb_true in E2. destruct (Req_dec d 0) as [->|Nd]; [exists 1; split; lra|]. assert (D : 0 < d) by lra. exists ((hi - p) / d). split; [|field; lra]. split.
      * apply Rmult_le_reg_r with d; [lra|]. replace ((hi - p) / d * d) with (hi - p) by (field; lra). lra.
      * apply Rmult_le_reg_r with d; [lra|]. replace ((hi - p) / d * d) with (hi - p) by (field; lra). lra.
    + exists 1. split; lra.
Qed.
Lemma max_part (p d : R) : 0 <= p -> exists l, 0 <= l <= 1 /\ nmax (Num := RNum) (p + d)%R 0 - p = l * d.
Proof.
  intros P. change (nmax (Num := RNum) (p + d)%R 0) with (Rmax (p + d) 0). unfold Rmax. destruct (Rle_dec (p + d) 0) as [E|E]; [|exists 1; split; lra].
  destruct (Req_dec d 0) as [->|Nd]; [exists 1; split; lra|]. assert (D : d < 0) by lra. exists (- p / d). split; [|field; lra]. split; apply Rmult_le_reg_r with (- d); try lra; replace (- p / d * - d) with p by (field; lra); lra.
Qed.

(** ** Joints *)
Definition passive (H : Rheap) (c : Rcstr) (dt : R) (k : @jclass RNum) : Prop :=
  let a := c_a c in let b := c_b c in let m := c_maxforce c * dt in
  match k with
  | JPivot p => pv_bias p = vzero /\ pv_k p = ktensor (H a) (H b) (pv_r1 p) (pv_r2 p) /\ pushable H a b
  | JPin p => pn_bias p = 0 /\ pn_nmass p * kscalar (H a) (H b) (pn_r1 p) (pn_r2 p) (pn_n p) = 1 /\ vdot (pn_n p) (pn_n p) <= 1 /\ pushable H a b /\ - m <= pn_j p <= m
  | JSlide p => sl_n p = vzero \/
      sl_bias p = 0 /\ sl_nmass p * kscalar (H a) (H b) (sl_r1 p) (sl_r2 p) (sl_n p) = 1 /\ vdot (sl_n p) (sl_n p) <= 1 /\ pushable H a b /\ - m <= sl_j p <= 0
  | JGroove _ => False
  | JGear p => ge_bias p = 0 /\ ge_ratio p * ge_ratioinv p = 1 /\ ge_isum p * (b_iinv (H a) * ge_ratioinv p + ge_ratio p * b_iinv (H b)) = 1 /\ turnable H a b /\ - m <= ge_j p <= m
  | JMotor p => mo_rate p = 0 /\ mo_isum p * (b_iinv (H a) + b_iinv (H b)) = 1 /\ turnable H a b /\ - m <= mo_j p <= m
  | JRLimit p => rl_bias p = 0
  | JRatchet p => ra_bias p = 0
  | JSpring p => sp_target p = 0 /\ 0 <= sp_vcoef p <= 1 /\ sp_nmass p * kscalar (H a) (H b) (sp_r1 p) (sp_r2 p) (sp_n p) = 1 /\ vdot (sp_n p) (sp_n p) <= 1 /\ pushable H a b
  | JRSpring p => rs_target p = 0 /\ 0 <= rs_wcoef p <= 1 /\ rs_isum p * (b_iinv (H a) + b_iinv (H b)) = 1 /\ turnable H a b
  end.
Lemma pushable_pair H a b : pushable H a b -> movable_pair (H a) (H b).
Proof. intros (_ & X). unfold movable_pair. tauto. Qed.
Lemma along L (H : Rheap) a b r1 r2 (n : Rvec) (u m x l : R) : all_weighed H -> NoDup L -> In a L -> In b L -> pushable H a b -> m * kscalar (H a) (H b) r1 r2 n = 1 -> vdot n n <= 1 ->
  u = normal_relative_velocity (H a) (H b) r1 r2 n -> 0 <= l <= 1 -> x = l * (- u * m) -> energy L (apply_impulses H a b r1 r2 (vscale (N := RNum) n x)) <= energy L H.
Proof.
  intros W ND Ia Ib P M U Eu Hl Ex. rewrite energy_imp; auto; [|apply P]. pose proof (kscalar_pos _ _ r1 r2 n (pushable_pair _ _ _ P)) as K.
  pose proof (spend u _ m x l K M Hl Ex) as S. rewrite Eu in S. unfold normal_relative_velocity in S.
  destruct P as (_ & P1 & P2 & _). set (v := relative_velocity (H a) (H b) r1 r2) in *. clearbody v. clear Ex M Eu Hl.
  assert (E1 : vdot (vscale n x) v = x * vdot v n) by (unV; cbn; unR; ring). rewrite E1.
  assert (E2 : work (H a) (H b) r1 r2 (vscale (N := RNum) n x) <= x * x * kscalar (H a) (H b) r1 r2 n).
  { unfold work, kscalar, kscalar_body. replace (vdot (vscale n x) (vscale n x)) with (x * x * vdot n n) by (unV; cbn; unR; ring). 
    replace (vcross r1 (vscale n x)) with (x * vcross r1 n) by (unV; cbn; unR; ring). replace (vcross r2 (vscale n x)) with (x * vcross r2 n) by (unV; cbn; unR; ring). unR.
    set (d := vdot n n) in *. assert (0 <= (b_minv (H a) + b_minv (H b)) * (x * x) * (1 - d)) by (apply Rmult_le_pos; [apply Rmult_le_pos; nra|lra]). nra. }
  lra.
Qed.
Lemma turned L (H : Rheap) a b (u r k m j l : R) : all_weighed H -> NoDup L -> In a L -> In b L -> a <> b -> u = b_w (H b) - r * b_w (H a) -> k = r * r * b_iinv (H a) + b_iinv (H b) -> 0 < k -> m * k = 1 ->
  0 <= l <= 1 -> j = l * (- u * m) -> energy L (apply_gear (N := RNum) H a b j r) <= energy L H.
Proof.
  intros W ND Ia Ib Ne Eu Ek K M Hl Ej. rewrite energy_gear; auto. pose proof (spend u k m j l K M Hl Ej) as S. rewrite Eu, Ek in S. lra.
Qed.
Definition free (c : Rcstr) (dt : R) (k : @jclass RNum) : Prop := match k with JPivot p => vmag (pv_j p) < c_maxforce c * dt | _ => True end.
Lemma joint_loses L (H : Rheap) c dt k : all_weighed H -> NoDup L -> In (c_a c) L -> In (c_b c) L -> 0 <= c_maxforce c * dt -> passive H c dt k -> free c dt (snd (joint_apply H c dt k)) ->
  energy L (fst (joint_apply H c dt k)) <= energy L H.
Proof.
  intros W ND Ia Ib M P F. destruct k; cbn [passive joint_apply] in *.
  - destruct P as (B & K & Q). destruct (pivot_apply H c dt p) as [H' p'] eqn:E. cbn [fst snd free] in *. unfold pivot_apply in E. injection E as <- <-. cbn [pv_j] in F.
    pose proof (clampmag_unclamped _ _ M F) as E. unR. rewrite E. rewrite add_sub. clear E F. rewrite B, K.
    pose proof (ktensor_exact H (c_a c) (c_b c) (pv_r1 p) (pv_r2 p) vzero (proj1 Q) (pushable_pair _ _ _ Q)) as X. cbv zeta in X.
    set (j := mat2_transform _ _) in *. rewrite energy_imp; auto; [|apply Q]. destruct (relvel_after H (c_a c) (c_b c) (pv_r1 p) (pv_r2 p) j (proj1 Q)) as [X1 X2]. cbv zeta in X1, X2. rewrite X in X1, X2. clear X. cbn [vzero vx vy] in X1, X2.
    clearbody j. set (v := relative_velocity _ _ _ _) in *. clearbody v. destruct Q as (_ & Q1 & Q2 & Q3 & Q4 & _). unfold work. unV. cbn. unR.
    set (ma := b_minv (H (c_a c))) in *. set (mb := b_minv (H (c_b c))) in *. set (ia := b_iinv (H (c_a c))) in *. set (ib := b_iinv (H (c_b c))) in *. clearbody ma mb ia ib.
    set (x1 := vx (pv_r1 p)) in *. set (y1 := vy (pv_r1 p)) in *. set (x2 := vx (pv_r2 p)) in *. set (y2 := vy (pv_r2 p)) in *. clearbody x1 y1 x2 y2. set (x := vx j) in *. set (y := vy j) in *. clearbody x y.
    assert (Ev : x * vx v + y * vy v = - ((ma + mb) * (x * x + y * y) + ia * ((x1 * y - y1 * x) * (x1 * y - y1 * x)) + ib * ((x2 * y - y2 * x) * (x2 * y - y2 * x)))).
    { assert (Vx : vx v = - ((ma + mb) * x + ia * (y1 * y1 * x - x1 * y1 * y) + ib * (y2 * y2 * x - x2 * y2 * y))) by lra.
      assert (Vy : vy v = - ((ma + mb) * y + ia * (x1 * x1 * y - x1 * y1 * x) + ib * (x2 * x2 * y - x2 * y2 * x))) by lra. rewrite Vx, Vy. ring. }
    rewrite Ev. assert (0 <= (ma + mb) * (x * x + y * y)) by (apply Rmult_le_pos; nra). assert (0 <= ia * ((x1 * y - y1 * x) * (x1 * y - y1 * x))) by (apply Rmult_le_pos; [lra|exact (Rle_0_sqr (x1 * y - y1 * x))]).
    assert (0 <= ib * ((x2 * y - y2 * x) * (x2 * y - y2 * x))) by (apply Rmult_le_pos; [lra|exact (Rle_0_sqr (x2 * y - y2 * x))]). lra.
  - destruct P as (B & K & U & Q & J). unfold pin_apply. cbv zeta. cbn [fst]. rewrite B. unR.
    set (u := normal_relative_velocity _ _ _ _ _). destruct (clamp_part (pn_j p) ((0 - u) * pn_nmass p) _ _ J) as (l & Hl & E). rewrite E. eapply along with (l := l); eauto. fold u. ring.
  - unfold slide_apply. cbv zeta. destruct (veqb (sl_n p) vzero) eqn:Z; [cbn [fst]; lra|]. cbn [fst]. destruct P as [P|(B & K & U & Q & J)].
    { rewrite P in Z. exfalso. assert (veqb (@vzero RNum) vzero = true) by (unfold veqb, vzero; cbn [vx vy]; unR; rcases; auto; lra). congruence. }
    rewrite B. unR. set (u := vdot (relative_velocity _ _ _ _) _). replace (- c_maxforce c * dt) with (- (c_maxforce c * dt)) by ring.
    destruct (clamp_part (sl_j p) ((0 - u) * sl_nmass p) _ _ J) as (l & Hl & E). rewrite E. eapply along with (l := l) (u := u); eauto. ring.
  - destruct P.
  - destruct P as (B & G & K & Q & J). unfold gear_apply. cbv zeta. cbn [fst]. rewrite B. unR. set (u := (b_w (H (c_b c)) : R) * ge_ratio p - b_w (H (c_a c))).
    destruct (clamp_part (ge_j p) ((0 - u) * ge_isum p) _ _ J) as (l & Hl & E). rewrite E. set (q := ge_ratio p) in *. set (r := ge_ratioinv p) in *. destruct Q as (Ne & Qa & Qb & Qs).
    assert (Nr : r <> 0) by (intros Z; rewrite Z in G; lra). assert (Nq : q <> 0) by (intros Z; rewrite Z in G; lra). assert (Eq : q = / r) by (apply (Rmult_eq_reg_r r); auto; rewrite G; field; auto).
    apply (turned L H (c_a c) (c_b c) (u * r) r (r * r * b_iinv (H (c_a c)) + b_iinv (H (c_b c))) (ge_isum p / r) _ l); auto.
    + unfold u. rewrite Eq. field. auto.
    + assert (0 < r * r) by nra. destruct (Req_dec (b_iinv (H (c_b c))) 0) as [Z|Z].
      * rewrite Z in *. assert (0 < b_iinv (H (c_a c))) by lra. nra.
      * assert (0 <= r * r * b_iinv (H (c_a c))) by (apply Rmult_le_pos; lra). lra.
    + rewrite <- K, Eq. field. auto.
    + field. auto.
  - destruct P as (B & K & (Ne & Qa & Qb & Qs) & J). unfold motor_apply. cbv zeta. cbn [fst]. rewrite B. rewrite torque_is_gear. unR. set (u := (b_w (H (c_b c)) : R) - b_w (H (c_a c)) + 0).
    destruct (clamp_part (mo_j p) (- u * mo_isum p) _ _ J) as (l & Hl & E). rewrite E. apply (turned L H (c_a c) (c_b c) u 1 (b_iinv (H (c_a c)) + b_iinv (H (c_b c))) (mo_isum p) _ l); auto; [unfold u; ring|ring].
  - unfold rlimit_apply. rewrite P. replace (neqb (Num := RNum) 0 n0) with true; [cbn; lra|]. symmetry. unR. rcases; auto; lra.
  - unfold ratchet_apply. rewrite P. replace (neqb (Num := RNum) 0 n0) with true; [cbn; lra|]. symmetry. unR. rcases; auto; lra.
  - destruct P as (B & V1 & K & U & Q). unfold spring_apply. cbv zeta. cbn [fst]. rewrite B. unR. set (u := normal_relative_velocity _ _ _ _ _).
    eapply along with (l := sp_vcoef p) (u := u); eauto. ring.
  - destruct P as (B & V1 & K & (Ne & Qa & Qb & Qs)). unfold rspring_apply. cbv zeta. cbn [fst]. rewrite B, damp_is_gear. unR. set (u := (b_w (H (c_a c)) : R) - b_w (H (c_b c))).
    apply (turned L H (c_a c) (c_b c) (- u) 1 (b_iinv (H (c_a c)) + b_iinv (H (c_b c))) (rs_isum p) _ (rs_wcoef p)); auto; [unfold u; ring|ring|ring].
Qed.

(** ** Contacts *)
Lemma spend2 (u k m j l : R) : 0 < k -> m * k = 1 -> 0 <= l <= 1 -> j = l * (- u * m) -> j * u <= - (j * j * k).
Proof.
  intros K M [L0 L1] ->. assert (P : 0 < m) by (apply (Rmult_lt_reg_r k); lra).
  replace (l * (- u * m) * u) with (- (m * (u * u)) * l) by ring. replace (- (l * (- u * m) * (l * (- u * m)) * k)) with (- (m * (u * u)) * (l * l) * (m * k)) by ring. rewrite M.
  assert (A : 0 <= m * (u * u)) by (apply Rmult_le_pos; nra). assert (Z : 0 <= l * (1 - l)) by (apply Rmult_le_pos; lra). pose proof (Rmult_le_pos _ _ A Z). lra.
Qed.
Lemma bias_same (H : Rheap) a b r1 r2 j i : let b' := apply_bias_impulses H a b r1 r2 j i in
  b_mass b' = b_mass (H i) /\ b_moi b' = b_moi (H i) /\ b_vel b' = b_vel (H i) /\ b_w b' = b_w (H i) /\ b_minv b' = b_minv (H i) /\ b_iinv b' = b_iinv (H i).
Proof.
  cbv zeta. unfold apply_bias_impulses. cbv zeta. unfold upd. destruct (Nat.eqb i a) eqn:E.
  - apply Nat.eqb_eq in E. subst. destruct (Nat.eqb a b) eqn:E; [apply Nat.eqb_eq in E; subst|]; cbn; repeat split.
  - destruct (Nat.eqb i b) eqn:E'; [apply Nat.eqb_eq in E'; subst|]; cbn; repeat split.
Qed.
Lemma energy_bias L (H : Rheap) a b r1 r2 j : energy L (apply_bias_impulses H a b r1 r2 j) = energy L H.
Proof. unfold energy. apply Rsum_ext. intros i _. unfold kinetic. destruct (bias_same H a b r1 r2 j i) as (-> & -> & -> & -> & _). reflexivity. Qed.
Lemma bias_weighed (H : Rheap) a b r1 r2 j : all_weighed H -> all_weighed (apply_bias_impulses H a b r1 r2 j).
Proof. intros W i. unfold weighed. destruct (bias_same H a b r1 r2 j i) as (-> & -> & -> & -> & -> & ->). apply W. Qed.
Definition soft (H : Rheap) (s : Rsarb) (c : Rcontact) : Prop :=
  k_bounce c = 0 /\ k_nmass c * kscalar (H (s_a s)) (H (s_b s)) (k_r1 c) (k_r2 c) (s_n s) = 1 /\
  k_tmass c * kscalar (H (s_a s)) (H (s_b s)) (k_r1 c) (k_r2 c) (vperp (s_n s)) = 1 /\ 0 <= k_jn c.
Lemma contact_loses L (H : Rheap) s c : all_weighed H -> NoDup L -> In (s_a s) L -> In (s_b s) L -> pushable H (s_a s) (s_b s) -> vdot (s_n s) (s_n s) = 1 -> vdot (s_svr s) (s_n s) = 0 ->
  s_svr s = vzero \/ s_u s = 0 -> soft H s c -> Rabs (k_jt c) <= s_u s * k_jn (snd (contact_apply H s c)) -> energy L (fst (contact_apply H s c)) <= energy L H.
Proof.
  intros W ND Ia Ib P U SN SV (B & KN & KT & Jn) F. unfold contact_apply in *. cbv zeta in *. cbn [fst snd k_jn] in *. rewrite B in *.
  set (r1 := k_r1 c) in *. set (r2 := k_r2 c) in *. set (n := s_n s) in *.
  pose proof (kscalar_pos _ _ r1 r2 n (pushable_pair _ _ _ P)) as Pn. pose proof (kscalar_pos _ _ r1 r2 (vperp n) (pushable_pair _ _ _ P)) as Pt.
  set (jn' := nmax _ _) in *. set (vr := relative_velocity (H (s_a s)) (H (s_b s)) r1 r2) in *.
  assert (Ea : exists l, 0 <= l <= 1 /\ jn' - k_jn c = l * (- vdot vr n * k_nmass c)).
  { destruct (max_part (k_jn c) (- vdot vr n * k_nmass c) Jn) as (l & Hl & E). exists l. split; auto. rewrite <- E. unfold jn'. f_equal. change (@n0 RNum) with 0. f_equal. unR. f_equal. f_equal.
    replace (vdot (vadd vr (s_svr s)) n) with (vdot vr n + vdot (s_svr s) n) by (unV; cbn; unR; ring). rewrite SN. ring. }
  clearbody jn'. set (jt' := nclamp _ _ _). set (a := jn' - k_jn c) in *. set (b := jt' - k_jt c).
  assert (Fr : - (s_u s * jn') <= k_jt c <= s_u s * jn') by (revert F; unfold Rabs; destruct Rcase_abs; lra).
  assert (Eb : b * vdot vr (vperp n) <= - (b * b * kscalar (H (s_a s)) (H (s_b s)) r1 r2 (vperp n))).
  { destruct (clamp_part (k_jt c) (- vdot (vadd vr (s_svr s)) (vperp n) * k_tmass c) _ _ Fr) as (l & Hl & E). fold jt' in E. change (nclamp _ _ _) with jt' in E. fold b in E. destruct SV as [SV|SV].
    - rewrite SV in E. replace (vdot (vadd vr vzero) (vperp n)) with (vdot vr (vperp n)) in E by (unV; cbn; unR; ring). apply (spend2 _ _ (k_tmass c) _ l); auto.
    - assert (b = 0). { unfold b, jt'. rewrite SV in *. rewrite RnclampE; unR; [|lra]. rcases; lra. } rewrite H0. lra. }
  destruct Ea as (l & Hl & Ea). pose proof (spend2 _ _ (k_nmass c) a l Pn KN Hl Ea) as Sn.
  match goal with |- context [apply_impulses (apply_bias_impulses H ?x ?y ?z ?w ?j) _ _ _ _ (vrotate n ?q)] => change q with (@V RNum a b); set (H1 := apply_bias_impulses H x y z w j) end.
  clearbody b. clearbody a. clear Ea Fr F.
  assert (W1 : all_weighed H1) by (apply bias_weighed; auto). rewrite energy_imp; auto; [|apply P].
  assert (EH : energy L H1 = energy L H) by apply energy_bias. rewrite EH.
  assert (Ev : relative_velocity (H1 (s_a s)) (H1 (s_b s)) r1 r2 = vr).
  { unfold vr, relative_velocity. destruct (bias_same H (s_a s) (s_b s) r1 r2 (vscale n (nmax (k_jbias c + (k_bias c - vdot (vsub (vadd (b_vbias (H (s_b s))) (vscale (vperp r2) (b_wbias (H (s_b s))))) (vadd (b_vbias (H (s_a s))) (vscale (vperp r1) (b_wbias (H (s_a s)))))) n) * k_nmass c)%num n0 - k_jbias c)%num) (s_a s)) as (_ & _ & Ea1 & Ea2 & _).
    destruct (bias_same H (s_a s) (s_b s) r1 r2 (vscale n (nmax (k_jbias c + (k_bias c - vdot (vsub (vadd (b_vbias (H (s_b s))) (vscale (vperp r2) (b_wbias (H (s_b s))))) (vadd (b_vbias (H (s_a s))) (vscale (vperp r1) (b_wbias (H (s_a s)))))) n) * k_nmass c)%num n0 - k_jbias c)%num) (s_b s)) as (_ & _ & Eb1 & Eb2 & _).
    unfold H1. rewrite Ea1, Ea2, Eb1, Eb2. reflexivity. }
  rewrite Ev. assert (Ei : forall i, b_minv (H1 i) = b_minv (H i) /\ b_iinv (H1 i) = b_iinv (H i)) by (intros i; unfold H1; split; apply bias_same).
  destruct P as (_ & P1 & P2 & P3 & P4 & _). unfold work. destruct (Ei (s_a s)) as [-> ->]. destruct (Ei (s_b s)) as [-> ->]. clearbody H1. clear Ei Ev EH W1.
  unfold kscalar, kscalar_body in *. revert U Sn Eb. clearbody vr. unV. cbn [vx vy]. unR. intros U Sn Eb.
  set (ma := b_minv (H (s_a s))) in *. set (mb := b_minv (H (s_b s))) in *. set (ia := b_iinv (H (s_a s))) in *. set (ib := b_iinv (H (s_b s))) in *. clearbody ma mb ia ib.
  set (x1 := vx r1) in *. set (y1 := vy r1) in *. set (x2 := vx r2) in *. set (y2 := vy r2) in *. set (nx := vx n) in *. set (ny := vy n) in *. set (p := vx vr) in *. set (q := vy vr) in *. clearbody x1 y1 x2 y2 nx ny p q.
  clear KN KT SN Pn Pt.
  assert (E1 : (nx * a - ny * b) * (nx * a - ny * b) + (nx * b + ny * a) * (nx * b + ny * a) = a * a + b * b).
  { transitivity ((nx * nx + ny * ny) * (a * a + b * b)); [ring|]. rewrite U. ring. }
  rewrite E1. clear E1. set (m1 := x1 * ny - y1 * nx) in *. set (m2 := x2 * ny - y2 * nx) in *. set (t1 := x1 * nx - y1 * - ny) in *. set (t2 := x2 * nx - y2 * - ny) in *.
  replace (x1 * (nx * b + ny * a) - y1 * (nx * a - ny * b)) with (a * m1 + b * t1) by (unfold m1, t1; ring). replace (x2 * (nx * b + ny * a) - y2 * (nx * a - ny * b)) with (a * m2 + b * t2) by (unfold m2, t2; ring).
  clearbody m1 m2 t1 t2. replace ((nx * a - ny * b) * p + (nx * b + ny * a) * q) with (a * (p * nx + q * ny) + b * (p * - ny + q * nx)) by ring.
  assert (0 <= ia * ((a * m1 - b * t1) * (a * m1 - b * t1))) by (apply Rmult_le_pos; [lra|exact (Rle_0_sqr (a * m1 - b * t1))]).
  assert (0 <= ib * ((a * m2 - b * t2) * (a * m2 - b * t2))) by (apply Rmult_le_pos; [lra|exact (Rle_0_sqr (a * m2 - b * t2))]).
  assert (0 <= (ma + mb) * (a * a + b * b)) by (apply Rmult_le_pos; nra). lra.
Qed.

(** ** Iterations *)
Definition plain (k : @jclass RNum) : Prop := match k with JSpring _ | JRSpring _ => False | _ => True end.
Lemma pushable_frame H H' a b : hframe H H' -> pushable H a b -> pushable H' a b.
Proof. intros F. unfold pushable. destruct (frame_minv _ _ a F) as [-> ->]. destruct (frame_minv _ _ b F) as [-> ->]. auto. Qed.
Lemma turnable_frame H H' a b : hframe H H' -> turnable H a b -> turnable H' a b.
Proof. intros F. unfold turnable. destruct (frame_minv _ _ a F) as [_ ->]. destruct (frame_minv _ _ b F) as [_ ->]. auto. Qed.
Lemma passive_frame H H' c dt k : hframe H H' -> passive H c dt k -> passive H' c dt k.
Proof.
  intros F. destruct (frame_minv _ _ (c_a c) F) as [_ Ea]. destruct (frame_minv _ _ (c_b c) F) as [_ Eb]. pose proof (pushable_frame _ _ (c_a c) (c_b c) F) as PF. pose proof (turnable_frame _ _ (c_a c) (c_b c) F) as TF.
  destruct k; cbn [passive]; rewrite ?(ktensor_frame _ _ _ _ _ _ F), ?(kscalar_frame _ _ _ _ _ _ _ F), ?Ea, ?Eb; tauto.
Qed.
Lemma sym_range (x m : R) : 0 <= m -> - m <= nclamp (N := RNum) x (- m)%R m <= m.
Proof. intros M. rewrite RnclampE by lra. rcases; lra. Qed.
Lemma passive_kept H H' c dt k : plain k -> 0 <= c_maxforce c * dt -> passive H c dt k -> passive H c dt (snd (joint_apply H' c dt k)).
Proof.
  intros Pl M. destruct k; cbn [passive joint_apply plain] in *; try tauto.
  - unfold pivot_apply. cbv zeta. cbn [snd passive pv_bias pv_k pv_r1 pv_r2]. auto.
  - unfold pin_apply. cbv zeta. cbn [snd passive pn_bias pn_nmass pn_r1 pn_r2 pn_n pn_j]. intros (A & B & C & D & _). repeat (split; [assumption|]). unR. apply sym_range, M.
  - unfold slide_apply. destruct (veqb _ _); cbn [snd passive]; auto. cbv zeta. cbn [sl_bias sl_nmass sl_r1 sl_r2 sl_n sl_j]. intros [X|(A & B & C & D & _)]; [auto|right]. repeat (split; [assumption|]).
    rewrite RnclampE by (unR; lra). unR. rcases; lra.
  - unfold gear_apply. cbv zeta. cbn [snd passive ge_bias ge_ratio ge_ratioinv ge_isum ge_j]. intros (A & B & C & D & _). repeat (split; [assumption|]). unR. apply sym_range, M.
  - unfold motor_apply. cbv zeta. cbn [snd passive mo_rate mo_isum mo_j]. intros (A & B & C & _). repeat (split; [assumption|]). unR. apply sym_range, M.
  - unfold rlimit_apply. destruct (neqb _ _); cbn [snd passive]; auto.
  - unfold ratchet_apply. destruct (neqb _ _); cbn [snd passive]; auto.
Qed.
Lemma plain_kept H c dt k : plain k -> plain (snd (joint_apply H c dt k)).
Proof.
  destruct k; cbn [plain joint_apply]; try tauto; intros _; match goal with |- context [let '(_, _) := ?e in _] => destruct e end; exact I.
Qed.
Lemma joint_weighed (H : Rheap) c dt k : all_weighed H -> all_weighed (fst (joint_apply H c dt k)).
Proof.
  intros W. destruct k; cbn [joint_apply].
  - apply imp_weighed, W.
  - apply imp_weighed, W.
  - unfold slide_apply. destruct (veqb _ _); [exact W|apply imp_weighed, W].
  - apply imp_weighed, W.
  - apply gear_weighed, W.
  - unfold motor_apply. cbn [fst]. rewrite torque_is_gear. apply gear_weighed, W.
  - unfold rlimit_apply. destruct (neqb _ _); [exact W|]. cbv zeta. cbn [fst]. rewrite torque_is_gear. apply gear_weighed, W.
  - unfold ratchet_apply. destruct (neqb _ _); [exact W|]. cbv zeta. cbn [fst]. rewrite torque_is_gear. apply gear_weighed, W.
  - apply imp_weighed, W.
  - unfold rspring_apply. cbv zeta. cbn [fst]. rewrite damp_is_gear. apply gear_weighed, W.
Qed.
Definition tame (L : list nat) (H : Rheap) (dt : R) (x : Rjoint) : Prop :=
  In (c_a (fst x)) L /\ In (c_b (fst x)) L /\ 0 <= c_maxforce (fst x) * dt /\ plain (snd x) /\ passive H (fst x) dt (snd x).
Lemma tame_frame L H H' dt x : hframe H H' -> tame L H dt x -> tame L H' dt x.
Proof. intros F (A & B & C & D & E). repeat (split; [assumption|]). eapply passive_frame; eauto. Qed.
Lemma joints_lose L dt : NoDup L -> forall l (H : Rheap), all_weighed H -> Forall (tame L H dt) l -> Forall (fun x => free (fst x) dt (snd x)) (snd (joints_apply H dt l)) ->
  let r := joints_apply H dt l in energy L (fst r) <= energy L H /\ all_weighed (fst r) /\ hframe H (fst r) /\ Forall (tame L H dt) (snd r).
Proof.
  intros ND. induction l as [|[c k] l IH]; intros H W T F; cbn [joints_apply] in *; cbv zeta.
  - cbn. split; [lra|]. split; [auto|]. split; [apply hframe_refl|auto].
  - inversion T as [|x y (A & B & C & D & E) T']; subst. cbn [fst snd] in *. pose proof (joint_loses L H c dt k W ND A B C E) as J. pose proof (joint_weighed H c dt k W) as JW. pose proof (joint_apply_frame H c dt k) as JF.
    pose proof (passive_kept H H c dt k D C E) as JK. pose proof (plain_kept H c dt k D) as JP. destruct (joint_apply H c dt k) as [H1 k1]. cbn [fst snd] in *.
    assert (T1 : Forall (tame L H1 dt) l) by (revert T'; apply Forall_impl; intros x; now apply tame_frame).
    specialize (IH H1 JW T1). cbv zeta in IH. destruct (joints_apply H1 dt l) as [H2 l2] eqn:E2. cbn [fst snd] in *. inversion F as [|x y F1 F2]; subst. cbn [fst snd] in *. destruct IH as (I1 & I2 & I3 & I4); auto.
    split; [specialize (J F1); lra|]. split; [auto|]. split; [eapply hframe_trans; eauto|]. constructor.
    + repeat (split; [assumption|]). assumption.
    + revert I4. apply Forall_impl. intros x. apply tame_frame. intros i. destruct (JF i) as (Q1 & Q2 & Q3 & Q4 & Q5 & Q6 & Q7 & Q8 & Q9 & Q10 & Q11). repeat split; congruence.
Qed.
Definition gentle (L : list nat) (H : Rheap) (s : Rsarb) : Prop :=
  In (s_a s) L /\ In (s_b s) L /\ pushable H (s_a s) (s_b s) /\ vdot (s_n s) (s_n s) = 1 /\ vdot (s_svr s) (s_n s) = 0 /\ s_u s = 0 /\ Forall (fun c => soft H s c /\ k_jt c = 0) (s_contacts s).
Lemma soft_frame H H' s c : hframe H H' -> soft H s c -> soft H' s c.
Proof. intros F. unfold soft. now rewrite !(kscalar_frame _ _ _ _ _ _ _ F). Qed.
Lemma contact_weighed (H : Rheap) s c : all_weighed H -> all_weighed (fst (contact_apply H s c)).
Proof. intros W. unfold contact_apply. cbv zeta. cbn [fst]. apply imp_weighed, bias_weighed, W. Qed.
Lemma contact_hframe (H : Rheap) s c : hframe H (fst (contact_apply H s c)).
Proof. unfold contact_apply. cbv zeta. cbn [fst]. eapply hframe_trans; [apply bias_frame|apply imp_frame]. Qed.
Lemma contact_kept (H H0 : Rheap) s c : s_u s = 0 -> k_jt c = 0 -> soft H0 s c -> let c' := snd (contact_apply H s c) in soft H0 s c' /\ k_jt c' = 0.
Proof.
  intros U J (A & B & C & D). cbv zeta. unfold contact_apply. cbv zeta. cbn [snd k_jt]. split.
  - unfold soft. cbn [k_bounce k_nmass k_tmass k_r1 k_r2 k_jn]. repeat (split; [assumption|]). unR. apply Rmax_r.
  - rewrite U. rewrite RnclampE; unR; [|lra]. rcases; lra.
Qed.
Lemma contacts_lose L s : NoDup L -> In (s_a s) L -> In (s_b s) L -> vdot (s_n s) (s_n s) = 1 -> vdot (s_svr s) (s_n s) = 0 -> s_u s = 0 ->
  forall l (H : Rheap), all_weighed H -> pushable H (s_a s) (s_b s) -> Forall (fun c => soft H s c /\ k_jt c = 0) l ->
  let r := contacts_apply H s l in energy L (fst r) <= energy L H /\ all_weighed (fst r) /\ hframe H (fst r) /\ Forall (fun c => soft H s c /\ k_jt c = 0) (snd r).
Proof.
  intros ND Ia Ib N1 SN U. induction l as [|c l IH]; intros H W P F; cbn [contacts_apply]; cbv zeta.
  - cbn. split; [lra|]. split; [auto|]. split; [apply hframe_refl|auto].
  - inversion F as [|x y [S J] F']; subst. pose proof (contact_kept H H s c U J S) as CK. cbv zeta in CK. pose proof (contact_weighed H s c W) as CW. pose proof (contact_hframe H s c) as CF.
    assert (CL : energy L (fst (contact_apply H s c)) <= energy L H).
    { apply contact_loses; auto. rewrite J, U, Rabs_R0. lra. }
    destruct (contact_apply H s c) as [H1 c1]. cbn [fst snd] in *.
    assert (F1 : Forall (fun c => soft H1 s c /\ k_jt c = 0) l) by (revert F'; apply Forall_impl; intros x [X Y]; split; auto; eapply soft_frame; eauto).
    specialize (IH H1 CW (pushable_frame _ _ _ _ CF P) F1). cbv zeta in IH. destruct (contacts_apply H1 s l) as [H2 l2]. cbn [fst snd] in *. destruct IH as (I1 & I2 & I3 & I4).
    split; [lra|]. split; [auto|]. split; [eapply hframe_trans; eauto|]. constructor; auto. revert I4. apply Forall_impl. intros x [X Y]. split; auto. eapply soft_frame; [|exact X].
    intros i. destruct (CF i) as (Q1 & Q2 & Q3 & Q4 & Q5 & Q6 & Q7 & Q8 & Q9 & Q10 & Q11). repeat split; congruence.
Qed.
Lemma gentle_frame L H H' s : hframe H H' -> gentle L H s -> gentle L H' s.
Proof.
  intros F (A & B & C & D & E & G & I). repeat (split; [try assumption; eapply pushable_frame; eauto|]). revert I. apply Forall_impl. intros x [X Y]. split; auto. eapply soft_frame; eauto.
Qed.
Lemma hframe_sym (H H' : Rheap) : hframe H H' -> hframe H' H.
Proof. intros F i. destruct (F i) as (Q1 & Q2 & Q3 & Q4 & Q5 & Q6 & Q7 & Q8 & Q9 & Q10 & Q11). repeat split; congruence. Qed.
Lemma arbs_lose L : NoDup L -> forall l (H : Rheap), all_weighed H -> Forall (gentle L H) l ->
  let r := arbs_apply H l in energy L (fst r) <= energy L H /\ all_weighed (fst r) /\ hframe H (fst r) /\ Forall (gentle L H) (snd r).
Proof.
  intros ND. induction l as [|s l IH]; intros H W G; cbn [arbs_apply]; cbv zeta.
  - cbn. split; [lra|]. split; [auto|]. split; [apply hframe_refl|auto].
  - inversion G as [|x y (A & B & C & D & E & U & F) G']; subst. unfold arb_apply. pose proof (contacts_lose L s ND A B D E U (s_contacts s) H W C F) as X. cbv zeta in X.
    destruct (contacts_apply H s (s_contacts s)) as [H1 cs]. cbn [fst snd] in X. destruct X as (X1 & X2 & X3 & X4).
    assert (G1 : Forall (gentle L H1) l) by (revert G'; apply Forall_impl; intros x; now apply gentle_frame).
    specialize (IH H1 X2 G1). cbv zeta in IH. destruct (arbs_apply H1 l) as [H2 l2]. cbn [fst snd] in *. destruct IH as (I1 & I2 & I3 & I4).
    split; [lra|]. split; [auto|]. split; [eapply hframe_trans; eauto|]. constructor.
    + repeat (split; [assumption|]). exact X4.
    + revert I4. apply Forall_impl. intros x. apply gentle_frame, hframe_sym, X3.
Qed.
Definition calm (L : list nat) (dt : R) (w : Rworld) : Prop := all_weighed (w_heap w) /\ Forall (gentle L (w_heap w)) (w_arbs w) /\ Forall (tame L (w_heap w) dt) (w_joints w).
Lemma iteration_loses L dt (w : Rworld) : NoDup L -> calm L dt w -> Forall (fun x => free (fst x) dt (snd x)) (w_joints (iteration dt w)) ->
  energy L (w_heap (iteration dt w)) <= energy L (w_heap w) /\ calm L dt (iteration dt w).
Proof.
  intros ND (W & G & T) F. unfold iteration in *. pose proof (arbs_lose L ND (w_arbs w) (w_heap w) W G) as A. cbv zeta in A. destruct (arbs_apply _ _) as [H1 arbs]. cbn [fst snd] in A. destruct A as (A1 & A2 & A3 & A4).
  assert (T1 : Forall (tame L H1 dt) (w_joints w)) by (revert T; apply Forall_impl; intros x; now apply tame_frame).
  pose proof (joints_lose L dt ND (w_joints w) H1 A2 T1) as B. cbv zeta in B. destruct (joints_apply _ _ _) as [H2 js]. cbn [fst snd w_joints w_heap] in *. destruct (B F) as (B1 & B2 & B3 & B4). split; [lra|].
  split; [exact B2|]. cbn [w_heap w_arbs w_joints]. split; [revert A4|revert B4]; apply Forall_impl; intros x; [apply gentle_frame; eapply hframe_trans; eauto|apply tame_frame; auto].
Qed.
Lemma iterations_lose L dt n : forall (w : Rworld), NoDup L -> calm L dt w -> (forall m, (m < n)%nat -> Forall (fun x => free (fst x) dt (snd x)) (w_joints (iterations (S m) dt w))) ->
  energy L (w_heap (iterations n dt w)) <= energy L (w_heap w).
Proof.
  induction n; intros w ND C F; cbn [iterations]; [lra|]. destruct (iteration_loses L dt w ND C) as [E C']; [apply (F 0%nat); lia|].
  assert (X : energy L (w_heap (iterations n dt (iteration dt w))) <= energy L (w_heap (iteration dt w))).
  { apply IHn; auto. intros m Hm. apply (F (S m)). lia. }
  lra.
Qed.

(** ** A whole solver run *)
Lemma kscalar_inv (A B : Rbody) r1 r2 n : movable_pair A B -> 1 / kscalar A B r1 r2 n * kscalar A B r1 r2 n = 1.
Proof. intros P. pose proof (kscalar_pos A B r1 r2 n P). field. lra. Qed.
Lemma pin_n_short (H : Rheap) c dt (p : pin) : vdot (pn_n (pin_prestep H c dt p)) (pn_n (pin_prestep H c dt p)) <= 1.
Proof.
  unfold pin_prestep. cbv zeta. cbn [pn_n]. set (q := vadd _ _). clearbody q. assert (S : 0 <= vdot q q) by (unV; cbn; unR; nra).
  assert (M : vmag q * vmag q = vdot q q) by (unfold vmag; unR; apply sqrt_sqrt; exact S).
  change (neqb (vmag q) n0) with (Reqb (vmag q) 0). destruct (Reqb_spec (vmag q) 0) as [E|E]; cbn [negb].
  - rewrite E in M. assert (X : vdot q q = 0) by lra. replace (vdot (vscale q _) (vscale q _)) with (vdot q q * (n1 / ninf * (n1 / ninf)))%num by (unV; cbn; unR; ring). unR. rewrite X. lra.
  - assert (X : vdot (vscale q (n1 / vmag q)%num) (vscale q (n1 / vmag q)%num) = vdot q q * / (vmag q * vmag q)) by (unV; cbn; unR; field; exact E). rewrite X, M. rewrite Rinv_r; [lra|]. rewrite <- M. intros Z. apply Rmult_integral in Z. tauto.
Qed.
Lemma prestep_passive (H : Rheap) c dt k : coherent (H (c_a c)) -> coherent (H (c_b c)) -> 0 <= c_maxbias c -> 0 <= c_maxforce c * dt -> satisfied H c k -> lossy H c k ->
  exists k', joint_prestep H c dt k = (H, k') /\ passive H c dt k' /\ ready k' /\ plain k'.
Proof.
  intros CA CB MB MF S Lo. assert (RO : ratchet_ok k) by (destruct k; cbn in *; auto). destruct (prestep_ready H c dt k CA CB MB S RO) as (k' & E & Rd & _).
  exists k'. split; [exact E|]. destruct k; cbn [joint_prestep lossy] in *; try tauto; apply pair_equal_spec in E as [_ <-]; cbn [ready passive plain] in *; (split; [|split; [exact Rd|exact I]]); destruct Rd as [R1 R2].
  - split; [exact R2|]. split; [reflexivity|exact Lo].
  - split; [exact R2|]. split; [apply kscalar_inv, pushable_pair, Lo|]. split; [apply pin_n_short|]. split; [exact Lo|]. rewrite R1. lra.
  - left. exact R1.
  - split; [exact R2|]. split; [apply Lo|]. split; [|split; [apply Lo|rewrite R1; lra]]. destruct Lo as [(Ne & Qa & Qb & Qs) G]. unfold gear_prestep. cbv zeta. cbn [ge_isum ge_ratio ge_ratioinv]. unR.
    field. intros Z. set (x := ge_ratio p) in *. set (y := ge_ratioinv p) in *. assert (Ny : y <> 0) by (intros Y; rewrite Y in G; lra). assert (Ex : x = / y) by (apply (Rmult_eq_reg_r y); auto; rewrite G; field; auto).
    rewrite Ex in Z. assert (Z' : b_iinv (H (c_a c)) * (y * y) + b_iinv (H (c_b c)) = 0) by (apply (Rmult_eq_reg_r (/ y)); [|apply Rinv_neq_0_compat; auto]; transitivity (b_iinv (H (c_a c)) * y + / y * b_iinv (H (c_b c))); [field; auto|rewrite Z; ring]).
    assert (0 < y * y) by nra. destruct (Req_dec (b_iinv (H (c_b c))) 0) as [Y|Y]; [rewrite Y in *; assert (0 < b_iinv (H (c_a c))) by lra; nra|assert (0 <= b_iinv (H (c_a c)) * (y * y)) by (apply Rmult_le_pos; lra); lra].
  - split; [exact R1|]. split; [|split; [exact Lo|rewrite R2; lra]]. destruct Lo as (_ & _ & _ & Qs). unfold motor_prestep. cbn [mo_isum]. unR. field. lra.
  - exact R1.
  - exact R1.
Qed.
Lemma joints_prestep_tame L (H : Rheap) dt l : (forall i, coherent (H i)) -> (forall c k, In (c, k) l -> In (c_a c) L /\ In (c_b c) L /\ 0 <= c_maxbias c /\ 0 <= c_maxforce c * dt /\ satisfied H c k /\ lossy H c k) ->
  exists l', joints_prestep H dt l = (H, l') /\ Forall (tame L H dt) l' /\ Forall (fun x => ready (snd x)) l'.
Proof.
  intros C. induction l as [|[c k] l IH]; intros F; cbn [joints_prestep].
  - exists []. auto.
  - destruct (F c k (or_introl eq_refl)) as (A & B & MB & MF & S & Lo). destruct (prestep_passive H c dt k (C _) (C _) MB MF S Lo) as (k' & E & P & Rd & Pl). rewrite E.
    destruct IH as (l' & E' & T & R'); [intros c0 k0 I0; apply F; right; exact I0|]. rewrite E'. exists ((c, k') :: l'). split; [reflexivity|]. split; constructor; auto. repeat (split; [assumption|]). exact P.
Qed.
Lemma arb_prestep_gentle L (H : Rheap) dt slop bias s : smooth L H s -> let s' := arb_prestep H dt slop bias s in gentle L H s' /\ Forall (fun c => k_jn c = 0 /\ k_jt c = 0) (s_contacts s').
Proof.
  intros (A & B & P & N1 & SV & Ez & U & F). cbv zeta. unfold gentle, arb_prestep, with_contacts. cbn [s_a s_b s_n s_svr s_u s_contacts].
  assert (X : forall c, In c (s_contacts s) -> soft H (SArb (s_a s) (s_b s) (s_e s) (s_u s) (s_svr s) (s_n s) (s_swapped s) (s_first s) (s_cached s) (map (contact_prestep H s dt slop bias) (s_contacts s))) (contact_prestep H s dt slop bias c) /\
    k_jt (contact_prestep H s dt slop bias c) = 0 /\ k_jn (contact_prestep H s dt slop bias c) = 0).
  { intros c I. destruct (F c I) as [J1 J2]. unfold soft, contact_prestep. cbv zeta. cbn [s_a s_b s_n k_bounce k_nmass k_tmass k_jn k_jt k_r1 k_r2]. rewrite Ez, J1, J2. split; [|split; reflexivity].
    split; [unR; ring|]. split; [apply kscalar_inv, pushable_pair, P|]. split; [apply kscalar_inv, pushable_pair, P|lra]. }
  split.
  - repeat (split; [assumption|]). apply Forall_map, Forall_forall. intros c I. destruct (X c I) as (X1 & X2 & _). auto.
  - apply Forall_map, Forall_forall. intros c I. destruct (X c I) as (_ & X2 & X3). auto.
Qed.
Lemma cached_same (H : Rheap) (d : R) (l : list Rsarb) : Forall (fun s => Forall (fun c => k_jn c = 0 /\ k_jt c = 0) (s_contacts s)) l -> fold_left (arb_cached (N := RNum) d) l H = H.
Proof.
  revert H. induction l as [|s l IH]; intros H F; cbn [fold_left]; auto. inversion F as [|x y Q F']; subst. replace (arb_cached (N := RNum) d H s) with H; auto. symmetry. unfold arb_cached. destruct (s_first s); auto.
  clear -Q. induction (s_contacts s) as [|c l IH]; cbn [fold_left]; auto. inversion Q as [|x y (A & B) Q']; subst. rewrite <- IH at 2; auto. f_equal. unfold contact_cached. rewrite A, B.
  replace (vscale (vrotate (s_n s) (@V RNum 0 0)) d) with (@vzero RNum) by (unV; cbn; unR; f_equal; ring). apply impulses_zero.
Qed.
Definition unforced (b : Rbody) : Prop := b_force b = vzero /\ b_torque b = 0.
Lemma slows (b : Rbody) (d dt : R) : weighed b -> 0 <= b_minv b -> 0 <= b_iinv b -> unforced b -> 0 <= d <= 1 ->
  let b' := update_velocity b vzero d dt in kinetic b' <= kinetic b /\ weighed b' /\ b_minv b' = b_minv b /\ b_iinv b' = b_iinv b /\ unforced b'.
Proof.
  intros W Pm Pi [Ff Ft] Hd. cbv zeta. unfold update_velocity. destruct (b_type b); [|split; [lra|repeat split; auto; apply W]|];
  (destruct W as [M I]; destruct b; cbn in *; subst; unfold kinetic, weighed, unforced; cbn; split; [|split; [split|]]; [| | |auto];
   [|destruct M as [M|[M1 M2]]; [auto|right; subst; split; [reflexivity|unV; cbn; unR; f_equal; ring]]|destruct I as [I|[I1 I2]]; [auto|right; subst; split; [reflexivity|unR; ring]]]).
  all: assert (D2 : 0 <= d * d <= 1) by (split; nra).
  all: assert (X1 : 0 <= b_mass * (vx b_vel * vx b_vel + vy b_vel * vy b_vel)) by
    (destruct M as [M|[_ M]]; [apply Rmult_le_pos; [apply Rlt_le; assert (b_minv <> 0) by (intros Z; rewrite Z in M; lra); assert (0 < b_minv) by lra; apply (Rmult_lt_reg_r b_minv); lra|nra]|rewrite M; cbn; lra]).
  all: assert (X2 : 0 <= b_moi * (b_w * b_w)) by
    (destruct I as [I|[_ I]]; [apply Rmult_le_pos; [apply Rlt_le; assert (b_iinv <> 0) by (intros Z; rewrite Z in I; lra); assert (0 < b_iinv) by lra; apply (Rmult_lt_reg_r b_iinv); lra|nra]|rewrite I; lra]).
  all: match goal with |- ?l <= ?r => replace l with ((d * d) * (/ 2 * (b_mass * (vx b_vel * vx b_vel + vy b_vel * vy b_vel) + b_moi * (b_w * b_w)))) by ring; set (k := r) in * end.
  all: assert (0 <= k) by (unfold k; lra).
  all: assert (0 <= (1 - d * d) * k) by (apply Rmult_le_pos; lra); lra.
Qed.
Lemma slow_frame (b : Rbody) (d dt : R) : unforced b -> bframe b (update_velocity b vzero d dt).
Proof. intros [F T]. unfold update_velocity. destruct (b_type b); try apply bframe_refl; destruct b; cbn in *; subst; repeat split. Qed.
Definition loose (H : Rheap) : Prop := forall i, weighed (H i) /\ 0 <= b_minv (H i) /\ 0 <= b_iinv (H i) /\ unforced (H i).
Lemma integrate_loses (d dt : R) dyn : 0 <= d <= 1 -> forall H : Rheap, loose H ->
  let H' := fold_left (fun H i => upd H i (update_velocity (H i) vzero d dt)) dyn H in (forall i, kinetic (H' i) <= kinetic (H i)) /\ loose H' /\ hframe H H'.
Proof.
  intros Hd. induction dyn as [|j dyn IH]; intros H Lo; cbn [fold_left]; cbv zeta.
  - split; [intros; lra|]. split; [exact Lo|apply hframe_refl].
  - destruct (Lo j) as (A & B & C & D). destruct (slows (H j) d dt A B C D Hd) as (S1 & S2 & S3 & S4 & S5).
    assert (Lo' : loose (upd H j (update_velocity (H j) vzero d dt))). { intros i. unfold upd. destruct (Nat.eqb i j); [rewrite S3, S4; auto|apply Lo]. }
    destruct (IH _ Lo') as (X1 & X2 & X3). split; [|split; [exact X2|]].
    + intros i. eapply Rle_trans; [apply X1|]. unfold upd. destruct (Nat.eqb i j) eqn:E; [apply Nat.eqb_eq in E; subst; exact S1|lra].
    + eapply hframe_trans; [|exact X3]. apply hframe_upd, slow_frame, D.
Qed.
Lemma energy_mono L (H H' : Rheap) : (forall i, kinetic (H' i) <= kinetic (H i)) -> energy L H' <= energy L H.
Proof. intros F. unfold energy. induction L as [|i L IH]; cbn [Rsum]; [apply Rle_refl|]. specialize (F i). apply Rplus_le_compat; auto. Qed.
Lemma solve_start L slop bias (d dt prevdt : R) dyn (w : Rworld) : NoDup L -> loose (w_heap w) -> (forall i, coherent (w_heap w i)) -> 0 <= d <= 1 ->
  (forall s, In s (w_arbs w) -> smooth L (w_heap w) s) ->
  (forall c k, In (c, k) (w_joints w) -> In (c_a c) L /\ In (c_b c) L /\ 0 <= c_maxbias c /\ 0 <= c_maxforce c * dt /\ satisfied (w_heap w) c k /\ lossy (w_heap w) c k) ->
  let w' := solve 0 slop bias vzero d dt prevdt dyn w in calm L dt w' /\ energy L (w_heap w') <= energy L (w_heap w).
Proof.
  intros ND Lo C Hd HA HJ. cbv zeta. unfold solve. cbn [iterations]. set (dc := if negb _ then _ else _). clearbody dc. unfold prestep_all.
  destruct (joints_prestep_tame L (w_heap w) dt (w_joints w) C HJ) as (l' & E & T & Rd). rewrite E. unfold integrate_all. cbn [w_heap w_arbs w_joints].
  set (arbs := map _ _). assert (GA : Forall (gentle L (w_heap w)) arbs /\ Forall (fun s => Forall (fun c => k_jn c = 0 /\ k_jt c = 0) (s_contacts s)) arbs).
  { unfold arbs. rewrite !Forall_map, !Forall_forall. split; intros s I; apply (arb_prestep_gentle L (w_heap w) dt slop bias s (HA s I)). }
  destruct GA as [G Z]. destruct (integrate_loses d dt dyn Hd (w_heap w) Lo) as (X1 & X2 & X3). set (H' := fold_left _ dyn _) in *. clearbody H' arbs. clear E.
  unfold cached_all. cbn [w_heap w_arbs w_joints]. rewrite cached_same by exact Z. rewrite cached_rest by exact Rd. cbn [w_heap w_arbs w_joints]. split.
  - split; [intros i; apply X2|]. cbn [w_heap w_arbs w_joints]. split; [revert G|revert T]; apply Forall_impl; intros x; [apply gentle_frame|apply tame_frame]; auto.
  - apply energy_mono, X1.
Qed.
Lemma solve_S n slop bias g (d dt prevdt : R) dyn (w : Rworld) : solve n slop bias g d dt prevdt dyn w = iterations n dt (solve 0 slop bias g d dt prevdt dyn w).
Proof. reflexivity. Qed.
Lemma placed_coherent (b : Rbody) : placed b -> coherent b.
Proof.
  intros P. unfold coherent. pose proof (P (@V RNum 0 0)) as P0. pose proof (P (@V RNum 1 0)) as P1. pose proof (P (@V RNum 0 1)) as P2. clear P. revert P0 P1 P2. destruct b as [? ? ? ? an ? ? [cx cy] [px py] ? ? [a b c d x y] ? ? ?]. unfold local_to_world, tf_apply. cbn. unR.
  intros P0 P1 P2. apply (f_equal (fun v => (vx v, vy v))) in P0, P1, P2. cbn in P0, P1, P2. apply pair_equal_spec in P0 as [X0 Y0]. apply pair_equal_spec in P1 as [X1 Y1]. apply pair_equal_spec in P2 as [X2 Y2]. unfold tf_new. f_equal; lra.
Qed.
Lemma solve_loses L n slop bias (d dt prevdt : R) dyn (w : Rworld) : NoDup L -> loose (w_heap w) -> (forall i, coherent (w_heap w i)) -> 0 <= d <= 1 ->
  (forall s, In s (w_arbs w) -> smooth L (w_heap w) s) ->
  (forall c k, In (c, k) (w_joints w) -> In (c_a c) L /\ In (c_b c) L /\ 0 <= c_maxbias c /\ 0 <= c_maxforce c * dt /\ satisfied (w_heap w) c k /\ lossy (w_heap w) c k) ->
  (forall m, (1 <= m <= n)%nat -> held dt (solve m slop bias vzero d dt prevdt dyn w)) ->
  energy L (w_heap (solve n slop bias vzero d dt prevdt dyn w)) <= energy L (w_heap w).
Proof.
  intros ND Lo C Hd HA HJ HF. destruct (solve_start L slop bias d dt prevdt dyn w ND Lo C Hd HA HJ) as [Ca E]. rewrite solve_S. eapply Rle_trans; [|exact E]. apply iterations_lose; auto.
  intros m Hm. assert (X : held dt (solve (S m) slop bias vzero d dt prevdt dyn w)) by (apply HF; lia). rewrite solve_S in X. apply Forall_forall. intros [c k] I. unfold free. cbn [fst snd]. destruct k; auto.
Qed.
Lemma energy_lost L n slop bias (d dt prevdt : R) dyn (w : Rworld) : NoDup L -> (forall i, coasting (w_heap w i)) -> 0 <= d <= 1 ->
  (forall s, In s (w_arbs w) -> smooth L (w_heap w) s) ->
  (forall c k, In (c, k) (w_joints w) -> In (c_a c) L /\ In (c_b c) L /\ 0 <= c_maxbias c /\ 0 <= c_maxforce c * dt /\ satisfied (w_heap w) c k /\ lossy (w_heap w) c k) ->
  (forall m, (1 <= m <= n)%nat -> held dt (solve m slop bias vzero d dt prevdt dyn w)) ->
  energy L (w_heap (solve n slop bias vzero d dt prevdt dyn w)) <= energy L (w_heap w).
Proof.
  intros ND C Hd HA HJ HF. apply solve_loses; auto.
  - intros i. destruct (C i) as (A & B & D & E & F & _). split; [exact A|]. split; [exact B|]. split; [exact D|]. split; assumption.
  - intros i. apply placed_coherent, C.
Qed.
Lemma contact_loss L (H0 H : Rheap) s c (dt slop bias : R) : NoDup L -> (forall i, weighed (H i)) -> hframe H0 H -> In (s_a s) L -> In (s_b s) L -> pushable H0 (s_a s) (s_b s) -> vdot (s_n s) (s_n s) = 1 -> s_svr s = vzero -> s_e s = 0 -> 0 <= k_jn c ->
  let '(H', c') := contact_apply H s (contact_prestep H0 s dt slop bias c) in Rabs (k_jt c) <= s_u s * k_jn c' -> energy L H' <= energy L H.
Proof.
  intros ND W F Ia Ib P U SV Ez J. pose proof (contact_loses L H s (contact_prestep H0 s dt slop bias c) W ND Ia Ib (pushable_frame _ _ _ _ F P) U) as X. destruct (contact_apply _ _ _) as [H' c']. intros Fr. apply X; auto.
  - rewrite SV. unV. cbn. unR. ring.
  - unfold soft, contact_prestep. cbv zeta. cbn [k_bounce k_nmass k_tmass k_jn k_r1 k_r2]. rewrite Ez. rewrite !(kscalar_frame _ _ _ _ _ _ _ F). split; [unR; ring|]. split; [apply kscalar_inv, pushable_pair, P|]. split; [apply kscalar_inv, pushable_pair, P|exact J].
Qed.
(** What a damped spring's first iteration takes. *)
Lemma coef_range x : 0 <= x -> 0 <= 1 - exp (- x) <= 1.
Proof. intros P. pose proof (exp_pos (- x)). assert (exp (- x) <= exp 0) by (destruct (Req_dec x 0) as [->|]; [rewrite Ropp_0; lra|left; apply exp_increasing; lra]). rewrite exp_0 in *. lra. Qed.
Lemma spring_n_short (H : Rheap) c dt (p : spring) : let n := sp_n (snd (spring_prestep H c dt p)) in vdot n n <= 1.
Proof.
  cbv zeta. unfold spring_prestep. cbv zeta. cbn [snd sp_n]. set (q := vsub (vadd _ _) _). clearbody q. assert (S : 0 <= vdot q q) by (unV; cbn; unR; nra).
  assert (M : vmag q * vmag q = vdot q q) by (unfold vmag; unR; apply sqrt_sqrt; exact S).
  change (neqb (vmag q) n0) with (Reqb (vmag q) 0). destruct (Reqb_spec (vmag q) 0) as [E|E]; cbn [negb].
  - rewrite E in M. assert (X : vdot q q = 0) by lra. replace (vdot (vscale q _) (vscale q _)) with (vdot q q * (n1 / ninf * (n1 / ninf)))%num by (unV; cbn; unR; ring). unR. rewrite X. lra.
  - assert (X : vdot (vscale q (n1 / vmag q)%num) (vscale q (n1 / vmag q)%num) = vdot q q * / (vmag q * vmag q)) by (unV; cbn; unR; field; exact E). rewrite X, M. rewrite Rinv_r; [lra|]. rewrite <- M. intros Z. apply Rmult_integral in Z. tauto.
Qed.
Lemma spring_loss L (H0 H : Rheap) c (dt : R) (p : spring) : NoDup L -> (forall i, weighed (H i)) -> hframe H0 H -> In (c_a c) L -> In (c_b c) L -> pushable H0 (c_a c) (c_b c) -> 0 <= sp_damping p * dt -> 0 <= c_maxforce c * dt ->
  energy L (fst (spring_apply H c dt (snd (spring_prestep H0 c dt p)))) <= energy L H.
Proof.
  intros ND W F Ia Ib P D M. pose proof (joint_loses L H c dt (JSpring (snd (spring_prestep H0 c dt p))) W ND Ia Ib M) as X. cbn [joint_apply] in X. destruct (spring_apply _ _ _ _) as [H' p'] eqn:E. cbn [fst] in *. apply X; [|exact I]. clear X E.
  pose proof (spring_n_short H0 c dt p) as S. unfold passive. unfold spring_prestep in *. cbv zeta in *. cbn [snd sp_target sp_vcoef sp_nmass sp_n sp_r1 sp_r2] in *. split; [reflexivity|]. rewrite (kscalar_frame _ _ _ _ _ _ _ F). split; [|split; [apply kscalar_inv, pushable_pair, P|split; [exact S|eapply pushable_frame; eauto]]].
  set (k := kscalar _ _ _ _ _). assert (0 < k) by (apply kscalar_pos, pushable_pair, P). pose proof (coef_range (sp_damping p * dt * k) ltac:(apply Rmult_le_pos; lra)) as R1. replace (- (sp_damping p * dt * k)) with (- sp_damping p * dt * k) in R1 by ring. exact R1.
Qed.
Lemma rspring_loss L (H0 H : Rheap) c (dt : R) (p : rspring) : NoDup L -> (forall i, weighed (H i)) -> hframe H0 H -> In (c_a c) L -> In (c_b c) L -> turnable H0 (c_a c) (c_b c) -> 0 <= rs_damping p * dt -> 0 <= c_maxforce c * dt ->
  energy L (fst (rspring_apply H c dt (snd (rspring_prestep H0 c dt p)))) <= energy L H.
Proof.
  intros ND W F Ia Ib P D M. pose proof (joint_loses L H c dt (JRSpring (snd (rspring_prestep H0 c dt p))) W ND Ia Ib M) as X. cbn [joint_apply] in X. destruct (rspring_apply _ _ _ _) as [H' p'] eqn:E. cbn [fst] in *. apply X; [|exact I]. clear X E.
  unfold passive. unfold rspring_prestep in *. cbv zeta in *. cbn [snd rs_target rs_wcoef rs_isum] in *. split; [reflexivity|]. destruct (frame_minv _ _ (c_a c) F) as [_ ->]. destruct (frame_minv _ _ (c_b c) F) as [_ ->]. destruct P as (Ne & P1 & P2 & P3).
  split; [|split; [unR; field; lra|eapply turnable_frame; eauto; repeat split; auto]].
  set (k := b_iinv (H0 (c_a c)) + b_iinv (H0 (c_b c))) in *. pose proof (coef_range (rs_damping p * dt * k) ltac:(apply Rmult_le_pos; lra)) as R1. replace (- (rs_damping p * dt * k)) with (- rs_damping p * dt * k) in R1 by ring. exact R1.
Qed.
