(** Proofs for C67. *)
From Coq Require Import ZArith Reals Lra Psatz List Bool Lia.
From Verif Require Import Num NumReal NumFloat Vec Transform Body BodySpec Solver SolverSpec EnergySpec BodyProofs VecReal BB Idle IdleSpec.
From Verif Require Space SpaceSpec SpaceMain SpaceStep SpaceRuns SpaceFlood SpaceProcess SpaceMore.
Import ListNotations.
Local Open Scope R_scope.

Lemma ke_twice (b : Rbody) : kinetic_energy b = 2 * kinetic b.
Proof.
  unfold kinetic_energy, kinetic, vdot. unR. destruct b as [m mi i ii an w tq cg ps [x y] fo tf id vb wb]. cbn [b_mass b_moi b_vel b_w vx vy]. unR.
  destruct (Reqb_spec (x * x + y * y) 0) as [->|_], (Reqb_spec (w * w) 0) as [->|_]; cbn [negb]; field.
Qed.
Lemma too_fast_spec (dvsq : R) (b : Rbody) : too_fast dvsq b = true <-> / 2 * (b_mass b * dvsq) < kinetic b.
Proof.
  unfold too_fast. rewrite ke_twice. unR. rewrite Rltb_true. destruct (Reqb_spec dvsq 0) as [->|_]; cbn [negb]; split; lra.
Qed.
Lemma idle_speed_spec (dv : R) (g : Rvec) (dt : R) : 0 <= dv -> 0 <= dt -> idle_speed_sq dv g dt = Rsqr (if Req_EM_T dv 0 then vmag g * dt else dv).
Proof.
  intros D T. unfold idle_speed_sq, Rsqr. unR. destruct (Reqb_spec dv 0) as [E|E], (Req_EM_T dv 0) as [F|F]; try contradiction; cbn [negb]; [|reflexivity].
  unfold vmagsq. rewrite <- mag_sq. unR. ring.
Qed.
(* the energy the body would have at the given speed without spin *)
Lemma fast_iff (dv : R) (g : Rvec) (dt : R) (b : Rbody) : 0 <= dv -> 0 <= dt ->
  let v := if Req_EM_T dv 0 then vmag g * dt else dv in
  too_fast (idle_speed_sq dv g dt) b = true <-> kinetic (set_vel_fields b (BB.rvec v 0) 0) < kinetic b.
Proof.
  intros D T v. rewrite too_fast_spec, idle_speed_spec by assumption. fold v. unfold kinetic at 2, Rsqr. unfold set_vel_fields. cbn. unR.
  replace (/ 2 * (b_mass b * (v * v + 0 * 0) + b_moi b * (0 * 0))) with (/ 2 * (b_mass b * (v * v))) by ring. reflexivity.
Qed.
Lemma round_spec (dv : R) (g : Rvec) (dt : R) (b : Rbody) : 0 <= dv -> 0 <= dt -> b_type b = Dynamic ->
  let v := if Req_EM_T dv 0 then vmag g * dt else dv in
  let b' := idle_round (idle_speed_sq dv g dt) dt b in
  (kinetic (set_vel_fields b (BB.rvec v 0) 0) < kinetic b -> idle_time b' = 0) /\
  (kinetic b <= kinetic (set_vel_fields b (BB.rvec v 0) 0) -> idle_time b' = idle_time b + dt) /\
  set_idle_field b' (idle_time b) = b.
Proof.
  intros D T Ty v b'. pose proof (fast_iff dv g dt b D T) as F. cbv zeta in F. fold v in F. subst b'. unfold idle_round, idle_time. rewrite Ty. cbn [btype_eqb].
  destruct (too_fast _ b) eqn:E; (split; [|split]); try (intros H; try reflexivity).
  - exfalso. destruct F as [F _]. specialize (F eq_refl). lra.
  - destruct b; reflexivity.
  - exfalso. destruct F as [_ F]. specialize (F H). discriminate F.
  - destruct b; reflexivity.
Qed.
(* without spin: speeds are compared *)
Lemma speed_iff (dv : R) (g : Rvec) (dt : R) (b : Rbody) : 0 <= dv -> 0 <= dt -> 0 < b_mass b -> b_w b = 0 ->
  too_fast (idle_speed_sq dv g dt) b = true <-> (if Req_EM_T dv 0 then vmag g * dt else dv) < vmag (b_vel b).
Proof.
  intros D T M W. rewrite too_fast_spec, idle_speed_spec by assumption. set (v := if Req_EM_T dv 0 then _ else _).
  assert (V : 0 <= v). { unfold v. destruct (Req_EM_T dv 0); [apply Rmult_le_pos; [apply mag_nonneg|exact T]|exact D]. }
  assert (K : kinetic b = / 2 * (b_mass b * Rsqr (vmag (b_vel b)))). { unfold kinetic, Rsqr. rewrite W, mag_sq. unfold vdot. unR. ring. }
  rewrite K. split.
  - intros H. apply Rsqr_incrst_0; [|exact V|apply mag_nonneg]. apply Rmult_lt_reg_l with (b_mass b); lra.
  - intros H. assert (X : Rsqr v < Rsqr (vmag (b_vel b))) by (apply Rsqr_incrst_1; auto; apply mag_nonneg). apply Rmult_lt_compat_l with (r := b_mass b) in X; lra.
Qed.

(** ** Free fall *)
Lemma falling_spec n g dt b : b_type b = Dynamic -> b_vel b = vzero -> b_w b = 0 -> b_force b = vzero -> b_torque b = 0 ->
  let c := falling n g dt b in
  b_vel c = vscale g (INR n * dt) /\ b_w c = 0 /\ b_force c = vzero /\ b_torque c = 0 /\ b_mass c = b_mass b /\ b_moi c = b_moi b /\ b_type c = Dynamic.
Proof.
  intros Ty V W F Tq. induction n as [|n IH]; cbv zeta in *.
  - cbn [falling]. repeat split; auto. rewrite V. unfold vscale, vzero. destruct g. cbn. unR. f_equal; ring.
  - destruct IH as (V1 & W1 & F1 & T1 & M1 & I1 & Ty1). cbn [falling]. set (c := falling n g dt b) in *. unfold update_velocity. rewrite Ty1. cbn [b_vel b_w b_force b_torque set_force_fields set_vel_fields b_mass b_moi].
    rewrite V1, W1, F1, T1. repeat split; auto.
    + rewrite S_INR. destruct g as [gx gy]. unfold vadd, vscale, vzero. cbn. unR. f_equal; ring.
    + cbn. unR. ring.
Qed.
Lemma falls_fast n (g : Rvec) dt b : (2 <= n)%nat -> b_type b = Dynamic -> 0 < b_mass b -> b_vel b = vzero -> b_w b = 0 -> b_force b = vzero -> b_torque b = 0 -> g <> vzero -> 0 < dt ->
  idle_time (idle_round (idle_speed_sq 0 g dt) dt (falling n g dt b)) = 0.
Proof.
  intros N Ty M V W F Tq G D. destruct (falling_spec n g dt b Ty V W F Tq) as (V1 & W1 & _ & _ & M1 & _ & Ty1). unfold idle_round, idle_time. rewrite Ty1. cbn [btype_eqb].
  assert (X : too_fast (idle_speed_sq 0 g dt) (falling n g dt b) = true); [|rewrite X; reflexivity].
  apply speed_iff; [lra|lra|rewrite M1; exact M|exact W1|]. destruct (Req_EM_T 0 0) as [_|X]; [|destruct (X eq_refl)]. rewrite V1, mag_scale. pose proof (mag_pos g G) as P.
  assert (2 <= INR n) by (change 2 with (INR 2); apply le_INR; exact N). rewrite Rabs_right by (apply Rle_ge, Rmult_le_pos; lra).
  assert (vmag g * dt * 1 < vmag g * dt * INR n) by (apply Rmult_lt_compat_l; [apply Rmult_lt_0_compat; assumption|lra]). unR. lra.
Qed.

(** ** In a space *)
Lemma fast_awake {N : Num} (s : Space.space) thr dt fast evs old (s' : Space.space) y :
  SpaceSpec.reachable s -> SpaceSpec.valid (Space.OStep (Some thr) dt fast evs old []) s -> Space.sstep (Space.OStep (Some thr) dt fast evs old []) s = Some s' ->
  Space.contains_body s y = true -> Space.ty s y = Space.Dynamic -> Space.is_sleeping s y = false -> fast y = true ->
  Space.b_idle (Space.s_body s' y) = n0 /\ Space.is_sleeping s' y = false /\
  forall b, Space.is_sleeping s b = false -> SpaceSpec.connected s' b y -> Space.is_sleeping s' b = false.
Proof.
  intros R V E C T S F.
  assert (I : Space.b_idle (Space.s_body s' y) = n0).
  { destruct (SpaceMain.idle_times s thr dt fast evs old [] s' R V E y C T S) as [I|[X _]]; [exact I|]. rewrite F in X. discriminate X. }
  assert (P : nltb n0 thr = true). { destruct V as [_ [_ V]]. apply V. }
  split; [exact I|]. split.
  - destruct (Space.is_sleeping s' y) eqn:Sy; [|reflexivity]. exfalso.
    destruct (SpaceMain.falls_asleep s thr dt fast evs old s' R V E y S Sy) as [A B]. assert (Cy : SpaceSpec.connected s' y y) by (apply A; reflexivity). specialize (B y Cy). rewrite I in B. congruence.
  - intros b Sb Cb. destruct (Space.is_sleeping s' b) eqn:Sb'; [|reflexivity]. exfalso.
    destruct (SpaceMain.falls_asleep s thr dt fast evs old s' R V E b Sb Sb') as [_ B]. specialize (B y Cb). rewrite I in B. congruence.
Qed.
