(** Concrete worlds for C65. *)
From Coq Require Import ZArith Bool Reals List Lra Lia.
From Verif Require Import Num NumReal Vec BB Transform TransformProofs Body BodySpec BodyProofs Solver SolverSpec SolverProofs SolverProofs2 SolverProofs6 SolverProofs3 ArbView ArbViewSpec ArbViewProofs ArbViewProofs2.
Import ListNotations.
Local Open Scope R_scope.

(** A unit body at rest on a fixed one, held up by a carried impulse of 1. *)
Definition av_heap : Rheap := two (fixed 0 0) (ub 0 1 0 0 0).
Definition av_arb : Rsarb := @SArb RNum 0 1 0 0 (rvec 0 0) (rvec 0 1) false false false [@Contact RNum (rvec 0 0) (rvec 0 0) 0 0 0 1 0 0 0 0%Z].
Definition av_world : Rworld := World av_heap [av_arb] [].
Lemma ub_dynamic x y u v w : b_type (ub x y u v w) = Dynamic.
Proof.
  unfold b_type, ub. cbn [b_idle b_mass]. pose proof (Reqb_inf_small 0 ltac:(lia)) as A. pose proof (Reqb_inf_small 1 ltac:(lia)) as B.
  change (neqb (Num := RNum)) with Reqb. change (ninf (Num := RNum)) with RMaxFloat. now rewrite A, B.
Qed.
Lemma av_ok : NoDup [1%nat] /\ In 1%nat [1%nat] /\ b_type (w_heap av_world 1%nat) = Dynamic /\ b_mass (w_heap av_world 1%nat) * b_minv (w_heap av_world 1%nat) = 1 /\
  fresh_arbs av_world /\ free_of (fun _ => True) 1 av_world.
Proof.
  split; [repeat constructor; cbn; tauto|]. split; [now left|]. split; [apply ub_dynamic|]. split; [cbn; lra|]. split.
  - intros s [<-|[]]. cbn. split; [discriminate|]. split; [reflexivity|discriminate].
  - intros c k [].
Qed.
(** Half the time step: for every number of iterations the reported impulse is 1/2 above the momentum given. *)
Lemma av_short n slop bias : let w' := solve n slop bias vzero 1 1 2 [1%nat] av_world in
  vy (Vsum total_impulse (each_view 1 (w_arbs w'))) = vy (momentum (w_heap w' 1%nat)) + 1 / 2.
Proof.
  cbv zeta. destruct av_ok as (A & B & C & D & E & F).
  pose proof (time_step_account n slop bias vzero 1 1 2 [1%nat] av_world 1 ltac:(lra) A B C D E F) as X. cbv zeta in X.
  assert (J : w_joints (solve n slop bias vzero 1 1 2 [1%nat] av_world) = []).
  { clear X. unfold solve. cbv zeta. set (w0 := cached_all _ _). assert (K : w_joints w0 = []) by reflexivity. clearbody w0. revert w0 K.
    induction n as [|n IH]; intros w0 K; cbn [iterations]; [exact K|]. apply IH. unfold iteration. destruct (arbs_apply (w_heap w0) (w_arbs w0)). now rewrite K. }
  rewrite J in X. set (w' := solve n slop bias vzero 1 1 2 [1%nat] av_world) in *. clearbody w'.
  assert (V : Vsum total_impulse (each_view 1 (w_arbs av_world)) = rvec 0 1).
  { unfold Vsum, each_view, av_world, rvec. cbn. unfold Rsum. cbn. unR. f_equal; ring. }
  rewrite V in X. apply (f_equal (@vy RNum)) in X. unfold vadd, vscale, free_momentum, rvec, Vsum in *. cbn [vx vy] in X |- *. change (Rsum (fun x => vy (joint_push 1 x)) []) with 0 in X. cbn in X. unR.
  unfold momentum, rvec. cbn [vy]. revert X. set (S1 := Rsum _ _). clearbody S1. intros X. lra.
Qed.
(** A stretched spring in a space with damping: for every number of iterations the momentum is half of the spring's first impulse short. *)
Definition ds_world : Rworld := World (two (ub 0 0 0 0 0) (ub 1 0 0 0 0)) [] [(wcst 1, JSpring wspring)].
Lemma ds_prestep slop bias : exists q, w_joints (prestep_all slop bias 1 ds_world) = [(wcst 1, JSpring q)] /\ sp_n q = rvec 1 0 /\ sp_j q = 10.
Proof.
  exists (snd (spring_prestep (two (ub 0 0 0 0 0) (ub 1 0 0 0 0)) (wcst 1) 1 wspring)). split.
  { unfold prestep_all, ds_world. cbn [w_heap w_joints w_arbs joints_prestep joint_prestep]. destruct (spring_prestep _ _ _ _) as [H1 q]. reflexivity. }
  unfold spring_prestep. cbv zeta. cbn [snd sp_n sp_j sp_force wspring].
  set (e := vsub _ _). assert (D : e = rvec 1 0) by (apply vec_eq; cbn; unR; ring). clearbody e. subst e.
  assert (Mg : vmag (rvec 1 0) = 1) by (unfold vmag, vdot; cbn; unR; replace (1 * 1 + 0 * 0) with 1 by ring; apply sqrt_1).
  rewrite Mg. unR. rewrite (proj2 (Reqb_false _ _)) by lra. cbn [negb]. split; [apply vec_eq; cbn; unR; field|]. unfold default_spring_force. unR. ring.
Qed.
Lemma ds_ok : NoDup [0; 1]%nat /\ In 1%nat [0; 1]%nat /\ b_type (w_heap ds_world 1%nat) = Dynamic /\ b_mass (w_heap ds_world 1%nat) * b_minv (w_heap ds_world 1%nat) = 1 /\ fresh_arbs ds_world.
Proof.
  split; [repeat constructor; cbn; lia|]. split; [cbn; tauto|]. split; [apply ub_dynamic|]. split; [cbn; lra|]. intros s [].
Qed.
Lemma ds_short n slop bias : let w' := solve n slop bias vzero (1 / 2) 1 1 [0; 1]%nat ds_world in
  vx (Vsum (joint_push 1) (w_joints w')) = vx (momentum (w_heap w' 1%nat)) + 5.
Proof.
  cbv zeta. destruct ds_ok as (A & B & C & D & E).
  assert (G : good 1 1 0 0 (w_heap ds_world)) by (split; [now right|now left]).
  pose proof (account_gen 1 1 0 0 n slop bias vzero (1 / 2) 1 1 [0; 1]%nat ds_world A B G C (rs_off 1 _)) as X. cbv zeta in X.
  rewrite push_sum. destruct (ds_prestep slop bias) as (q & Q & Qn & Qj). rewrite Q in X.
  assert (AR : w_arbs (solve n slop bias vzero (1 / 2) 1 1 [0; 1]%nat ds_world) = []).
  { pose proof (solve_kept n slop bias vzero (1 / 2) 1 1 [0; 1]%nat ds_world) as K. cbn [ds_world w_arbs map] in K. eapply map_eq_nil. exact K. }
  rewrite AR in X. set (w' := solve _ _ _ _ _ _ _ _ ds_world) in *. clearbody w'.
  unfold rvec at 1. cbn [vx]. unfold momentum, rvec at 1. cbn [vx]. unfold Mom in X. revert X. set (S1 := Rsum (Jnt _ _ _ _) _). clearbody S1.
  cbn [ds_world w_arbs w_heap two]. rewrite !Rsum_cons. unfold springy. cbn [snd Jnt]. rewrite Qn, Qj. unfold Imp, sides, eff, frc. cbn. unfold Rsum. cbn. unR. intros X. lra.
Qed.
(** It stays at rest under gravity (0, -1). *)
Lemma av_kick (H : Rheap) j : b_vel (apply_impulses H 0 1 (rvec 0 0) (rvec 0 0) j 1%nat) = @V RNum (vx (b_vel (H 1%nat)) + vx j * b_minv (H 1%nat)) (vy (b_vel (H 1%nat)) + vy j * b_minv (H 1%nat)).
Proof. reflexivity. Qed.
Lemma av_kick0 (H : Rheap) j : b_minv (H 0%nat) = 0 -> b_iinv (H 0%nat) = 0 -> b_vel (apply_impulses H 0 1 (rvec 0 0) (rvec 0 0) j 0%nat) = b_vel (H 0%nat) /\
  b_w (apply_impulses H 0 1 (rvec 0 0) (rvec 0 0) j 0%nat) = b_w (H 0%nat).
Proof. intros A B. split; [apply vec_eq|]; cbn; unR; rewrite ?A, ?B; ring. Qed.
Lemma av_rests : b_vel (w_heap (solve 1 (1 / 10) (1 / 10) (rvec 0 (-1)) 1 1 1 [1%nat] av_world) 1%nat) = vzero.
Proof.
  unfold solve. cbv zeta. match goal with |- context [cached_all ?x _] => assert (DT : x = 1%R) end.
  { destruct (neqb _ _) eqn:E; cbn [negb]; [apply Reqb_true in E; lra|]. change (1 / 1 = 1). field. }
  rewrite DT. clear DT. unfold prestep_all. cbn [av_world w_heap w_arbs w_joints joints_prestep map]. unfold integrate_all. cbn [w_heap w_arbs w_joints fold_left].
  set (s := arb_prestep _ _ _ _ _). set (HI := upd _ _ _).
  assert (I0 : HI 0%nat = fixed 0 0) by reflexivity.
  assert (I1 : b_vel (HI 1%nat) = rvec 0 (-1) /\ b_minv (HI 1%nat) = 1 /\ b_iinv (HI 1%nat) = 1 /\ b_w (HI 1%nat) = 0).
  { unfold HI, upd. cbn [Nat.eqb]. change (av_heap 1%nat) with (ub 0 1 0 0 0). unfold update_velocity. rewrite ub_dynamic. repeat split; [apply vec_eq; cbn; unR; ring|cbn; unR; ring]. }
  clearbody HI. unfold cached_all. cbn [w_heap w_arbs w_joints fold_left iterations]. unfold iteration. cbn [w_heap w_arbs w_joints joints_apply arbs_apply].
  assert (S : s_contacts s = [@Contact RNum (rvec 0 0) (rvec 0 0) 1 1 0 1 0 0 0 0%Z]).
  { unfold s, arb_prestep. cbn [s_contacts with_contacts av_arb map]. f_equal. unfold contact_prestep. cbv zeta. cbn [k_r1 k_r2 k_jn k_jt k_hash s_a s_b s_n s_e]. f_equal; try reflexivity.
    - unfold kscalar, kscalar_body, vcross. cbn. unR. field.
    - unfold kscalar, kscalar_body, vcross. cbn. unR. field.
    - unfold normal_relative_velocity, relative_velocity. cbn. unR. ring.
    - change (nmin (Num := RNum)) with Rmin. rewrite Rmin_left; [unR; field|]. cbn. unR. lra. }
  assert (S2 : s_a s = 0%nat /\ s_b s = 1%nat /\ s_n s = rvec 0 1 /\ s_u s = 0 /\ s_first s = false /\ s_svr s = rvec 0 0) by (repeat split; reflexivity).
  clearbody s. destruct S2 as (Sa & Sb & Sn & Su & Sf & Sv).
  unfold arb_apply, arb_cached. rewrite Sf, S. cbn [fold_left contacts_apply]. unfold contact_cached. rewrite Sa, Sb. cbn [k_r1 k_r2 k_jn k_jt]. 
  set (HC := apply_impulses _ _ _ _ _ _).
  assert (C : b_vel (HC 1%nat) = rvec 0 0 /\ b_minv (HC 1%nat) = 1 /\ b_iinv (HC 1%nat) = 1 /\ b_w (HC 1%nat) = 0 /\ b_vel (HC 0%nat) = rvec 0 0 /\ b_w (HC 0%nat) = 0).
  { destruct I1 as (A & B & C & D). assert (F : hframe HI HC) by apply imp_frame. destruct (F 1%nat) as (_ & F1 & _ & F2 & _). unfold HC in *. rewrite F1, F2.
    destruct (av_kick0 HI (vscale (vrotate (s_n s) (@V RNum 1 0)) 1%R)) as [Z1 Z2]; [now rewrite I0|now rewrite I0|]. rewrite Z1, Z2, I0. rewrite av_kick, A, B, Sn. split; [apply vec_eq; cbn; unR; ring|].
    split; [reflexivity|]. split; [exact C|]. split; [|split; reflexivity]. cbn. rewrite D. unR. ring. }
  clearbody HC. destruct C as (C1 & C2 & C3 & C4 & C5 & C6).
  unfold contact_apply. cbv zeta. cbn [k_r1 k_r2 k_jn k_jt k_bias k_jbias k_nmass k_tmass k_bounce]. rewrite Sa, Sb, Sn, Su, Sv. cbn [fst w_heap].
  set (vr := vadd (relative_velocity _ _ _ _) _). assert (V : vr = rvec 0 0).
  { unfold vr, relative_velocity. rewrite C1, C4, C5, C6. apply vec_eq; cbn; unR; ring. }
  clearbody vr. subst vr.
  rewrite av_kick. match goal with |- context [apply_bias_impulses ?h ?a ?b ?r1 ?r2 ?j] => set (HB := apply_bias_impulses h a b r1 r2 j) end.
  assert (B : b_vel (HB 1%nat) = b_vel (HC 1%nat)) by reflexivity. rewrite B, C1. clear B. clearbody HB.
  assert (N1 : nmax (1 + - (0 + vdot (rvec 0 0) (rvec 0 1)) * 1)%num n0 = 1%R).
  { change (nmax (Num := RNum)) with Rmax. rewrite Rmax_left; cbn; unR; lra. }
  assert (T1 : forall x, nclamp (0 + - (vdot (rvec 0 0) (vperp (rvec 0 1))) * 1)%num (- (0 * x))%num (0 * x)%num = 0%R).
  { intros x. rewrite RnclampE; cbn; unR; [rcases; lra|lra]. }
  change (@n0 RNum) with 0%R in *. rewrite T1, N1. apply vec_eq; cbn; unR; ring.
Qed.
