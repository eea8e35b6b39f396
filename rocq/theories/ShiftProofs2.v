(** Whole steps seen from another origin (C71). *)
From Coq Require Import ZArith Bool List Arith Lia Reals Lra.
From Verif Require Import Num NumReal Vec VecReal BB Transform Body BodySpec BodyProofs Solver SolverSpec Joints JointsSpec ApartSpec ApartProofs ShiftSpec ShiftProofs.
Import ListNotations.
Local Open Scope R_scope.

Definition never (b : Rbody) : Prop := False.
Lemma arb_apply_loc s : local never (s_a s) (s_b s) (fun H : Rheap => arb_apply H s). Proof. apply arb_apply_local; contradiction. Qed.
Lemma arb_cached_loc d s : local never (s_a s) (s_b s) (fun H : Rheap => (arb_cached d H s, tt)). Proof. apply arb_cached_local; contradiction. Qed.
Lemma joint_apply_loc c (dt : R) k : local never (c_a c) (c_b c) (fun H : Rheap => joint_apply H c dt k). Proof. apply joint_apply_local; contradiction. Qed.
Lemma joint_prestep_loc c (dt : R) k : local never (c_a c) (c_b c) (fun H : Rheap => joint_prestep H c dt k). Proof. apply joint_prestep_local; contradiction. Qed.
Lemma joint_cached_loc c (d : R) k : local never (c_a c) (c_b c) (fun H : Rheap => (joint_cached H c d k, tt)). Proof. apply joint_cached_local; contradiction. Qed.

Section Steps.
Variables (B : nat -> bool) (x u : Rvec).
Notation sh := (shift_body x u).
Notation rel := (shifted B x u).
Definition rigids (H : Rheap) : Prop := forall i, B i = true -> rigid (H i).
Lemma local_rel {X} a b (f : Rheap -> Rheap * X) H H' : local never a b f -> moves x u a b f -> B a = true -> B b = true -> rigids H -> rel H H' -> rel (fst (f H)) (fst (f H')) /\ snd (f H') = snd (f H).
Proof.
  intros L M A B0 RG Q. destruct (M H H' (Q a A) (Q b B0) (RG a A)) as (EA & EB & EX). split; [|exact EX]. intros i I.
  destruct (Nat.eq_dec i a) as [->|DA]; [exact EA|]. destruct (Nat.eq_dec i b) as [->|DB]; [exact EB|]. rewrite !(lo_other _ _ _ _ L) by auto. now apply Q.
Qed.
Lemma rigids_tf H H' : (forall i, b_tf (H' i) = b_tf (H i)) -> rigids H -> rigids H'.
Proof. intros E RG i I p. rewrite E. now apply RG. Qed.
Section Loop.
Context {X : Type} (F : X -> Rheap -> Rheap * X) (ea eb : X -> nat) (good : X -> Prop).
Hypotheses (FL : forall v, local never (ea v) (eb v) (F v)) (FM : forall v, good v -> moves x u (ea v) (eb v) (F v)) (FT : forall v H i, b_tf (fst (F v H) i) = b_tf (H i)).
Lemma loop_rel l : (forall v, In v l -> good v /\ B (ea v) = true /\ B (eb v) = true) -> forall H H', rel H H' -> rigids H ->
  rel (fst (loop F H l)) (fst (loop F H' l)) /\ snd (loop F H' l) = snd (loop F H l) /\ rigids (fst (loop F H l)).
Proof.
  induction l as [|v l IH]; intros G H H' Q RG; [now split|]. cbn [loop]. cbv zeta. cbn [fst snd]. destruct (G v (or_introl eq_refl)) as (G1 & G2 & G3).
  destruct (local_rel _ _ _ H H' (FL v) (FM v G1) G2 G3 RG Q) as [Q1 E1]. assert (RG1 : rigids (fst (F v H))) by (apply (rigids_tf H); auto).
  destruct (IH (fun y I => G y (or_intror I)) _ _ Q1 RG1) as (Q2 & E2 & RG2). split; [exact Q2|]. split; [now rewrite E1, E2|exact RG2].
Qed.
End Loop.
Definition arb_in (s : Rsarb) : Prop := True /\ B (s_a s) = true /\ B (s_b s) = true.
Definition joint_in (ck : @sjoint RNum) : Prop := unit_groove (snd ck) /\ B (c_a (fst ck)) = true /\ B (c_b (fst ck)) = true.
Definition inv (w w' : Rworld) : Prop := rel (w_heap w) (w_heap w') /\ w_arbs w' = w_arbs w /\ w_joints w' = w_joints w /\ rigids (w_heap w) /\
  (forall s, In s (w_arbs w) -> arb_in s) /\ (forall ck, In ck (w_joints w) -> joint_in ck).
Lemma ends_in (l l' : list Rsarb) : map s_a l' = map s_a l -> map s_b l' = map s_b l -> (forall s, In s l -> arb_in s) -> forall s, In s l' -> arb_in s.
Proof.
  revert l'. induction l as [|y l IH]; intros [|y' l'] A C G s; try discriminate; [intros []|]. cbn [map] in A, C. injection A as A1 A2. injection C as C1 C2. intros [->|I].
  - unfold arb_in. rewrite A1, C1. apply (G y). now left.
  - apply (IH l' A2 C2); auto. intros z Z. apply G. now right.
Qed.
Lemma loop_in (F : @sjoint RNum -> Rheap -> Rheap * @sjoint RNum) l : (forall ck H, fst (snd (F ck H)) = fst ck /\ (unit_groove (snd ck) -> unit_groove (snd (snd (F ck H))))) -> (forall ck, In ck l -> joint_in ck) ->
  forall H ck, In ck (snd (loop F H l)) -> joint_in ck.
Proof.
  intros A. induction l as [|y l IH]; intros G H ck; [intros []|]. cbn [loop]. cbv zeta. cbn [snd]. intros [<-|I].
  - destruct (A y H) as [E1 E2]. destruct (G y (or_introl eq_refl)) as (G1 & G2 & G3). unfold joint_in. rewrite E1. auto.
  - apply (IH (fun y I => G y (or_intror I)) _ _ I).
Qed.
Lemma groove_kept H c (dt : R) k : unit_groove k -> unit_groove (snd (joint_apply H c dt k)) /\ unit_groove (snd (joint_prestep H c dt k)).
Proof.
  destruct k; cbn [joint_apply joint_prestep unit_groove]; unfold slide_apply, rlimit_apply, ratchet_apply, groove_apply, groove_prestep; cbv zeta; try (intros; split; exact I).
  - intros _. split; [|exact I]. destruct (veqb _ _); exact I.
  - intros U. split; [exact U|]. destruct (_ <=? _)%num; [exact U|]. destruct (_ <=? _)%num; exact U.
  - intros _. split; [|exact I]. destruct (neqb _ _); exact I.
  - intros _. split; [|exact I]. destruct (neqb _ _); exact I.
Qed.
Lemma japply_kept (dt : R) ck H : fst (snd (japply dt ck H)) = fst ck /\ (unit_groove (snd ck) -> unit_groove (snd (snd (japply dt ck H)))).
Proof. split; [reflexivity|]. apply groove_kept. Qed.
Lemma jprestep_kept (dt : R) ck H : fst (snd (jprestep dt ck H)) = fst ck /\ (unit_groove (snd ck) -> unit_groove (snd (snd (jprestep dt ck H)))).
Proof. split; [reflexivity|]. intros U. now apply groove_kept. Qed.
Definition jgood (ck : @sjoint RNum) : Prop := unit_groove (snd ck).
Lemma jloc_apply (dt : R) ck : local never (c_a (fst ck)) (c_b (fst ck)) (japply dt ck).
Proof. apply japply_local; contradiction. Qed.
Lemma jloc_prestep (dt : R) ck : local never (c_a (fst ck)) (c_b (fst ck)) (jprestep dt ck).
Proof. apply jprestep_local; contradiction. Qed.
Lemma jmov_apply (dt : R) ck : moves x u (c_a (fst ck)) (c_b (fst ck)) (japply dt ck).
Proof. intros H H' EA EB RG. destruct (joint_apply_moves x u (fst ck) dt (snd ck) H H' EA EB RG) as (? & ? & E). unfold japply. cbn [fst snd]. now rewrite E. Qed.
Lemma jmov_prestep (dt : R) ck : jgood ck -> moves x u (c_a (fst ck)) (c_b (fst ck)) (jprestep dt ck).
Proof. intros U H H' EA EB RG. destruct (joint_prestep_moves x u (fst ck) dt (snd ck) U H H' EA EB RG) as (? & ? & E). unfold jprestep. cbn [fst snd]. now rewrite E. Qed.
Lemma keep_loc {X} a b (y : X) (f : Rheap -> Rheap) : local never a b (fun H => (f H, tt)) -> local never a b (fun H => (f H, y)).
Proof. intros L. apply (keep_local never a b y f L). Qed.
Lemma keep_mov {X} a b (y : X) (f : Rheap -> Rheap) : moves x u a b (fun H => (f H, tt)) -> moves x u a b (fun H => (f H, y)).
Proof. intros M H H' EA EB RG. destruct (M H H' EA EB RG) as (? & ? & _). auto. Qed.

Lemma iteration_rel (dt : R) w w' : inv w w' -> inv (iteration dt w) (iteration dt w').
Proof.
  intros (Q & EA & EJ & RG & IA & IJ). unfold iteration. rewrite !arbs_loop, EA.
  destruct (loop_rel (fun s H => arb_apply H s) s_a s_b (fun _ => True) arb_apply_loc (fun v _ => arb_apply_moves x u v) (fun v H i => arb_apply_tf H v i) (w_arbs w) IA _ _ Q RG) as (Q1 & E1 & RG1).
  destruct (loop_ends (fun s H => arb_apply H s) s_a s_b (fun y H => arb_apply_ends H y) (w_arbs w) (w_heap w)) as [N1 N2].
  set (l1 := loop _ (w_heap w) (w_arbs w)) in *. set (l2 := loop _ (w_heap w') _) in *. clearbody l1 l2. destruct l1 as [H1 a1], l2 as [H2 a2]. cbn [fst snd] in *. subst a2.
  rewrite !joints_loop, EJ.
  destruct (loop_rel (japply (N := RNum) dt) (fun ck => c_a (fst ck)) (fun ck => c_b (fst ck)) jgood (jloc_apply dt) (fun v _ => jmov_apply dt v) (fun v H i => proj1 (joint_tf H (fst v) dt (snd v) i)) (w_joints w) IJ _ _ Q1 RG1) as (Q2 & E2 & RG2).
  pose proof (loop_in (japply (N := RNum) dt) (w_joints w) (japply_kept dt) IJ H1) as IJ2.
  set (l1 := loop _ H1 (w_joints w)) in *. set (l2 := loop _ H2 _) in *. clearbody l1 l2. destruct l1 as [H3 j1], l2 as [H4 j2]. cbn [fst snd] in *.
  unfold inv. cbn [w_heap w_arbs w_joints]. split; [exact Q2|]. split; [reflexivity|]. split; [exact E2|]. split; [exact RG2|]. split; [|exact IJ2]. exact (ends_in _ _ N1 N2 IA).
Qed.
Lemma iterations_rel (dt : R) n : forall w w', inv w w' -> inv (iterations n dt w) (iterations n dt w').
Proof. induction n as [|n IH]; intros w w' Q; cbn [iterations]; auto. apply IH, iteration_rel, Q. Qed.
Lemma cached_rel (d : R) w w' : inv w w' -> inv (cached_all d w) (cached_all d w').
Proof.
  intros (Q & EA & EJ & RG & IA & IJ). unfold cached_all. cbv zeta. rewrite !(fold_loop (arb_cached (N := RNum) d)), EA.
  destruct (loop_rel (fun v (H : Rheap) => (arb_cached (N := RNum) d H v, v)) s_a s_b (fun _ => True) (fun v => keep_loc _ _ v _ (arb_cached_loc d v)) (fun v _ => keep_mov _ _ v _ (arb_cached_moves x u d v)) (fun v H i => arb_cached_tf d H v i) (w_arbs w) IA _ _ Q RG) as (Q1 & _ & RG1).
  set (h1 := fst (loop _ (w_heap w) (w_arbs w))) in *. set (h2 := fst (loop _ (w_heap w') _)) in *. clearbody h1 h2.
  rewrite !(fold_loop (fun (H : Rheap) cj => joint_cached H (fst cj) d (snd cj))), EJ.
  destruct (loop_rel (fun (v : @sjoint RNum) H => (joint_cached H (fst v) d (snd v), v)) (fun ck => c_a (fst ck)) (fun ck => c_b (fst ck)) jgood (fun v => keep_loc _ _ v _ (joint_cached_loc (fst v) d (snd v)))
    (fun v _ => keep_mov _ _ v _ (joint_cached_moves x u (fst v) d (snd v))) (fun v H i => proj2 (proj2 (joint_tf H (fst v) d (snd v) i))) (w_joints w) IJ _ _ Q1 RG1) as (Q2 & _ & RG2).
  unfold inv. cbn [w_heap w_arbs w_joints]. auto 10.
Qed.
Lemma prestep_rel (slop bias dt : R) w w' : inv w w' -> inv (prestep_all slop bias dt w) (prestep_all slop bias dt w').
Proof.
  intros (Q & EA & EJ & RG & IA & IJ). unfold prestep_all. rewrite !presteps_loop, EJ.
  destruct (loop_rel (jprestep (N := RNum) dt) (fun ck => c_a (fst ck)) (fun ck => c_b (fst ck)) jgood (jloc_prestep dt) (jmov_prestep dt) (fun v H i => proj1 (proj2 (joint_tf H (fst v) dt (snd v) i))) (w_joints w) IJ _ _ Q RG) as (Q2 & E2 & RG2).
  pose proof (loop_in (jprestep (N := RNum) dt) (w_joints w) (jprestep_kept dt) IJ (w_heap w)) as IJ2.
  set (l1 := loop _ (w_heap w) (w_joints w)) in *. set (l2 := loop _ (w_heap w') _) in *. clearbody l1 l2. destruct l1 as [H3 j1], l2 as [H4 j2]. cbn [fst snd] in *.
  unfold inv. cbn [w_heap w_arbs w_joints]. split; [exact Q2|]. split; [|split; [exact E2|split; [exact RG2|split; [|exact IJ2]]]].
  - rewrite EA. apply map_ext_in. intros s I. destruct (IA s I) as (_ & A & C). unfold arb_prestep. f_equal. apply map_ext. intros c. unfold contact_prestep. rewrite (Q _ A), (Q _ C). cbv zeta. rewrite sh_kscalar, sh_nrel, sh_diff. reflexivity.
  - intros s I. apply in_map_iff in I as (s0 & <- & I). exact (IA s0 I).
Qed.
Lemma sh_velocity b g d dt : u = vzero \/ d = 1 -> update_velocity (sh b) g d dt = sh (update_velocity b g d dt).
Proof.
  intros D. unfold update_velocity. change (b_type (sh b)) with (b_type b). destruct (b_type b); try reflexivity;
  unfold shift_body, set_force_fields, set_vel_fields, set_tf_field, set_pos_field; cbn [b_mass b_minv b_moi b_iinv b_angle b_w b_torque b_cog b_pos b_vel b_force b_tf b_idle b_vbias b_wbias]; f_equal;
  (destruct D as [-> | ->]; apply vec_ext; unV; cbn; unR; ring).
Qed.
Lemma integrate_rel g d (dt : R) dyn w w' : u = vzero \/ d = 1 -> inv w w' -> inv (integrate_all g d dt dyn w) (integrate_all g d dt dyn w').
Proof.
  intros D (Q & EA & EJ & RG & IA & IJ). unfold integrate_all, inv. cbn [w_heap w_arbs w_joints].
  assert (X : forall l H H', rel H H' -> rigids H -> rel (fold_left (fun H i => upd H i (update_velocity (H i) g d dt)) l H) (fold_left (fun H i => upd H i (update_velocity (H i) g d dt)) l H') /\ rigids (fold_left (fun H i => upd H i (update_velocity (H i) g d dt)) l H)).
  { induction l as [|i l IH]; intros H H' Q0 RG0; [now split|]. cbn [fold_left]. apply IH.
    - intros k K. unfold upd. destruct (Nat.eqb_spec k i) as [->|]; [rewrite (Q0 _ K); now apply sh_velocity|now apply Q0].
    - apply (rigids_tf H); [|exact RG0]. intros k. unfold upd. destruct (Nat.eqb_spec k i) as [->|]; [|reflexivity]. unfold update_velocity. destruct (b_type _); reflexivity. }
  destruct (X dyn _ _ Q RG) as [Q1 RG1]. auto 10.
Qed.
End Steps.

Definition later (x u : Rvec) (dt : R) : Rvec := vadd x (vscale u dt).
Lemma sh_position x u b dt : update_position (shift_body x u b) dt = shift_body (later x u dt) u (update_position b dt).
Proof.
  destruct b as [c1 c2 c3 c4 c5 c6 c7 c8 [p1 p2] [v1 v2] c11 c12 c13 [e1 e2] c15], x as [x1 x2], u as [u1 u2], c8 as [g1 g2]. cbv [update_position shift_body later set_transform set_bias_fields set_vel_fields set_tf_field set_pos_field set_angle_field b_mass b_minv b_moi b_iinv b_angle b_w b_torque b_cog b_pos b_vel b_force b_tf b_idle b_vbias b_wbias tf_new ta tb tc td ttx tty vadd vscale vx vy].
  f_equal; [f_equal; unR; ring|f_equal; unR; ring].
Qed.
Lemma position_rigid (b : Rbody) dt : rigid (update_position b dt).
Proof.
  intros [p1 p2]. unfold update_position, set_transform. cbn [b_tf set_bias_fields set_tf_field set_pos_field set_angle_field b_pos b_angle b_cog tf_new]. unfold vmag, vmagsq, tf_apply_vector. f_equal. unV. cbn. unR. set (t := _ + _ * dt).
  pose proof (sin2_cos2 t) as S. unfold Rsqr in S.
  replace ((cos t * p1 + - sin t * p2) * (cos t * p1 + - sin t * p2) + (sin t * p1 + cos t * p2) * (sin t * p1 + cos t * p2)) with ((sin t * sin t + cos t * cos t) * (p1 * p1 + p2 * p2)) by ring. rewrite S. ring.
Qed.
Lemma move_rigids B (dt : R) dyn : forall H, rigids B H -> rigids B (move_all dt dyn H).
Proof.
  unfold move_all. induction dyn as [|i l IH]; intros H RG; [exact RG|]. cbn [fold_left]. apply IH. intros k K. unfold upd. destruct (Nat.eqb_spec k i); [apply position_rigid|now apply RG].
Qed.
Lemma later_0 x dt : later x vzero dt = x.
Proof. unfold later. apply vec_ext; unV; cbn; unR; ring. Qed.
Lemma move_origin B x (dt : R) dyn : forall H H', shifted B x vzero H H' -> shifted B x vzero (move_all dt dyn H) (move_all dt dyn H').
Proof.
  unfold move_all. induction dyn as [|i l IH]; intros H H' Q; [exact Q|]. cbn [fold_left]. apply IH. intros k K. unfold upd. destruct (Nat.eqb_spec k i) as [->|]; [|now apply Q]. rewrite (Q _ K), sh_position, later_0. reflexivity.
Qed.
Lemma move_one (dt : R) dyn : NoDup dyn -> forall (H : Rheap) i, In i dyn -> move_all dt dyn H i = update_position (H i) dt.
Proof.
  unfold move_all. induction 1 as [|k l NI ND IH]; intros H i I; [destruct I|]. cbn [fold_left].
  assert (F : forall l (H : Rheap), ~ In i l -> fold_left (fun H i => upd H i (update_position (H i) dt)) l H i = H i).
  { induction l0 as [|m l0 IH0]; intros H0 NI0; [reflexivity|]. cbn [fold_left]. rewrite IH0 by (intro; apply NI0; now right). apply upd_other. intros ->. apply NI0. now left. }
  destruct I as [->|I].
  - rewrite F by exact NI. apply upd_same.
  - rewrite IH by exact I. rewrite upd_other; [reflexivity|]. intros ->. contradiction.
Qed.
Lemma move_boost B x u (dt : R) dyn : NoDup dyn -> (forall i, B i = true -> In i dyn) -> forall H H', shifted B x u H H' -> shifted B (later x u dt) u (move_all dt dyn H) (move_all dt dyn H').
Proof. intros ND C H H' Q i I. rewrite !move_one by auto. rewrite (Q i I). apply sh_position. Qed.

Lemma later_later x u (s t : R) : later (later x u s) u t = later x u (s + t).
Proof. unfold later. destruct x, u. apply vec_ext; unV; unR; ring. Qed.
(** A step for which the bodies move uniformly in the second world. *)
Definition goes (B : nat -> bool) (u : Rvec) (i : @given RNum) : Prop := u = vzero \/ (i_damping i = 1 /\ NoDup (i_dyn i) /\ forall k, B k = true -> In k (i_dyn i)).
Lemma step_rel B x u (i : @given RNum) w w' : goes B u i -> origin_free B (i_arbs i) -> (forall H l s, In s (i_arbs i H l) -> B (s_a s) = true /\ B (s_b s) = true) ->
  inv B x u w w' -> inv B (later x u (i_dt i)) u (step_with w i) (step_with w' i).
Proof.
  intros G O IN (Q & EA & EJ & RG & IA & IJ). unfold step_with, full_step, solve. cbv zeta. apply iterations_rel, cached_rel, integrate_rel; [destruct G as [G|(G & _)]; auto|]. apply prestep_rel.
  assert (M : shifted B (later x u (i_dt i)) u (move_all (i_dt i) (i_dyn i) (w_heap w)) (move_all (i_dt i) (i_dyn i) (w_heap w'))).
  { destruct G as [-> |(_ & G1 & G2)]; [rewrite later_0; now apply move_origin|now apply move_boost]. }
  unfold inv. cbn [w_heap w_arbs w_joints]. split; [exact M|]. split; [rewrite EA; eapply O; exact M|]. split; [exact EJ|]. split; [now apply move_rigids|]. split; [|exact IJ]. intros s I. split; [exact Logic.I|]. exact (IN _ _ s I).
Qed.
Lemma steps_rel B u (is : list (@given RNum)) : Forall (fun i => goes B u i /\ origin_free B (i_arbs i) /\ forall H l s, In s (i_arbs i H l) -> B (s_a s) = true /\ B (s_b s) = true) is -> forall x w w',
  inv B x u w w' -> inv B (later x u (total_time is)) u (fold_left step_with is w) (fold_left step_with is w').
Proof.
  induction 1 as [|i is (G & O & IN) F IH]; intros x w w' Q.
  - cbn [fold_left]. replace (later x u (total_time [])) with x; [exact Q|]. unfold later. cbn. apply vec_ext; unV; cbn; unR; rring.
  - cbn [fold_left]. replace (later x u (total_time (i :: is))) with (later (later x u (i_dt i)) u (total_time is)).
    + apply IH. now apply step_rel.
    + change (total_time (i :: is)) with (i_dt i + total_time is)%R. apply later_later.
Qed.
Definition all (i : nat) : bool := true.
Theorem origin (is : list (@given RNum)) (w w' : Rworld) (x : Rvec) : Forall (fun i => origin_free all (i_arbs i)) is -> (forall i, rigid (w_heap w i)) -> Forall (fun ck => unit_groove (snd ck)) (w_joints w) ->
  shifted_world all x vzero w w' -> shifted_world all x vzero (fold_left step_with is w) (fold_left step_with is w').
Proof.
  intros O RG UG [Q EA EJ]. assert (I : inv all x vzero w w').
  { split; [exact Q|]. split; [exact EA|]. split; [exact EJ|]. split; [intros i _; apply RG|]. split; [intros; repeat split|]. intros ck I. split; [|repeat split]. revert ck I. now apply Forall_forall. }
  apply (steps_rel all vzero is) in I; [|eapply Forall_impl; [|exact O]; intros i Oi; split; [now left|split; [exact Oi|auto]]].
  rewrite later_0 in I. destruct I as (A & C & D & _). now constructor.
Qed.
Theorem boost B u (is : list (@given RNum)) (w w' : Rworld) (x : Rvec) :
  Forall (fun i => i_damping i = 1 /\ NoDup (i_dyn i) /\ (forall k, B k = true -> In k (i_dyn i)) /\ origin_free B (i_arbs i) /\ forall H l s, In s (i_arbs i H l) -> B (s_a s) = true /\ B (s_b s) = true) is ->
  (forall i, B i = true -> rigid (w_heap w i)) -> (forall s, In s (w_arbs w) -> B (s_a s) = true /\ B (s_b s) = true) -> (forall ck, In ck (w_joints w) -> unit_groove (snd ck) /\ B (c_a (fst ck)) = true /\ B (c_b (fst ck)) = true) ->
  shifted_world B x u w w' -> shifted_world B (vadd x (vscale u (total_time is))) u (fold_left step_with is w) (fold_left step_with is w').
Proof.
  intros O RG IA IJ [Q EA EJ]. assert (I : inv B x u w w').
  { split; [exact Q|]. split; [exact EA|]. split; [exact EJ|]. split; [exact RG|]. split; [|exact IJ]. intros s I. split; [exact Logic.I|now apply IA]. }
  apply (steps_rel B u is) in I; [|eapply Forall_impl; [|exact O]; intros i (O1 & O2 & O3 & O4 & O5); split; [right; auto|auto]]. destruct I as (A & C & D & _). now constructor.
Qed.
