(** C65: from the scalar account to what the API reports. *)
From Coq Require Import ZArith Bool Reals List Lra Lia.
From Verif Require Import Num NumReal Vec BB Transform Body BodySpec BodyProofs Solver SolverSpec SolverProofs SolverProofs2 ArbView ArbViewSpec ArbViewProofs.
Import ListNotations.
Local Open Scope R_scope.

(** ** What the solver keeps of an arbiter *)
Definition kept {N : Num} (s : sarb) := (s_a s, s_b s, s_cached s).
Lemma arbs_kept l : forall H : Rheap, map kept (snd (arbs_apply H l)) = map kept l.
Proof.
  induction l as [|s l IH]; intros H; cbn [arbs_apply]; [reflexivity|]. unfold arb_apply.
  destruct (contacts_apply H s (s_contacts s)) as [H1 cs]. pose proof (IH H1) as E. destruct (arbs_apply H1 l) as [H2 l2]. cbn [snd map] in *. now rewrite E.
Qed.
Lemma iterations_kept n dt : forall w : Rworld, map kept (w_arbs (iterations n dt w)) = map kept (w_arbs w).
Proof.
  induction n as [|n IH]; intros w; cbn [iterations]; [reflexivity|]. rewrite IH. unfold iteration. pose proof (arbs_kept (w_arbs w) (w_heap w)) as E.
  destruct (arbs_apply (w_heap w) (w_arbs w)) as [H1 l1]. destruct (joints_apply H1 dt (w_joints w)). exact E.
Qed.
Lemma solve_kept n slop bias g d dt prevdt L (w : Rworld) : map kept (w_arbs (solve n slop bias g d dt prevdt L w)) = map kept (w_arbs w).
Proof.
  unfold solve. cbv zeta. rewrite iterations_kept. unfold cached_all, integrate_all, prestep_all. cbn [w_arbs].
  destruct (joints_prestep (w_heap w) dt (w_joints w)) as [H1 l1]. cbn [w_arbs]. rewrite map_map. reflexivity.
Qed.
Lemma kept_in (l l' : list Rsarb) (P : nat * nat * bool -> Prop) : map kept l' = map kept l -> (forall s, In s l -> P (kept s)) -> forall s, In s l' -> P (kept s).
Proof.
  intros E Q s Hs. assert (X : In (kept s) (map kept l)) by (rewrite <- E; now apply in_map).
  apply in_map_iff in X. destruct X as (s0 & <- & H0). now apply Q.
Qed.

(** ** Reports *)
Lemma fold_vadd (f : Rcontact -> @vec RNum) cs : forall a, fold_left (fun sum c => vadd sum (f c)) cs a =
  rvec (vx a + Rsum (fun c => vx (f c)) cs) (vy a + Rsum (fun c => vy (f c)) cs).
Proof.
  induction cs as [|c cs IH]; intros a; cbn [fold_left].
  - unfold rvec. destruct a as [x y]. cbn. f_equal; lra.
  - rewrite IH, !Rsum_cons. unfold vadd. cbn [vx vy]. unR. unfold rvec. f_equal; lra.
Qed.
Lemma total_sum (s : Rsarb) : s_cached s = false -> let e := if s_swapped s then 1 else -1 in
  total_impulse s = rvec (e * Rsum (fun c => vx (vrotate (s_n s) (rvec (k_jn c) (k_jt c)))) (s_contacts s))
                         (e * Rsum (fun c => vy (vrotate (s_n s) (rvec (k_jn c) (k_jt c)))) (s_contacts s)).
Proof.
  intros C e. unfold total_impulse, arb_count. rewrite C, firstn_all. rewrite fold_vadd. unfold e, rvec, vzero, vneg. destruct (s_swapped s); cbn [vx vy]; unR; f_equal; lra.
Qed.
Lemma Rsum_scale {A} (f : A -> R) e l : e * Rsum f l = Rsum (fun x => e * f x) l.
Proof. induction l as [|x l IH]; [cbn; lra|]. rewrite !Rsum_cons. lra. Qed.
Lemma arb_report i (s : Rsarb) : s_a s <> s_b s -> s_cached s = false -> (i = s_a s \/ i = s_b s) ->
  Arb i 1 0 0 s = vx (total_impulse (seen_by i s)) /\ Arb i 0 1 0 s = vy (total_impulse (seen_by i s)).
Proof.
  intros NE C HI. rewrite total_sum by exact C. unfold rvec. cbn [vx vy]. unfold Arb. rewrite !Rsum_scale. cbn [s_contacts s_n s_swapped seen_by].
  split; apply Rsum_ext; intros c _; unfold Con, Imp, sides, eff, rvec.
  all: destruct (Nat.eqb_spec i (s_b s)) as [B|B]; destruct (Nat.eqb_spec i (s_a s)) as [A|A]; try (exfalso; intuition congruence); lra.
Qed.
Lemma arb_off i px py pa (s : Rsarb) : i <> s_a s -> i <> s_b s -> Arb i px py pa s = 0.
Proof.
  intros A B. apply Rsum_zero. intros c _. unfold Con, Imp, sides. destruct (Nat.eqb_spec i (s_a s)); [tauto|]. destruct (Nat.eqb_spec i (s_b s)); [tauto|]. lra.
Qed.
Lemma view_sum i (l : list Rsarb) : (forall s, In s l -> s_a s <> s_b s /\ s_cached s = false) ->
  Vsum total_impulse (each_view i l) = rvec (Rsum (Arb i 1 0 0) l) (Rsum (Arb i 0 1 0) l).
Proof.
  induction l as [|s l IH]; intros K; [reflexivity|].
  assert (K' : forall s, In s l -> s_a s <> s_b s /\ s_cached s = false) by (intros; apply K; now right).
  specialize (IH K'). unfold Vsum, rvec in *. injection IH as IHx IHy. destruct (K s (or_introl eq_refl)) as [NE C].
  unfold each_view in *. cbn [List.filter]. destruct (Nat.eqb i (s_a s) || Nat.eqb i (s_b s)) eqn:E.
  - cbn [map]. rewrite !Rsum_cons, IHx, IHy. destruct (arb_report i s NE C) as [-> ->]; [|reflexivity].
    apply orb_prop in E. destruct E as [E|E]; apply Nat.eqb_eq in E; auto.
  - rewrite !Rsum_cons, IHx, IHy. apply orb_false_elim in E. destruct E as [E1 E2]. apply Nat.eqb_neq in E1, E2.
    rewrite !(arb_off i _ _ _ s E1 E2). f_equal; lra.
Qed.
Lemma push_sum i l : Vsum (joint_push i) l = rvec (Rsum (Jnt i 1 0 0) l) (Rsum (Jnt i 0 1 0) l).
Proof.
  unfold Vsum. f_equal; apply Rsum_ext; intros [c k] _; unfold joint_push, joint_vector, Jnt, Imp, sides, eff, rvec, vscale.
  all: destruct k; cbn [vx vy]; unR; destruct (Nat.eqb i (c_a c)), (Nat.eqb i (c_b c)); ring.
Qed.
Lemma twist_arb i (s : Rsarb) : Arb i 0 0 1 s = arb_twist i s.
Proof.
  unfold Arb, arb_twist. apply Rsum_ext. intros c _. unfold Con, Imp, sides, eff, contact_twist, rvec. cbv zeta.
  destruct (Nat.eqb i (s_b s)), (Nat.eqb i (s_a s)); ring.
Qed.
Lemma twist_joint i ck : Jnt i 0 0 1 ck = joint_twist i ck.
Proof.
  destruct ck as [c k]. unfold joint_twist, Jnt, Imp, sides, eff, joint_vector, cross, rvec, vscale.
  destruct k; cbn [vx vy]; unR; destruct (Nat.eqb i (c_a c)), (Nat.eqb i (c_b c)); ring.
Qed.
Lemma fresh_zero i px py pa (w : Rworld) : fresh_arbs w -> forall s, In s (w_arbs w) -> s_first s = true -> Arb i px py pa s = 0.
Proof.
  intros F s Hs E. destruct (F s Hs) as (_ & _ & Z). apply Rsum_zero. intros c Hc. destruct (Z E c Hc) as [A B].
  unfold Con. rewrite A, B. unfold Imp, sides, eff, cross, vrotate. cbn [vx vy]. unR. destruct (Nat.eqb i (s_a s)), (Nat.eqb i (s_b s)); ring.
Qed.
Lemma fresh_kept n slop bias g d dt prevdt L (w : Rworld) : fresh_arbs w -> forall s, In s (w_arbs (solve n slop bias g d dt prevdt L w)) -> s_a s <> s_b s /\ s_cached s = false.
Proof.
  intros F. apply (kept_in (w_arbs w) _ (fun k => fst (fst k) <> snd (fst k) /\ snd k = false)); [apply solve_kept|].
  intros s Hs. destruct (F s Hs) as (A & B & _). now split.
Qed.

Theorem momentum_account n slop bias g d dt L (w : Rworld) i : dt <> 0 -> NoDup L -> In i L -> b_type (w_heap w i) = Dynamic ->
  b_mass (w_heap w i) * b_minv (w_heap w i) = 1 -> fresh_arbs w -> d = 1 \/ free_of is_spring i w ->
  let w' := solve n slop bias g d dt dt L w in
  momentum (w_heap w' i) = vadd (free_momentum g d dt (w_heap w i)) (vadd (Vsum total_impulse (each_view i (w_arbs w'))) (Vsum (joint_push i) (w_joints w'))).
Proof.
  intros Hd ND Hi T M F S. cbv zeta. rewrite (view_sum i _ (fresh_kept n slop bias g d dt dt L w F)), push_sum.
  assert (OK : step_ok i 0 d w) by (destruct S as [S|S]; [now left|right; intros c k Hk [K|[K _]]; [exact (S c k Hk K)|now elim K]]).
  assert (RS : Forall (rs_ok i 0) (w_joints w)) by (apply Forall_forall; intros [c k] _; unfold rs_ok; destruct k; cbn; auto).
  assert (G : forall px py, good i px py 0 (w_heap w)) by (intros; split; [now right|now left]).
  pose proof (account i 1 0 0 n slop bias g d dt L w Hd ND Hi (G 1 0) T OK RS (fresh_zero i 1 0 0 w F)) as X.
  pose proof (account i 0 1 0 n slop bias g d dt L w Hd ND Hi (G 0 1) T OK RS (fresh_zero i 0 1 0 w F)) as Y.
  cbv zeta in X, Y. set (w' := solve n slop bias g d dt dt L w) in *. clearbody w'.
  unfold Mom, frc in X, Y. unfold momentum, free_momentum, rvec, vadd. cbn [vx vy]. unR. f_equal; lra.
Qed.
Theorem spin_account n slop bias g d dt L (w : Rworld) i : dt <> 0 -> NoDup L -> In i L -> b_type (w_heap w i) = Dynamic ->
  b_moi (w_heap w i) * b_iinv (w_heap w i) = 1 -> fresh_arbs w -> free_of is_rspring i w -> d = 1 \/ free_of is_spring i w ->
  let w' := solve n slop bias g d dt dt L w in
  b_moi (w_heap w' i) * b_w (w_heap w' i) = d * (b_moi (w_heap w i) * b_w (w_heap w i)) + dt * b_torque (w_heap w i) +
    Rsum (arb_twist i) (w_arbs w') + Rsum (joint_twist i) (w_joints w').
Proof.
  intros Hd ND Hi T M F RF S. cbv zeta.
  assert (OK : step_ok i 1 d w) by (destruct S as [S|S]; [now left|right; intros c k Hk [K|[_ K]]; [exact (S c k Hk K)|exact (RF c k Hk K)]]).
  assert (RS : Forall (rs_ok i 1) (w_joints w)).
  { apply Forall_forall. intros [c k] Hk. unfold rs_ok. destruct k; cbn [snd fst]; auto. right. exact (RF _ _ Hk I). }
  assert (G : good i 0 0 1 (w_heap w)) by (split; [left; split; reflexivity|now right]).
  pose proof (account i 0 0 1 n slop bias g d dt L w Hd ND Hi G T OK RS (fresh_zero i 0 0 1 w F)) as X. cbv zeta in X.
  set (w' := solve n slop bias g d dt dt L w) in *. clearbody w'.
  rewrite (Rsum_ext (Arb i 0 0 1) (arb_twist i)) in X by (intros; apply twist_arb).
  rewrite (Rsum_ext (Jnt i 0 0 1) (joint_twist i)) in X by (intros; apply twist_joint).
  unfold Mom, frc in X. lra.
Qed.

(** ** Changing time steps and damping *)
Lemma rs_off i (l : list Rjoint) : Forall (rs_ok i 0) l.
Proof. apply Forall_forall. intros [c k] _. unfold rs_ok. destruct k; cbn; auto. Qed.
Lemma jnt_off i px py pa c k : i <> c_a c -> i <> c_b c -> Jnt i px py pa (c, k) = 0.
Proof.
  intros A B. unfold Jnt, Imp, sides. destruct (Nat.eqb_spec i (c_a c)); [tauto|]. destruct (Nat.eqb_spec i (c_b c)); [tauto|]. destruct k; ring.
Qed.
Lemma free_jnt i px py pa slop bias dt (w : Rworld) f : free_of (fun _ => True) i w -> Rsum (fun ck => f ck * Jnt i px py pa ck) (w_joints (prestep_all slop bias dt w)) = 0.
Proof.
  intros F. apply Rsum_zero. intros [c k] Hk. destruct (prestep_kinds slop bias dt w _ _ Hk) as (k0 & Hk0 & _). destruct (F c k0 Hk0 I). rewrite jnt_off by assumption. ring.
Qed.
Theorem time_step_account n slop bias g d dt prevdt L (w : Rworld) i : prevdt <> 0 -> NoDup L -> In i L -> b_type (w_heap w i) = Dynamic ->
  b_mass (w_heap w i) * b_minv (w_heap w i) = 1 -> fresh_arbs w -> free_of (fun _ => True) i w ->
  let w' := solve n slop bias g d dt prevdt L w in
  vadd (momentum (w_heap w' i)) (vscale (Vsum total_impulse (each_view i (w_arbs w))) (1 - dt / prevdt)%R) =
  vadd (free_momentum g d dt (w_heap w i)) (vadd (Vsum total_impulse (each_view i (w_arbs w'))) (Vsum (joint_push i) (w_joints w'))).
Proof.
  intros Hd ND Hi T M F S. cbv zeta. rewrite (view_sum i _ (fresh_kept n slop bias g d dt prevdt L w F)), push_sum.
  assert (K : forall s, In s (w_arbs w) -> s_a s <> s_b s /\ s_cached s = false) by (intros s Hs; destruct (F s Hs) as (A & B & _); now split).
  rewrite (view_sum i _ K).
  assert (G : forall px py, good i px py 0 (w_heap w)) by (intros; split; [now right|now left]).
  pose proof (account_gen i 1 0 0 n slop bias g d dt prevdt L w ND Hi (G 1 0) T (rs_off i _)) as X.
  pose proof (account_gen i 0 1 0 n slop bias g d dt prevdt L w ND Hi (G 0 1) T (rs_off i _)) as Y.
  cbv zeta in X, Y. rewrite (free_jnt i 1 0 0 slop bias dt w _ S) in X. rewrite (free_jnt i 0 1 0 slop bias dt w _ S) in Y.
  assert (E : ratio dt prevdt = dt / prevdt) by (unfold ratio; destruct (Req_EM_T prevdt 0); [contradiction|reflexivity]). rewrite E in X, Y.
  rewrite (Rsum_ext (fun s => (if s_first s then 1 else 1 - dt / prevdt) * Arb i 1 0 0 s) (fun s => (1 - dt / prevdt) * Arb i 1 0 0 s)) in X
    by (intros s Hs; destruct (s_first s) eqn:Fs; [rewrite (fresh_zero i 1 0 0 w F s Hs Fs)|]; lra).
  rewrite (Rsum_ext (fun s => (if s_first s then 1 else 1 - dt / prevdt) * Arb i 0 1 0 s) (fun s => (1 - dt / prevdt) * Arb i 0 1 0 s)) in Y
    by (intros s Hs; destruct (s_first s) eqn:Fs; [rewrite (fresh_zero i 0 1 0 w F s Hs Fs)|]; lra).
  rewrite <- Rsum_scale in X, Y.
  set (w' := solve n slop bias g d dt prevdt L w) in *. clearbody w'.
  unfold Mom, frc in X, Y. unfold momentum, free_momentum, rvec, vadd, vscale. cbn [vx vy]. unR. f_equal; lra.
Qed.
(** A body at rest before and after a step: the arbiters report its weight. *)
Lemma weight n slop bias g dt L (w : Rworld) i : dt <> 0 -> NoDup L -> In i L -> b_type (w_heap w i) = Dynamic ->
  b_mass (w_heap w i) * b_minv (w_heap w i) = 1 -> fresh_arbs w -> free_of (fun _ => True) i w ->
  let w' := solve n slop bias g 1 dt dt L w in
  b_vel (w_heap w i) = vzero -> b_vel (w_heap w' i) = vzero -> b_force (w_heap w i) = vzero ->
  Vsum total_impulse (each_view i (w_arbs w')) = vscale g (- (dt * b_mass (w_heap w i)))%R.
Proof.
  intros Hd ND Hi T M F S. cbv zeta. intros V V' Fo.
  pose proof (time_step_account n slop bias g 1 dt dt L w i Hd ND Hi T M F S) as X. cbv zeta in X.
  assert (P : Vsum (joint_push i) (w_joints (solve n slop bias g 1 dt dt L w)) = vzero).
  { rewrite push_sum. assert (Z : forall px py, Rsum (Jnt i px py 0) (w_joints (solve n slop bias g 1 dt dt L w)) = 0); [|rewrite !Z; reflexivity].
    intros px py. apply Rsum_zero. intros [c k] Hk.
    assert (I : exists k0, In (c, k0) (w_joints w)).
    { clear - Hk. unfold solve in Hk. cbv zeta in Hk.
      assert (A : forall m w1, map fst (w_joints (iterations (N := RNum) m dt w1)) = map fst (w_joints w1)).
      { induction m; intros w1; cbn [iterations]; [reflexivity|]. rewrite IHm. unfold iteration. destruct (arbs_apply _ _) as [H1 l1].
        assert (B : forall l H, map fst (snd (joints_apply (N := RNum) H dt l)) = map fst l).
        { clear. induction l as [|[c k] l IH]; intros H; cbn [joints_apply]; [reflexivity|]. destruct (joint_apply H c dt k) as [H1 k1]. specialize (IH H1). destruct (joints_apply H1 dt l) as [H2 l2]. cbn [snd map fst] in *. now rewrite IH. }
        specialize (B (w_joints w1) H1). destruct (joints_apply H1 dt (w_joints w1)) as [H2 l2]. exact B. }
      apply (in_map fst) in Hk. rewrite A in Hk. apply in_map_iff in Hk. destruct Hk as ([c' k'] & E & Hk). cbn [fst] in E. subst c'.
      destruct (prestep_kinds slop bias dt w c k' Hk) as (k0 & Hk0 & _). now exists k0. }
    destruct I as [k0 Hk0]. destruct (S c k0 Hk0 Logic.I). now apply jnt_off. }
  rewrite P in X. revert X. set (w' := solve n slop bias g 1 dt dt L w) in *. clearbody w'. intros X.
  unfold momentum, free_momentum in X. rewrite V, V', Fo in X. clear P. set (A := Vsum _ (each_view i (w_arbs w))) in X. clearbody A. destruct A as [ax ay].
  unfold rvec, vadd, vscale, vzero in *. cbn [vx vy] in *. injection X as X Y. unR.
  assert (Q : dt / dt = 1) by (field; exact Hd). change (ndiv (Num := RNum)) with Rdiv in *. rewrite Q in X, Y. unfold Vsum, rvec. f_equal; lra.
Qed.

(** ** The magnitude each joint reports *)
Lemma magnitude_report (k : @jclass RNum) : unit_axis k -> vmag (joint_vector k) = Rabs (joint_impulse k).
Proof.
  assert (P : forall v : @vec RNum, vmag v = Rabs (vmag v)) by (intros v; symmetry; apply Rabs_right, Rle_ge, sqrt_pos).
  assert (Q : forall (j : R) (v : @vec RNum), vdot v v = 1 -> vmag (rvec (j * vx v) (j * vy v)) = Rabs j).
  { intros j v U. unfold vmag, rvec. change (nsqrt (Num := RNum)) with sqrt. rewrite <- sqrt_Rsqr_abs. f_equal. unfold vdot in *. cbn [vx vy]. unR. unfold Rsqr.
    replace (j * vx v * (j * vx v) + j * vy v * (j * vy v)) with (j * j * (vx v * vx v + vy v * vy v)) by ring. rewrite U. ring. }
  destruct k as [p|p|p|p|p|p|p|p|p|p]; cbn [unit_axis joint_vector joint_impulse]; intros U; try contradiction; try (now apply P);
    change (nabs (Num := RNum)) with Rabs; rewrite ?Rabs_Rabsolu; now apply Q.
Qed.

(** ** The two views *)
Lemma views (s : Rsarb) (H : Rheap) : s_a s <> s_b s ->
  arb_bodies (seen_by (s_a s) s) = (s_a s, s_b s) /\ arb_bodies (seen_by (s_b s) s) = (s_b s, s_a s) /\
  arb_normal (seen_by (s_b s) s) = vneg (arb_normal (seen_by (s_a s) s)) /\
  total_impulse (seen_by (s_b s) s) = vneg (total_impulse (seen_by (s_a s) s)) /\
  cp_normal (contact_point_set H (seen_by (s_b s) s)) = arb_normal (seen_by (s_b s) s) /\
  cp_normal (contact_point_set H (seen_by (s_a s) s)) = arb_normal (seen_by (s_a s) s) /\
  cp_points (contact_point_set H (seen_by (s_b s) s)) = map (fun p => let '(p1, p2, d) := p in (p2, p1, d)) (cp_points (contact_point_set H (seen_by (s_a s) s))).
Proof.
  intros NE. assert (E : Nat.eqb (s_a s) (s_b s) = false) by now apply Nat.eqb_neq.
  unfold arb_bodies, arb_normal, total_impulse, contact_point_set, seen_by, arb_count. cbn [s_a s_b s_n s_swapped s_cached s_contacts cp_normal cp_points].
  rewrite E, Nat.eqb_refl. repeat split.
  - unfold vscale, vneg. unR. f_equal; ring.
  - unfold vneg. set (v := fold_left _ _ _). destruct v as [x y]. cbn [vx vy]. unR. f_equal; ring.
  - unfold vscale, vneg. unR. f_equal; ring.
  - rewrite map_map. reflexivity.
Qed.
