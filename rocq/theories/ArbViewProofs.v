(** Proofs of C65: every impulse the solver applies is counted once.  All in one scalar: a fixed combination px, py, pa of the
    momentum of body i and its spin. *)
From Coq Require Import ZArith Bool Reals List Lra Lia.
From Verif Require Import Num NumReal Vec BB Transform Body BodySpec BodyProofs Solver SolverSpec SolverProofs SolverProofs2 ArbView ArbViewSpec.
Import ListNotations.
Local Open Scope R_scope.

Section Account.
Variables (i : nat) (px py pa : R).

Definition Mom (H : Rheap) : R :=
  px * (b_mass (H i) * vx (b_vel (H i))) + py * (b_mass (H i) * vy (b_vel (H i))) + pa * (b_moi (H i) * b_w (H i)).
Definition sides (a b : nat) (x y : R) : R := (if Nat.eqb i b then y else 0) - (if Nat.eqb i a then x else 0).
Definition eff (r j : @vec RNum) : R := px * vx j + py * vy j + pa * cross r j.
Definition Imp (a b : nat) (r1 r2 j : @vec RNum) : R := sides a b (eff r1 j) (eff r2 j).
Definition good1 (b : Rbody) : Prop := (px = 0 /\ py = 0 \/ b_mass b * b_minv b = 1) /\ (pa = 0 \/ b_moi b * b_iinv b = 1).
Definition good (H : Rheap) : Prop := good1 (H i).
Lemma good_frame H H' : hframe H H' -> good H -> good H'.
Proof. intros F [A B]. unfold good, good1. destruct (F i) as (-> & -> & -> & -> & _). now split. Qed.

Definition mom1 (b : Rbody) : R := px * (b_mass b * vx (b_vel b)) + py * (b_mass b * vy (b_vel b)) + pa * (b_moi b * b_w b).
Lemma kick_mom b r j : good1 b -> mom1 (kick b r j) = mom1 b + eff r j.
Proof.
  intros [A B]. unfold mom1, kick, eff, cross, set_vel_fields. cbn [b_mass b_moi b_vel b_w vx vy]. unR.
  transitivity (px * (b_mass b * vx (b_vel b)) + py * (b_mass b * vy (b_vel b)) + pa * (b_moi b * b_w b) +
    (px * vx j * (b_mass b * b_minv b) + py * vy j * (b_mass b * b_minv b) + pa * (b_moi b * b_iinv b) * (vx r * vy j - vy r * vx j))); [ring|].
  destruct A as [[-> ->]|A]; destruct B as [->|B]; rewrite ?A, ?B; ring.
Qed.
Lemma spin_mom b t : good1 b -> mom1 (set_w b (b_w b + t * b_iinv b)) = mom1 b + pa * t.
Proof.
  intros [_ B]. unfold mom1, set_w, set_vel_fields. cbn [b_mass b_moi b_vel b_w vx vy]. unR.
  transitivity (px * (b_mass b * vx (b_vel b)) + py * (b_mass b * vy (b_vel b)) + pa * (b_moi b * b_w b) + pa * t * (b_moi b * b_iinv b)); [ring|].
  destruct B as [->|B]; rewrite ?B; ring.
Qed.
Lemma mom_upd (H : Rheap) k (f : Rbody -> Rbody) x : good H -> (i = k -> mom1 (f (H k)) = mom1 (H k) + x) ->
  Mom (upd H k (f (H k))) = Mom H + (if Nat.eqb i k then x else 0).
Proof.
  intros G F. unfold Mom, upd. destruct (Nat.eqb_spec i k) as [E|E]; [subst k; exact (F eq_refl)|lra].
Qed.
Lemma mom_imp H a b r1 r2 j : good H -> Mom (apply_impulses H a b r1 r2 j) = Mom H + Imp a b r1 r2 j.
Proof.
  intros G. unfold apply_impulses. set (H1 := upd H b _).
  assert (F1 : hframe H H1) by (apply hframe_upd; repeat split).
  pose proof (good_frame _ _ F1 G) as G1.
  rewrite (mom_upd H1 a (fun x => kick x r1 _) (eff r1 (@V RNum (- vx j) (- vy j)))); [|exact G1|intros <-; apply kick_mom; apply G1].
  unfold H1. rewrite (mom_upd H b (fun x => kick x r2 j) (eff r2 j)); [|exact G|intros <-; apply kick_mom; apply G].
  unfold Imp, sides, eff, cross. cbn [vx vy]. unR. destruct (Nat.eqb i a), (Nat.eqb i b); ring.
Qed.
Lemma mom_bias H a b r1 r2 j : Mom (apply_bias_impulses H a b r1 r2 j) = Mom H.
Proof.
  unfold apply_bias_impulses. cbv zeta. set (H1 := upd H b _). transitivity (Mom H1).
  - unfold Mom, upd. destruct (Nat.eqb_spec i a) as [->|]; reflexivity.
  - unfold H1, Mom, upd. destruct (Nat.eqb_spec i b) as [->|]; reflexivity.
Qed.
Lemma mom_gear H a b j q : good H -> Mom (apply_gear H a b j q) = Mom H + sides a b (pa * (j * q)) (pa * j).
Proof.
  intros G. unfold apply_gear. set (H1 := upd H a _).
  assert (F1 : hframe H H1) by (apply hframe_upd; repeat split).
  pose proof (good_frame _ _ F1 G) as G1.
  rewrite (mom_upd H1 b (fun x => set_w x (b_w x + j * b_iinv x)%num) (pa * j)); [|exact G1|intros <-; apply spin_mom; apply G1].
  unfold H1. rewrite (mom_upd H a (fun x => set_w x (b_w x - j * b_iinv x * q)%num) (pa * (- (j * q)))).
  - unfold sides. destruct (Nat.eqb i a), (Nat.eqb i b); ring.
  - exact G.
  - intros <-. rewrite <- spin_mom by apply G. f_equal. f_equal. unR. ring.
Qed.
Lemma mom_torque H a b j : good H -> Mom (apply_torque H a b j) = Mom H + sides a b (pa * j) (pa * j).
Proof.
  intros G. replace (pa * j) with (pa * (j * 1)) at 1 by ring. rewrite <- mom_gear by exact G. f_equal. unfold apply_torque, apply_gear.
  unR. now rewrite Rmult_1_r.
Qed.
Lemma sides_add a b x y x' y' : sides a b x y + sides a b x' y' = sides a b (x + x') (y + y').
Proof. unfold sides. destruct (Nat.eqb i a), (Nat.eqb i b); ring. Qed.
Lemma imp_add a b r1 r2 j j' : Imp a b r1 r2 (vadd j j') = Imp a b r1 r2 j + Imp a b r1 r2 j'.
Proof. unfold Imp. rewrite sides_add. unfold eff, cross, vadd. cbn [vx vy]. unR. f_equal; ring. Qed.
Lemma imp_scale a b r1 r2 j t : Imp a b r1 r2 (vscale j t) = t * Imp a b r1 r2 j.
Proof. unfold Imp, sides, eff, cross, vscale. cbn [vx vy]. unR. destruct (Nat.eqb i a), (Nat.eqb i b); ring. Qed.

(** ** Contacts *)
Definition Con (s : Rsarb) (c : Rcontact) : R := Imp (s_a s) (s_b s) (k_r1 c) (k_r2 c) (vrotate (s_n s) (@V RNum (k_jn c) (k_jt c))).
Definition Arb (s : Rsarb) : R := Rsum (Con s) (s_contacts s).
Lemma con_apply s H c : good H -> let '(H', c') := contact_apply H s c in
  good H' /\ Mom H' = Mom H + Con s c' - Con s c.
Proof.
  intros G. unfold contact_apply. cbv zeta. set (x := nmax (k_jn c + _)%num _). set (y := nclamp _ _ _). clearbody x y. set (z := nmax _ _). clearbody z.
  set (H1 := apply_bias_impulses _ _ _ _ _ _). pose proof (good_frame H H1 (bias_frame _ _ _ _ _ _) G) as G1.
  split; [eapply good_frame; [apply imp_frame|exact G1]|]. rewrite mom_imp by exact G1. unfold H1. rewrite mom_bias.
  unfold Con. cbn [k_r1 k_r2 k_jn k_jt]. unfold Imp, sides, eff, cross, vrotate. cbn [vx vy]. unR.
  destruct (Nat.eqb i (s_a s)), (Nat.eqb i (s_b s)); ring.
Qed.
Lemma con_ext s s' c : s_a s = s_a s' -> s_b s = s_b s' -> s_n s = s_n s' -> Con s c = Con s' c.
Proof. unfold Con. now intros -> -> ->. Qed.
Lemma cons_apply s cs : forall H, good H -> let '(H', cs') := contacts_apply H s cs in
  good H' /\ Mom H' = Mom H + Rsum (Con s) cs' - Rsum (Con s) cs.
Proof.
  induction cs as [|c cs IH]; intros H G; cbn [contacts_apply].
  - split; [exact G|cbn; lra].
  - pose proof (con_apply s H c G) as X. destruct (contact_apply H s c) as [H1 c1]. destruct X as [G1 E1].
    pose proof (IH H1 G1) as Y. destruct (contacts_apply H1 s cs) as [H2 cs2]. destruct Y as [G2 E2]. split; [exact G2|]. rewrite !Rsum_cons. lra.
Qed.
Lemma arb_apply_mom s H : good H -> let '(H', s') := arb_apply H s in good H' /\ Mom H' = Mom H + Arb s' - Arb s.
Proof.
  intros G. unfold arb_apply. pose proof (cons_apply s (s_contacts s) H G) as X. destruct (contacts_apply H s (s_contacts s)) as [H1 cs1].
  destruct X as [G1 E1]. split; [exact G1|]. rewrite E1. reflexivity.
Qed.
Lemma arbs_apply_mom l : forall H, good H -> let '(H', l') := arbs_apply H l in good H' /\ Mom H' = Mom H + Rsum Arb l' - Rsum Arb l.
Proof.
  induction l as [|s l IH]; intros H G; cbn [arbs_apply].
  - split; [exact G|cbn; lra].
  - pose proof (arb_apply_mom s H G) as X. destruct (arb_apply H s) as [H1 s1]. destruct X as [G1 E1].
    pose proof (IH H1 G1) as Y. destruct (arbs_apply H1 l) as [H2 l2]. destruct Y as [G2 E2]. split; [exact G2|]. rewrite !Rsum_cons. lra.
Qed.
Lemma con_cached s t cs : forall H, good H ->
  good (fold_left (contact_cached s t) cs H) /\ Mom (fold_left (contact_cached s t) cs H) = Mom H + t * Rsum (Con s) cs.
Proof.
  induction cs as [|c cs IH]; intros H G; cbn [fold_left].
  - split; [exact G|cbn; lra].
  - assert (G1 : good (contact_cached s t H c)) by (eapply good_frame; [apply imp_frame|exact G]).
    destruct (IH _ G1) as [A B]. split; [exact A|]. rewrite B, Rsum_cons. unfold contact_cached. rewrite mom_imp by exact G. rewrite imp_scale.
    unfold Con at 2. ring.
Qed.
Lemma arb_cached_mom t s H : good H -> good (arb_cached t H s) /\ Mom (arb_cached t H s) = Mom H + (if s_first s then 0 else t) * Arb s.
Proof.
  intros G. unfold arb_cached. destruct (s_first s); [split; [exact G|lra]|]. apply con_cached, G.
Qed.
Lemma arbs_cached_mom t l : forall H, good H -> good (fold_left (arb_cached t) l H) /\
  Mom (fold_left (arb_cached t) l H) = Mom H + Rsum (fun s => (if s_first s then 0 else t) * Arb s) l.
Proof.
  induction l as [|s l IH]; intros H G; cbn [fold_left].
  - split; [exact G|cbn; lra].
  - destruct (arb_cached_mom t s H G) as [G1 E1]. destruct (IH _ G1) as [A B]. split; [exact A|]. rewrite B, Rsum_cons. lra.
Qed.
Lemma arb_prestep_eq H dt slop bias s : Arb (arb_prestep H dt slop bias s) = Arb s /\ s_first (arb_prestep H dt slop bias s) = s_first s.
Proof.
  split; [|reflexivity]. unfold Arb, arb_prestep. cbn [s_contacts with_contacts].
  transitivity (Rsum (Con s) (map (contact_prestep H s dt slop bias) (s_contacts s))); [apply Rsum_ext; intros; apply con_ext; reflexivity|].
  induction (s_contacts s) as [|c cs IH]; [reflexivity|]. cbn [map]. rewrite !Rsum_cons. rewrite IH. reflexivity.
Qed.

(** ** Joints *)
Definition Jnt (ck : Rjoint) : R :=
  let '(c, k) := ck in
  match k with
  | JPivot p => Imp (c_a c) (c_b c) (pv_r1 p) (pv_r2 p) (pv_j p)
  | JPin p => Imp (c_a c) (c_b c) (pn_r1 p) (pn_r2 p) (vscale (pn_n p) (pn_j p))
  | JSlide p => Imp (c_a c) (c_b c) (sl_r1 p) (sl_r2 p) (vscale (sl_n p) (sl_j p))
  | JGroove p => Imp (c_a c) (c_b c) (gv_r1 p) (gv_r2 p) (gv_j p)
  | JSpring p => Imp (c_a c) (c_b c) (sp_r1 p) (sp_r2 p) (vscale (sp_n p) (sp_j p))
  | JGear p => sides (c_a c) (c_b c) (pa * (ge_j p * ge_ratioinv p)) (pa * ge_j p)
  | JMotor p => sides (c_a c) (c_b c) (pa * mo_j p) (pa * mo_j p)
  | JRLimit p => sides (c_a c) (c_b c) (pa * rl_j p) (pa * rl_j p)
  | JRatchet p => sides (c_a c) (c_b c) (pa * ra_j p) (pa * ra_j p)
  | JRSpring p => sides (c_a c) (c_b c) (pa * rs_j p) (pa * rs_j p)
  end.
Definition springy (ck : Rjoint) : bool := match snd ck with JSpring _ | JRSpring _ => true | _ => false end.
Definition rs_ok (ck : Rjoint) : Prop := match snd ck with JRSpring _ => pa = 0 \/ (i <> c_a (fst ck) /\ i <> c_b (fst ck)) | _ => True end.
Lemma mom_damp H a b j : good H -> Mom (apply_damp H a b j) = Mom H - sides a b (pa * j) (pa * j).
Proof.
  intros G. replace (Mom (apply_damp H a b j)) with (Mom (apply_torque H a b (- j)))
    by (unfold Mom; now rewrite damp_torque). rewrite mom_torque by exact G. unfold sides. unR. destruct (Nat.eqb i a), (Nat.eqb i b); ring.
Qed.
Lemma scale_sub (n : @vec RNum) x y : vscale n (x - y)%num = vadd (vscale n x) (vscale n (- y)%R).
Proof. unfold vscale, vadd. cbn [vx vy]. unR. f_equal; ring. Qed.
Lemma imp_diff a b r1 r2 n x y : Imp a b r1 r2 (vscale n (x - y)%num) = Imp a b r1 r2 (vscale n x) - Imp a b r1 r2 (vscale n y).
Proof. rewrite !imp_scale. unR. ring. Qed.
Lemma imp_sub a b r1 r2 j j' : Imp a b r1 r2 (vsub j j') = Imp a b r1 r2 j - Imp a b r1 r2 j'.
Proof. unfold Imp, sides, eff, cross, vsub. cbn [vx vy]. unR. destruct (Nat.eqb i a), (Nat.eqb i b); ring. Qed.
Lemma joint_apply_mom dt c k H : good H -> rs_ok (c, k) -> let '(H', k') := joint_apply H c dt k in
  good H' /\ Mom H' = Mom H + Jnt (c, k') - Jnt (c, k) /\ rs_ok (c, k').
Proof.
  intros G RS. pose proof (good_frame _ _ (joint_apply_frame H c dt k) G) as G'. revert G'.
  destruct k as [p|p|p|p|p|p|p|p|p|p]; cbn [joint_apply].
  - unfold pivot_apply. cbv zeta. cbn [fst]. intros G'. split; [exact G'|]. split; [|exact I]. rewrite mom_imp by exact G. rewrite imp_sub. unfold Jnt. cbn. lra.
  - unfold pin_apply. cbv zeta. cbn [fst]. intros G'. split; [exact G'|]. split; [|exact I]. rewrite mom_imp by exact G. rewrite imp_diff. unfold Jnt. cbn. lra.
  - unfold slide_apply. destruct (veqb _ _); cbv zeta; cbn [fst]; intros G'; (split; [exact G'|]); (split; [|exact I]); [lra|].
    rewrite mom_imp by exact G. rewrite imp_diff. unfold Jnt. cbn. lra.
  - unfold groove_apply. cbv zeta. cbn [fst]. intros G'. split; [exact G'|]. split; [|exact I]. rewrite mom_imp by exact G. rewrite imp_sub. unfold Jnt. cbn. lra.
  - unfold gear_apply. cbv zeta. cbn [fst]. intros G'. split; [exact G'|]. split; [|exact I]. rewrite mom_gear by exact G.
    unfold Jnt, sides. cbn [ge_j ge_ratioinv]. unR. destruct (Nat.eqb i (c_a c)), (Nat.eqb i (c_b c)); ring.
  - unfold motor_apply. cbv zeta. cbn [fst]. intros G'. split; [exact G'|]. split; [|exact I]. rewrite mom_torque by exact G.
    unfold Jnt, sides. cbn [mo_j]. unR. destruct (Nat.eqb i (c_a c)), (Nat.eqb i (c_b c)); ring.
  - unfold rlimit_apply. destruct (neqb _ _); cbv zeta; cbn [fst]; intros G'; (split; [exact G'|]); (split; [|exact I]); [lra|].
    rewrite mom_torque by exact G. unfold Jnt, sides. cbn [rl_j]. set (q := if nltb _ _ then _ else _). clearbody q. unR.
    destruct (Nat.eqb i (c_a c)), (Nat.eqb i (c_b c)); ring.
  - unfold ratchet_apply. destruct (neqb _ _); cbv zeta; cbn [fst]; intros G'; (split; [exact G'|]); (split; [|exact I]); [lra|].
    rewrite mom_torque by exact G. unfold Jnt, sides. cbn [ra_j]. set (q := (_ / _)%num). clearbody q. unR.
    destruct (Nat.eqb i (c_a c)), (Nat.eqb i (c_b c)); ring.
  - unfold spring_apply. cbv zeta. cbn [fst]. intros G'. split; [exact G'|]. split; [|exact I]. rewrite mom_imp by exact G. unfold Jnt. cbn [sp_r1 sp_r2 sp_n sp_j].
    rewrite !imp_scale. unR. ring.
  - unfold rspring_apply. cbv zeta. cbn [fst]. intros G'. split; [exact G'|]. split; [|exact RS]. rewrite mom_damp by exact G.
    unfold Jnt, sides. cbn [rs_j]. unfold rs_ok in RS. cbn [fst snd] in RS. destruct RS as [->|[A B]].
    + destruct (Nat.eqb i (c_a c)), (Nat.eqb i (c_b c)); ring.
    + destruct (Nat.eqb_spec i (c_a c)); [tauto|]. destruct (Nat.eqb_spec i (c_b c)); [tauto|]. ring.
Qed.
Lemma joints_apply_mom dt l : forall H, good H -> Forall rs_ok l -> let '(H', l') := joints_apply H dt l in
  good H' /\ Mom H' = Mom H + Rsum Jnt l' - Rsum Jnt l /\ Forall rs_ok l'.
Proof.
  induction l as [|[c k] l IH]; intros H G RS; cbn [joints_apply].
  - split; [exact G|]. split; [cbn; lra|constructor].
  - inversion RS as [|? ? R1 R2]; subst. pose proof (joint_apply_mom dt c k H G R1) as X. destruct (joint_apply H c dt k) as [H1 k1]. destruct X as (G1 & E1 & S1).
    pose proof (IH H1 G1 R2) as Y. destruct (joints_apply H1 dt l) as [H2 l2]. destruct Y as (G2 & E2 & S2). split; [exact G2|].
    split; [rewrite !Rsum_cons; lra|constructor; assumption].
Qed.
Lemma joint_cached_mom t c k H : good H -> good (joint_cached H c t k) /\
  Mom (joint_cached H c t k) = Mom H + (if springy (c, k) then 0 else t) * Jnt (c, k).
Proof.
  intros G. split; [eapply good_frame; [apply joint_cached_frame|exact G]|].
  destruct k as [p|p|p|p|p|p|p|p|p|p]; cbn [joint_cached springy snd]; try (cbn [springy snd]; lra).
  - unfold pivot_cached. rewrite mom_imp by exact G. rewrite imp_scale. reflexivity.
  - unfold pin_cached. rewrite mom_imp by exact G. unfold Jnt. rewrite !imp_scale. unR. ring.
  - unfold slide_cached. rewrite mom_imp by exact G. unfold Jnt. rewrite !imp_scale. unR. ring.
  - unfold groove_cached. rewrite mom_imp by exact G. rewrite imp_scale. reflexivity.
  - unfold gear_cached. rewrite mom_gear by exact G. unfold Jnt, sides. unR. destruct (Nat.eqb i (c_a c)), (Nat.eqb i (c_b c)); ring.
  - unfold motor_cached. rewrite mom_torque by exact G. unfold Jnt, sides. unR. destruct (Nat.eqb i (c_a c)), (Nat.eqb i (c_b c)); ring.
  - unfold rlimit_cached. rewrite mom_torque by exact G. unfold Jnt, sides. unR. destruct (Nat.eqb i (c_a c)), (Nat.eqb i (c_b c)); ring.
  - unfold ratchet_cached. rewrite mom_torque by exact G. unfold Jnt, sides. unR. destruct (Nat.eqb i (c_a c)), (Nat.eqb i (c_b c)); ring.
Qed.
Lemma joints_cached_mom t l : forall H, good H ->
  good (fold_left (fun H cj => joint_cached H (fst cj) t (snd cj)) l H) /\
  Mom (fold_left (fun H cj => joint_cached H (fst cj) t (snd cj)) l H) = Mom H + Rsum (fun ck => (if springy ck then 0 else t) * Jnt ck) l.
Proof.
  induction l as [|[c k] l IH]; intros H G; cbn [fold_left].
  - split; [exact G|cbn; lra].
  - destruct (joint_cached_mom t c k H G) as [G1 E1]. destruct (IH _ G1) as [A B]. split; [exact A|].
    cbn [fst snd] in *. rewrite B, Rsum_cons. lra.
Qed.
Lemma joint_prestep_mom dt c k H : good H -> let '(H', k') := joint_prestep H c dt k in
  good H' /\ Mom H' = Mom H + (if springy (c, k') then Jnt (c, k') else 0) /\ (rs_ok (c, k) -> rs_ok (c, k')) /\
  (is_spring k' -> is_spring k) /\ (is_rspring k' -> is_rspring k).
Proof.
  intros G. pose proof (good_frame _ _ (joint_prestep_frame H c dt k) G) as G'. revert G'.
  destruct k as [p|p|p|p|p|p|p|p|p|p]; cbn [joint_prestep fst]; try (intros G'; split; [exact G'|]; split; [cbn; lra|now repeat split]).
  - intros G'. destruct (spring_prestep H c dt p) as [H1 p1] eqn:E. cbn [fst] in G'. split; [exact G'|]. split; [|now repeat split].
    unfold spring_prestep in E. cbv zeta in E. injection E as <- <-. rewrite mom_imp by exact G. reflexivity.
  - intros G'. destruct (rspring_prestep H c dt p) as [H1 p1] eqn:E. cbn [fst] in G'. split; [exact G'|]. split; [|now repeat split].
    unfold rspring_prestep in E. cbv zeta in E. injection E as <- <-. rewrite mom_torque by exact G. reflexivity.
Qed.
Definition off_springs (l : list Rjoint) : Prop := Forall (fun ck => springy ck = true -> Jnt ck = 0) l.
Lemma joints_prestep_mom dt l : forall H, good H -> let '(H', l') := joints_prestep H dt l in
  good H' /\ Mom H' = Mom H + Rsum (fun ck => if springy ck then Jnt ck else 0) l' /\ (Forall rs_ok l -> Forall rs_ok l') /\
  (forall c k', In (c, k') l' -> exists k, In (c, k) l /\ (is_spring k' -> is_spring k) /\ (is_rspring k' -> is_rspring k)).
Proof.
  induction l as [|[c k] l IH]; intros H G; cbn [joints_prestep].
  - split; [exact G|]. split; [cbn; lra|]. split; [auto|intros c k' []].
  - pose proof (joint_prestep_mom dt c k H G) as X. destruct (joint_prestep H c dt k) as [H1 k1]. destruct X as (G1 & E1 & S1 & T1 & U1).
    pose proof (IH H1 G1) as Y. destruct (joints_prestep H1 dt l) as [H2 l2]. destruct Y as (G2 & E2 & S2 & T2). split; [exact G2|].
    split; [rewrite Rsum_cons; lra|]. split.
    + intros RS. inversion RS; subst. constructor; auto.
    + intros c' k' [[= <- <-]|Hk]; [exists k; repeat split; auto; now left|]. destruct (T2 _ _ Hk) as (k0 & A & B). exists k0. split; [now right|exact B].
Qed.

(** ** The step *)
Lemma iteration_mom dt w : good (w_heap w) -> Forall rs_ok (w_joints w) -> let w' := iteration dt w in
  good (w_heap w') /\ Forall rs_ok (w_joints w') /\
  Mom (w_heap w') = Mom (w_heap w) + Rsum Arb (w_arbs w') - Rsum Arb (w_arbs w) + Rsum Jnt (w_joints w') - Rsum Jnt (w_joints w).
Proof.
  intros G RS. unfold iteration. cbv zeta. pose proof (arbs_apply_mom (w_arbs w) (w_heap w) G) as X. destruct (arbs_apply (w_heap w) (w_arbs w)) as [H1 l1]. destruct X as [G1 E1].
  pose proof (joints_apply_mom dt (w_joints w) H1 G1 RS) as Y. destruct (joints_apply H1 dt (w_joints w)) as [H2 l2]. destruct Y as (G2 & E2 & S2).
  cbn [w_heap w_arbs w_joints]. split; [exact G2|]. split; [exact S2|]. lra.
Qed.
Lemma iterations_mom n dt : forall w, good (w_heap w) -> Forall rs_ok (w_joints w) -> let w' := iterations n dt w in
  Mom (w_heap w') = Mom (w_heap w) + Rsum Arb (w_arbs w') - Rsum Arb (w_arbs w) + Rsum Jnt (w_joints w') - Rsum Jnt (w_joints w).
Proof.
  induction n as [|n IH]; intros w G RS; cbn [iterations]; cbv zeta; [lra|].
  destruct (iteration_mom dt w G RS) as (G1 & S1 & E1). pose proof (IH _ G1 S1) as E2. cbv zeta in E2. lra.
Qed.
Definition frc (g : @vec RNum) (b : Rbody) : R :=
  px * (b_mass b * vx g + vx (b_force b)) + py * (b_mass b * vy g + vy (b_force b)) + pa * b_torque b.
Lemma integrate_mom g d dt L w : NoDup L -> In i L -> good (w_heap w) -> b_type (w_heap w i) = Dynamic ->
  let w' := integrate_all g d dt L w in
  good (w_heap w') /\ Mom (w_heap w') = d * Mom (w_heap w) + dt * frc g (w_heap w i).
Proof.
  intros ND Hi [A B] T. cbv zeta. unfold integrate_all. cbn [w_heap].
  set (f := fun b : Rbody => update_velocity b g d dt).
  change (fun (H : Rheap) i => upd H i (update_velocity (H i) g d dt)) with (fun (H : Rheap) i => upd H i (f (H i))).
  unfold good, good1, Mom. rewrite (proj1 (fold_upd f L ND (w_heap w) i) Hi). unfold f, update_velocity. rewrite T.
  unfold set_force_fields, set_vel_fields, frc. cbn [b_mass b_minv b_moi b_iinv b_vel b_w vx vy vadd vscale]. set (b := w_heap w i) in *. clearbody b.
  split; [now split|]. unfold vadd, vscale. cbn [vx vy]. unR.
  transitivity (d * (px * (b_mass b * vx (b_vel b)) + py * (b_mass b * vy (b_vel b)) + pa * (b_moi b * b_w b)) +
    dt * (px * (b_mass b * vx g + vx (b_force b) * (b_mass b * b_minv b)) + py * (b_mass b * vy g + vy (b_force b) * (b_mass b * b_minv b)) +
          pa * b_torque b * (b_moi b * b_iinv b))); [ring|].
  destruct A as [[-> ->]|A]; destruct B as [->|B]; rewrite ?A, ?B; ring.
Qed.
Lemma Rsum_minus {A} (f g : A -> R) l : Rsum f l - Rsum g l = Rsum (fun x => f x - g x) l.
Proof. induction l as [|x l IH]; [cbn; lra|]. rewrite !Rsum_cons. lra. Qed.
Lemma Rsum_zero {A} (f : A -> R) l : (forall x, In x l -> f x = 0) -> Rsum f l = 0.
Proof. induction l as [|x l IH]; intros Z; [reflexivity|]. rewrite Rsum_cons, (Z x (or_introl eq_refl)), IH; [lra|]. intros y Hy. apply Z. now right. Qed.
Definition ratio (dt prevdt : R) : R := if Req_EM_T prevdt 0 then 0 else dt / prevdt.
Theorem account_gen n slop bias g d dt prevdt L w : NoDup L -> In i L -> good (w_heap w) -> b_type (w_heap w i) = Dynamic ->
  Forall rs_ok (w_joints w) ->
  let w' := solve n slop bias g d dt prevdt L w in
  Mom (w_heap w') = d * Mom (w_heap w) + dt * frc g (w_heap w i) + Rsum Arb (w_arbs w') + Rsum Jnt (w_joints w')
    - Rsum (fun s => (if s_first s then 1 else 1 - ratio dt prevdt) * Arb s) (w_arbs w)
    - Rsum (fun ck => (if springy ck then 1 - d else 1 - ratio dt prevdt) * Jnt ck) (w_joints (prestep_all slop bias dt w)).
Proof.
  intros ND Hi G T RS. unfold solve. cbv zeta.
  match goal with |- context [cached_all ?x _] => assert (DT : x = ratio dt prevdt) end.
  { unfold ratio. destruct (neqb _ _) eqn:E; cbn [negb]; [apply Reqb_true in E|apply Reqb_false in E]; destruct (Req_EM_T prevdt 0) as [Z|Z]; try reflexivity; [exfalso; exact (Z E)|exfalso; exact (E Z)]. }
  rewrite DT. clear DT. set (t := ratio dt prevdt). clearbody t.
  set (w1 := prestep_all slop bias dt w).
  assert (X1 : good (w_heap w1) /\ Mom (w_heap w1) = Mom (w_heap w) + Rsum (fun ck => if springy ck then Jnt ck else 0) (w_joints w1) /\
    Forall rs_ok (w_joints w1) /\ b_type (w_heap w1 i) = Dynamic /\ frc g (w_heap w1 i) = frc g (w_heap w i) /\
    (forall f : bool -> R, Rsum (fun s => f (s_first s) * Arb s) (w_arbs w1) = Rsum (fun s => f (s_first s) * Arb s) (w_arbs w))).
  { unfold w1, prestep_all. pose proof (joints_prestep_mom dt (w_joints w) (w_heap w) G) as X.
    assert (FRM : hframe (w_heap w) (fst (joints_prestep (w_heap w) dt (w_joints w)))).
    { clear. generalize (w_heap w). induction (w_joints w) as [|[c k] l IH]; intros H; cbn [joints_prestep]; [apply hframe_refl|].
      pose proof (joint_prestep_frame H c dt k) as F. destruct (joint_prestep H c dt k) as [H1 k1]. cbn [fst] in F.
      pose proof (IH H1) as F2. destruct (joints_prestep H1 dt l) as [H2 l2]. cbn [fst] in *. eapply hframe_trans; eauto. }
    destruct (joints_prestep (w_heap w) dt (w_joints w)) as [H1 l1]. cbn [fst] in FRM. destruct X as (A & B & C & D). cbn [w_heap w_joints w_arbs].
    split; [exact A|]. split; [exact B|]. split; [auto|]. split; [rewrite (type_frame _ _ (FRM i)); exact T|]. split.
    - unfold frc. destruct (FRM i) as (-> & _ & _ & _ & _ & -> & _ & _ & -> & _). reflexivity.
    - intros f. clear. induction (w_arbs w) as [|s l IH]; [reflexivity|]. cbn [map]. rewrite !Rsum_cons, IH.
      destruct (arb_prestep_eq (w_heap w) dt slop bias s) as [-> ->]. reflexivity. }
  assert (JP : w_joints (prestep_all slop bias dt w) = w_joints w1) by reflexivity.
  clearbody w1. clear JP. destruct X1 as (G1 & E1 & S1 & T1 & F1 & FR1).
  destruct (integrate_mom g d dt L w1 ND Hi G1 T1) as [G2 E2]. cbv zeta in G2, E2.
  assert (J2 : w_joints (integrate_all g d dt L w1) = w_joints w1 /\ w_arbs (integrate_all g d dt L w1) = w_arbs w1) by (split; reflexivity).
  set (w2 := integrate_all g d dt L w1) in *. clearbody w2. destruct J2 as [J2 A2].
  set (w3 := cached_all (N := RNum) t w2).
  assert (X3 : good (w_heap w3) /\ Mom (w_heap w3) = Mom (w_heap w2) + Rsum (fun s => (if s_first s then 0 else t) * Arb s) (w_arbs w1) +
    Rsum (fun ck => (if springy ck then 0 else t) * Jnt ck) (w_joints w1)).
  { unfold w3, cached_all. cbn [w_heap]. destruct (arbs_cached_mom t (w_arbs w2) (w_heap w2) G2) as [G3 E3].
    destruct (joints_cached_mom t (w_joints w2) _ G3) as [G4 E4]. split; [exact G4|]. rewrite E4, E3, A2, J2. reflexivity. }
  assert (J3 : w_joints w3 = w_joints w1 /\ w_arbs w3 = w_arbs w1) by (unfold w3, cached_all; cbn [w_joints w_arbs]; now split).
  clearbody w3. destruct X3 as [G3 E3]. destruct J3 as [J3 A3].
  assert (RS3 : Forall rs_ok (w_joints w3)) by now rewrite J3.
  pose proof (iterations_mom n dt w3 G3 RS3) as E4. cbv zeta in E4. rewrite E4, A3, J3, E3, E2, E1, F1.
  rewrite <- (FR1 (fun b => if b then 1 else 1 - t)).
  assert (SA : Rsum Arb (w_arbs w1) = Rsum (fun s => (if s_first s then 1 else 1 - t) * Arb s) (w_arbs w1) + Rsum (fun s => (if s_first s then 0 else t) * Arb s) (w_arbs w1)).
  { clear. induction (w_arbs w1) as [|ck l IH]; [cbn; lra|]. rewrite !Rsum_cons, IH. destruct (s_first ck); lra. }
  assert (SJ : Rsum Jnt (w_joints w1) = Rsum (fun ck => (if springy ck then 1 - d else 1 - t) * Jnt ck) (w_joints w1) +
     Rsum (fun ck => (if springy ck then 0 else t) * Jnt ck) (w_joints w1) + d * Rsum (fun ck => if springy ck then Jnt ck else 0) (w_joints w1)).
  { clear. induction (w_joints w1) as [|ck l IH]; [cbn; lra|]. rewrite !Rsum_cons, IH. destruct (springy ck); lra. }
  rewrite SA, SJ. lra.
Qed.
Definition step_ok (d : R) (w : Rworld) : Prop :=
  d = 1 \/ forall c k, In (c, k) (w_joints w) -> is_spring k \/ (pa <> 0 /\ is_rspring k) -> i <> c_a c /\ i <> c_b c.
Lemma prestep_kinds slop bias dt w : forall c k', In (c, k') (w_joints (prestep_all slop bias dt w)) ->
  exists k, In (c, k) (w_joints w) /\ (is_spring k' -> is_spring k) /\ (is_rspring k' -> is_rspring k).
Proof.
  unfold prestep_all. assert (X : forall H c k', In (c, k') (snd (joints_prestep H dt (w_joints w))) ->
    exists k, In (c, k) (w_joints w) /\ (is_spring k' -> is_spring k) /\ (is_rspring k' -> is_rspring k)).
  { clear. induction (w_joints w) as [|[c k] l IH]; intros H; cbn [joints_prestep]; [intros c k' []|].
    destruct (joint_prestep H c dt k) as [H1 k1] eqn:E. pose proof (IH H1) as Y. destruct (joints_prestep H1 dt l) as [H2 l2]. cbn [snd] in *.
    intros c' k' [[= <- <-]|Hk].
    - exists k. split; [now left|]. unfold joint_prestep in E. destruct k; repeat match type of E with context [let '(_, _) := ?e in _] => destruct e end; injection E as <- <-; now split.
    - destruct (Y _ _ Hk) as (k0 & A & B). exists k0. split; [now right|exact B]. }
  specialize (X (w_heap w)). destruct (joints_prestep (w_heap w) dt (w_joints w)) as [H1 l1]. exact X.
Qed.
Theorem account n slop bias g d dt L w : dt <> 0 -> NoDup L -> In i L -> good (w_heap w) -> b_type (w_heap w i) = Dynamic ->
  step_ok d w -> Forall rs_ok (w_joints w) ->
  (forall s, In s (w_arbs w) -> s_first s = true -> Arb s = 0) ->
  let w' := solve n slop bias g d dt dt L w in
  Mom (w_heap w') = d * Mom (w_heap w) + dt * frc g (w_heap w i) + Rsum Arb (w_arbs w') + Rsum Jnt (w_joints w').
Proof.
  intros Hd ND Hi G T OK RS FR. cbv zeta. rewrite (account_gen n slop bias g d dt dt L w ND Hi G T RS).
  assert (R1 : ratio dt dt = 1) by (unfold ratio; destruct (Req_EM_T dt 0); [contradiction|field; exact Hd]). rewrite R1.
  rewrite (Rsum_zero (fun s => _ * Arb s)); [|intros s Hs; destruct (s_first s) eqn:F; [rewrite (FR s Hs F)|]; lra].
  rewrite (Rsum_zero (fun ck => _ * Jnt ck)); [lra|]. intros [c k] Hk. unfold springy. cbn [snd].
  destruct OK as [->|OK]; [destruct k; lra|]. destruct (prestep_kinds slop bias dt w _ _ Hk) as (k0 & Hk0 & I1 & I2).
  destruct k as [p|p|p|p|p|p|p|p|p|p]; try lra.
  - destruct (OK c k0 Hk0 (or_introl (I1 I))) as [A B]. cbn [Jnt]. unfold Imp, sides.
    destruct (Nat.eqb_spec i (c_a c)); [tauto|]. destruct (Nat.eqb_spec i (c_b c)); [tauto|]. ring.
  - cbn [Jnt]. unfold sides. destruct (Req_dec pa 0) as [->|Np]; [destruct (Nat.eqb i (c_a c)), (Nat.eqb i (c_b c)); ring|].
    destruct (OK c k0 Hk0 (or_intror (conj Np (I2 I)))) as [A B].
    destruct (Nat.eqb_spec i (c_a c)); [tauto|]. destruct (Nat.eqb_spec i (c_b c)); [tauto|]. ring.
Qed.
End Account.
