From Coq Require Import ZArith Bool Reals List Lra Lia Psatz.
From Verif Require Import Num NumReal Vec BB BBProofs Transform TransformProofs Body BodySpec BodyProofs Solver SolverSpec.
Import ListNotations.
Local Open Scope R_scope.

(** ** Every solver phase is a sequence of paired impulses *)
Section Closure.
Context {N : Num} {E : Elem N}.
Variable Q : heap -> heap -> Prop.
Variable D : nat -> nat -> Prop.
Hypothesis Qrefl : forall H, Q H H.
Hypothesis Qtrans : forall H1 H2 H3, Q H1 H2 -> Q H2 H3 -> Q H1 H3.
Hypothesis Qimp : forall H a b r1 r2 j, D a b -> Q H (apply_impulses H a b r1 r2 j).
Hypothesis Qbias : forall H a b r1 r2 j, D a b -> Q H (apply_bias_impulses H a b r1 r2 j).
Hypothesis Qtorque : forall H a b j, D a b -> Q H (apply_torque H a b j).
Hypothesis Qgear : forall H a b j r, D a b -> Q H (apply_gear H a b j r).
Hypothesis Qdamp : forall H a b j, D a b -> Q H (apply_damp H a b j).

Lemma joint_prestep_Q H c dt k : D (c_a c) (c_b c) -> Q H (fst (joint_prestep H c dt k)).
Proof. intros HD. destruct k; cbn; auto. Qed.
Lemma joint_cached_Q H c dt k : D (c_a c) (c_b c) -> Q H (joint_cached H c dt k).
Proof. intros HD. destruct k; cbn; auto; try (now apply Qimp); try (now apply Qtorque); now apply Qgear. Qed.
Lemma joint_apply_Q H c dt k : D (c_a c) (c_b c) -> Q H (fst (joint_apply H c dt k)).
Proof.
  intros HD. destruct k; cbn; auto.
  - unfold slide_apply. destruct veqb; cbn; auto.
  - unfold rlimit_apply. destruct neqb; cbn; auto.
  - unfold ratchet_apply. destruct neqb; cbn; auto.
Qed.
Lemma contact_cached_Q s dt H c : D (s_a s) (s_b s) -> Q H (contact_cached s dt H c).
Proof. intros HD. apply Qimp, HD. Qed.
Lemma contacts_cached_Q s dt cs : D (s_a s) (s_b s) -> forall H, Q H (fold_left (contact_cached s dt) cs H).
Proof.
  intros HD. induction cs as [|c cs IH]; intros H; cbn; auto.
  eapply Qtrans; [apply contact_cached_Q, HD | apply IH].
Qed.
Lemma arb_cached_Q dt H s : D (s_a s) (s_b s) -> Q H (arb_cached dt H s).
Proof. intros HD. unfold arb_cached. destruct s_first; auto. now apply contacts_cached_Q. Qed.
Lemma contact_apply_Q H s c : D (s_a s) (s_b s) -> Q H (fst (contact_apply H s c)).
Proof. intros HD. unfold contact_apply. cbn. eapply Qtrans; [apply Qbias, HD | apply Qimp, HD]. Qed.
Lemma contacts_apply_Q s cs : D (s_a s) (s_b s) -> forall H, Q H (fst (contacts_apply H s cs)).
Proof.
  intros HD. induction cs as [|c cs IH]; intros H; cbn [contacts_apply]; [apply Qrefl|].
  pose proof (contact_apply_Q H s c HD) as H1. destruct (contact_apply H s c) as [H' c'].
  specialize (IH H'). destruct (contacts_apply H' s cs) as [H'' cs']. cbn in *. eauto.
Qed.
Lemma arb_apply_Q H s : D (s_a s) (s_b s) -> Q H (fst (arb_apply H s)).
Proof.
  intros HD. unfold arb_apply. pose proof (contacts_apply_Q s (s_contacts s) HD H).
  destruct contacts_apply. exact H0.
Qed.
Definition inD (w : world) : Prop :=
  (forall s, In s (w_arbs w) -> D (s_a s) (s_b s)) /\ (forall c k, In (c, k) (w_joints w) -> D (c_a c) (c_b c)).
Lemma joints_prestep_Q dt l : (forall c k, In (c, k) l -> D (c_a c) (c_b c)) -> forall H,
  Q H (fst (joints_prestep H dt l)) /\ map fst (snd (joints_prestep H dt l)) = map fst l.
Proof.
  induction l as [|[c k] l IH]; intros HD H; cbn [joints_prestep]; [split; auto|].
  pose proof (joint_prestep_Q H c dt k (HD c k (or_introl eq_refl))) as H1.
  destruct (joint_prestep H c dt k) as [H' k'].
  destruct (IH (fun c k i => HD c k (or_intror i)) H') as [IH1 IH2].
  destruct (joints_prestep H' dt l) as [H'' l']. cbn in *. split; [eauto|]. now rewrite IH2.
Qed.
Lemma joints_apply_Q dt l : (forall c k, In (c, k) l -> D (c_a c) (c_b c)) -> forall H,
  Q H (fst (joints_apply H dt l)) /\ map fst (snd (joints_apply H dt l)) = map fst l.
Proof.
  induction l as [|[c k] l IH]; intros HD H; cbn [joints_apply]; [split; auto|].
  pose proof (joint_apply_Q H c dt k (HD c k (or_introl eq_refl))) as H1.
  destruct (joint_apply H c dt k) as [H' k'].
  destruct (IH (fun c k i => HD c k (or_intror i)) H') as [IH1 IH2].
  destruct (joints_apply H' dt l) as [H'' l']. cbn in *. split; [eauto|]. now rewrite IH2.
Qed.
Definition arb_ids (s : sarb) := (s_a s, s_b s).
Lemma arb_apply_ids H s : arb_ids (snd (arb_apply H s)) = arb_ids s.
Proof. unfold arb_apply. destruct contacts_apply. reflexivity. Qed.
Lemma arbs_apply_Q l : (forall s, In s l -> D (s_a s) (s_b s)) -> forall H,
  Q H (fst (arbs_apply H l)) /\ map arb_ids (snd (arbs_apply H l)) = map arb_ids l.
Proof.
  induction l as [|s l IH]; intros HD H; cbn [arbs_apply]; [split; auto|].
  pose proof (arb_apply_Q H s (HD s (or_introl eq_refl))) as H1. pose proof (arb_apply_ids H s) as I1.
  destruct (arb_apply H s) as [H' s'].
  destruct (IH (fun s i => HD s (or_intror i)) H') as [IH1 IH2].
  destruct (arbs_apply H' l) as [H'' l']. cbn in *. split; [eauto|]. now rewrite I1, IH2.
Qed.
Lemma inD_ids w1 w2 : map arb_ids (w_arbs w1) = map arb_ids (w_arbs w2) ->
  map fst (w_joints w1) = map fst (w_joints w2) -> inD w2 -> inD w1.
Proof.
  intros EA EJ [H1 H2]. split.
  - intros s Hs. apply (in_map arb_ids) in Hs. rewrite EA in Hs. apply in_map_iff in Hs as [s' [E1 E2]].
    injection E1 as <- <-. now apply H1.
  - intros c k Hc. apply (in_map fst) in Hc. rewrite EJ in Hc. apply in_map_iff in Hc as [[c' k'] [E1 E2]].
    cbn in E1. subst. eapply H2, E2.
Qed.
Lemma prestep_all_Q slop bias dt w : inD w -> Q (w_heap w) (w_heap (prestep_all slop bias dt w)) /\ inD (prestep_all slop bias dt w).
Proof.
  intros HD. unfold prestep_all. destruct (joints_prestep_Q dt (w_joints w) (proj2 HD) (w_heap w)) as [H1 H2].
  destruct joints_prestep as [H' js]. cbn in *. split; [exact H1|]. eapply inD_ids; [| |exact HD]; cbn; auto.
  rewrite map_map. apply map_ext. reflexivity.
Qed.
Lemma cached_all_Q dt w : inD w -> Q (w_heap w) (w_heap (cached_all dt w)) /\ inD (cached_all dt w).
Proof.
  intros [HD1 HD2]. unfold cached_all. cbn. split; [|split; assumption].
  apply Qtrans with (fold_left (arb_cached dt) (w_arbs w) (w_heap w)).
  - revert HD1. generalize (w_heap w). induction (w_arbs w) as [|s l IH]; intros H HD1; cbn; auto.
    eapply Qtrans; [apply arb_cached_Q; apply HD1; now left | apply IH; intros; apply HD1; now right].
  - revert HD2. generalize (fold_left (arb_cached dt) (w_arbs w) (w_heap w)).
    induction (w_joints w) as [|[c k] l IH]; intros H HD2; cbn; auto.
    eapply Qtrans; [apply joint_cached_Q; eapply HD2; now left | apply IH; intros; eapply HD2; right; eauto].
Qed.
Lemma iteration_Q dt w : inD w -> Q (w_heap w) (w_heap (iteration dt w)) /\ inD (iteration dt w).
Proof.
  intros HD. unfold iteration. destruct (arbs_apply_Q (w_arbs w) (proj1 HD) (w_heap w)) as [A1 A2].
  destruct arbs_apply as [H' arbs]. destruct (joints_apply_Q dt (w_joints w) (proj2 HD) H') as [J1 J2].
  destruct joints_apply as [H'' js]. cbn in *. split; [eauto|]. eapply inD_ids; [| |exact HD]; auto.
Qed.
Lemma iterations_Q n dt : forall w, inD w -> Q (w_heap w) (w_heap (iterations n dt w)) /\ inD (iterations n dt w).
Proof.
  induction n as [|n IH]; intros w HD; cbn; [auto|].
  destruct (iteration_Q dt w HD) as [H1 H2]. destruct (IH _ H2) as [H3 H4]. eauto.
Qed.
End Closure.

(** ** Frame: what the impulses can change *)
Section Frame.
Context {N : Num}.
Definition bframe (b b' : body) : Prop :=
  b_mass b' = b_mass b /\ b_minv b' = b_minv b /\ b_moi b' = b_moi b /\ b_iinv b' = b_iinv b /\
  b_angle b' = b_angle b /\ b_torque b' = b_torque b /\ b_cog b' = b_cog b /\ b_pos b' = b_pos b /\
  b_force b' = b_force b /\ b_tf b' = b_tf b /\ b_idle b' = b_idle b.
Definition hframe (H H' : heap) : Prop := forall i, bframe (H i) (H' i).
Lemma bframe_refl b : bframe b b. Proof. repeat split. Qed.
Lemma bframe_trans b1 b2 b3 : bframe b1 b2 -> bframe b2 b3 -> bframe b1 b3.
Proof. unfold bframe. intros. intuition congruence. Qed.
Lemma hframe_refl H : hframe H H. Proof. intros i. apply bframe_refl. Qed.
Lemma hframe_trans H1 H2 H3 : hframe H1 H2 -> hframe H2 H3 -> hframe H1 H3.
Proof. intros A B i. eapply bframe_trans; eauto. Qed.
Lemma hframe_upd H i b : bframe (H i) b -> hframe H (upd H i b).
Proof. intros F k. unfold upd. destruct (Nat.eqb_spec k i); subst; [exact F|apply bframe_refl]. Qed.
Lemma hframe_upd2 H i f k g : (forall b, bframe b (f b)) -> (forall b, bframe b (g b)) ->
  hframe H (let H := upd H i (f (H i)) in upd H k (g (H k))).
Proof. intros F G. cbn. eapply hframe_trans; [apply hframe_upd, F | apply hframe_upd, G]. Qed.
Lemma imp_frame H a b r1 r2 j : hframe H (apply_impulses H a b r1 r2 j).
Proof. apply (hframe_upd2 H b (fun x => kick x r2 j) a (fun x => kick x r1 _)); intros; repeat split. Qed.
Lemma bias_frame H a b r1 r2 j : hframe H (apply_bias_impulses H a b r1 r2 j).
Proof. apply (hframe_upd2 H b (fun x => kick_bias x r2 j) a (fun x => kick_bias x r1 _)); intros; repeat split. Qed.
Lemma torque_frame H a b j : hframe H (apply_torque H a b j).
Proof. apply (hframe_upd2 H a (fun x => set_w x (b_w x - j * b_iinv x)%num) b (fun x => set_w x (b_w x + j * b_iinv x)%num)); intros; repeat split. Qed.
Lemma gear_frame H a b j r : hframe H (apply_gear H a b j r).
Proof. apply (hframe_upd2 H a (fun x => set_w x (b_w x - j * b_iinv x * r)%num) b (fun x => set_w x (b_w x + j * b_iinv x)%num)); intros; repeat split. Qed.
Lemma damp_frame H a b j : hframe H (apply_damp H a b j).
Proof. apply (hframe_upd2 H a (fun x => set_w x (b_w x + j * b_iinv x)%num) b (fun x => set_w x (b_w x - j * b_iinv x)%num)); intros; repeat split. Qed.
End Frame.

(** ** Linear momentum *)
Lemma Rsum_ext {A} (f g : A -> R) l : (forall x, In x l -> f x = g x) -> Rsum f l = Rsum g l.
Proof. induction l as [|x l IH]; cbn; intros H; [reflexivity|]. f_equal; auto. Qed.
Lemma Rsum_cons {A} (f : A -> R) x l : Rsum f (x :: l) = f x + Rsum f l.
Proof. reflexivity. Qed.
Lemma Rsum_upd (f : Rbody -> R) (H : Rheap) i b L : NoDup L -> In i L ->
  Rsum (fun k => f (upd H i b k)) L = Rsum (fun k => f (H k)) L + (f b - f (H i)).
Proof.
  induction L as [|k L IH]; intros ND HI; [destruct HI|]. rewrite !Rsum_cons. inversion ND as [|? ? Hn Hd]; subst.
  destruct HI as [->|HI].
  - rewrite (Rsum_ext (fun k => f (upd H i b k)) (fun k => f (H k))); [unfold upd; rewrite Nat.eqb_refl; lra|].
    intros x Hx. unfold upd. destruct (Nat.eqb_spec x i); [subst; tauto|reflexivity].
  - rewrite IH by auto. unfold upd. destruct (Nat.eqb_spec k i); [subst; tauto|lra].
Qed.
Lemma upd_same (H : Rheap) i b : upd H i b i = b.
Proof. unfold upd. now rewrite Nat.eqb_refl. Qed.
Definition conserves (L : list nat) (H H' : Rheap) : Prop :=
  hframe H H' /\ (movable L H -> px L H' = px L H /\ py L H' = py L H /\ bpx L H' = bpx L H /\ bpy L H' = bpy L H).
Lemma movable_frame L H H' : hframe H H' -> movable L H -> movable L H'.
Proof. intros F M i Hi. destruct (F i) as (-> & -> & _). now apply M. Qed.
Lemma conserves_refl L H : conserves L H H.
Proof. split; [apply hframe_refl|auto]. Qed.
Lemma conserves_trans L H1 H2 H3 : conserves L H1 H2 -> conserves L H2 H3 -> conserves L H1 H3.
Proof.
  intros [F1 C1] [F2 C2]. split; [eapply hframe_trans; eauto|]. intros M.
  destruct (C1 M) as (?&?&?&?). destruct (C2 (movable_frame _ _ _ F1 M)) as (?&?&?&?). repeat split; congruence.
Qed.
Lemma two_upd (f : Rbody -> R) (H : Rheap) i bi k (bk : Rheap -> Rbody) L : NoDup L -> In i L -> In k L ->
  let H1 := upd H i bi in
  Rsum (fun n => f (upd H1 k (bk H1) n)) L = Rsum (fun n => f (H n)) L + (f bi - f (H i)) + (f (bk H1) - f (H1 k)).
Proof. intros ND Hi Hk H1. rewrite Rsum_upd by auto. unfold H1. rewrite Rsum_upd by auto. reflexivity. Qed.
Definition Din (L : list nat) (a b : nat) : Prop := In a L /\ In b L.
Lemma imp_conserves L H a b r1 r2 j : NoDup L -> Din L a b -> conserves L H (apply_impulses H a b r1 r2 j).
Proof.
  intros ND [Ha Hb]. split; [apply imp_frame|]. intros M. pose proof (M a Ha) as Ma. pose proof (M b Hb) as Mb.
  unfold px, py, bpx, bpy, apply_impulses. cbv zeta.
  pose proof (two_upd (fun x => b_mass x * vx (b_vel x)) H b (kick (H b) r2 j) a (fun H => kick (H a) r1 (V (- vx j)%num (- vy j)%num)) L ND Hb Ha) as E1.
  pose proof (two_upd (fun x => b_mass x * vy (b_vel x)) H b (kick (H b) r2 j) a (fun H => kick (H a) r1 (V (- vx j)%num (- vy j)%num)) L ND Hb Ha) as E2.
  pose proof (two_upd (fun x => b_mass x * vx (b_vbias x)) H b (kick (H b) r2 j) a (fun H => kick (H a) r1 (V (- vx j)%num (- vy j)%num)) L ND Hb Ha) as E3.
  pose proof (two_upd (fun x => b_mass x * vy (b_vbias x)) H b (kick (H b) r2 j) a (fun H => kick (H a) r1 (V (- vx j)%num (- vy j)%num)) L ND Hb Ha) as E4.
  cbv zeta beta in E1, E2, E3, E4. rewrite E1, E2, E3, E4. clear E1 E2 E3 E4.
  assert (Mi : b_mass (upd H b (kick (H b) r2 j) a) * b_minv (upd H b (kick (H b) r2 j) a) = 1).
  { unfold upd. destruct (Nat.eqb_spec a b); [cbn; exact Mb|exact Ma]. }
  unfold kick in *; cbn [b_vel b_mass b_vbias set_vel_fields vx vy] in *; unR.
  set (H1 := upd H b _) in *. clearbody H1.
  repeat split; try lra.
  - replace (b_mass (H b) * (vx (b_vel (H b)) + vx j * b_minv (H b))) with (b_mass (H b) * vx (b_vel (H b)) + vx j * (b_mass (H b) * b_minv (H b))) by ring.
    replace (b_mass (H1 a) * (vx (b_vel (H1 a)) + - vx j * b_minv (H1 a))) with (b_mass (H1 a) * vx (b_vel (H1 a)) - vx j * (b_mass (H1 a) * b_minv (H1 a))) by ring.
    rewrite Mi, Mb. lra.
  - replace (b_mass (H b) * (vy (b_vel (H b)) + vy j * b_minv (H b))) with (b_mass (H b) * vy (b_vel (H b)) + vy j * (b_mass (H b) * b_minv (H b))) by ring.
    replace (b_mass (H1 a) * (vy (b_vel (H1 a)) + - vy j * b_minv (H1 a))) with (b_mass (H1 a) * vy (b_vel (H1 a)) - vy j * (b_mass (H1 a) * b_minv (H1 a))) by ring.
    rewrite Mi, Mb. lra.
Qed.
Lemma bias_conserves L H a b r1 r2 j : NoDup L -> Din L a b -> conserves L H (apply_bias_impulses H a b r1 r2 j).
Proof.
  intros ND [Ha Hb]. split; [apply bias_frame|]. intros M. pose proof (M a Ha) as Ma. pose proof (M b Hb) as Mb.
  unfold px, py, bpx, bpy, apply_bias_impulses. cbv zeta.
  pose proof (two_upd (fun x => b_mass x * vx (b_vel x)) H b (kick_bias (H b) r2 j) a (fun H => kick_bias (H a) r1 (V (- vx j)%num (- vy j)%num)) L ND Hb Ha) as E1.
  pose proof (two_upd (fun x => b_mass x * vy (b_vel x)) H b (kick_bias (H b) r2 j) a (fun H => kick_bias (H a) r1 (V (- vx j)%num (- vy j)%num)) L ND Hb Ha) as E2.
  pose proof (two_upd (fun x => b_mass x * vx (b_vbias x)) H b (kick_bias (H b) r2 j) a (fun H => kick_bias (H a) r1 (V (- vx j)%num (- vy j)%num)) L ND Hb Ha) as E3.
  pose proof (two_upd (fun x => b_mass x * vy (b_vbias x)) H b (kick_bias (H b) r2 j) a (fun H => kick_bias (H a) r1 (V (- vx j)%num (- vy j)%num)) L ND Hb Ha) as E4.
  cbv zeta beta in E1, E2, E3, E4. rewrite E1, E2, E3, E4. clear E1 E2 E3 E4.
  assert (Mi : b_mass (upd H b (kick_bias (H b) r2 j) a) * b_minv (upd H b (kick_bias (H b) r2 j) a) = 1).
  { unfold upd. destruct (Nat.eqb_spec a b); [cbn; exact Mb|exact Ma]. }
  unfold kick_bias in *; cbn [b_vel b_mass b_vbias set_bias_fields vx vy] in *; unR.
  set (H1 := upd H b _) in *. clearbody H1.
  repeat split; try lra.
  - replace (b_mass (H b) * (vx (b_vbias (H b)) + vx j * b_minv (H b))) with (b_mass (H b) * vx (b_vbias (H b)) + vx j * (b_mass (H b) * b_minv (H b))) by ring.
    replace (b_mass (H1 a) * (vx (b_vbias (H1 a)) + - vx j * b_minv (H1 a))) with (b_mass (H1 a) * vx (b_vbias (H1 a)) - vx j * (b_mass (H1 a) * b_minv (H1 a))) by ring.
    rewrite Mi, Mb. lra.
  - replace (b_mass (H b) * (vy (b_vbias (H b)) + vy j * b_minv (H b))) with (b_mass (H b) * vy (b_vbias (H b)) + vy j * (b_mass (H b) * b_minv (H b))) by ring.
    replace (b_mass (H1 a) * (vy (b_vbias (H1 a)) + - vy j * b_minv (H1 a))) with (b_mass (H1 a) * vy (b_vbias (H1 a)) - vy j * (b_mass (H1 a) * b_minv (H1 a))) by ring.
    rewrite Mi, Mb. lra.
Qed.
(** Torques change no linear velocity. *)
Lemma w_only_conserves L (H H' : Rheap) : hframe H H' -> (forall i, b_vel (H' i) = b_vel (H i) /\ b_vbias (H' i) = b_vbias (H i)) -> conserves L H H'.
Proof.
  intros F V. split; [exact F|]. intros _. unfold px, py, bpx, bpy.
  repeat split; apply Rsum_ext; intros i _; destruct (V i) as [E1 E2]; destruct (F i) as [E3 _]; rewrite ?E1, ?E2, E3; reflexivity.
Qed.
Ltac wonly := let i := fresh "i" in intros i; cbv zeta; unfold upd; repeat match goal with |- context [Nat.eqb ?x ?y] => destruct (Nat.eqb_spec x y); subst end; cbn; split; congruence || reflexivity.
Lemma torque_conserves L H a b j : conserves L H (apply_torque H a b j).
Proof. apply w_only_conserves; [apply torque_frame|]. unfold apply_torque. wonly. Qed.
Lemma gear_conserves L H a b j r : conserves L H (apply_gear H a b j r).
Proof. apply w_only_conserves; [apply gear_frame|]. unfold apply_gear. wonly. Qed.
Lemma damp_conserves L H a b j : conserves L H (apply_damp H a b j).
Proof. apply w_only_conserves; [apply damp_frame|]. unfold apply_damp. wonly. Qed.

Lemma closed_inD L (w : Rworld) : closed L w -> inD (Din L) w.
Proof. intros [A B]. split; [exact A|exact B]. Qed.
Lemma inD_closed L (w : Rworld) : inD (Din L) w -> closed L w.
Proof. intros [A B]. split; [exact A|exact B]. Qed.
Lemma prestep_conserves L slop bias dt (w : Rworld) : NoDup L -> closed L w ->
  conserves L (w_heap w) (w_heap (prestep_all slop bias dt w)) /\ closed L (prestep_all slop bias dt w).
Proof.
  intros ND C. destruct (prestep_all_Q (conserves L) (Din L) (conserves_refl L) (conserves_trans L)
    (fun H a b r1 r2 j => imp_conserves L H a b r1 r2 j ND) (fun H a b j _ => torque_conserves L H a b j) slop bias dt w (closed_inD _ _ C)) as [A B].
  split; [exact A|now apply inD_closed].
Qed.
Lemma cached_conserves L dt (w : Rworld) : NoDup L -> closed L w ->
  conserves L (w_heap w) (w_heap (cached_all dt w)) /\ closed L (cached_all dt w).
Proof.
  intros ND C. destruct (cached_all_Q (conserves L) (Din L) (conserves_refl L) (conserves_trans L)
    (fun H a b r1 r2 j => imp_conserves L H a b r1 r2 j ND) (fun H a b j _ => torque_conserves L H a b j)
    (fun H a b j r _ => gear_conserves L H a b j r) dt w (closed_inD _ _ C)) as [A B].
  split; [exact A|now apply inD_closed].
Qed.
Lemma iterations_conserves L n dt (w : Rworld) : NoDup L -> closed L w ->
  conserves L (w_heap w) (w_heap (iterations n dt w)) /\ closed L (iterations n dt w).
Proof.
  intros ND C. destruct (iterations_Q (conserves L) (Din L) (conserves_refl L) (conserves_trans L)
    (fun H a b r1 r2 j => imp_conserves L H a b r1 r2 j ND) (fun H a b r1 r2 j => bias_conserves L H a b r1 r2 j ND)
    (fun H a b j _ => torque_conserves L H a b j)
    (fun H a b j r _ => gear_conserves L H a b j r) (fun H a b j _ => damp_conserves L H a b j) n dt w (closed_inD _ _ C)) as [A B].
  split; [exact A|now apply inD_closed].
Qed.

(** ** The whole solver half of a step *)
Lemma fold_upd (f : Rbody -> Rbody) l : NoDup l -> forall (H : Rheap) k,
  (In k l -> fold_left (fun H i => upd H i (f (H i))) l H k = f (H k)) /\
  (~ In k l -> fold_left (fun H i => upd H i (f (H i))) l H k = H k).
Proof.
  induction l as [|i l IH]; intros ND H k; cbn; [tauto|]. inversion ND as [|? ? Hn Hd]; subst.
  destruct (IH Hd (upd H i (f (H i))) k) as [A B]. split.
  - intros [->|Hk].
    + rewrite B by auto. now rewrite upd_same.
    + rewrite A by auto. unfold upd. destruct (Nat.eqb_spec k i); [subst; tauto|reflexivity].
  - intros Hk. rewrite B by tauto. unfold upd. destruct (Nat.eqb_spec k i); [subst; tauto|reflexivity].
Qed.
Lemma Rsum_lin {A} (f g : A -> R) c d l : Rsum (fun x => c * f x + d * g x) l = c * Rsum f l + d * Rsum g l.
Proof. induction l as [|x l IH]; [cbn; lra|]. rewrite !Rsum_cons, IH. lra. Qed.
Lemma integrate_momentum L g d dt (w : Rworld) : NoDup L -> movable L (w_heap w) ->
  (forall i, In i L -> b_type (w_heap w i) = Dynamic) ->
  let w' := integrate_all g d dt L w in
  px L (w_heap w') = d * px L (w_heap w) + dt * force_x L g (w_heap w) /\
  py L (w_heap w') = d * py L (w_heap w) + dt * force_y L g (w_heap w) /\
  movable L (w_heap w').
Proof.
  intros ND M T w'. subst w'. cbn. set (f := fun b : Rbody => update_velocity b g d dt).
  change (fun (H : Rheap) i => upd H i (update_velocity (H i) g d dt)) with (fun (H : Rheap) i => upd H i (f (H i))).
  set (H' := fold_left _ L _).
  assert (F : forall i, In i L -> H' i = f (w_heap w i)) by (intros i Hi; apply (fold_upd f L ND (w_heap w) i); auto).
  assert (Ms : forall b : Rbody, b_mass (f b) = b_mass b /\ b_minv (f b) = b_minv b)
    by (intros b; unfold f, update_velocity; destruct (b_type b); split; reflexivity).
  unfold px, py, force_x, force_y. rewrite <- !Rsum_lin. split; [|split].
  - apply Rsum_ext. intros i Hi. rewrite F by auto. destruct (Ms (w_heap w i)) as [-> _].
    destruct (update_velocity_spec (w_heap w i) g d dt) as (_ & _ & Ev & _); [rewrite T by auto; discriminate|].
    unfold f. rewrite Ev. unfold rvec. cbn [vx vy]. pose proof (M i Hi) as Mi. set (b := w_heap w i) in *. clearbody b.
    replace (b_mass b * (d * vx (b_vel b) + (vx g + vx (b_force b) * b_minv b) * dt)) with
      (d * (b_mass b * vx (b_vel b)) + dt * (b_mass b * vx g + vx (b_force b) * (b_mass b * b_minv b))) by ring.
    rewrite Mi. ring.
  - apply Rsum_ext. intros i Hi. rewrite F by auto. destruct (Ms (w_heap w i)) as [-> _].
    destruct (update_velocity_spec (w_heap w i) g d dt) as (_ & _ & Ev & _); [rewrite T by auto; discriminate|].
    unfold f. rewrite Ev. unfold rvec. cbn [vx vy]. pose proof (M i Hi) as Mi. set (b := w_heap w i) in *. clearbody b.
    replace (b_mass b * (d * vy (b_vel b) + (vy g + vy (b_force b) * b_minv b) * dt)) with
      (d * (b_mass b * vy (b_vel b)) + dt * (b_mass b * vy g + vy (b_force b) * (b_mass b * b_minv b))) by ring.
    rewrite Mi. ring.
  - intros i Hi. rewrite F by auto. destruct (Ms (w_heap w i)) as [-> ->]. now apply M.
Qed.
Lemma force_frame L g (H H' : Rheap) : hframe H H' -> force_x L g H' = force_x L g H /\ force_y L g H' = force_y L g H.
Proof.
  intros F. unfold force_x, force_y. split; apply Rsum_ext; intros i _; destruct (F i) as (-> & _ & _ & _ & _ & _ & _ & _ & -> & _); reflexivity.
Qed.
Lemma type_frame (b b' : Rbody) : bframe b b' -> b_type b' = b_type b.
Proof. intros (E & _ & _ & _ & _ & _ & _ & _ & _ & _ & E2). unfold b_type. now rewrite E, E2. Qed.

Lemma solve_momentum n slop bias g d dt prevdt L (w : Rworld) :
  NoDup L -> closed L w -> movable L (w_heap w) -> (forall i, In i L -> b_type (w_heap w i) = Dynamic) ->
  let w' := solve n slop bias g d dt prevdt L w in
  px L (w_heap w') = d * px L (w_heap w) + dt * force_x L g (w_heap w) /\
  py L (w_heap w') = d * py L (w_heap w) + dt * force_y L g (w_heap w).
Proof.
  intros ND C M T. unfold solve. cbv zeta. set (dtc := if negb _ then _ else _). clearbody dtc.
  destruct (prestep_conserves L slop bias dt w ND C) as [[F1 P1] C1]. set (w1 := prestep_all slop bias dt w) in *. clearbody w1.
  destruct (P1 M) as (X1 & Y1 & _). pose proof (movable_frame _ _ _ F1 M) as M1.
  assert (T1 : forall i, In i L -> b_type (w_heap w1 i) = Dynamic) by (intros i Hi; rewrite (type_frame _ _ (F1 i)); auto).
  destruct (integrate_momentum L g d dt w1 ND M1 T1) as (X2 & Y2 & M2).
  assert (C2 : closed L (integrate_all g d dt L w1)) by exact C1.
  set (w2 := integrate_all g d dt L w1) in *. clearbody w2.
  destruct (cached_conserves L dtc w2 ND C2) as [[F3 P3] C3]. set (w3 := cached_all dtc w2) in *. clearbody w3.
  destruct (P3 M2) as (X3 & Y3 & _). pose proof (movable_frame _ _ _ F3 M2) as M3.
  destruct (iterations_conserves L n dt w3 ND C3) as [[F4 P4] _]. destruct (P4 M3) as (X4 & Y4 & _).
  destruct (force_frame L g _ _ F1) as [Fx Fy].
  split; [rewrite X4, X3, X2, X1, Fx|rewrite Y4, Y3, Y2, Y1, Fy]; reflexivity.
Qed.

(** ** Immovable bodies *)
Definition immobile_same (H H' : Rheap) : Prop := hframe H H' /\
  forall i, (b_minv (H i) = 0 -> b_vel (H' i) = b_vel (H i) /\ b_vbias (H' i) = b_vbias (H i)) /\
            (b_iinv (H i) = 0 -> b_w (H' i) = b_w (H i) /\ b_wbias (H' i) = b_wbias (H i)).
Lemma immobile_refl H : immobile_same H H.
Proof. split; [apply hframe_refl|]. auto. Qed.
Lemma immobile_trans H1 H2 H3 : immobile_same H1 H2 -> immobile_same H2 H3 -> immobile_same H1 H3.
Proof.
  intros [F1 A1] [F2 A2]. split; [eapply hframe_trans; eauto|]. intros i.
  destruct (F1 i) as (_ & Em & _ & Ei & _). destruct (A1 i) as [A B], (A2 i) as [C D]. rewrite Em in C. rewrite Ei in D.
  split; intros E; [destruct (A E), (C E)|destruct (B E), (D E)]; split; congruence.
Qed.
Lemma immobile_upd (H : Rheap) i b : bframe (H i) b ->
  (b_minv (H i) = 0 -> b_vel b = b_vel (H i) /\ b_vbias b = b_vbias (H i)) ->
  (b_iinv (H i) = 0 -> b_w b = b_w (H i) /\ b_wbias b = b_wbias (H i)) -> immobile_same H (upd H i b).
Proof.
  intros F A B. split; [now apply hframe_upd|]. intros k. unfold upd. destruct (Nat.eqb_spec k i); subst; auto.
Qed.
Lemma immobile_upd2 (H : Rheap) i f k g :
  (forall H i, immobile_same H (upd H i (f (H i)))) -> (forall H i, immobile_same H (upd H i (g (H i)))) ->
  immobile_same H (let H := upd H i (f (H i)) in upd H k (g (H k))).
Proof. intros F G. cbv zeta. eapply immobile_trans; [apply F|apply G]. Qed.
Lemma kick_immobile r j (H : Rheap) i : immobile_same H (upd H i (kick (H i) r j)).
Proof.
  apply immobile_upd; [repeat split| |]; intros E; unfold kick; cbn; split; try reflexivity.
  - apply vec_eq; cbn; unR; rewrite E; rring.
  - unR. rewrite E. rring.
Qed.
Lemma kick_bias_immobile r j (H : Rheap) i : immobile_same H (upd H i (kick_bias (H i) r j)).
Proof.
  apply immobile_upd; [repeat split| |]; intros E; unfold kick_bias; cbn; split; try reflexivity.
  - apply vec_eq; cbn; unR; rewrite E; rring.
  - unR. rewrite E. rring.
Qed.
Lemma setw_immobile (f : Rbody -> R) (H : Rheap) i : (forall b, b_iinv b = 0 -> f b = b_w b) ->
  immobile_same H (upd H i (set_w (H i) (f (H i)))).
Proof.
  intros F. apply immobile_upd; [repeat split| |]; intros E; unfold set_w; cbn; split; try reflexivity. now apply F.
Qed.
Lemma imp_immobile (H : Rheap) a b r1 r2 j : immobile_same H (apply_impulses H a b r1 r2 j).
Proof. apply (immobile_upd2 H b (fun x => kick x r2 j) a (fun x => kick x r1 _)); intros; apply kick_immobile. Qed.
Lemma bias_immobile (H : Rheap) a b r1 r2 j : immobile_same H (apply_bias_impulses H a b r1 r2 j).
Proof. apply (immobile_upd2 H b (fun x => kick_bias x r2 j) a (fun x => kick_bias x r1 _)); intros; apply kick_bias_immobile. Qed.
Lemma torque_immobile (H : Rheap) a b j : immobile_same H (apply_torque H a b j).
Proof.
  apply (immobile_upd2 H a (fun x => set_w x (b_w x - j * b_iinv x)%num) b (fun x => set_w x (b_w x + j * b_iinv x)%num)); intros.
  - apply (setw_immobile (fun x => b_w x - j * b_iinv x)). intros x Ex. rewrite Ex. lra.
  - apply (setw_immobile (fun x => b_w x + j * b_iinv x)). intros x Ex. rewrite Ex. lra.
Qed.
Lemma gear_immobile (H : Rheap) a b j r : immobile_same H (apply_gear H a b j r).
Proof.
  apply (immobile_upd2 H a (fun x => set_w x (b_w x - j * b_iinv x * r)%num) b (fun x => set_w x (b_w x + j * b_iinv x)%num)); intros.
  - apply (setw_immobile (fun x => b_w x - j * b_iinv x * r)). intros x Ex. rewrite Ex. lra.
  - apply (setw_immobile (fun x => b_w x + j * b_iinv x)). intros x Ex. rewrite Ex. lra.
Qed.
Lemma damp_immobile (H : Rheap) a b j : immobile_same H (apply_damp H a b j).
Proof.
  apply (immobile_upd2 H a (fun x => set_w x (b_w x + j * b_iinv x)%num) b (fun x => set_w x (b_w x - j * b_iinv x)%num)); intros.
  - apply (setw_immobile (fun x => b_w x + j * b_iinv x)). intros x Ex. rewrite Ex. lra.
  - apply (setw_immobile (fun x => b_w x - j * b_iinv x)). intros x Ex. rewrite Ex. lra.
Qed.
Definition Dall (a b : nat) : Prop := True.
Lemma inD_all (w : Rworld) : inD Dall w. Proof. split; intros; exact I. Qed.
Lemma prestep_immobile slop bias dt (w : Rworld) : immobile_same (w_heap w) (w_heap (prestep_all slop bias dt w)).
Proof.
  exact (proj1 (prestep_all_Q immobile_same Dall immobile_refl immobile_trans
    (fun H a b r1 r2 j _ => imp_immobile H a b r1 r2 j) (fun H a b j _ => torque_immobile H a b j) slop bias dt w (inD_all w))).
Qed.
Lemma cached_immobile dt (w : Rworld) : immobile_same (w_heap w) (w_heap (cached_all dt w)).
Proof.
  exact (proj1 (cached_all_Q immobile_same Dall immobile_refl immobile_trans
    (fun H a b r1 r2 j _ => imp_immobile H a b r1 r2 j) (fun H a b j _ => torque_immobile H a b j)
    (fun H a b j r _ => gear_immobile H a b j r) dt w (inD_all w))).
Qed.
Lemma iterations_immobile n dt (w : Rworld) : immobile_same (w_heap w) (w_heap (iterations n dt w)).
Proof.
  exact (proj1 (iterations_Q immobile_same Dall immobile_refl immobile_trans
    (fun H a b r1 r2 j _ => imp_immobile H a b r1 r2 j) (fun H a b r1 r2 j _ => bias_immobile H a b r1 r2 j)
    (fun H a b j _ => torque_immobile H a b j)
    (fun H a b j r _ => gear_immobile H a b j r) (fun H a b j _ => damp_immobile H a b j) n dt w (inD_all w))).
Qed.
Lemma integrate_other (g : @vec RNum) d dt L (w : Rworld) i : ~ In i L -> w_heap (integrate_all g d dt L w) i = w_heap w i.
Proof.
  cbn. generalize (w_heap w). induction L as [|k L IH]; intros H Hi; cbn; [reflexivity|].
  rewrite IH by (cbn in Hi; tauto). unfold upd. destruct (Nat.eqb_spec i k); [subst; cbn in Hi; tauto|reflexivity].
Qed.
Lemma immobile_final (H : Rheap) H1 H2 H3 H4 i : immobile_same H H1 -> H2 i = H1 i -> immobile_same H2 H3 -> immobile_same H3 H4 ->
  b_minv (H i) = 0 -> b_iinv (H i) = 0 ->
  b_vel (H4 i) = b_vel (H i) /\ b_w (H4 i) = b_w (H i) /\ b_vbias (H4 i) = b_vbias (H i) /\ b_wbias (H4 i) = b_wbias (H i).
Proof.
  intros A12 E A3 A4 M I. pose proof (immobile_trans _ _ _ A3 A4) as [F B]. destruct A12 as [F1 A1].
  destruct (F1 i) as (_ & Em & _ & Ei & _). destruct (A1 i) as [A1v A1w]. destruct (A1v M), (A1w I).
  destruct (B i) as [Bv Bw]. rewrite E in Bv, Bw. rewrite Em in Bv. rewrite Ei in Bw. destruct (Bv M), (Bw I).
  repeat split; congruence.
Qed.
Lemma solve_immobile n slop bias g d dt prevdt L (w : Rworld) i :
  b_minv (w_heap w i) = 0 -> b_iinv (w_heap w i) = 0 -> ~ In i L ->
  let b := w_heap w i in let b' := w_heap (solve n slop bias g d dt prevdt L w) i in
  b_vel b' = b_vel b /\ b_w b' = b_w b /\ b_vbias b' = b_vbias b /\ b_wbias b' = b_wbias b.
Proof.
  intros M I Hi. unfold solve. cbv zeta.
  exact (immobile_final _ _ _ _ _ i (prestep_immobile slop bias dt w) (integrate_other g d dt L _ i Hi)
    (cached_immobile _ _) (iterations_immobile n dt _) M I).
Qed.
