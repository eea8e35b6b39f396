From Coq Require Import ZArith Bool Reals List Lra Lia Psatz.
From Verif Require Import Num NumReal Vec BB BBProofs Transform TransformProofs Body BodySpec BodyProofs Solver SolverSpec SolverProofs.
Import ListNotations.

Section Gen.
Context {N : Num} {O : NumOrd N}.
Local Open Scope num_scope.

(** The clamp is in range whatever is clamped, even NaN. *)
Lemma nclamp_range x lo hi : (lo <=? hi) = true -> (lo <=? nclamp x lo hi) = true /\ (nclamp x lo hi <=? hi) = true.
Proof.
  intros H. pose proof (nleb_ok _ _ H) as [Hl Hh]. unfold nclamp.
  destruct (lo <? x) eqn:E.
  - destruct (nltb_ok _ _ E) as [_ Hx]. rewrite nltb_nleb in E by auto. apply negb_true_iff in E.
    assert (L : (lo <=? x) = true) by (destruct (nleb_total x lo); auto; congruence).
    split; [now apply nmin_glb|now apply nmin_r].
  - split; [apply nmin_glb; auto using nleb_refl|now apply nmin_r].
Qed.
Lemma neg_nonneg_le x : (n0 <=? x) = true -> (- x <=? x) = true.
Proof.
  intros H. apply nleb_trans with (- n0); [now apply nneg_le|].
  apply nleb_trans with n0; [apply nneg_0|exact H].
Qed.
Lemma n0_ok : nok n0. Proof. apply nfin_ok, nofZ_fin; lia. Qed.
Lemma nclamp_sym x m : (n0 <=? m) = true -> (- m <=? nclamp x (- m) m) = true /\ (nclamp x (- m) m <=? m) = true.
Proof. intros H. apply nclamp_range, neg_nonneg_le, H. Qed.

(** One contact iteration. *)
Definition contact_ok (u : num) (c : contact) : Prop :=
  (nok (k_jn c) -> (n0 <=? k_jn c) = true) /\ (nok (k_jbias c) -> (n0 <=? k_jbias c) = true) /\
  (nfin u -> (n0 <=? u) = true -> nfin (k_jn c) ->
     (- (u * k_jn c) <=? k_jt c) = true /\ (k_jt c <=? u * k_jn c) = true).
Lemma contact_apply_ok H s c : contact_ok (s_u s) (snd (contact_apply H s c)).
Proof.
  unfold contact_apply, contact_ok. cbv zeta. cbn [snd k_jn k_jt k_jbias].
  set (x := nmax (k_jn c + _) n0). split; [|split].
  - intros Hx. apply nmax_r_ok; [apply n0_ok|exact Hx].
  - intros Hx. apply nmax_r_ok; [apply n0_ok|exact Hx].
  - intros Fu Pu Fx. apply nclamp_sym. apply nmul_nonneg; auto. apply nmax_r_ok; [apply n0_ok|]. now apply nfin_ok.
Qed.
Lemma contacts_apply_ok s cs : forall H c, In c (snd (contacts_apply H s cs)) -> contact_ok (s_u s) c.
Proof.
  induction cs as [|c cs IH]; intros H c'; cbn [contacts_apply]; [intros []|].
  pose proof (contact_apply_ok H s c) as H1. destruct (contact_apply H s c) as [H' c1].
  specialize (IH H'). destruct (contacts_apply H' s cs) as [H'' cs']. cbn in *. intros [<-|Hc]; auto.
Qed.
Lemma arb_apply_ok H s c : In c (s_contacts (snd (arb_apply H s))) -> contact_ok (s_u (snd (arb_apply H s))) c.
Proof.
  unfold arb_apply. pose proof (contacts_apply_ok s (s_contacts s) H) as X. destruct contacts_apply. cbn in *. apply X.
Qed.
Lemma arbs_apply_ok l : forall H s c, In s (snd (arbs_apply H l)) -> In c (s_contacts s) -> contact_ok (s_u s) c.
Proof.
  induction l as [|s l IH]; intros H s' c; cbn [arbs_apply]; [intros []|].
  pose proof (arb_apply_ok H s) as H1. destruct (arb_apply H s) as [H' s1].
  specialize (IH H'). destruct (arbs_apply H' l) as [H'' l']. cbn in *. intros [<-|Hs]; eauto.
Qed.
Context {E : Elem N} {T : Trig N}.
Lemma iteration_ok dt w s c : In s (w_arbs (iteration dt w)) -> In c (s_contacts s) -> contact_ok (s_u s) c.
Proof.
  unfold iteration. pose proof (arbs_apply_ok (w_arbs w) (w_heap w)) as X. destruct arbs_apply. destruct joints_apply. cbn in *. apply X.
Qed.
Lemma iterations_last n dt : forall w, iterations (S n) dt w = iteration dt (iterations n dt w).
Proof. induction n as [|n IH]; intros w; [reflexivity|]. exact (IH (iteration dt w)). Qed.
Lemma iterations_ok n dt w s c : In s (w_arbs (iterations (S n) dt w)) -> In c (s_contacts s) -> contact_ok (s_u s) c.
Proof. rewrite iterations_last. apply iteration_ok. Qed.

(** One joint iteration (scalar joints). *)
Lemma pin_apply_bound H c dt p : (n0 <=? c_maxforce c * dt) = true ->
  (- (c_maxforce c * dt) <=? pn_j (snd (pin_apply H c dt p))) = true /\ (pn_j (snd (pin_apply H c dt p)) <=? c_maxforce c * dt) = true.
Proof. apply nclamp_sym. Qed.
Lemma gear_apply_bound H c dt p : (n0 <=? c_maxforce c * dt) = true ->
  (- (c_maxforce c * dt) <=? ge_j (snd (gear_apply H c dt p))) = true /\ (ge_j (snd (gear_apply H c dt p)) <=? c_maxforce c * dt) = true.
Proof. apply nclamp_sym. Qed.
Lemma motor_apply_bound H c dt p : (n0 <=? c_maxforce c * dt) = true ->
  (- (c_maxforce c * dt) <=? mo_j (snd (motor_apply H c dt p))) = true /\ (mo_j (snd (motor_apply H c dt p)) <=? c_maxforce c * dt) = true.
Proof. apply nclamp_sym. Qed.
Lemma rlimit_apply_bound H c dt p : (n0 <=? c_maxforce c * dt) = true -> (rl_bias p =? n0) = false ->
  let j := rl_j (snd (rlimit_apply H c dt p)) in
  if rl_bias p <? n0 then (n0 <=? j) = true /\ (j <=? c_maxforce c * dt) = true
  else (- (c_maxforce c * dt) <=? j) = true /\ (j <=? n0) = true.
Proof.
  intros M B. unfold rlimit_apply. rewrite B. cbv zeta. cbn [snd rl_j]. destruct (rl_bias p <? n0).
  - now apply nclamp_range.
  - apply nclamp_range. apply nleb_trans with (- n0); [now apply nneg_le|apply nneg_0].
Qed.
Lemma slide_apply_bound H c dt p : (- c_maxforce c * dt <=? n0) = true -> veqb (sl_n p) vzero = false ->
  let j := sl_j (snd (slide_apply H c dt p)) in (- c_maxforce c * dt <=? j) = true /\ (j <=? n0) = true.
Proof. intros M B. unfold slide_apply. rewrite B. cbv zeta. cbn [snd sl_j]. now apply nclamp_range. Qed.
End Gen.

Local Open Scope R_scope.
Lemma RnclampE x lo hi : lo <= hi -> nclamp (N:=RNum) x lo hi = if Rleb x lo then lo else if Rleb hi x then hi else x.
Proof.
  intros H. unfold nclamp. unR. destruct (Rltb_spec lo x), (Rleb_spec x lo); try lra.
  - unfold Rmin. destruct Rle_dec, (Rleb_spec hi x); lra.
  - unfold Rmin. destruct Rle_dec; lra.
Qed.
Lemma Rnclamp_sym x m : 0 <= m -> Rabs (nclamp (N:=RNum) x (- m) m) <= m.
Proof.
  intros H. apply Rabs_le. destruct (nclamp_sym (N:=RNum) x m) as [A B]; [unR; now apply Rleb_true|].
  unR. apply Rleb_true in A, B. lra.
Qed.
Lemma Rclampmag_cases (v : @vec RNum) (l : R) :
  (vdot v v <= l * l /\ vclampmag v l = v) \/ (l * l < vdot v v /\ vdot (vclampmag v l) (vclampmag v l) = l * l).
Proof.
  unfold vclampmag. unR. destruct (Rltb_spec (l * l) (vdot v v)) as [L|L]; [right|left; split; [exact L|reflexivity]].
  split; [exact L|]. unfold vunit, vscale, vmag. unR. unfold vdot in *. cbn [vx vy]. unR.
  set (q := vx v * vx v + vy v * vy v) in *.
  assert (Pq : 0 < q) by nra.
  assert (Hm : sqrt q * sqrt q = q) by (apply sqrt_sqrt; lra).
  assert (Pm : 0 < sqrt q) by (now apply sqrt_lt_R0).
  transitivity (l * l * q / (sqrt q * sqrt q)); [unfold q; field; fold q; lra|]. rewrite Hm. field. lra.
Qed.
Lemma Rclampmag (v : @vec RNum) l : 0 <= l -> vmag (vclampmag v l) <= l.
Proof.
  intros H. unfold vmag. unR. apply Rle_trans with (sqrt (l * l)); [|rewrite sqrt_square; lra]. apply sqrt_le_1_alt.
  destruct (Rclampmag_cases v l) as [[A E]|[A E]]; [rewrite E|rewrite E]; lra.
Qed.

(** ** Joint impulse limits over the reals *)
Lemma Rratchet_clamp x m q : 0 <= m -> q <> 0 ->
  Rabs (nclamp (N:=RNum) x 0 (m * Rabs q) / q) <= m /\ 0 <= (nclamp (N:=RNum) x 0 (m * Rabs q) / q) * q.
Proof.
  intros Hm Hq. pose proof (Rabs_pos_lt q Hq) as Pq.
  assert (Hb : 0 <= m * Rabs q) by (apply Rmult_le_pos; lra).
  assert (Hc : 0 <= nclamp (N:=RNum) x 0 (m * Rabs q) <= m * Rabs q).
  { rewrite RnclampE by auto. unR. destruct (Rleb_spec x 0), (Rleb_spec (m * Rabs q) x); split; lra. }
  unR. set (y := nclamp _ _ _) in *. split.
  - unfold Rdiv. rewrite Rabs_mult, Rabs_inv, (Rabs_pos_eq y) by lra.
    apply Rmult_le_reg_r with (Rabs q); [auto|]. rewrite Rmult_assoc, Rinv_l by lra. lra.
  - replace (y / q * q) with y by (rfield; auto). lra.
Qed.
Lemma joint_apply_within (H : Rheap) c dt k : 0 <= c_maxforce c * dt -> ratchet_ok k -> joint_active k ->
  within c dt (snd (joint_apply H c dt k)).
Proof.
  intros M Rk A. destruct k; cbn -[vmag vclampmag]; try exact I.
  - now apply Rclampmag.
  - now apply Rnclamp_sym.
  - unfold slide_apply. unfold joint_active in A. rewrite A. cbn. unR.
    rewrite RnclampE by lra. apply Rabs_le. rcases; split; lra.
  - now apply Rclampmag.
  - now apply Rnclamp_sym.
  - now apply Rnclamp_sym.
  - unfold rlimit_apply. unfold joint_active in A. rewrite A. cbn. unR. apply Rabs_le. destruct Rltb; rewrite RnclampE by lra; rcases; split; lra.
  - unfold ratchet_apply. unfold joint_active in A. rewrite A. cbn. unR. now apply Rratchet_clamp.
Qed.
Lemma joint_apply_inactive (H : Rheap) c dt k : ~ joint_active k -> joint_apply H c dt k = (H, k).
Proof.
  destruct k; cbn; try tauto; intros A.
  - unfold slide_apply. destruct veqb; [reflexivity|exfalso; now apply A].
  - unfold rlimit_apply. unR; destruct Reqb; [reflexivity|exfalso; now apply A].
  - unfold ratchet_apply. unR; destruct Reqb; [reflexivity|exfalso; now apply A].
Qed.
Lemma joint_active_dec k : joint_active k \/ ~ joint_active k.
Proof. destruct k; cbn; try tauto; match goal with |- ?b = _ \/ _ => destruct b; auto end. Qed.
Lemma joint_apply_within' (H : Rheap) c dt k : 0 <= c_maxforce c * dt -> ratchet_ok k -> within c dt k ->
  within c dt (snd (joint_apply H c dt k)).
Proof.
  intros M Rk W. destruct (joint_active_dec k) as [A|A]; [now apply joint_apply_within|].
  now rewrite joint_apply_inactive.
Qed.
Lemma ratchet_ok_apply (H : Rheap) c dt k : ratchet_ok k -> ratchet_ok (snd (joint_apply H c dt k)).
Proof.
  destruct k; intros Hk; cbn in *; try exact I; unfold slide_apply, rlimit_apply, ratchet_apply; cbv zeta;
  match goal with |- context [if ?b then _ else _] => destruct b end; auto.
Qed.
Lemma within_prestep (H : Rheap) c dt k : 0 <= c_maxforce c * dt -> within c dt k -> within c dt (snd (joint_prestep H c dt k)).
Proof.
  intros M. destruct k; cbn -[vmag]; auto.
  - unfold slide_prestep. cbv zeta. unR. destruct Rltb; [|destruct Rltb]; cbn; auto. rewrite Rabs_R0; auto.
  - unfold groove_prestep. cbv zeta. unR. destruct Rleb; [|destruct Rleb]; cbn -[vmag]; auto.
  - unR. destruct Reqb; rewrite ?Rabs_R0; auto.
  - unfold ratchet_prestep. cbv zeta. unR. destruct Rltb; cbn; unR; destruct Reqb; rewrite ?Rabs_R0; auto.
Qed.
Lemma ratchet_ok_prestep (H : Rheap) c dt k : ratchet_ok k -> ratchet_ok (snd (joint_prestep H c dt k)).
Proof.
  destruct k; intros Hk; cbn -[ratchet_prestep] in *; try exact I; unfold ratchet_prestep; cbv zeta;
  match goal with |- context [if ?b then _ else _] => destruct b end; auto.
Qed.
Definition jinv (dt : R) (c : Rcstr) (k : @jclass RNum) : Prop := 0 <= c_maxforce c * dt /\ ratchet_ok k /\ within c dt k.
Lemma joints_prestep_inv dt l : (forall c k, In (c, k) l -> jinv dt c k) -> forall (H : Rheap) c k,
  In (c, k) (snd (joints_prestep H dt l)) -> jinv dt c k.
Proof.
  induction l as [|[c k] l IH]; intros W H c' k'; cbn [joints_prestep]; [intros []|].
  destruct (W c k (or_introl eq_refl)) as (M & Rk & Wk).
  pose proof (within_prestep H c dt k M Wk) as W1. pose proof (ratchet_ok_prestep H c dt k Rk) as R1.
  destruct (joint_prestep H c dt k) as [H1 k1]. specialize (IH (fun c k i => W c k (or_intror i)) H1).
  destruct (joints_prestep H1 dt l) as [H2 l2]. cbn in *. intros [[= <- <-]|Hi]; [split; [|split]; auto|eauto].
Qed.
Lemma joints_apply_inv dt l : (forall c k, In (c, k) l -> jinv dt c k) -> forall (H : Rheap) c k,
  In (c, k) (snd (joints_apply H dt l)) -> jinv dt c k.
Proof.
  induction l as [|[c k] l IH]; intros W H c' k'; cbn [joints_apply]; [intros []|].
  destruct (W c k (or_introl eq_refl)) as (M & Rk & Wk).
  pose proof (joint_apply_within' H c dt k M Rk Wk) as W1. pose proof (ratchet_ok_apply H c dt k Rk) as R1.
  destruct (joint_apply H c dt k) as [H1 k1]. specialize (IH (fun c k i => W c k (or_intror i)) H1).
  destruct (joints_apply H1 dt l) as [H2 l2]. cbn in *. intros [[= <- <-]|Hi]; [split; [|split]; auto|eauto].
Qed.
Lemma iterations_jinv n dt : forall (w : Rworld), (forall c k, In (c, k) (w_joints w) -> jinv dt c k) ->
  forall c k, In (c, k) (w_joints (iterations n dt w)) -> jinv dt c k.
Proof.
  induction n as [|n IH]; intros w W; [exact W|]. cbn [iterations]. apply IH. unfold iteration.
  destruct arbs_apply as [H1 arbs]. pose proof (joints_apply_inv dt (w_joints w) W H1). destruct joints_apply as [H2 js]. exact H.
Qed.
Lemma solve_jinv n slop bias g d dt prevdt L (w : Rworld) : (forall c k, In (c, k) (w_joints w) -> jinv dt c k) ->
  forall c k, In (c, k) (w_joints (solve n slop bias g d dt prevdt L w)) -> jinv dt c k.
Proof.
  intros W. unfold solve. cbv zeta. apply iterations_jinv. cbn. unfold prestep_all.
  pose proof (joints_prestep_inv dt (w_joints w) W (w_heap w)) as X. destruct joints_prestep. exact X.
Qed.
