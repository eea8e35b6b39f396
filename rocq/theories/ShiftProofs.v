(** Proofs about the choice of the origin and uniform motion (C71). *)
From Coq Require Import ZArith Bool List Arith Lia Reals Lra.
From Verif Require Import Num NumReal Vec VecReal BB Transform Body BodySpec BodyProofs Solver SolverSpec Joints JointsSpec ApartSpec ApartProofs ShiftSpec.
Import ListNotations.
Local Open Scope R_scope.

Section Shift.
Variables (x u : Rvec).
Notation sh := (shift_body x u).
Lemma sh_kick b r j : kick (sh b) r j = sh (kick b r j).
Proof. unfold kick, shift_body, set_vel_fields, set_tf_field, set_pos_field. cbn. f_equal. apply vec_ext; cbn; unR; ring. Qed.
Lemma sh_bias b r j : kick_bias (sh b) r j = sh (kick_bias b r j).
Proof. reflexivity. Qed.
Lemma sh_set_w b z : set_w (sh b) z = sh (set_w b z).
Proof. reflexivity. Qed.
Lemma sh_rel a b r1 r2 : relative_velocity (sh a) (sh b) r1 r2 = relative_velocity a b r1 r2.
Proof. unfold relative_velocity. apply vec_ext; unV; cbn; unR; ring. Qed.
Lemma sh_nrel a b r1 r2 n : normal_relative_velocity (sh a) (sh b) r1 r2 n = normal_relative_velocity a b r1 r2 n.
Proof. unfold normal_relative_velocity. now rewrite sh_rel. Qed.
Lemma sh_arm b p : anchor_arm (sh b) p = anchor_arm b p. Proof. reflexivity. Qed.
Lemma sh_kscalar a b r1 r2 n : kscalar (sh a) (sh b) r1 r2 n = kscalar a b r1 r2 n. Proof. reflexivity. Qed.
Lemma sh_ktensor a b r1 r2 : ktensor (sh a) (sh b) r1 r2 = ktensor a b r1 r2. Proof. reflexivity. Qed.
Lemma sh_delta a b r1 r2 : vsub (vadd (b_pos (sh b)) r2) (vadd (b_pos (sh a)) r1) = vsub (vadd (b_pos b) r2) (vadd (b_pos a) r1).
Proof. apply vec_ext; unV; cbn; unR; ring. Qed.
Lemma sh_delta' a b r1 r2 : vadd (b_pos (sh b)) (vsub r2 (vadd (b_pos (sh a)) r1)) = vadd (b_pos b) (vsub r2 (vadd (b_pos a) r1)).
Proof. apply vec_ext; unV; cbn; unR; ring. Qed.
Lemma sh_diff a b : vsub (b_pos (sh b)) (b_pos (sh a)) = vsub (b_pos b) (b_pos a).
Proof. apply vec_ext; unV; cbn; unR; ring. Qed.
Lemma sh_fields b : b_minv (sh b) = b_minv b /\ b_iinv (sh b) = b_iinv b /\ b_angle (sh b) = b_angle b /\ b_w (sh b) = b_w b /\ b_vbias (sh b) = b_vbias b /\ b_wbias (sh b) = b_wbias b /\ b_type (sh b) = b_type b.
Proof. repeat split. Qed.

(** ** Operations on two bodies *)
Definition moves {X} (a b : nat) (f : Rheap -> Rheap * X) : Prop := forall H H', H' a = sh (H a) -> H' b = sh (H b) -> rigid (H a) -> 
  fst (f H') a = sh (fst (f H) a) /\ fst (f H') b = sh (fst (f H) b) /\ snd (f H') = snd (f H).
Definition steady {X} (f : Rheap -> X) (a b : nat) : Prop := forall H H', H' a = sh (H a) -> H' b = sh (H b) -> rigid (H a) -> f H' = f H.
Lemma two_moves {X} (a b : nat) (f g : Rbody -> X -> Rbody) (arg : Rheap -> X) {Y} (y : Rheap -> Y) : steady arg a b -> steady y a b -> (forall z v, f (sh z) v = sh (f z v)) -> (forall z v, g (sh z) v = sh (g z v)) ->
  moves a b (fun H => (let H1 := upd H b (g (H b) (arg H)) in upd H1 a (f (H1 a) (arg H)), y H)).
Proof.
  intros A Y0 F G H H' EA EB RG. cbn [fst snd]. rewrite (A H H' EA EB RG), (Y0 H H' EA EB RG), EB, G. split; [|split; [|reflexivity]].
  - rewrite !upd_same. destruct (Nat.eq_dec a b) as [->|D]; [now rewrite !upd_same, F|rewrite !(upd_other _ b a), EA by auto; apply F].
  - destruct (Nat.eq_dec a b) as [->|D]; [now rewrite !upd_same, F|]. rewrite !(upd_other _ a b), !upd_same by auto. reflexivity.
Qed.
Lemma two_moves' {X} (a b : nat) (f g : Rbody -> X -> Rbody) (arg : Rheap -> X) {Y} (y : Rheap -> Y) : steady arg a b -> steady y a b -> (forall z v, f (sh z) v = sh (f z v)) -> (forall z v, g (sh z) v = sh (g z v)) ->
  moves a b (fun H => (let H1 := upd H a (g (H a) (arg H)) in upd H1 b (f (H1 b) (arg H)), y H)).
Proof.
  intros A Y0 F G H H' EA EB RG. cbn [fst snd]. rewrite (A H H' EA EB RG), (Y0 H H' EA EB RG), EA, G. split; [|split; [|reflexivity]].
  - destruct (Nat.eq_dec a b) as [->|D]; [now rewrite !upd_same, F|]. rewrite !(upd_other _ b a), !upd_same by auto. reflexivity.
  - rewrite !upd_same. destruct (Nat.eq_dec a b) as [->|D]; [now rewrite !upd_same, F|rewrite !(upd_other _ a b), EB by auto; apply F].
Qed.
Lemma impulses_moves a b (r1 r2 j : Rheap -> Rvec) {X} (y : Rheap -> X) : steady r1 a b -> steady r2 a b -> steady j a b -> steady y a b -> moves a b (fun H => (apply_impulses H a b (r1 H) (r2 H) (j H), y H)).
Proof.
  intros A B C D. apply (two_moves a b (fun z v => let '(r1, r2, j) := v in kick z r1 (@V RNum (- vx j)%num (- vy j)%num)) (fun z v => let '(r1, r2, j) := v in kick z r2 j) (fun H => (r1 H, r2 H, j H))); auto.
  - intros H H' EA EB RG. now rewrite (A H H' EA EB RG), (B H H' EA EB RG), (C H H' EA EB RG).
  - intros z [[? ?] ?]. apply sh_kick.
  - intros z [[? ?] ?]. apply sh_kick.
Qed.
Lemma biases_moves a b (r1 r2 j : Rheap -> Rvec) {X} (y : Rheap -> X) : steady r1 a b -> steady r2 a b -> steady j a b -> steady y a b -> moves a b (fun H => (apply_bias_impulses H a b (r1 H) (r2 H) (j H), y H)).
Proof.
  intros A B C D. apply (two_moves a b (fun z v => let '(r1, r2, j) := v in kick_bias z r1 (@V RNum (- vx j)%num (- vy j)%num)) (fun z v => let '(r1, r2, j) := v in kick_bias z r2 j) (fun H => (r1 H, r2 H, j H))); auto.
  - intros H H' EA EB RG. now rewrite (A H H' EA EB RG), (B H H' EA EB RG), (C H H' EA EB RG).
  - intros z [[? ?] ?]. apply sh_bias.
  - intros z [[? ?] ?]. apply sh_bias.
Qed.
Lemma torque_moves a b (j : Rheap -> R) {X} (y : Rheap -> X) : steady j a b -> steady y a b -> moves a b (fun H => (apply_torque (N := RNum) H a b (j H), y H)).
Proof. intros A D. apply (two_moves' a b (fun z v => set_w z (b_w z + v * b_iinv z)%num) (fun z v => set_w z (b_w z - v * b_iinv z)%num) j); auto. Qed.
Lemma gear_moves a b (j r : Rheap -> R) {X} (y : Rheap -> X) : steady j a b -> steady r a b -> steady y a b -> moves a b (fun H => (apply_gear (N := RNum) H a b (j H) (r H), y H)).
Proof.
  intros A B D. apply (two_moves' a b (fun z (v : @num RNum * @num RNum) => set_w z (b_w z + fst v * b_iinv z)%num) (fun z (v : @num RNum * @num RNum) => set_w z (b_w z - fst v * b_iinv z * snd v)%num) (fun H => (j H, r H))); auto.
  intros H H' EA EB RG. now rewrite (A H H' EA EB RG), (B H H' EA EB RG).
Qed.
Lemma damp_moves a b (j : Rheap -> R) {X} (y : Rheap -> X) : steady j a b -> steady y a b -> moves a b (fun H => (apply_damp (N := RNum) H a b (j H), y H)).
Proof. intros A D. apply (two_moves' a b (fun z v => set_w z (b_w z - v * b_iinv z)%num) (fun z v => set_w z (b_w z + v * b_iinv z)%num) j); auto. Qed.
Lemma id_moves {X} a b (y : Rheap -> X) : steady y a b -> moves a b (fun H => (H, y H)).
Proof. intros A H H' EA EB RG. cbn [fst snd]. rewrite (A H H' EA EB RG). auto. Qed.
Lemma moves_ext {X} a b (f g : Rheap -> Rheap * X) : (forall H, f H = g H) -> moves a b f -> moves a b g.
Proof. intros E M H H' EA EB RG. rewrite <- !E. now apply M. Qed.
Lemma moves_snd {X Y} a b (f : Rheap -> Rheap * X) (y : Rheap -> Y) : moves a b f -> steady y a b -> moves a b (fun H => (fst (f H), y H)).
Proof. intros M Y0 H H' EA EB RG. cbn [fst snd]. destruct (M H H' EA EB RG) as (? & ? & _). rewrite (Y0 H H' EA EB RG). auto. Qed.
(* f keeps the transform of a *)
Lemma moves_comp {X Y} a b (f : Rheap -> Rheap * X) (g : X -> Rheap -> Rheap * Y) : (forall H, b_tf (fst (f H) a) = b_tf (H a)) -> moves a b f -> (forall v, moves a b (g v)) -> moves a b (fun H => g (snd (f H)) (fst (f H))).
Proof. intros K M G H H' EA EB RG. destruct (M H H' EA EB RG) as (A & B & C). rewrite C. apply G; auto. intros p. rewrite K. apply RG. Qed.

(** ** The steps of joints and contacts *)
Ltac go_steady := intros ? ? EA EB RG; rewrite ?EA, ?EB; cbv beta; rewrite ?sh_rel, ?sh_nrel, ?sh_arm, ?sh_kscalar, ?sh_ktensor, ?sh_delta, ?sh_delta', ?sh_diff; reflexivity.
Lemma groove_spot (n pa pb r2 ta : Rvec) : vx n * vx n + vy n * vy n = 1 ->
  vsub (vadd (vscale (vperp n) (- vcross (vadd (vadd pb x) r2) n)%num) (vscale n (vdot (vadd ta x) n))) (vadd pa x) = vsub (vadd (vscale (vperp n) (- vcross (vadd pb r2) n)%num) (vscale n (vdot ta n))) pa.
Proof.
  intros N1. destruct n as [n1 n2], pa as [a1 a2], pb as [b1 b2], r2 as [c1 c2], ta as [t1 t2], x as [x1 x2]. cbn [vx vy] in N1. apply vec_ext; unV; unR.
  - match goal with |- ?l = ?r => replace l with (r + x1 * (n1 * n1 + n2 * n2) - x1) by ring end. rewrite N1. ring.
  - match goal with |- ?l = ?r => replace l with (r + x2 * (n1 * n1 + n2 * n2) - x2) by ring end. rewrite N1. ring.
Qed.
Lemma groove_moves c dt p : vmag (gv_gn p) = 1 -> steady (fun H => groove_prestep H c dt p) (c_a c) (c_b c).
Proof.
  intros U H H' EA EB RG. unfold groove_prestep. rewrite EA, EB, sh_arm. cbv zeta. set (a := H (c_a c)) in *. set (b := H (c_b c)) in *.
  change (tf_apply_vector (b_tf (sh a)) (gv_gn p)) with (tf_apply_vector (b_tf a) (gv_gn p)).
  assert (T : forall q, tf_apply (b_tf (sh a)) q = vadd (tf_apply (b_tf a) q) x) by (intros q; apply vec_ext; unV; cbn; unR; ring).
  rewrite !T. pose proof (RG (gv_gn p)) as NU. fold a in NU. rewrite U in NU. set (n := tf_apply_vector (b_tf a) (gv_gn p)) in *. set (r2 := anchor_arm b (gv_anchB p)). 
  assert (N1 : vx n * vx n + vy n * vy n = 1). { pose proof (mag_sq n) as M. rewrite NU in M. revert M. unV. unR. intros M. lra. }
  set (ta := tf_apply (b_tf a) (gv_ga p)). set (tb := tf_apply (b_tf a) (gv_gb p)).
  assert (C1 : (vcross (vadd (b_pos (sh b)) r2) n <=? vcross (vadd ta x) n)%num = (vcross (vadd (b_pos b) r2) n <=? vcross ta n)%num).
  { change (Rleb (vcross (vadd (b_pos (sh b)) r2) n) (vcross (vadd ta x) n) = Rleb (vcross (vadd (b_pos b) r2) n) (vcross ta n)).
    apply eq_iff_eq_true. rewrite !Rleb_true. unV. cbn. unR. split; intros; lra. }
  assert (C2 : (vcross (vadd tb x) n <=? vcross (vadd (b_pos (sh b)) r2) n)%num = (vcross tb n <=? vcross (vadd (b_pos b) r2) n)%num).
  { change (Rleb (vcross (vadd tb x) n) (vcross (vadd (b_pos (sh b)) r2) n) = Rleb (vcross tb n) (vcross (vadd (b_pos b) r2) n)).
    apply eq_iff_eq_true. rewrite !Rleb_true. unV. cbn. unR. split; intros; lra. }
  rewrite C1, C2.
  assert (R1 : forall q, vsub (vadd q x) (b_pos (sh a)) = vsub q (b_pos a)) by (intros q; apply vec_ext; unV; cbn; unR; ring).
  pose proof (groove_spot n (b_pos a) (b_pos b) r2 ta N1) as R3.
  change (b_pos (sh a)) with (vadd (b_pos a) x) in *. change (b_pos (sh b)) with (vadd (b_pos b) x) in *.
  assert (DL : forall r1, vsub (vadd (vadd (b_pos b) x) r2) (vadd (vadd (b_pos a) x) r1) = vsub (vadd (b_pos b) r2) (vadd (b_pos a) r1)) by (intros; apply (sh_delta a b)).
  rewrite !R1, R3. destruct (vcross (vadd (b_pos b) r2) n <=? vcross ta n)%num; [cbv beta iota; rewrite DL; reflexivity|].
  destruct (vcross tb n <=? vcross (vadd (b_pos b) r2) n)%num; cbv beta iota; rewrite DL; reflexivity.
Qed.
Lemma joint_prestep_moves c dt k : unit_groove k -> moves (c_a c) (c_b c) (fun H => joint_prestep H c dt k).
Proof.
  intros U. destruct k; cbn [joint_prestep].
  4: { apply id_moves. intros H H' EA EB RG. f_equal. now apply groove_moves. }
  8: { unfold spring_prestep. cbv zeta beta iota. apply impulses_moves; go_steady. }
  8: { unfold rspring_prestep. cbv zeta beta iota. apply torque_moves; go_steady. }
  all: apply id_moves; unfold pivot_prestep, pin_prestep, slide_prestep, gear_prestep, motor_prestep, rlimit_prestep, ratchet_prestep; cbv zeta; go_steady.
Qed.
Lemma joint_cached_moves c d k : moves (c_a c) (c_b c) (fun H => (joint_cached H c d k, tt)).
Proof.
  destruct k; cbn [joint_cached]; unfold pivot_cached, pin_cached, slide_cached, groove_cached, gear_cached, motor_cached, rlimit_cached, ratchet_cached;
  first [apply impulses_moves; go_steady|apply gear_moves; go_steady|apply torque_moves; go_steady|apply id_moves; go_steady].
Qed.
Lemma joint_apply_moves c dt k : moves (c_a c) (c_b c) (fun H => joint_apply H c dt k).
Proof.
  destruct k; cbn [joint_apply]; unfold pivot_apply, pin_apply, slide_apply, groove_apply, gear_apply, motor_apply, rlimit_apply, ratchet_apply, spring_apply, rspring_apply; cbv zeta beta iota;
  try match goal with |- context [veqb ?x ?y] => destruct (veqb x y); cbv beta iota | |- context [neqb (rl_bias ?x) ?y] => destruct (neqb (rl_bias x) y); cbv beta iota | |- context [neqb (ra_bias ?x) ?y] => destruct (neqb (ra_bias x) y); cbv beta iota end;
  first [apply impulses_moves; go_steady|apply gear_moves; go_steady|apply torque_moves; go_steady|apply damp_moves; go_steady|apply id_moves; go_steady].
Qed.
Lemma impulses_tf (H : Rheap) a b r1 r2 j i : b_tf (apply_impulses H a b r1 r2 j i) = b_tf (H i).
Proof. unfold apply_impulses, upd. destruct (Nat.eqb_spec i a) as [->|]; [destruct (Nat.eqb_spec a b) as [->|]; reflexivity|destruct (Nat.eqb_spec i b) as [->|]; reflexivity]. Qed.
Lemma biases_tf (H : Rheap) a b r1 r2 j i : b_tf (apply_bias_impulses H a b r1 r2 j i) = b_tf (H i).
Proof. unfold apply_bias_impulses, upd. destruct (Nat.eqb_spec i a) as [->|]; [destruct (Nat.eqb_spec a b) as [->|]; reflexivity|destruct (Nat.eqb_spec i b) as [->|]; reflexivity]. Qed.
Lemma torque_tf (H : Rheap) a b (j : R) i : b_tf (apply_torque (N := RNum) H a b j i) = b_tf (H i).
Proof. unfold apply_torque, upd. destruct (Nat.eqb_spec i b) as [->|]; [destruct (Nat.eqb_spec b a) as [->|]; reflexivity|destruct (Nat.eqb_spec i a) as [->|]; reflexivity]. Qed.
Lemma damp_tf (H : Rheap) a b (j : R) i : b_tf (apply_damp (N := RNum) H a b j i) = b_tf (H i).
Proof. unfold apply_damp, upd. destruct (Nat.eqb_spec i b) as [->|]; [destruct (Nat.eqb_spec b a) as [->|]; reflexivity|destruct (Nat.eqb_spec i a) as [->|]; reflexivity]. Qed.
Lemma gear_tf (H : Rheap) a b (j r : R) i : b_tf (apply_gear (N := RNum) H a b j r i) = b_tf (H i).
Proof. unfold apply_gear, upd. destruct (Nat.eqb_spec i b) as [->|]; [destruct (Nat.eqb_spec b a) as [->|]; reflexivity|destruct (Nat.eqb_spec i a) as [->|]; reflexivity]. Qed.
Lemma joint_tf (H : Rheap) c (dt : R) k i : b_tf (fst (joint_apply H c dt k) i) = b_tf (H i) /\ b_tf (fst (joint_prestep H c dt k) i) = b_tf (H i) /\ b_tf (joint_cached H c dt k i) = b_tf (H i).
Proof.
  split; [|split]; destruct k; cbn [joint_apply joint_prestep joint_cached]; unfold pivot_apply, pin_apply, slide_apply, groove_apply, gear_apply, motor_apply, rlimit_apply, ratchet_apply, spring_apply, rspring_apply,
    spring_prestep, rspring_prestep, pivot_cached, pin_cached, slide_cached, groove_cached, gear_cached, motor_cached, rlimit_cached, ratchet_cached; cbv zeta beta iota;
  try match goal with |- context [veqb ?x ?y] => destruct (veqb x y); cbv beta iota | |- context [neqb (rl_bias ?x) ?y] => destruct (neqb (rl_bias x) y); cbv beta iota | |- context [neqb (ra_bias ?x) ?y] => destruct (neqb (ra_bias x) y); cbv beta iota end;
  cbn [fst]; first [apply impulses_tf|apply torque_tf|apply gear_tf|apply damp_tf|reflexivity].
Qed.
Lemma contact_cached_moves s d c : moves (s_a s) (s_b s) (fun H => (contact_cached s d H c, tt)).
Proof. unfold contact_cached. cbv zeta. apply impulses_moves; go_steady. Qed.
Lemma arb_cached_moves d s : moves (s_a s) (s_b s) (fun H => (arb_cached d H s, tt)).
Proof.
  unfold arb_cached. destruct (s_first s); [apply id_moves; go_steady|]. induction (s_contacts s) as [|c l IH]; cbn [fold_left]; [apply id_moves; go_steady|].
  apply (moves_ext _ _ (fun H => (fun (_ : unit) H => (fold_left (contact_cached s d) l H, tt)) (snd (contact_cached s d H c, tt)) (fst (contact_cached s d H c, tt)))); [reflexivity|].
  apply (moves_comp _ _ (fun H => (contact_cached s d H c, tt)) (fun _ H => (fold_left (contact_cached s d) l H, tt))); [intros; apply impulses_tf|apply contact_cached_moves|intros; exact IH].
Qed.
Lemma arb_cached_tf d H s i : b_tf (arb_cached (N := RNum) d H s i) = b_tf (H i).
Proof. unfold arb_cached. destruct (s_first s); [reflexivity|]. revert H. induction (s_contacts s) as [|c l IH]; intros H; cbn [fold_left]; [reflexivity|]. rewrite IH. apply impulses_tf. Qed.
Lemma contact_apply_tf H s c i : b_tf (fst (contact_apply (N := RNum) H s c) i) = b_tf (H i).
Proof. unfold contact_apply. cbv zeta. cbn [fst]. rewrite impulses_tf. apply biases_tf. Qed.
Lemma contact_apply_moves s c : moves (s_a s) (s_b s) (fun H => contact_apply H s c).
Proof.
  unfold contact_apply. cbv zeta.
  match goal with |- moves _ _ (fun H => (apply_impulses (apply_bias_impulses H _ _ ?r1 ?r2 (@?j H)) _ _ _ _ (@?j2 H), @?x H)) =>
    apply (moves_ext _ _ (fun H => (fun v H => (apply_impulses H (s_a s) (s_b s) r1 r2 (fst v), snd v)) (snd (apply_bias_impulses H (s_a s) (s_b s) r1 r2 (j H), (j2 H, x H))) (fst (apply_bias_impulses H (s_a s) (s_b s) r1 r2 (j H), (j2 H, x H))))); [reflexivity|];
    apply (moves_comp _ _ (fun H => (apply_bias_impulses H (s_a s) (s_b s) r1 r2 (j H), (j2 H, x H))) (fun v H => (apply_impulses H (s_a s) (s_b s) r1 r2 (fst v), snd v)))
  end.
  - intros. apply biases_tf.
  - apply biases_moves; go_steady.
  - intros v. apply impulses_moves; go_steady.
Qed.
Lemma arb_apply_moves s : moves (s_a s) (s_b s) (fun H => arb_apply H s).
Proof.
  assert (L : forall l, moves (s_a s) (s_b s) (fun H => contacts_apply H s l)).
  { induction l as [|c l IH]; cbn [contacts_apply]; [apply id_moves; go_steady|].
    apply (moves_ext _ _ (fun H => (fun c' H => (fst (contacts_apply H s l), c' :: snd (contacts_apply H s l))) (snd (contact_apply H s c)) (fst (contact_apply H s c)))).
    - intros H. destruct (contact_apply H s c) as [H1 c']. cbn [fst snd]. destruct (contacts_apply H1 s l). reflexivity.
    - apply (moves_comp _ _ (fun H => contact_apply H s c) (fun c' H => (fst (contacts_apply H s l), c' :: snd (contacts_apply H s l)))); [intros; apply contact_apply_tf|apply contact_apply_moves|].
      intros c'. apply (moves_snd _ _ (fun H => contacts_apply H s l)); [exact IH|]. intros H H' EA EB RG. f_equal. now apply IH. }
  unfold arb_apply. apply (moves_ext _ _ (fun H => (fst (contacts_apply H s (s_contacts s)), with_contacts s (snd (contacts_apply H s (s_contacts s)))))).
  - intros H. destruct (contacts_apply H s (s_contacts s)). reflexivity.
  - apply (moves_snd _ _ (fun H => contacts_apply H s (s_contacts s))); [apply L|]. intros H H' EA EB RG. f_equal. now apply L.
Qed.
Lemma arb_apply_tf H s i : b_tf (fst (arb_apply (N := RNum) H s) i) = b_tf (H i).
Proof.
  unfold arb_apply. assert (L : forall l H, b_tf (fst (contacts_apply (N := RNum) H s l) i) = b_tf (H i)).
  { induction l as [|c l IH]; intros H0; [reflexivity|]. cbn [contacts_apply]. pose proof (contact_apply_tf H0 s c i) as A. destruct (contact_apply H0 s c) as [H1 c1]. specialize (IH H1). destruct (contacts_apply H1 s l). cbn [fst] in *. congruence. }
  specialize (L (s_contacts s) H). destruct (contacts_apply H s (s_contacts s)). exact L.
Qed.
End Shift.
