(** Proofs about parts of a world (C70). *)
From Coq Require Import ZArith Bool List Arith Lia Reals.
From Verif Require Import Num NumReal Vec Transform Body Solver SolverSpec Joints ApartSpec.
Import ListNotations.

(** ** Operations on two bodies *)
Section Apart.
Context {N : Num} {T : Trig N} {E : Elem N}.
(** Bodies that impulses do not change. *)
Variable frozen : body -> Prop.
Hypotheses (FK : forall b r j, frozen b -> kick b r j = b) (FB : forall b r j, frozen b -> kick_bias b r j = b)
  (FM : forall b j, frozen b -> set_w b (b_w b - j * b_iinv b)%num = b) (FP : forall b j, frozen b -> set_w b (b_w b + j * b_iinv b)%num = b)
  (FG : forall b j r, frozen b -> set_w b (b_w b - j * b_iinv b * r)%num = b)
  (FX : forall b dt, frozen b -> frozen (update_position b dt)) (FV : forall b g d dt, frozen b -> frozen (update_velocity b g d dt)).

(** [f] changes only [a] and [b], and only according to them. *)
Record local {X} (a b : nat) (f : heap -> heap * X) : Prop := {
  lo_other : forall H i, i <> a -> i <> b -> fst (f H) i = H i;
  lo_reads : forall H H', H a = H' a -> H b = H' b -> fst (f H) a = fst (f H') a /\ fst (f H) b = fst (f H') b /\ snd (f H) = snd (f H');
  lo_frozen : forall H i, i = a \/ i = b -> frozen (H i) -> fst (f H) i = H i }.
Lemma upd_same (H : heap) i b : upd H i b i = b. Proof. unfold upd. now rewrite Nat.eqb_refl. Qed.
Lemma upd_other (H : heap) i k b : k <> i -> upd H i b k = H k. Proof. intros D. unfold upd. destruct (Nat.eqb_spec k i); congruence. Qed.
(** Two updates one after the other. *)
Lemma two_local {X} (a b : nat) (f g : body -> X -> body) (arg : heap -> X) :
  (forall H H', H a = H' a -> H b = H' b -> arg H = arg H') -> (forall x y, frozen x -> f x y = x) -> (forall x y, frozen x -> g x y = x) ->
  local a b (fun H => (let H1 := upd H b (g (H b) (arg H)) in upd H1 a (f (H1 a) (arg H)), arg H)).
Proof.
  intros A F G. constructor; cbn [fst snd].
  - intros H i D1 D2. now rewrite !upd_other.
  - intros H H' EA EB. rewrite (A H H' EA EB), EB. split; [|split; [|reflexivity]].
    + rewrite !upd_same. destruct (Nat.eq_dec a b) as [->|D]; [now rewrite !upd_same|rewrite !upd_other, EA by auto; reflexivity].
    + destruct (Nat.eq_dec a b) as [->|D]; [now rewrite !upd_same|]. rewrite !(upd_other _ a b), !upd_same by auto. reflexivity.
  - intros H i [->| ->] Z.
    + rewrite upd_same. destruct (Nat.eq_dec a b) as [->|D]; [rewrite upd_same, G by exact Z; now apply F|rewrite upd_other by auto; now apply F].
    + destruct (Nat.eq_dec b a) as [<-|D]; [rewrite !upd_same, G by exact Z; now apply F|]. rewrite upd_other, upd_same by auto. now apply G.
Qed.
Lemma local_snd {X Y} a b (f : heap -> heap * X) (g : heap -> Y) : local a b f -> (forall H H', H a = H' a -> H b = H' b -> g H = g H') -> local a b (fun H => (fst (f H), g H)).
Proof. intros L G. constructor; cbn [fst snd]; [exact (lo_other _ _ _ L)| |exact (lo_frozen _ _ _ L)]. intros H H' EA EB. destruct (lo_reads _ _ _ L H H' EA EB) as (A & B & _). auto. Qed.
Lemma local_ext {X} a b (f g : heap -> heap * X) : (forall H, f H = g H) -> local a b f -> local a b g.
Proof.
  intros X0 L. constructor.
  - intros H i D1 D2. rewrite <- X0. exact (lo_other _ _ _ L H i D1 D2).
  - intros H H' EA EB. rewrite <- !X0. exact (lo_reads _ _ _ L H H' EA EB).
  - intros H i D Z. rewrite <- X0. exact (lo_frozen _ _ _ L H i D Z).
Qed.
Lemma local_id {X} a b (x : heap -> X) : (forall H H', H a = H' a -> H b = H' b -> x H = x H') -> local a b (fun H => (H, x H)).
Proof. intros G. constructor; cbn [fst snd]; auto. Qed.
Lemma local_comp {X Y} a b (f : heap -> heap * X) (g : X -> heap -> heap * Y) : local a b f -> (forall x, local a b (g x)) -> local a b (fun H => g (snd (f H)) (fst (f H))).
Proof.
  intros L M. constructor.
  - intros H i D1 D2. rewrite (lo_other _ _ _ (M _)) by auto. now apply (lo_other _ _ _ L).
  - intros H H' EA EB. destruct (lo_reads _ _ _ L H H' EA EB) as (A & B & C). rewrite C. exact (lo_reads _ _ _ (M _) _ _ A B).
  - intros H i D Z. pose proof (lo_frozen _ _ _ L H i D Z) as A. rewrite (lo_frozen _ _ _ (M _)); [exact A|exact D|now rewrite A].
Qed.
Definition quiet {X} (f : heap -> X) (a b : nat) : Prop := forall H H' : heap, H a = H' a -> H b = H' b -> f H = f H'.

Lemma impulses_local a b (r1 r2 j : heap -> vec) {X} (x : heap -> X) : quiet r1 a b -> quiet r2 a b -> quiet j a b -> quiet x a b ->
  local a b (fun H => (apply_impulses H a b (r1 H) (r2 H) (j H), x H)).
Proof.
  intros A B C D. apply (local_snd a b (fun H => (apply_impulses H a b (r1 H) (r2 H) (j H), (r1 H, r2 H, j H))) x); [|exact D].
  apply (two_local a b (fun y v => let '(r1, r2, j) := v in kick y r1 (V (- vx j)%num (- vy j)%num)) (fun y v => let '(r1, r2, j) := v in kick y r2 j) (fun H => (r1 H, r2 H, j H))).
  - intros H H' EA EB. now rewrite (A H H' EA EB), (B H H' EA EB), (C H H' EA EB).
  - intros y [[? ?] ?]. apply FK.
  - intros y [[? ?] ?]. apply FK.
Qed.
Lemma biases_local a b (r1 r2 j : heap -> vec) {X} (x : heap -> X) : quiet r1 a b -> quiet r2 a b -> quiet j a b -> quiet x a b ->
  local a b (fun H => (apply_bias_impulses H a b (r1 H) (r2 H) (j H), x H)).
Proof.
  intros A B C D. apply (local_snd a b (fun H => (apply_bias_impulses H a b (r1 H) (r2 H) (j H), (r1 H, r2 H, j H))) x); [|exact D].
  apply (two_local a b (fun y v => let '(r1, r2, j) := v in kick_bias y r1 (V (- vx j)%num (- vy j)%num)) (fun y v => let '(r1, r2, j) := v in kick_bias y r2 j) (fun H => (r1 H, r2 H, j H))).
  - intros H H' EA EB. now rewrite (A H H' EA EB), (B H H' EA EB), (C H H' EA EB).
  - intros y [[? ?] ?]. apply FB.
  - intros y [[? ?] ?]. apply FB.
Qed.
Lemma local_swap {X} a b (f : heap -> heap * X) : local a b f -> local b a f.
Proof. intros L. constructor; [intros; apply (lo_other _ _ _ L); auto|intros H H' EB EA; destruct (lo_reads _ _ _ L H H' EA EB) as (? & ? & ?); auto|intros H i D; apply (lo_frozen _ _ _ L); tauto]. Qed.
Lemma torque_local a b (j : heap -> num) {X} (x : heap -> X) : quiet j a b -> quiet x a b -> local a b (fun H => (apply_torque H a b (j H), x H)).
Proof.
  intros A D. apply (local_snd a b (fun H => (apply_torque H a b (j H), j H)) x); [|exact D]. apply local_swap.
  apply (two_local b a (fun y v => set_w y (b_w y + v * b_iinv y)%num) (fun y v => set_w y (b_w y - v * b_iinv y)%num) j); [intros H H' EB EA; now apply A| |]; intros; auto.
Qed.
Lemma gear_local a b (j r : heap -> num) {X} (x : heap -> X) : quiet j a b -> quiet r a b -> quiet x a b -> local a b (fun H => (apply_gear H a b (j H) (r H), x H)).
Proof.
  intros A B D. apply (local_snd a b (fun H => (apply_gear H a b (j H) (r H), (j H, r H))) x); [|exact D]. apply local_swap.
  apply (two_local b a (fun y (v : num * num) => set_w y (b_w y + fst v * b_iinv y)%num) (fun y (v : num * num) => set_w y (b_w y - fst v * b_iinv y * snd v)%num) (fun H => (j H, r H))); [intros H H' EB EA; now rewrite (A H H' EA EB), (B H H' EA EB)| |]; intros; auto.
Qed.
Lemma damp_local a b (j : heap -> num) {X} (x : heap -> X) : quiet j a b -> quiet x a b -> local a b (fun H => (apply_damp H a b (j H), x H)).
Proof.
  intros A D. apply (local_snd a b (fun H => (apply_damp H a b (j H), j H)) x); [|exact D]. apply local_swap.
  apply (two_local b a (fun y v => set_w y (b_w y - v * b_iinv y)%num) (fun y v => set_w y (b_w y + v * b_iinv y)%num) j); [intros H H' EB EA; now apply A| |]; intros; auto.
Qed.

(** ** The steps of joints and contacts *)
Ltac still_quiet := intros ? ? EA EB; rewrite ?EA, ?EB; reflexivity.
Lemma joint_prestep_local c dt k : local (c_a c) (c_b c) (fun H => joint_prestep H c dt k).
Proof.
  destruct k; cbn [joint_prestep];
  try (apply local_id; intros H H' EA EB; unfold pivot_prestep, pin_prestep, slide_prestep, groove_prestep, gear_prestep, motor_prestep, rlimit_prestep, ratchet_prestep; rewrite EA, EB; reflexivity).
  - unfold spring_prestep. cbv zeta beta iota. apply impulses_local; still_quiet.
  - unfold rspring_prestep. cbv zeta beta iota. apply torque_local; still_quiet.
Qed.
Lemma joint_cached_local c d k : local (c_a c) (c_b c) (fun H => (joint_cached H c d k, tt)).
Proof.
  destruct k; cbn [joint_cached]; unfold pivot_cached, pin_cached, slide_cached, groove_cached, gear_cached, motor_cached, rlimit_cached, ratchet_cached;
  first [apply impulses_local; still_quiet|apply gear_local; still_quiet|apply torque_local; still_quiet|apply local_id; still_quiet].
Qed.
Lemma joint_apply_local c dt k : local (c_a c) (c_b c) (fun H => joint_apply H c dt k).
Proof.
  destruct k; cbn [joint_apply]; unfold pivot_apply, pin_apply, slide_apply, groove_apply, gear_apply, motor_apply, rlimit_apply, ratchet_apply, spring_apply, rspring_apply; cbv zeta beta iota;
  try match goal with |- context [veqb ?x ?y] => destruct (veqb x y); cbv beta iota | |- context [neqb (rl_bias ?x) ?y] => destruct (neqb (rl_bias x) y); cbv beta iota | |- context [neqb (ra_bias ?x) ?y] => destruct (neqb (ra_bias x) y); cbv beta iota end;
  first [apply impulses_local; still_quiet|apply gear_local; still_quiet|apply torque_local; still_quiet|apply damp_local; still_quiet|apply local_id; still_quiet].
Qed.
Lemma contact_cached_local s d c : local (s_a s) (s_b s) (fun H => (contact_cached s d H c, tt)).
Proof. unfold contact_cached. cbv zeta. apply impulses_local; still_quiet. Qed.
Lemma arb_cached_local d s : local (s_a s) (s_b s) (fun H => (arb_cached d H s, tt)).
Proof.
  unfold arb_cached. destruct (s_first s); [apply local_id; still_quiet|]. induction (s_contacts s) as [|c l IH]; cbn [fold_left]; [apply local_id; still_quiet|].
  apply (local_ext _ _ (fun H => (fun (_ : unit) H => (fold_left (contact_cached s d) l H, tt)) (snd (contact_cached s d H c, tt)) (fst (contact_cached s d H c, tt)))); [reflexivity|].
  apply (local_comp _ _ (fun H => (contact_cached s d H c, tt)) (fun _ H => (fold_left (contact_cached s d) l H, tt))); [apply contact_cached_local|intros; exact IH].
Qed.
Lemma contact_apply_local s c : local (s_a s) (s_b s) (fun H => contact_apply H s c).
Proof.
  unfold contact_apply. cbv zeta.
  match goal with |- local _ _ (fun H => (apply_impulses (apply_bias_impulses H _ _ ?r1 ?r2 (@?j H)) _ _ _ _ (@?j2 H), @?x H)) =>
    apply (local_ext _ _ (fun H => (fun v H => (apply_impulses H (s_a s) (s_b s) r1 r2 (fst v), snd v)) (snd (apply_bias_impulses H (s_a s) (s_b s) r1 r2 (j H), (j2 H, x H))) (fst (apply_bias_impulses H (s_a s) (s_b s) r1 r2 (j H), (j2 H, x H))))); [reflexivity|];
    apply (local_comp _ _ (fun H => (apply_bias_impulses H (s_a s) (s_b s) r1 r2 (j H), (j2 H, x H))) (fun v H => (apply_impulses H (s_a s) (s_b s) r1 r2 (fst v), snd v)))
  end.
  - apply biases_local; still_quiet.
  - intros v. apply impulses_local; still_quiet.
Qed.
Lemma arb_apply_local s : local (s_a s) (s_b s) (fun H => arb_apply H s).
Proof.
  assert (L : forall l, local (s_a s) (s_b s) (fun H => contacts_apply H s l)).
  { induction l as [|c l IH]; cbn [contacts_apply]; [apply local_id; still_quiet|].
    apply (local_ext _ _ (fun H => (fun c' H => (fst (contacts_apply H s l), c' :: snd (contacts_apply H s l))) (snd (contact_apply H s c)) (fst (contact_apply H s c)))).
    - intros H. destruct (contact_apply H s c) as [H1 c']. cbn [fst snd]. destruct (contacts_apply H1 s l). reflexivity.
    - apply (local_comp _ _ (fun H => contact_apply H s c) (fun c' H => (fst (contacts_apply H s l), c' :: snd (contacts_apply H s l)))); [apply contact_apply_local|].
      intros c'. apply (local_snd _ _ (fun H => contacts_apply H s l)); [exact IH|]. intros H H' EA EB. f_equal. now apply (lo_reads _ _ _ IH). }
  unfold arb_apply. apply (local_ext _ _ (fun H => (fst (contacts_apply H s (s_contacts s)), with_contacts s (snd (contacts_apply H s (s_contacts s)))))).
  - intros H. destruct (contacts_apply H s (s_contacts s)). reflexivity.
  - apply (local_snd _ _ (fun H => contacts_apply H s (s_contacts s))); [apply L|]. intros H H' EA EB. f_equal. now apply (lo_reads _ _ _ (L _)).
Qed.
Lemma arb_apply_ends H s : s_a (snd (arb_apply H s)) = s_a s /\ s_b (snd (arb_apply H s)) = s_b s.
Proof. unfold arb_apply. destruct (contacts_apply H s (s_contacts s)). split; reflexivity. Qed.

(** ** The loops *)
Section Part.
Variables (P S : nat -> bool).
Definition chilled (H : heap) : Prop := forall i, S i = true -> frozen (H i).
Notation same := (same_bodies P S).
Lemma local_own {X} a b (f : heap -> heap * X) H H' : local a b f -> seen P S a = true -> seen P S b = true -> same H H' -> same (fst (f H)) (fst (f H')) /\ snd (f H) = snd (f H').
Proof.
  intros L A B Q. destruct (lo_reads _ _ _ L H H' (Q a A) (Q b B)) as (EA & EB & EX). split; [|exact EX]. intros i I.
  destruct (Nat.eq_dec i a) as [->|DA]; [exact EA|]. destruct (Nat.eq_dec i b) as [->|DB]; [exact EB|]. rewrite !(lo_other _ _ _ L) by auto. now apply Q.
Qed.
Lemma local_foreign {X} a b (f : heap -> heap * X) H : local a b f -> P a || P b = false -> chilled H -> same (fst (f H)) H.
Proof.
  intros L A C i I. apply orb_false_iff in A as [A B]. destruct (Nat.eq_dec i a) as [D|DA]; [|destruct (Nat.eq_dec i b) as [D|DB]; [|now apply (lo_other _ _ _ L)]].
  - apply (lo_frozen _ _ _ L); [now left|]. apply C. subst. unfold seen in I. now rewrite A in I.
  - apply (lo_frozen _ _ _ L); [now right|]. apply C. subst. unfold seen in I. now rewrite B in I.
Qed.
Lemma local_chilled {X} a b (f : heap -> heap * X) H : local a b f -> chilled H -> chilled (fst (f H)).
Proof.
  intros L C i I. destruct (Nat.eq_dec i a) as [D|DA]; [|destruct (Nat.eq_dec i b) as [D|DB]].
  - rewrite (lo_frozen _ _ _ L); auto.
  - rewrite (lo_frozen _ _ _ L); auto.
  - rewrite (lo_other _ _ _ L) by auto. now apply C.
Qed.
Lemma same_trans H1 H2 H3 : same H1 H2 -> same H2 H3 -> same H1 H3.
Proof. intros A B i I. rewrite (A i I). now apply B. Qed.
Lemma same_sym H1 H2 : same H1 H2 -> same H2 H1.
Proof. intros A i I. symmetry. now apply A. Qed.

Section Loop.
Context {X : Type} (F : X -> heap -> heap * X) (ea eb : X -> nat).
Hypotheses (FL : forall x, local (ea x) (eb x) (F x)) (FE : forall x H, ea (snd (F x H)) = ea x /\ eb (snd (F x H)) = eb x).
Definition mine (x : X) : bool := P (ea x) || P (eb x).
Fixpoint loop (H : heap) (l : list X) : heap * list X :=
  match l with [] => (H, []) | x :: l => let H1 := fst (F x H) in (fst (loop H1 l), snd (F x H) :: snd (loop H1 l)) end.
Lemma loop_part l : (forall x, In x l -> mine x = true -> seen P S (ea x) = true /\ seen P S (eb x) = true) -> forall H H', same H H' -> chilled H ->
  same (fst (loop H l)) (fst (loop H' (filter mine l))) /\ filter mine (snd (loop H l)) = snd (loop H' (filter mine l)) /\ chilled (fst (loop H l)).
Proof.
  induction l as [|x l IH]; intros CL H H' Q C; [now split|]. cbn [loop filter]. cbv zeta. cbn [fst snd filter].
  assert (M : mine (snd (F x H)) = mine x) by (unfold mine; destruct (FE x H) as [-> ->]; reflexivity). rewrite M.
  assert (CL' : forall y, In y l -> mine y = true -> seen P S (ea y) = true /\ seen P S (eb y) = true) by (intros y Y; apply CL; now right).
  pose proof (local_chilled _ _ _ H (FL x) C) as C1. destruct (mine x) eqn:O.
  - destruct (CL x (or_introl eq_refl) O) as [A B]. destruct (local_own _ _ _ H H' (FL x) A B Q) as [Q1 E1].
    destruct (IH CL' _ _ Q1 C1) as (Q2 & E2 & C2). cbn [loop]. cbv zeta. cbn [fst snd]. split; [exact Q2|]. split; [now rewrite E1, E2|exact C2].
  - apply IH; auto. eapply same_trans; [|exact Q]. apply (local_foreign _ _ _ H (FL x)); auto.
Qed.
Lemma loop_ends l : forall H, map ea (snd (loop H l)) = map ea l /\ map eb (snd (loop H l)) = map eb l.
Proof. induction l as [|x l IH]; intros H; [now split|]. cbn [loop]. cbv zeta. cbn [snd map]. destruct (IH (fst (F x H))) as [-> ->], (FE x H) as [-> ->]. auto. Qed.
End Loop.
Lemma arbs_loop l : forall H, arbs_apply H l = loop (fun s H => arb_apply H s) H l.
Proof. induction l as [|x l IH]; intros H; [reflexivity|]. cbn [arbs_apply loop]. cbv zeta. destruct (arb_apply H x) as [H1 x1]. cbn [fst snd]. rewrite (IH H1). destruct (loop _ H1 l). reflexivity. Qed.
Definition japply dt (ck : sjoint) (H : heap) : heap * sjoint := (fst (joint_apply H (fst ck) dt (snd ck)), (fst ck, snd (joint_apply H (fst ck) dt (snd ck)))).
Definition jprestep dt (ck : sjoint) (H : heap) : heap * sjoint := (fst (joint_prestep H (fst ck) dt (snd ck)), (fst ck, snd (joint_prestep H (fst ck) dt (snd ck)))).
Lemma joints_loop dt l : forall H, joints_apply H dt l = loop (japply dt) H l.
Proof. induction l as [|[c k] l IH]; intros H; [reflexivity|]. cbn [joints_apply loop japply fst snd]. cbv zeta. destruct (joint_apply H c dt k) as [H1 x1]. cbn [fst snd]. rewrite (IH H1). destruct (loop _ H1 l). reflexivity. Qed.
Lemma presteps_loop dt l : forall H, joints_prestep H dt l = loop (jprestep dt) H l.
Proof. induction l as [|[c k] l IH]; intros H; [reflexivity|]. cbn [joints_prestep loop jprestep fst snd]. cbv zeta. destruct (joint_prestep H c dt k) as [H1 x1]. cbn [fst snd]. rewrite (IH H1). destruct (loop _ H1 l). reflexivity. Qed.
Lemma fold_loop {X} (f : heap -> X -> heap) l : forall H, fold_left f l H = fst (loop (fun x H => (f H x, x)) H l).
Proof. induction l as [|x l IH]; intros H; [reflexivity|]. cbn [fold_left loop]. cbv zeta. cbn [fst snd]. apply IH. Qed.
Lemma japply_local dt ck : local (c_a (fst ck)) (c_b (fst ck)) (japply dt ck).
Proof. apply (local_snd _ _ (fun H => joint_apply H (fst ck) dt (snd ck))); [apply joint_apply_local|]. intros H H' EA EB. f_equal. now apply (lo_reads _ _ _ (joint_apply_local (fst ck) dt (snd ck))). Qed.
Lemma jprestep_local dt ck : local (c_a (fst ck)) (c_b (fst ck)) (jprestep dt ck).
Proof. apply (local_snd _ _ (fun H => joint_prestep H (fst ck) dt (snd ck))); [apply joint_prestep_local|]. intros H H' EA EB. f_equal. now apply (lo_reads _ _ _ (joint_prestep_local (fst ck) dt (snd ck))). Qed.
Lemma keep_local {X} a b (x : X) (f : heap -> heap) : local a b (fun H => (f H, tt)) -> local a b (fun H => (f H, x)).
Proof. intros L. apply (local_snd a b (fun H => (f H, tt)) (fun _ => x)); [exact L|reflexivity]. Qed.

(** A world and its part alone. *)
Definition parted (w w' : world) : Prop := same (w_heap w) (w_heap w') /\ filter (own P) (w_arbs w) = w_arbs w' /\ filter (jown P) (w_joints w) = w_joints w' /\
  chilled (w_heap w) /\ closed_arbs P S (w_arbs w) /\ closed_joints P S (w_joints w).
Lemma closed_ends {X} (ea eb : X -> nat) (l l' : list X) : map ea l' = map ea l -> map eb l' = map eb l ->
  (forall x, In x l -> P (ea x) || P (eb x) = true -> seen P S (ea x) = true /\ seen P S (eb x) = true) -> forall x, In x l' -> P (ea x) || P (eb x) = true -> seen P S (ea x) = true /\ seen P S (eb x) = true.
Proof.
  revert l'. induction l as [|y l IH]; intros [|y' l'] A B C x; try discriminate; [intros []|]. cbn [map] in A, B. injection A as A1 A2. injection B as B1 B2. intros [->|I] O.
  - rewrite A1, B1 in *. apply C; [now left|exact O].
  - apply (IH l' A2 B2); auto. intros z Z. apply C. now right.
Qed.
Lemma iteration_part dt w w' : parted w w' -> parted (iteration dt w) (iteration dt w').
Proof.
  intros (Q & EA & EJ & C & CA & CJ). unfold iteration. rewrite !arbs_loop, <- EA.
  destruct (loop_part (fun s H => arb_apply H s) s_a s_b arb_apply_local (fun x H => arb_apply_ends H x) (w_arbs w) CA _ _ Q C) as (Q1 & E1 & C1).
  destruct (loop_ends (fun s H => arb_apply H s) s_a s_b (fun x H => arb_apply_ends H x) (w_arbs w) (w_heap w)) as [EN1 EN2].
  change (filter (own P)) with (filter (mine s_a s_b)). set (l1 := loop _ (w_heap w) (w_arbs w)) in *. set (l2 := loop _ (w_heap w') _) in *. clearbody l1 l2. destruct l1 as [H1 a1], l2 as [H2 a2]. cbn [fst snd] in *.
  rewrite !joints_loop, <- EJ.
  destruct (loop_part (japply dt) (fun ck => c_a (fst ck)) (fun ck => c_b (fst ck)) (japply_local dt) (fun x H => conj eq_refl eq_refl) (w_joints w) CJ _ _ Q1 C1) as (Q2 & E2 & C2).
  destruct (loop_ends (japply dt) (fun ck => c_a (fst ck)) (fun ck => c_b (fst ck)) (fun x H => conj eq_refl eq_refl) (w_joints w) H1) as [EN3 EN4].
  change (filter (jown P)) with (filter (mine (fun ck : sjoint => c_a (fst ck)) (fun ck : sjoint => c_b (fst ck)))). set (l1 := loop _ H1 (w_joints w)) in *. set (l2 := loop _ H2 _) in *. clearbody l1 l2. destruct l1 as [H3 j1], l2 as [H4 j2]. cbn [fst snd] in *.
  repeat split; cbn [w_heap w_arbs w_joints]; auto; try (exact (closed_ends s_a s_b _ _ EN1 EN2 CA _ ltac:(eassumption) ltac:(eassumption))); try exact (closed_ends (fun ck : sjoint => c_a (fst ck)) (fun ck : sjoint => c_b (fst ck)) _ _ EN3 EN4 CJ _ ltac:(eassumption) ltac:(eassumption)).
  all: first [apply (closed_ends s_a s_b _ _ EN1 EN2 CA); assumption|apply (closed_ends (fun ck : sjoint => c_a (fst ck)) (fun ck : sjoint => c_b (fst ck)) _ _ EN3 EN4 CJ); assumption].
Qed.
Lemma iterations_part dt n : forall w w', parted w w' -> parted (iterations n dt w) (iterations n dt w').
Proof. induction n as [|n IH]; intros w w' Q; cbn [iterations]; auto. apply IH, iteration_part, Q. Qed.
Lemma cached_part d w w' : parted w w' -> parted (cached_all d w) (cached_all d w').
Proof.
  intros (Q & EA & EJ & C & CA & CJ). unfold cached_all. cbv zeta. rewrite !(fold_loop (arb_cached d)), <- EA.
  destruct (loop_part (fun x H => (arb_cached d H x, x)) s_a s_b (fun x => keep_local _ _ x _ (arb_cached_local d x)) (fun x H => conj eq_refl eq_refl) (w_arbs w) CA _ _ Q C) as (Q1 & E1 & C1).
  change (filter (own P)) with (filter (mine s_a s_b)). set (h1 := fst (loop _ (w_heap w) (w_arbs w))) in *. set (h2 := fst (loop _ (w_heap w') _)) in *. clearbody h1 h2.
  rewrite !(fold_loop (fun (H : heap) cj => joint_cached H (fst cj) d (snd cj))), <- EJ.
  destruct (loop_part (fun (x : sjoint) H => (joint_cached H (fst x) d (snd x), x)) (fun ck => c_a (fst ck)) (fun ck => c_b (fst ck)) (fun x => keep_local _ _ x _ (joint_cached_local (fst x) d (snd x))) (fun x H => conj eq_refl eq_refl) (w_joints w) CJ _ _ Q1 C1) as (Q2 & E2 & C2).
  unfold parted. cbn [w_heap w_arbs w_joints]. auto 10.
Qed.
Lemma bodies_part (f : body -> body) (FF : forall b, frozen b -> frozen (f b)) l : forall H H', same H H' -> chilled H ->
  same (fold_left (fun H i => upd H i (f (H i))) l H) (fold_left (fun H i => upd H i (f (H i))) (filter (seen P S) l) H') /\ chilled (fold_left (fun H i => upd H i (f (H i))) l H).
Proof.
  induction l as [|x l IH]; intros H H' Q C; [now split|]. cbn [fold_left filter].
  assert (C1 : chilled (upd H x (f (H x)))). { intros i I. unfold upd. destruct (Nat.eqb_spec i x) as [->|]; [apply FF|]; now apply C. }
  destruct (seen P S x) eqn:O; cbn [fold_left]; apply IH; auto.
  - intros i I. unfold upd. destruct (Nat.eqb_spec i x) as [->|]; [rewrite (Q x O); reflexivity|now apply Q].
  - intros i I. rewrite upd_other; [now apply Q|]. intros ->. congruence.
Qed.
Lemma integrate_part g d dt dyn w w' : parted w w' -> parted (integrate_all g d dt dyn w) (integrate_all g d dt (filter (seen P S) dyn) w').
Proof.
  intros (Q & EA & EJ & C & CA & CJ). destruct (bodies_part (fun b => update_velocity b g d dt) (fun b => FV b g d dt) dyn _ _ Q C) as [Q1 C1]. unfold integrate_all, parted. cbn [w_heap w_arbs w_joints]. auto 10.
Qed.
Lemma filter_map {X} (p : X -> bool) (f : X -> X) l : (forall x, p (f x) = p x) -> filter p (map f l) = map f (filter p l).
Proof. intros A. induction l as [|x l IH]; cbn [map filter]; auto. rewrite A. destruct (p x); cbn [map]; now rewrite IH. Qed.
Lemma prestep_part slop bias dt w w' : parted w w' -> parted (prestep_all slop bias dt w) (prestep_all slop bias dt w').
Proof.
  intros (Q & EA & EJ & C & CA & CJ). unfold prestep_all. rewrite !presteps_loop, <- EJ.
  destruct (loop_part (jprestep dt) (fun ck => c_a (fst ck)) (fun ck => c_b (fst ck)) (jprestep_local dt) (fun x H => conj eq_refl eq_refl) (w_joints w) CJ _ _ Q C) as (Q2 & E2 & C2).
  destruct (loop_ends (jprestep dt) (fun ck => c_a (fst ck)) (fun ck => c_b (fst ck)) (fun x H => conj eq_refl eq_refl) (w_joints w) (w_heap w)) as [EN3 EN4].
  change (filter (jown P)) with (filter (mine (fun ck : sjoint => c_a (fst ck)) (fun ck : sjoint => c_b (fst ck)))). set (l1 := loop _ (w_heap w) (w_joints w)) in *. set (l2 := loop _ (w_heap w') _) in *. clearbody l1 l2. destruct l1 as [H3 j1], l2 as [H4 j2]. cbn [fst snd] in *.
  unfold parted. cbn [w_heap w_arbs w_joints]. split; [exact Q2|]. split; [|split; [exact E2|split; [exact C2|split]]].
  - rewrite <- EA, filter_map by reflexivity. apply map_ext_in. intros s I. apply filter_In in I as [I O]. destruct (CA s I O) as [A B]. unfold arb_prestep. f_equal. apply map_ext. intros c. unfold contact_prestep. now rewrite (Q _ A), (Q _ B).
  - intros s I. apply in_map_iff in I as (s0 & <- & I). exact (CA s0 I).
  - exact (closed_ends (fun ck : sjoint => c_a (fst ck)) (fun ck : sjoint => c_b (fst ck)) _ _ EN3 EN4 CJ).
Qed.
Lemma move_part dt dyn H H' : same H H' -> chilled H -> same (move_all dt dyn H) (move_all dt (filter (seen P S) dyn) H') /\ chilled (move_all dt dyn H).
Proof. intros Q C. exact (bodies_part (fun b => update_position b dt) (fun b => FX b dt) dyn _ _ Q C). Qed.
Lemma step_part n slop bias g d dt prev dyn arbs w w' : same (w_heap w) (w_heap w') -> filter (jown P) (w_joints w) = w_joints w' -> chilled (w_heap w) -> closed_joints P S (w_joints w) -> closed_arbs P S arbs ->
  parted (full_step n slop bias g d dt prev dyn arbs w) (full_step n slop bias g d dt prev (filter (seen P S) dyn) (filter (own P) arbs) w').
Proof.
  intros Q EJ C CJ CI. unfold full_step, solve. cbv zeta. apply iterations_part, cached_part, integrate_part, prestep_part.
  destruct (move_part dt dyn _ _ Q C) as [Q1 C1]. unfold parted. cbn [w_heap w_arbs w_joints]. auto 10.
Qed.
Lemma iterations_ends dt n : forall w, map s_a (w_arbs (iterations n dt w)) = map s_a (w_arbs w) /\ map s_b (w_arbs (iterations n dt w)) = map s_b (w_arbs w).
Proof.
  induction n as [|n IH]; intros w; cbn [iterations]; [auto|]. destruct (IH (iteration dt w)) as [-> ->]. unfold iteration. rewrite arbs_loop.
  destruct (loop_ends (fun s H => arb_apply H s) s_a s_b (fun x H => arb_apply_ends H x) (w_arbs w) (w_heap w)) as [EN1 EN2]. destruct (loop _ _ _) as [H1 l1]. destruct (joints_apply H1 dt (w_joints w)). cbn [w_arbs]. auto.
Qed.
Lemma step_ends n slop bias g d dt prev dyn arbs w : let l := w_arbs (full_step n slop bias g d dt prev dyn arbs w) in map s_a l = map s_a arbs /\ map s_b l = map s_b arbs.
Proof.
  cbv zeta. unfold full_step, solve. cbv zeta. match goal with |- context [iterations ?n ?dt ?w] => destruct (iterations_ends dt n w) as [-> ->] end. unfold cached_all, integrate_all, prestep_all. cbv zeta. cbn [w_arbs].
  match goal with |- context [joints_prestep ?H ?dt ?l] => destruct (joints_prestep H dt l) end. cbn [w_arbs]. rewrite !map_map. split; reflexivity.
Qed.
Theorem part_alone is is' : Forall2 (same_given P S) is is' -> forall w w', same_part P S w w' -> chilled (w_heap w) -> chilled (w_heap w') -> closed_joints P S (w_joints w) -> closed_joints P S (w_joints w') ->
  untouched P S is w -> untouched P S is' w' -> same_part P S (fold_left step_with is w) (fold_left step_with is' w').
Proof.
  intros G. induction G as [|i i' is is' G GS IH]; intros w w' [Q EA EJ] C C' CJ CJ' U U'; [now constructor|]. cbn [fold_left].
  assert (K : closed_arbs P S (i_arbs i (move_all (i_dt i) (i_dyn i) (w_heap w)) (w_arbs w))).
  { pose proof (U 1) as U1. cbn [firstn fold_left] in U1. unfold step_with in U1. set (ar := i_arbs i _ _) in *. destruct (step_ends (i_n i) (i_slop i) (i_bias i) (i_g i) (i_damping i) (i_dt i) (i_prev i) (i_dyn i) ar w) as [E1 E2].
    exact (closed_ends s_a s_b _ _ (eq_sym E1) (eq_sym E2) U1). }
  assert (K' : closed_arbs P S (i_arbs i' (move_all (i_dt i') (i_dyn i') (w_heap w')) (w_arbs w'))).
  { pose proof (U' 1) as U1. cbn [firstn fold_left] in U1. unfold step_with in U1. set (ar := i_arbs i' _ _) in *. destruct (step_ends (i_n i') (i_slop i') (i_bias i') (i_g i') (i_damping i') (i_dt i') (i_prev i') (i_dyn i') ar w') as [E1 E2].
    exact (closed_ends s_a s_b _ _ (eq_sym E1) (eq_sym E2) U1). }
  destruct G as [G1 G2 G3 G4 G5 G6 G7 G8 G9].
  assert (M : same (move_all (i_dt i) (i_dyn i) (w_heap w)) (move_all (i_dt i') (i_dyn i') (w_heap w'))).
  { eapply same_trans; [apply (move_part (i_dt i) (i_dyn i) _ _ Q C)|]. rewrite G6, G8. apply same_sym. apply (move_part (i_dt i') (i_dyn i') (w_heap w') (w_heap w')); auto. now intros ? ?. }
  specialize (G9 _ _ _ _ M EA K K'). set (ar := i_arbs i _ _) in *. set (ar' := i_arbs i' _ _) in *.
  pose proof (step_part (i_n i) (i_slop i) (i_bias i) (i_g i) (i_damping i) (i_dt i) (i_prev i) (i_dyn i) ar w (World (w_heap w') [] (filter (jown P) (w_joints w))) Q eq_refl C CJ K) as X.
  pose proof (step_part (i_n i') (i_slop i') (i_bias i') (i_g i') (i_damping i') (i_dt i') (i_prev i') (i_dyn i') ar' w' (World (w_heap w') [] (filter (jown P) (w_joints w'))) (fun _ _ => eq_refl) eq_refl C' CJ' K') as X'.
  rewrite <- G1, <- G2, <- G3, <- G4, <- G5, <- G6, <- G7, <- G8, <- G9, <- EJ in X'.
  apply IH.
  - unfold step_with. fold ar ar'. rewrite <- G1, <- G2, <- G3, <- G4, <- G5, <- G6, <- G7. set (m := full_step _ _ _ _ _ _ _ (filter _ _) _ _) in X, X'. clearbody m.
    destruct X as (X1 & X2 & X3 & _), X' as (Y1 & Y2 & Y3 & _). constructor; [|congruence|congruence]. eapply same_trans; [exact X1|]. now apply same_sym.
  - apply X.
  - unfold step_with. fold ar'. rewrite <- G1, <- G2, <- G3, <- G4, <- G5, <- G6, <- G7. apply X'.
  - apply X.
  - unfold step_with. fold ar'. rewrite <- G1, <- G2, <- G3, <- G4, <- G5, <- G6, <- G7. apply X'.
  - intros k. exact (U (Datatypes.S k)).
  - intros k. exact (U' (Datatypes.S k)).
Qed.
End Part.
End Apart.

(** ** Collision phases made of pairs *)
Section Phase.
Context {N : Num} {T : Trig N} {E : Elem N}.
Variables (P S : nat -> bool).
Lemma find_filter {X} (p q : X -> bool) l : (forall x, p x = true -> q x = true) -> find p l = find p (filter q l).
Proof. intros A. induction l as [|x l IH]; [reflexivity|]. cbn [find filter]. destruct (p x) eqn:B; [rewrite (A x B); cbn [find]; now rewrite B|]. destruct (q x); cbn [find]; rewrite ?B; exact IH. Qed.
Lemma old_part p l l' : P (pr_a p) || P (pr_b p) = true -> filter (own P) l = filter (own P) l' -> old_arb p l = old_arb p l'.
Proof.
  intros O F. unfold old_arb. set (q := fun s => _). assert (A : forall s, q s = true -> own P s = true). { intros s B. apply andb_true_iff in B as [B1 B2]. apply Nat.eqb_eq in B1, B2. unfold own. now rewrite B1, B2. }
  rewrite (find_filter q (own P) l A), (find_filter q (own P) l' A). now rewrite F.
Qed.
Lemma phase_inside ps H l : Forall pair_ok ps -> closed_arbs P S (phase ps H l) -> filter (own P) (phase ps H l) = phase (filter (inside P S) ps) H l.
Proof.
  intros OK. induction OK as [|p ps OK OKS IH]; intros C; [reflexivity|]. unfold phase in *. cbn [flat_map filter] in *. rewrite filter_app.
  destruct (pr_test p (H (pr_a p)) (H (pr_b p)) (old_arb p l)) as [s|] eqn:E0.
  - destruct (OK _ _ _ _ E0) as [EA EB]. rewrite IH by (intros x I; apply C; now right). cbn [filter]. destruct (own P s) eqn:O.
    + destruct (C s (or_introl eq_refl) O) as [A B]. unfold own in O. rewrite EA, EB in *. unfold inside. rewrite O, A, B. cbn [andb flat_map]. now rewrite E0.
    + unfold own in O. rewrite EA, EB in O. unfold inside. rewrite O. reflexivity.
  - cbn [app filter]. rewrite IH by exact C. destruct (inside P S p); cbn [flat_map]; rewrite ?E0; reflexivity.
Qed.
Lemma phase_part ps ps' : Forall pair_ok ps -> Forall pair_ok ps' -> filter (inside P S) ps = filter (inside P S) ps' ->
  forall H H' l l', same_bodies P S H H' -> filter (own P) l = filter (own P) l' -> closed_arbs P S (phase ps H l) -> closed_arbs P S (phase ps' H' l') ->
  filter (own P) (phase ps H l) = filter (own P) (phase ps' H' l').
Proof.
  intros OK OK' F H H' l l' Q FL C C'. rewrite !phase_inside by auto. rewrite F. unfold phase. 
  assert (G : forall p, In p (filter (inside P S) ps') -> inside P S p = true) by (intros p I; now apply filter_In in I).
  revert G. generalize (filter (inside P S) ps'). clear -Q FL. intros ps G. induction ps as [|p ps IH]; [reflexivity|]. cbn [flat_map]. rewrite IH by (intros x I; apply G; now right).
  pose proof (G p (or_introl eq_refl)) as I. unfold inside in I. apply andb_true_iff in I as [I I3]. apply andb_true_iff in I as [I1 I2]. now rewrite (Q _ I2), (Q _ I3), (old_part p l l' I1 FL).
Qed.
End Phase.
