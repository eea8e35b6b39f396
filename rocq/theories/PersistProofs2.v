(** Proofs for C56: what one arbiter alone does to the speed along its normal. *)
From Coq Require Import ZArith NArith Bool List Reals Lra Psatz.
From Verif Require Import Num NumReal Vec VecReal Transform Body BodySpec Solver SolverSpec SolverProofs SolverProofs3 SolverProofs6 Narrow Persist PersistSpec PersistProofs.
Import ListNotations.
Local Open Scope R_scope.

Definition nvel (H : Rheap) (i : nat) (n : rvec) : R := vdot (b_vel (H i)) n.
Lemma imp_nvel (H : Rheap) a b r1 r2 (j n : rvec) : a <> b ->
  nvel (apply_impulses H a b r1 r2 j) b n = nvel H b n + b_minv (H b) * vdot j n /\
  nvel (apply_impulses H a b r1 r2 j) a n = nvel H a n - b_minv (H a) * vdot j n /\
  (forall i, b_minv (apply_impulses H a b r1 r2 j i) = b_minv (H i)).
Proof.
  intros D. unfold nvel, apply_impulses. destruct (Nat.eqb_spec a b) as [|Q]; [contradiction|]. repeat split.
  - unfold upd. rewrite (proj2 (Nat.eqb_neq b a)) by auto. rewrite Nat.eqb_refl. cbn [b_vel kick set_vel_fields]. destruct j as [jx jy], n as [nx ny]. unfold vdot. cbn [vx vy]. unR. rring.
  - unfold upd. rewrite Nat.eqb_refl. rewrite (proj2 (Nat.eqb_neq a b)) by auto. cbn [b_vel kick set_vel_fields]. destruct j as [jx jy], n as [nx ny]. unfold vdot. cbn [vx vy]. unR. rring.
  - intros i. unfold upd. destruct (Nat.eqb_spec i a), (Nat.eqb_spec a b), (Nat.eqb_spec i b); subst; auto.
Qed.
Lemma bias_nvel (H : Rheap) a b r1 r2 (j : rvec) i : b_vel (apply_bias_impulses H a b r1 r2 j i) = b_vel (H i) /\ b_minv (apply_bias_impulses H a b r1 r2 j i) = b_minv (H i).
Proof. unfold apply_bias_impulses, upd. destruct (Nat.eqb_spec i a), (Nat.eqb_spec a b), (Nat.eqb_spec i b); subst; auto. Qed.
Lemma rot_n (n : rvec) (x y : R) : vdot n n = 1 -> vdot (vrotate n (@V RNum x y)) n = x.
Proof. destruct n as [p q]. unfold vdot, vrotate. cbn [vx vy]. unR. intros E. transitivity ((p * p + q * q) * x); [rring|]. rewrite E. rring. Qed.
Lemma scale_n (j n : rvec) (k : R) : vdot (vscale j k) n = k * vdot j n.
Proof. destruct j, n. unV. rring. Qed.

Definition jns (l : list Rcontact) : R := rsum (map (fun c => k_jn c) l).
Lemma cached_nvel (s : Rsarb) k l : s_a s <> s_b s -> vdot (s_n s) (s_n s) = 1 -> forall H : Rheap,
  let H' := fold_left (contact_cached s k) l H in
  nvel H' (s_b s) (s_n s) = nvel H (s_b s) (s_n s) + b_minv (H (s_b s)) * (k * jns l) /\
  nvel H' (s_a s) (s_n s) = nvel H (s_a s) (s_n s) - b_minv (H (s_a s)) * (k * jns l) /\
  (forall i, b_minv (H' i) = b_minv (H i)).
Proof.
  intros D U. induction l as [|c l IH]; intros H; cbn [fold_left].
  - cbv zeta. unfold jns. cbn [map rsum fold_right]. repeat split; lra.
  - cbv zeta. destruct (IH (contact_cached s k H c)) as (A & B & C). clear IH. unfold contact_cached in *. cbv zeta in *.
    set (j := vscale _ k) in *. destruct (imp_nvel H (s_a s) (s_b s) (k_r1 c) (k_r2 c) j (s_n s) D) as (A1 & B1 & C1).
    assert (J : vdot j (s_n s) = k * k_jn c) by (unfold j; rewrite scale_n, rot_n by auto; reflexivity).
    unfold jns in *. cbn [map rsum fold_right]. rewrite A, B, A1, B1, J, !C1. split; [|split]; [unR; unfold rsum; ring|unR; unfold rsum; ring|]. intros i. rewrite C, C1. reflexivity.
Qed.
Lemma apply_nvel (s : Rsarb) l : s_a s <> s_b s -> vdot (s_n s) (s_n s) = 1 -> forall H : Rheap,
  let '(H', l') := contacts_apply H s l in
  nvel H' (s_b s) (s_n s) = nvel H (s_b s) (s_n s) + b_minv (H (s_b s)) * (jns l' - jns l) /\
  nvel H' (s_a s) (s_n s) = nvel H (s_a s) (s_n s) - b_minv (H (s_a s)) * (jns l' - jns l) /\
  (forall i, b_minv (H' i) = b_minv (H i)).
Proof.
  intros D U. induction l as [|c l IH]; intros H; cbn [contacts_apply].
  - unfold jns. cbn [map rsum fold_right]. repeat split; unR; lra.
  - pose proof (eq_refl (contact_apply H s c)) as E. unfold contact_apply at 2 in E. cbv zeta in E. rewrite E. clear E.
    match goal with |- context [apply_bias_impulses ?a ?b ?c ?d ?e ?f] => set (H1 := apply_bias_impulses a b c d e f); assert (F := bias_nvel a b c d e f); fold H1 in F end.
    match goal with |- context [apply_impulses H1 ?b ?c ?d ?e ?f] => set (j := f); destruct (imp_nvel H1 b c d e j (s_n s) D) as (A1 & B1 & C1); set (H2 := apply_impulses H1 b c d e j) in * end.
    specialize (IH H2). destruct (contacts_apply H2 s l) as [H3 l3]. destruct IH as (A & B & C). unfold jns in *. cbn [map rsum fold_right k_jn].
    unfold j in A1, B1. rewrite rot_n in A1, B1 by auto.
    assert (F1 : forall i, nvel H1 i (s_n s) = nvel H i (s_n s)) by (intros i; unfold nvel; rewrite (proj1 (F i)); reflexivity).
    assert (F2 : forall i, b_minv (H1 i) = b_minv (H i)) by (intros i; apply F).
    rewrite A, B, A1, B1, !C1, !F1, !F2. split; [|split].
    + unR. unfold rsum. ring.
    + unR. unfold rsum. ring.
    + intros i. rewrite C, C1. apply F2.
Qed.
Lemma apply_same (H : Rheap) (s : Rsarb) : let s' := snd (arb_apply H s) in s_a s' = s_a s /\ s_b s' = s_b s /\ s_n s' = s_n s.
Proof. unfold arb_apply. destruct (contacts_apply H s (s_contacts s)). repeat split. Qed.
Lemma iterate_nvel k : forall (H : Rheap) (s : Rsarb), s_a s <> s_b s -> vdot (s_n s) (s_n s) = 1 ->
  let '(H', s') := arb_iterate k (H, s) in
  nvel H' (s_b s) (s_n s) = nvel H (s_b s) (s_n s) + b_minv (H (s_b s)) * (jns (s_contacts s') - jns (s_contacts s)) /\
  nvel H' (s_a s) (s_n s) = nvel H (s_a s) (s_n s) - b_minv (H (s_a s)) * (jns (s_contacts s') - jns (s_contacts s)).
Proof.
  induction k as [|k IH]; intros H s D U; cbn [arb_iterate].
  - split; unR; lra.
  - cbn [fst snd]. pose proof (apply_nvel s (s_contacts s) D U H) as X. destruct (apply_same H s) as (Ea & Eb & En).
    unfold arb_apply in *. destruct (contacts_apply H s (s_contacts s)) as [H1 l1]. destruct X as (A & B & C). cbn [snd] in *.
    specialize (IH H1 (with_contacts s l1)). rewrite Ea, Eb, En in IH. specialize (IH D U). destruct (arb_iterate k (H1, with_contacts s l1)) as [H2 s2].
    destruct IH as [A2 B2]. rewrite A2, B2, A, B, !C. cbn [s_contacts with_contacts]. split; unR; ring.
Qed.
Lemma iterate_nonneg k : forall (H : Rheap) (s : Rsarb), (0 < k)%nat -> 0 <= jns (s_contacts (snd (arb_iterate k (H, s)))).
Proof.
  assert (L : forall s cs (H : Rheap), 0 <= jns (snd (contacts_apply H s cs))).
  { intros s. induction cs as [|c cs IH]; intros H; cbn [contacts_apply]; [apply Rle_refl|].
    pose proof (contact_apply_ok (N := RNum) H s c) as [P _]. destruct (contact_apply H s c) as [H1 c1]. cbn [snd] in P. specialize (IH H1). destruct (contacts_apply H1 s cs) as [H2 l2].
    cbn [snd] in *. unfold jns in *. cbn [map rsum fold_right]. assert (0 <= k_jn c1).
    { apply Rleb_true. apply P. apply (nleb_ok (k_jn c1) (k_jn c1)). apply Rleb_true. lra. } unfold rsum in *. unR. lra. }
  intros H s K. destruct k as [|k]; [inversion K|]. clear K. revert H s. induction k as [|k IH]; intros H s.
  - cbn [arb_iterate fst snd]. unfold arb_apply. pose proof (L s (s_contacts s) H) as X. destruct (contacts_apply _ _ _). exact X.
  - change (arb_iterate (Datatypes.S (Datatypes.S k)) (H, s)) with (arb_iterate (Datatypes.S k) (arb_apply H s)). destruct (arb_apply H s). apply IH.
Qed.
(* the exact change of speed along the normal *)
Lemma alone_exact k dtc (H : Rheap) (s : Rsarb) : s_a s <> s_b s -> vdot (s_n s) (s_n s) = 1 ->
  let '(H', s') := arb_alone k dtc H s in
  let J := rsum (map (fun c => k_jn c) (s_contacts s')) - (if s_first s then 1 else 1 - dtc) * rsum (map (fun c => k_jn c) (s_contacts s)) in
  vdot (b_vel (H' (s_b s))) (s_n s) = vdot (b_vel (H (s_b s))) (s_n s) + b_minv (H (s_b s)) * J /\
  vdot (b_vel (H' (s_a s))) (s_n s) = vdot (b_vel (H (s_a s))) (s_n s) - b_minv (H (s_a s)) * J.
Proof.
  intros D U. unfold arb_alone. pose proof (iterate_nvel k (arb_cached dtc H s) s D U) as X. destruct (arb_iterate k _) as [H' s'].
  destruct X as [A B]. cbv zeta. fold (jns (s_contacts s')) (jns (s_contacts s)). unfold nvel in *. rewrite A, B. clear A B.
  unfold arb_cached. destruct (s_first s).
  - split; unR; ring.
  - destruct (cached_nvel s dtc (s_contacts s) D U H) as (A & B & C). unfold nvel in *. rewrite A, B, !C. split; unR; ring.
Qed.
Lemma alone_pushes k dtc (H : Rheap) (s : Rsarb) : s_a s <> s_b s -> vdot (s_n s) (s_n s) = 1 -> (0 < k)%nat ->
  0 <= b_minv (H (s_a s)) -> 0 <= b_minv (H (s_b s)) -> (forall c, In c (s_contacts s) -> 0 <= k_jn c) ->
  (if s_first s then forall c, In c (s_contacts s) -> k_jn c = 0 else 1 <= dtc) ->
  let H' := fst (arb_alone k dtc H s) in
  vdot (b_vel (H (s_b s))) (s_n s) <= vdot (b_vel (H' (s_b s))) (s_n s) /\
  vdot (b_vel (H' (s_a s))) (s_n s) <= vdot (b_vel (H (s_a s))) (s_n s).
Proof.
  intros D U K Ma Mb P Q. pose proof (alone_exact k dtc H s D U) as X. unfold arb_alone in *. pose proof (iterate_nonneg k (arb_cached dtc H s) s K) as Y.
  destruct (arb_iterate k _) as [H' s']. cbv zeta in X |- *. cbn [fst snd] in *. unfold jns in Y.
  assert (Z : 0 <= rsum (map (fun c => k_jn c) (s_contacts s')) - (if s_first s then 1 else 1 - dtc) * rsum (map (fun c => k_jn c) (s_contacts s))).
  { destruct (s_first s).
    - assert (E : rsum (map (fun c => k_jn c) (s_contacts s)) = 0).
      { clear -Q. induction (s_contacts s) as [|c l IH]; [reflexivity|]. cbn [map rsum fold_right]. rewrite Q by (left; auto). unfold rsum in IH. rewrite IH; [unR; lra|]. intros; apply Q; right; auto. }
      rewrite E. lra.
    - assert (E : 0 <= rsum (map (fun c => k_jn c) (s_contacts s))).
      { clear -P. induction (s_contacts s) as [|c l IH]; [apply Rle_refl|]. cbn [map rsum fold_right]. assert (0 <= k_jn c) by (apply P; left; auto). unfold rsum in IH. assert (0 <= fold_right Rplus 0 (map (fun c => k_jn c) l)) by (apply IH; intros; apply P; right; auto). unR. lra. }
      nra. }
  destruct X as [A B]. rewrite A, B. unR. split; nra.
Qed.
(* a pair whose contacts are new *)
Lemma update_fresh H a b ma mb sw mem inf (s : Rsarb) : s_contacts s = [] -> forall c, In c (s_contacts (update H a b ma mb sw mem inf s)) -> k_jn c = 0.
Proof.
  intros E. cbn [s_contacts update]. rewrite E. revert mem. induction (nf_arr inf) as [|c l IH]; intros mem k; [intros []|]. cbn [update_contacts].
  intros [<-|K]; [reflexivity|]. eapply IH; eauto.
Qed.

(** ** Witnesses: a carried impulse that pulls *)
Definition pull_info : @ninfo RNum := @NInfo RNum (@V RNum 0 1) [@NContact RNum (@V RNum 0 0) (@V RNum 0 1) 5%N] 0%N.
Definition pull_H : Rheap := two (fixed 0 0) (ub 0 1 0 1 0).
Definition pull_mat : @material RNum := @Material RNum 0 0 (@V RNum 0 0).
Definition pull_old (first cached : bool) : Rsarb := @SArb RNum 0 1 0 0 (@V RNum 0 0) (@V RNum 0 1) false first cached [@Contact RNum (@V RNum 0 0) (@V RNum 0 0) 1 1 0 1 0 0 0 5%Z].
Definition pull_mem : nat -> Rcontact := fun _ => @Contact RNum (@V RNum 0 0) (@V RNum 0 0) 0 0 0 0 0 0 0 0%Z.
Definition pull_arb (first cached : bool) : Rsarb := arb_prestep pull_H 1 0 0 (update pull_H 0 1 pull_mat pull_mat false pull_mem pull_info (pull_old first cached)).
Lemma pull_arb_eq f ca : pull_arb f ca = @SArb RNum 0 1 0 0 (@V RNum 0 0) (@V RNum 0 1) false (f || ca) false [@Contact RNum (@V RNum 0 0) (@V RNum 0 0) 1 1 0 1 0 0 0 5%Z].
Proof.
  unfold pull_arb, arb_prestep, update, with_contacts. cbn [s_a s_b s_e s_u s_svr s_n s_swapped s_first s_cached s_contacts pull_old].
  assert (G : forall a b c d e f g h i j m n, a = b -> c = d -> e = f -> g = h -> i = j ->
    @SArb RNum 0 1 a c e g false m n i = @SArb RNum 0 1 b d f h false m n j) by (intros; subst; reflexivity).
  apply G.
  - cbn. unR. lra.
  - cbn. unR. lra.
  - unfold surface_velocity. cbn. unfold vsub, vscale, vdot. cbn. unR. f_equal; lra.
  - reflexivity.
  - unfold pull_info. cbn [nf_arr update_contacts map nf_n]. unfold update_contact. cbn [fold_left pull_old s_contacts]. unfold carry. cbn [k_hash nc_hash]. cbn [Z.of_N Z.eqb Pos.eqb].
    unfold with_impulses. cbn [k_r1 k_r2 k_nmass k_tmass k_bounce k_jn k_jt k_jbias k_bias k_hash nc_p1 nc_p2].
    unfold contact_prestep. cbv zeta. cbn [k_r1 k_r2 k_nmass k_tmass k_bounce k_jn k_jt k_jbias k_bias k_hash s_a s_b s_n s_e]. f_equal.
    unfold pull_H, two, fixed, ub, pull_mat, kscalar, kscalar_body, normal_relative_velocity, relative_velocity, vcross, vdot, vsub. cbn. unR.
    f_equal; try (f_equal; lra); try lra; try field.
Qed.
Lemma pull_result f dtc : 0 <= dtc -> let H' := fst (arb_alone 1 dtc pull_H (pull_arb false f)) in vdot (b_vel (H' 1%nat)) (@V RNum 0 1) = if f then 0 else dtc.
Proof.
  intros Q. rewrite pull_arb_eq. set (s := SArb _ _ _ _ _ _ _ _ _ _). cbv zeta.
  pose proof (alone_exact 1 dtc pull_H s) as X. assert (D : s_a s <> s_b s) by (cbn; discriminate). assert (U : vdot (s_n s) (s_n s) = 1) by (unfold vdot; cbn; unR; lra).
  specialize (X D U).
  assert (J : map (fun c => k_jn c) (s_contacts (snd (arb_alone 1 dtc pull_H s))) = [0]).
  { unfold arb_alone. cbn [arb_iterate]. cbn [fst snd]. unfold arb_apply. change (s_contacts s) with [@Contact RNum (@V RNum 0 0) (@V RNum 0 0) 1 1 0 1 0 0 0 5%Z]. cbn [contacts_apply].
    match goal with |- context [contact_apply ?h ?t ?c] => assert (E : k_jn (snd (contact_apply h t c)) = 0); [|destruct (contact_apply h t c) as [h1 c1]; cbn [snd] in E |- *; cbn [s_contacts with_contacts map]; rewrite E; reflexivity] end.
    unfold contact_apply. cbv zeta. cbn [snd k_jn]. unfold arb_cached, s. cbn [s_first s_a s_b s_n s_svr s_contacts fold_left k_jn k_nmass k_bounce k_r1 k_r2].
    destruct f; cbn [negb andb orb].
    - unfold pull_H, two, fixed, ub, relative_velocity, vdot, vadd, vsub, vscale, vperp. cbn. unR. unfold Rmax. destruct Rle_dec; lra.
    - unfold contact_cached, apply_impulses, upd, pull_H, two, fixed, ub, relative_velocity, vdot, vadd, vsub, vscale, vperp; cbn; unR; unfold Rmax; destruct Rle_dec; lra. }
  destruct (arb_alone (N := RNum) 1 dtc pull_H s) as [H' s']. cbn [fst snd] in *. cbv zeta in X. rewrite J in X. destruct X as [A _].
  unfold s in A. cbn [s_b s_n s_first s_contacts] in A. rewrite A. clear.
  unfold pull_H, two, fixed, ub, vdot, rsum. cbn. unR. destruct f; cbn; lra.
Qed.
