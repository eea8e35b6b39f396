(** Proofs of C68: contacts under load, and the step. *)
From Coq Require Import ZArith NArith Bool Reals List Lra Lia Arith FunctionalExtensionality FinFun.
From Verif Require Import Num NumReal Vec VecReal BB Transform Body BodySpec BodyProofs Solver SolverSpec SolverProofs SolverProofs2 Joints JointsSpec JointsProofs
  Narrow Persist PersistProofs ArbView ArbViewSpec ArbViewProofs ArbViewProofs2 EquilSpec EquilProofs.
Import ListNotations.
Local Open Scope R_scope.

Lemma forall2_impl {A B} (P Q : A -> B -> Prop) l l' : (forall x y, P x y -> Q x y) -> Forall2 P l l' -> Forall2 Q l l'.
Proof. intros I F. induction F; constructor; auto. Qed.
(** ** Contacts found again *)
Definition samec (k k' : Rcontact) : Prop := k_r1 k' = k_r1 k /\ k_r2 k' = k_r2 k /\ k_jn k' = k_jn k /\ k_jt k' = k_jt k /\ k_hash k' = k_hash k.
Lemma contacts_again pa pb (old : list Rcontact) : NoDup (map k_hash old) -> forall l ks,
  Forall2 (fun c (k : Rcontact) => k_r1 k = vsub (nc_p1 c) pa /\ k_r2 k = vsub (nc_p2 c) pb /\ k_hash k = Z.of_N (nc_hash c)) l ks ->
  forall pre mem, old = pre ++ ks -> Forall2 samec ks (update_contacts pa pb old mem l).
Proof.
  intros ND l ks F. induction F as [|c k l ks (R1 & R2 & Hh) F IH]; intros pre mem E; cbn [update_contacts]; constructor.
  - unfold update_contact. set (c0 := Contact _ _ _ _ _ _ _ _ _ _). assert (NX : forall p, In p ks -> k_hash p <> k_hash c0).
    { intros p Hp X. rewrite E, map_app in ND. cbn [map] in ND. apply NoDup_remove_2 in ND. apply ND, in_or_app. right. apply in_map_iff. exists p. split; [|exact Hp]. rewrite X. symmetry. exact Hh. }
    destruct (carry_last pre k ks c0 Hh NX) as [J1 J2]. rewrite E. destruct (carry_frame (pre ++ k :: ks) c0) as (x & y & Fr). rewrite Fr in *. cbn [k_jn k_jt] in J1, J2. subst x y.
    split; [now rewrite R1|]. split; [now rewrite R2|]. split; [reflexivity|]. split; [reflexivity|]. now rewrite Hh.
  - apply (IH (pre ++ [k])). rewrite E, <- app_assoc. reflexivity.
Qed.
(** The arbiter [s'] of the next step. *)
Definition again (t : touch) (s s' : Rsarb) : Prop :=
  s_a s' = t_a t /\ s_b s' = t_b t /\ s_n s' = nf_n (t_info t) /\ s_first s' = false /\ s_cached s' = false /\ s_svr s' = vzero /\ s_u s' = mt_u (t_ma t) * mt_u (t_mb t) /\
  Forall2 samec (s_contacts s) (s_contacts s').
Lemma update_again slop (H : Rheap) t s : presses slop H t s -> again t s (update H (t_a t) (t_b t) (t_ma t) (t_mb t) (t_sw t) (t_mem t) (t_info t) s).
Proof.
  intros (A & B & AB & Nn & Fi & Ca & Sv & ND & F). unfold update, again. cbn [s_a s_b s_n s_first s_cached s_svr s_u s_contacts]. rewrite Fi, Ca.
  repeat (split; [reflexivity|]). split; [unfold surface_velocity; rewrite Sv, sub_zero, dot_zero, scale_zero, sub_zero by reflexivity; reflexivity|]. split; [reflexivity|].
  apply contacts_again with (pre := []); [|revert F; apply forall2_impl; tauto|reflexivity].
  assert (E : map k_hash (s_contacts s) = map Z.of_N (map nc_hash (nf_arr (t_info t)))).
  { clear ND. induction F as [|c k l ks (_ & _ & X & _) _ IH]; cbn [map]; [reflexivity|]. now rewrite X, IH. }
  rewrite E. apply Injective_map_NoDup; [|exact ND]. intros x y. apply N2Z.inj.
Qed.
Definition firm (s : Rsarb) : Prop := s_svr s = vzero /\
  Forall (fun c => k_bounce c = 0 /\ k_bias c = 0 /\ k_jbias c = 0 /\ 0 <= k_jn c /\ Rabs (k_jt c) <= s_u s * k_jn c) (s_contacts s).
Lemma prestep_again slop dt bias (H : Rheap) t s s' : (forall i, still (H i)) -> presses slop H t s -> again t s s' ->
  let s'' := arb_prestep H dt slop bias s' in again t s s'' /\ presses slop H t s'' /\ firm s''.
Proof.
  intros ST (A & B & AB & Nn & Fi & Ca & Sv & ND & F) (A' & B' & N' & F' & C' & V' & U' & K'). cbv zeta.
  assert (K2 : Forall2 samec (s_contacts s) (map (contact_prestep H s' dt slop bias) (s_contacts s'))).
  { clear F. induction K' as [|k k' l l' (R1 & R2 & J1 & J2 & Hh) _ IH]; cbn [map]; constructor; [|exact IH]. repeat split; assumption. }
  split; [|split].
  - unfold again, arb_prestep, with_contacts. cbn [s_a s_b s_n s_first s_cached s_svr s_u s_contacts]. repeat (split; [assumption|]). exact K2.
  - unfold presses, arb_prestep, with_contacts. cbn [s_a s_b s_n s_first s_cached s_svr s_u s_contacts]. repeat (split; [assumption|]).
    clear K'. revert K2 F. generalize (map (contact_prestep H s' dt slop bias) (s_contacts s')), (s_contacts s), (nf_arr (t_info t)). clear.
    intros l2 l1 arr K2 F. revert arr F. induction K2 as [|k k' l l' (R1 & R2 & J1 & J2 & Hh) _ IH]; intros arr F; inversion F as [|c ? arr' ? X F']; subst; constructor; auto.
    rewrite R1, R2, J1, J2, Hh. exact X.
  - split; [exact V'|]. unfold arb_prestep, with_contacts. cbn [s_contacts s_u]. clear K2 ND.
    revert K' F. generalize (s_contacts s'), (s_contacts s), (nf_arr (t_info t)). intros l2 l1 arr K2. revert arr. induction K2 as [|k k' l l' (R1 & R2 & J1 & J2 & Hh) _ IH]; intros arr F; cbn [map]; [constructor|];
      inversion F as [|c ? arr' ? (X1 & X2 & X3 & X4 & X5 & X6) F2]; subst; constructor; [|eapply IH; exact F2].
    unfold contact_prestep, normal_relative_velocity. cbv zeta. cbn [k_bounce k_bias k_jbias k_jn k_jt]. rewrite (relative_still _ _ _ _ (ST _) (ST _)), dot_zero.
    split; [unR; rring|]. split; [|split; [reflexivity|split; [rewrite J1; exact X4|rewrite J1, J2, U'; exact X5]]].
    match goal with |- context [nmin _ ?x] => assert (X : 0 <= x) end.
    { revert X6. rewrite R1, R2, X1, X2, A', B', N'. generalize (b_pos (H (t_a t))), (b_pos (H (t_b t))), (nf_n (t_info t)), (nc_p1 c), (nc_p2 c). clear. intros [] [] [] [] []. unV. cbn. unR. lra. }
    unR. rewrite Rmin_left; [unfold Rdiv; ring|exact X].
Qed.
Lemma contact_firm (H : Rheap) s c : still (H (s_a s)) -> still (H (s_b s)) -> s_svr s = vzero ->
  k_bounce c = 0 -> k_bias c = 0 -> k_jbias c = 0 -> 0 <= k_jn c -> Rabs (k_jt c) <= s_u s * k_jn c -> contact_apply H s c = (H, c).
Proof.
  intros SA SB SV B I J Nn T. unfold contact_apply. cbv zeta. rewrite (relative_still _ _ _ _ SA SB), SV, add_zero, !dot_zero, B, I, J.
  destruct SA as (_ & _ & _ & _ & A1 & A2), SB as (_ & _ & _ & _ & B1 & B2). rewrite A1, A2, B1, B2.
  match goal with |- context [nmax (nadd (Num := RNum) 0 ?x) n0] => assert (X1 : nmax (nadd (Num := RNum) 0 x) (@n0 RNum) = 0) end.
  { unR. unV. cbn. unR. match goal with |- Rmax ?x 0 = 0 => replace x with 0 by ring end. apply Rmax_left. lra. }
  rewrite X1. match goal with |- context [nmax ?x n0] => assert (X2 : nmax x (@n0 RNum) = k_jn c) end.
  { unR. match goal with |- Rmax ?x 0 = _ => replace x with (k_jn c : R) by rring end. apply Rmax_left. lra. }
  rewrite X2. match goal with |- context [nclamp ?x ?l ?h] => assert (X3 : nclamp (N := RNum) x l h = k_jt c) end.
  { replace (nadd (Num := RNum) (k_jt c) _) with (k_jt c : R) by (unR; rring). unR. apply clamp_in, T. }
  rewrite X3. rewrite scale_zero by (unR; ring). rewrite bias_zero.
  match goal with |- context [vrotate ?n ?v] => replace (vrotate n v) with (@vzero RNum) by (unV; cbn; unR; f_equal; ring) end. rewrite impulses_zero.
  destruct c; cbn in *; subst; reflexivity.
Qed.
Lemma contacts_firm (H : Rheap) s l : (forall i, still (H i)) -> s_svr s = vzero ->
  Forall (fun c => k_bounce c = 0 /\ k_bias c = 0 /\ k_jbias c = 0 /\ 0 <= k_jn c /\ Rabs (k_jt c) <= s_u s * k_jn c) l -> contacts_apply H s l = (H, l).
Proof.
  intros S V. induction l as [|c l IH]; intros F; cbn [contacts_apply]; auto. inversion F as [|x y (A & B & C & D & E) F']; subst. rewrite contact_firm; auto. now rewrite IH.
Qed.
Lemma arbs_firm (H : Rheap) l : (forall i, still (H i)) -> Forall firm l -> arbs_apply H l = (H, l).
Proof.
  intros S. induction l as [|s l IH]; intros F; cbn [arbs_apply]; auto. inversion F as [|x y [V Q] F']; subst. unfold arb_apply. rewrite contacts_firm; auto. rewrite with_same. now rewrite IH.
Qed.
Lemma again_arb t s s' i px py pa : s_a s = t_a t -> s_b s = t_b t -> s_n s = nf_n (t_info t) -> again t s s' -> Arb i px py pa s' = Arb i px py pa s.
Proof.
  intros A B Nn (A' & B' & N' & _ & _ & _ & _ & K). unfold Arb. induction K as [|k k' l l' (R1 & R2 & J1 & J2 & Hh) _ IH]; [reflexivity|]. rewrite !Rsum_cons, IH. f_equal.
  unfold Con. now rewrite A, A', B, B', Nn, N', R1, R2, J1, J2.
Qed.
