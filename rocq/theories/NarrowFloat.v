(** pointGreater compares a turn and its mirror image consistently, in exact and in float64 arithmetic.
    No model definitions here. *)
From Coq Require Import ZArith Reals Bool Floats Lra Lia.
From Flocq Require Import Core BinarySingleNaN PrimFloat.
From Verif Require Import Num NumReal NumFloat Vec Narrow.
Local Open Scope R_scope.

Local Notation nanb := BinarySingleNaN.is_nan.
Local Notation finb := BinarySingleNaN.is_finite.
#[local] Existing Instance Hprec.
#[local] Existing Instance Hmax.
Local Notation rnd := (round radix2 (SpecFloat.fexp prec emax) (round_mode mode_NE)).

(** u' is the mirror image of u; the sign of zero does not matter. *)
Definition mirror (u u' : B) : Prop :=
  (nanb u = true /\ nanb u' = true) \/
  (finb u = true /\ finb u' = true /\ B2R u' = - B2R u) \/
  exists s, u = B754_infinity s /\ u' = B754_infinity (negb s).

Lemma mirror_sym u u' : mirror u u' -> mirror u' u.
Proof. intros [[]|[(?&?&H)|[s []]]]; [left; auto|right; left; repeat split; auto; lra|right; right; exists (negb s); subst; rewrite negb_involutive; auto]. Qed.

Lemma of_inf (x : B) s : B2SF x = SpecFloat.S754_infinity s -> x = B754_infinity s.
Proof. destruct x; cbn; congruence. Qed.

Lemma rnd_opp x : rnd (- x) = - rnd x.
Proof. apply round_NE_opp. Qed.

Lemma minus_mirror (x y : B) : mirror (Bminus mode_NE x y) (Bminus mode_NE y x).
Proof.
  destruct (finb x) eqn:Fx, (finb y) eqn:Fy.
  - pose proof (Bminus_correct prec emax Hprec Hmax mode_NE x y Fx Fy) as H.
    pose proof (Bminus_correct prec emax Hprec Hmax mode_NE y x Fy Fx) as H'.
    assert (E : rnd (B2R y - B2R x) = - rnd (B2R x - B2R y)) by (rewrite <- rnd_opp; f_equal; lra).
    rewrite E, Rabs_Ropp in H'. destruct Rlt_bool.
    + destruct H as (H1 & H2 & _), H' as (H3 & H4 & _). right; left. rewrite H1, H3. auto.
    + destruct H as (H1 & H2), H' as (H3 & H4). right; right. exists (Bsign x). split.
      * apply of_inf. exact H1.
      * apply of_inf. rewrite H2, negb_involutive. exact H3.
  - destruct y as [|sy| |]; try discriminate; destruct x as [sx|sx| |sx]; try discriminate; try (left; split; reflexivity);
      right; right; exists (negb sy); rewrite negb_involutive; split; reflexivity.
  - destruct x as [|sx| |]; try discriminate; destruct y as [sy|sy| |sy]; try discriminate; try (left; split; reflexivity);
      right; right; exists sx; split; reflexivity.
  - destruct x as [|sx| |]; try discriminate; destruct y as [|sy| |]; try discriminate; try (left; split; reflexivity).
    destruct sx, sy; cbn; try (left; split; reflexivity); right; right; [exists true|exists false]; split; reflexivity.
Qed.

Lemma sign_pos (x : B) : finb x = true -> B2R x > 0 -> Bsign x = false /\ is_finite_strict x = true.
Proof.
  destruct x as [s| | |s m e Hb]; try discriminate; cbn [B2R Bsign is_finite_strict]; intros _ H; [lra|]. split; auto.
  destruct s; auto. exfalso. assert (F2R (Float radix2 (cond_Zopp true (Z.pos m)) e) < 0) by (apply F2R_lt_0; reflexivity). lra.
Qed.
Lemma sign_neg (x : B) : finb x = true -> B2R x < 0 -> Bsign x = true /\ is_finite_strict x = true.
Proof.
  destruct x as [s| | |s m e Hb]; try discriminate; cbn [B2R Bsign is_finite_strict]; intros _ H; [lra|]. split; auto.
  destruct s; auto. exfalso. assert (0 < F2R (Float radix2 (cond_Zopp false (Z.pos m)) e)) by (apply F2R_gt_0; reflexivity). lra.
Qed.
Lemma sign_mirror (u u' : B) : finb u = true -> finb u' = true -> B2R u' = - B2R u -> B2R u <> 0 ->
  Bsign u' = negb (Bsign u) /\ is_finite_strict u = true /\ is_finite_strict u' = true.
Proof.
  intros F F' E Z. destruct (Rtotal_order (B2R u) 0) as [L|[L|L]]; [|tauto|].
  - destruct (sign_neg u F L) as [-> ->]. destruct (sign_pos u' F') as [-> ->]; [lra|]. auto.
  - destruct (sign_pos u F L) as [-> ->]. destruct (sign_neg u' F') as [-> ->]; [lra|]. auto.
Qed.
Lemma mult_mirror (u u' s : B) : mirror u u' -> mirror (Bmult mode_NE u s) (Bmult mode_NE u' s).
Proof.
  intros [[N N']|[(F & F' & E)|[w [-> ->]]]].
  - left. destruct u; try discriminate. destruct u'; try discriminate. destruct s; split; reflexivity.
  - destruct (finb s) eqn:Fs.
    + pose proof (Bmult_correct prec emax Hprec Hmax mode_NE u s) as H.
      pose proof (Bmult_correct prec emax Hprec Hmax mode_NE u' s) as H'.
      assert (Er : rnd (B2R u' * B2R s) = - rnd (B2R u * B2R s)) by (rewrite <- rnd_opp; f_equal; rewrite E; lra).
      rewrite Er, Rabs_Ropp in H'. destruct Rlt_bool eqn:O.
      * destruct H as (H1 & H2 & _), H' as (H3 & H4 & _). rewrite F, Fs in H2. rewrite F', Fs in H4. right; left. rewrite H1, H3. auto.
      * assert (Z : B2R u <> 0).
        { intros Z. rewrite Z, Rmult_0_l, round_0, Rabs_R0 in O by apply valid_rnd_round_mode. rewrite Rlt_bool_true in O; [discriminate|apply bpow_gt_0]. }
        destruct (sign_mirror u u' F F' E Z) as [Sg _]. right; right. exists (xorb (Bsign u) (Bsign s)). split; apply of_inf; [exact H|].
        rewrite H', Sg. unfold binary_overflow. cbn. f_equal. now destruct (Bsign u), (Bsign s).
    + destruct s as [|w| |]; try discriminate; [|left; destruct u; try discriminate; destruct u'; try discriminate; split; reflexivity].
      destruct (Req_dec (B2R u) 0) as [Z|Z].
      * left. assert (Z' : B2R u' = 0) by (rewrite E, Z; lra).
        assert (K : forall x : B, finb x = true -> B2R x = 0 -> nanb (Bmult mode_NE x (B754_infinity w)) = true).
        { intros [sx| | |sx m e Hb]; try discriminate; [reflexivity|]. cbn [B2R]. intros _ A. exfalso.
          apply eq_0_F2R in A. destruct sx; discriminate. }
        split; apply K; auto.
      * destruct (sign_mirror u u' F F' E Z) as (Sg & S1 & S2). right; right. exists (xorb (Bsign u) w).
        destruct u as [| | |su]; try discriminate. destruct u' as [| | |su']; try discriminate. cbn in Sg |- *. subst su'. split; [reflexivity|].
        f_equal. now destruct su, w.
  - destruct s as [ss|ss| |ss]; try (left; split; reflexivity); right; right; exists (xorb w ss); cbn; split; auto; f_equal; now destruct w, ss.
Qed.
Lemma plus_comm (x y : B) : Bplus mode_NE x y = Bplus mode_NE y x.
Proof.
  destruct x as [sx|sx| |sx mx ex Hx], y as [sy|sy| |sy my ey Hy]; cbn; auto.
  1,2: destruct sx, sy; reflexivity.
  rewrite (Z.min_comm ey ex). f_equal. apply Z.add_comm.
Qed.
Lemma Fplus_comm x y : PrimFloat.add x y = PrimFloat.add y x.
Proof. rewrite <- (B2Prim_Prim2B (PrimFloat.add x y)), <- (B2Prim_Prim2B (PrimFloat.add y x)), !add_equiv, plus_comm. reflexivity. Qed.

Lemma mirror_BE u u' : mirror u u' -> nanb u = nanb u' /\ (nanb u = false -> BE u' = - BE u).
Proof.
  intros [[N N']|[(F & F' & E)|[w [-> ->]]]].
  - rewrite N, N'. split; [auto|discriminate].
  - rewrite !BE_fin by auto. split; auto. destruct u; try discriminate; destruct u'; try discriminate; reflexivity.
  - split; auto. intros _. destruct w; cbn; lra.
Qed.
Lemma mirror_ltb u u' w w' : mirror (Prim2B u) (Prim2B u') -> mirror (Prim2B w) (Prim2B w') -> PrimFloat.ltb u w = true -> PrimFloat.ltb u' w' = false.
Proof.
  intros U W H. destruct (mirror_BE _ _ U) as [Nu Eu], (mirror_BE _ _ W) as [Nw Ew].
  destruct (Fltb_ok _ _ H) as [Ou Ow]. apply Fltb_FE in H; auto. pose proof Ou as Ou'. pose proof Ow as Ow'. rewrite Fok_B in Ou', Ow'.
  destruct (PrimFloat.ltb u' w') eqn:K; auto. exfalso. destruct (Fltb_ok _ _ K) as [A C]. apply Fltb_FE in K; auto.
  unfold FE in *. rewrite Eu, Ew in K by auto. lra.
Qed.

Definition consistent (Nm : Num) : Prop := forall u v : vec, point_greater u v vzero = true -> point_greater v u vzero = false.
Lemma pg_real (u v c : @vec RNum) : point_greater u v c = true <-> 0 < @vcross RNum (vsub u c) (vsub v c).
Proof.
  destruct u as [ux uy], v as [vx' vy'], c as [cx cy]. unfold point_greater, vcross, vsub. cbn [vx vy]. unR.
  match goal with |- Rltb ?a ?b = true <-> ?r => assert (E : a < b <-> r) by lra; unfold Rltb; destruct (Rlt_dec a b) end.
  all: split; auto; try tauto; discriminate || (intros; exfalso; tauto).
Qed.
Lemma consistent_real : consistent RNum.
Proof.
  intros u v H. destruct (point_greater v u vzero) eqn:K; auto. rewrite pg_real in H, K.
  destruct u as [ux uy], v as [wx wy]. unfold vcross, vsub, vzero in *. cbn [vx vy] in *. unR. lra.
Qed.
Lemma consistent_float : consistent FNum.
Proof.
  intros [ux uy] [wx wy]. unfold point_greater. cbn [vx vy vzero nltb nadd nsub nmul FNum]. apply mirror_ltb.
  - rewrite !mul_equiv, !sub_equiv, (Fplus_comm uy wy). apply mult_mirror, minus_mirror.
  - rewrite !mul_equiv, !sub_equiv, (Fplus_comm ux wx). apply mult_mirror, minus_mirror.
Qed.
