(** The order laws hold for IEEE binary64.  No model definitions here: the proof goes
    through Flocq's specification of Coq's primitive floats. *)
From Coq Require Import ZArith Reals Bool Floats Uint63 Lra Lia.
From Flocq Require Import Core BinarySingleNaN PrimFloat.
From Verif Require Import Num.
Local Open Scope R_scope.

Notation B := (binary_float prec emax).
Notation float := PrimFloat.float.

(** Order embedding of non-NaN floats into the reals: infinities go beyond every finite float. *)
Definition BE (x : B) : R :=
  match x with
  | B754_infinity false => bpow radix2 emax
  | B754_infinity true => - bpow radix2 emax
  | _ => B2R x
  end.
Definition FE (x : float) : R := BE (Prim2B x).
Definition Fok (x : float) : Prop := PrimFloat.is_nan x = false.
Definition Ffin (x : float) : Prop := PrimFloat.is_finite x = true.

Lemma Fok_B x : Fok x <-> BinarySingleNaN.is_nan (Prim2B x) = false.
Proof. unfold Fok. rewrite is_nan_equiv. tauto. Qed.
Lemma Ffin_B x : Ffin x <-> BinarySingleNaN.is_finite (Prim2B x) = true.
Proof. unfold Ffin. rewrite is_finite_equiv. tauto. Qed.

Lemma BE_fin (x : B) : BinarySingleNaN.is_finite x = true -> BE x = B2R x.
Proof. destruct x as [s|[]| |]; try discriminate; auto. Qed.
Lemma emax_pos : 0 < bpow radix2 emax.
Proof. apply bpow_gt_0. Qed.

Lemma B2R_bounds (x : B) : - bpow radix2 emax < B2R x < bpow radix2 emax.
Proof. pose proof (abs_B2R_lt_emax _ _ x). now apply Rabs_lt_inv. Qed.

Lemma Bleb_BE (x y : B) : BinarySingleNaN.is_nan x = false -> BinarySingleNaN.is_nan y = false ->
  (Bleb x y = true <-> BE x <= BE y).
Proof.
  intros Hx Hy.
  destruct (BinarySingleNaN.is_finite x) eqn:Fx, (BinarySingleNaN.is_finite y) eqn:Fy.
  - rewrite !BE_fin, Bleb_correct by auto. split.
    + intros H. now destruct (Rle_bool_spec (B2R x) (B2R y)).
    + intros H. now apply Rle_bool_true.
  - rewrite (BE_fin x) by auto. pose proof (B2R_bounds x).
    destruct y as [|[]| |]; try discriminate; simpl; destruct x as [[]|[]| |[]]; try discriminate; cbn; split; try discriminate; intros; try lra; auto; cbn in *; lra.
  - rewrite (BE_fin y) by auto. pose proof (B2R_bounds y).
    destruct x as [|[]| |]; try discriminate; simpl; destruct y as [[]|[]| |[]]; try discriminate; cbn; split; try discriminate; intros; try lra; auto; cbn in *; lra.
  - pose proof emax_pos.
    destruct x as [|[]| |]; try discriminate; destruct y as [|[]| |]; try discriminate; cbn; split; try discriminate; intros; try lra; auto; cbn in *; lra.
Qed.

Lemma Fleb_true x y : PrimFloat.leb x y = true <-> Fok x /\ Fok y /\ FE x <= FE y.
Proof.
  rewrite leb_equiv, !Fok_B.
  destruct (BinarySingleNaN.is_nan (Prim2B x)) eqn:Hx.
  { destruct (Prim2B x); try discriminate. cbn. split; [discriminate|intros [? _]; discriminate]. }
  destruct (BinarySingleNaN.is_nan (Prim2B y)) eqn:Hy.
  { destruct (Prim2B y); try discriminate. split; [|intros [_ [? _]]; discriminate].
    destruct (Prim2B x) as [|[]| |[]]; cbn; discriminate. }
  rewrite Bleb_BE by auto. unfold FE. tauto.
Qed.

Lemma Bltb_Bleb (x y : B) : BinarySingleNaN.is_nan x = false -> BinarySingleNaN.is_nan y = false ->
  Bltb x y = negb (Bleb y x).
Proof.
  intros Hx Hy.
  destruct (BinarySingleNaN.is_finite x) eqn:Fx, (BinarySingleNaN.is_finite y) eqn:Fy.
  - rewrite Bltb_correct, Bleb_correct by auto. apply Rlt_bool_opp || idtac.
    destruct (Rlt_bool_spec (B2R x) (B2R y)), (Rle_bool_spec (B2R y) (B2R x)); auto; lra.
  - destruct y as [|[]| |]; try discriminate; destruct x as [[]|[]| |[]]; try discriminate; reflexivity.
  - destruct x as [|[]| |]; try discriminate; destruct y as [[]|[]| |[]]; try discriminate; reflexivity.
  - destruct x as [|[]| |]; try discriminate; destruct y as [|[]| |]; try discriminate; reflexivity.
Qed.

Lemma Fltb_Fleb x y : Fok x -> Fok y -> PrimFloat.ltb x y = negb (PrimFloat.leb y x).
Proof. rewrite !Fok_B, ltb_equiv, leb_equiv. apply Bltb_Bleb. Qed.

Lemma Fltb_ok x y : PrimFloat.ltb x y = true -> Fok x /\ Fok y.
Proof.
  rewrite ltb_equiv, !Fok_B.
  destruct (Prim2B x) as [|[]| |[]], (Prim2B y) as [|[]| |[]]; cbn; auto; discriminate.
Qed.

Lemma Beqb_Bleb (x y : B) : BinarySingleNaN.is_nan x = false -> BinarySingleNaN.is_nan y = false ->
  Beqb x y = Bleb x y && Bleb y x.
Proof.
  intros Hx Hy.
  destruct (BinarySingleNaN.is_finite x) eqn:Fx, (BinarySingleNaN.is_finite y) eqn:Fy.
  - rewrite Beqb_correct, !Bleb_correct by auto.
    destruct (Req_bool_spec (B2R x) (B2R y)), (Rle_bool_spec (B2R y) (B2R x)), (Rle_bool_spec (B2R x) (B2R y)); auto; simpl; lra.
  - destruct y as [|[]| |]; try discriminate; destruct x as [[]|[]| |[]]; try discriminate; reflexivity.
  - destruct x as [|[]| |]; try discriminate; destruct y as [[]|[]| |[]]; try discriminate; reflexivity.
  - destruct x as [|[]| |]; try discriminate; destruct y as [|[]| |]; try discriminate; reflexivity.
Qed.
Lemma Feqb_Fleb x y : Fok x -> Fok y -> PrimFloat.eqb x y = PrimFloat.leb x y && PrimFloat.leb y x.
Proof. rewrite !Fok_B, eqb_equiv, !leb_equiv. apply Beqb_Bleb. Qed.

Lemma Feqb_FE x y : Fok x -> Fok y -> (PrimFloat.eqb x y = true <-> FE x = FE y).
Proof.
  intros Hx Hy. rewrite Feqb_Fleb, andb_true_iff, !Fleb_true by auto. split.
  - intros [[_ [_ ?]] [_ [_ ?]]]; lra.
  - intros ->. repeat split; auto; lra.
Qed.
Lemma Fltb_FE x y : Fok x -> Fok y -> (PrimFloat.ltb x y = true <-> FE x < FE y).
Proof.
  intros Hx Hy. rewrite Fltb_Fleb by auto. rewrite negb_true_iff, <- not_true_iff_false, Fleb_true.
  split; [intros H; apply Rnot_le_lt; tauto|intros H [_ [_ ?]]; lra].
Qed.

Lemma FE_bounds x : - bpow radix2 emax <= FE x <= bpow radix2 emax.
Proof.
  unfold FE. destruct (Prim2B x) as [s|[]| |s m e H] eqn:E; cbn [BE]; pose proof emax_pos; try lra.
  1,2: cbn; lra.
  pose proof (B2R_bounds (B754_finite s m e H)). lra.
Qed.

Lemma FE_ninf : FE neg_infinity = - bpow radix2 emax.
Proof. unfold FE. rewrite neg_infinity_equiv, Prim2B_B2Prim. reflexivity. Qed.
Lemma FE_inf : FE infinity = bpow radix2 emax.
Proof. unfold FE. rewrite infinity_equiv, Prim2B_B2Prim. reflexivity. Qed.
Lemma FE_0 : FE PrimFloat.zero = 0.
Proof. unfold FE. rewrite zero_equiv, Prim2B_B2Prim. reflexivity. Qed.

Lemma Fmin_FE x y : Fok x -> Fok y -> Fok (Fmin x y) /\ FE (Fmin x y) = Rmin (FE x) (FE y).
Proof.
  intros Hx Hy. unfold Fmin.
  destruct (PrimFloat.eqb x neg_infinity) eqn:E1.
  { apply Feqb_FE in E1; auto; [|reflexivity]. split; auto. rewrite E1, FE_ninf.
    rewrite Rmin_left; auto. apply FE_bounds. }
  destruct (PrimFloat.eqb y neg_infinity) eqn:E2.
  { apply Feqb_FE in E2; auto; [|reflexivity]. split; auto. rewrite E2, FE_ninf.
    rewrite Rmin_right; auto. apply FE_bounds. }
  unfold Fok in Hx, Hy; rewrite Hx, Hy.
  destruct (PrimFloat.eqb x 0 && PrimFloat.eqb y 0)%float eqn:E3.
  { apply andb_true_iff in E3 as [E3 E4]. apply Feqb_FE in E3; auto; [|reflexivity].
    apply Feqb_FE in E4; auto; [|reflexivity].
    destruct PrimFloat.get_sign; split; auto; rewrite E3, E4, Rmin_left; lra. }
  destruct (PrimFloat.ltb x y) eqn:E5; split; auto.
  - apply Fltb_FE in E5; auto. rewrite Rmin_left; lra.
  - rewrite <- not_true_iff_false, Fltb_FE in E5 by auto. rewrite Rmin_right; lra.
Qed.
Lemma Fmax_FE x y : Fok x -> Fok y -> Fok (Fmax x y) /\ FE (Fmax x y) = Rmax (FE x) (FE y).
Proof.
  intros Hx Hy. unfold Fmax.
  destruct (PrimFloat.eqb x infinity) eqn:E1.
  { apply Feqb_FE in E1; auto; [|reflexivity]. split; auto. rewrite E1, FE_inf.
    rewrite Rmax_left; auto. apply FE_bounds. }
  destruct (PrimFloat.eqb y infinity) eqn:E2.
  { apply Feqb_FE in E2; auto; [|reflexivity]. split; auto. rewrite E2, FE_inf.
    rewrite Rmax_right; auto. apply FE_bounds. }
  unfold Fok in Hx, Hy; rewrite Hx, Hy.
  destruct (PrimFloat.eqb x 0 && PrimFloat.eqb y 0)%float eqn:E3.
  { apply andb_true_iff in E3 as [E3 E4]. apply Feqb_FE in E3; auto; [|reflexivity].
    apply Feqb_FE in E4; auto; [|reflexivity].
    destruct PrimFloat.get_sign; split; auto; rewrite E3, E4, Rmax_left; lra. }
  destruct (PrimFloat.ltb y x) eqn:E5; split; auto.
  - apply Fltb_FE in E5; auto. rewrite Rmax_left; lra.
  - rewrite <- not_true_iff_false, Fltb_FE in E5 by auto. rewrite Rmax_right; lra.
Qed.

Lemma Ffin_ok x : Ffin x -> Fok x.
Proof. rewrite Ffin_B, Fok_B. destruct (Prim2B x); auto; discriminate. Qed.

#[local] Existing Instance Hprec.
#[local] Existing Instance Hmax.

Notation rnd := (round radix2 (SpecFloat.fexp prec emax) (round_mode mode_NE)).

Lemma FE_fin x : Ffin x -> FE x = B2R (Prim2B x).
Proof. rewrite Ffin_B. intros. unfold FE. now apply BE_fin. Qed.

Lemma round_B (x : B) : rnd (B2R x) = B2R x.
Proof. apply round_generic; [apply valid_rnd_round_mode|apply generic_format_B2R]. Qed.

Lemma round_le' a b : a <= b -> rnd a <= rnd b.
Proof. apply round_le. apply (fexp_correct prec emax Hprec). apply valid_rnd_round_mode. Qed.
Lemma round_0' : rnd 0 = 0.
Proof. apply round_0. apply valid_rnd_round_mode. Qed.

Lemma Bsign_neg (x : B) : BinarySingleNaN.is_finite x = true -> B2R x < 0 -> Bsign x = true.
Proof.
  destruct x as [s|s| |s m e H]; try discriminate; cbn; intros _ H'; try lra.
  destruct s; auto. exfalso. apply (Rlt_asym _ _ H'). apply F2R_gt_0. reflexivity.
Qed.
Lemma Bsign_pos (x : B) : BinarySingleNaN.is_finite x = true -> 0 < B2R x -> Bsign x = false.
Proof.
  destruct x as [s|s| |s m e H]; try discriminate; cbn; intros _ H'; try lra.
  destruct s; auto. exfalso. apply (Rlt_asym _ _ H'). apply F2R_lt_0. reflexivity.
Qed.

Lemma B2SF_overflow (z : B) s : B2SF z = binary_overflow prec emax mode_NE s -> z = B754_infinity s.
Proof. destruct z; cbn; intros H; inversion H; reflexivity. Qed.

Lemma fin_nan (x : B) : BinarySingleNaN.is_finite x = true -> BinarySingleNaN.is_nan x = false.
Proof. destruct x; auto; discriminate. Qed.

Lemma Badd_inf (x : B) s : BinarySingleNaN.is_finite x = true ->
  Bplus mode_NE x (B754_infinity s) = B754_infinity s.
Proof. destruct x; try discriminate; reflexivity. Qed.

Lemma Badd_nonpos (x y : B) : BinarySingleNaN.is_finite x = true -> BinarySingleNaN.is_nan y = false ->
  BE y <= 0 ->
  BinarySingleNaN.is_nan (Bplus mode_NE x y) = false /\ BE (Bplus mode_NE x y) <= BE x.
Proof.
  intros Fx Ny Hy. rewrite (BE_fin x) by auto. pose proof (B2R_bounds x) as Bx. pose proof emax_pos.
  destruct (BinarySingleNaN.is_finite y) eqn:Fy.
  - rewrite BE_fin in Hy by auto.
    pose proof (Bplus_correct prec emax Hprec Hmax mode_NE x y Fx Fy) as H1.
    destruct (Rlt_bool_spec (Rabs (rnd (B2R x + B2R y))) (bpow radix2 emax)) as [Hlt|Hge].
    + destruct H1 as [H1 [H2 _]]. split; [now apply fin_nan|].
      rewrite BE_fin, H1 by auto. rewrite <- (round_B x) at 2. apply round_le'. lra.
    + destruct H1 as [H1 H2]. apply B2SF_overflow in H1. rewrite H1.
      destruct (Req_dec (B2R y) 0) as [Z|Z].
      * rewrite Z, Rplus_0_r, round_B in Hge. pose proof (abs_B2R_lt_emax _ _ x). lra.
      * rewrite H2, (Bsign_neg y) by (auto; lra). cbn [BE]. split; auto. lra.
  - destruct y as [|[]| |]; try discriminate; rewrite Badd_inf by auto; cbn [BE] in *; split; auto; lra.
Qed.
Lemma Badd_nonneg (x y : B) : BinarySingleNaN.is_finite x = true -> BinarySingleNaN.is_nan y = false ->
  0 <= BE y ->
  BinarySingleNaN.is_nan (Bplus mode_NE x y) = false /\ BE x <= BE (Bplus mode_NE x y).
Proof.
  intros Fx Ny Hy. rewrite (BE_fin x) by auto. pose proof (B2R_bounds x) as Bx. pose proof emax_pos.
  destruct (BinarySingleNaN.is_finite y) eqn:Fy.
  - rewrite BE_fin in Hy by auto.
    pose proof (Bplus_correct prec emax Hprec Hmax mode_NE x y Fx Fy) as H1.
    destruct (Rlt_bool_spec (Rabs (rnd (B2R x + B2R y))) (bpow radix2 emax)) as [Hlt|Hge].
    + destruct H1 as [H1 [H2 _]]. split; [now apply fin_nan|].
      rewrite BE_fin, H1 by auto. rewrite <- (round_B x) at 1. apply round_le'. lra.
    + destruct H1 as [H1 H2]. apply B2SF_overflow in H1. rewrite H1.
      destruct (Req_dec (B2R y) 0) as [Z|Z].
      * rewrite Z, Rplus_0_r, round_B in Hge. pose proof (abs_B2R_lt_emax _ _ x). lra.
      * rewrite H2, (Bsign_pos y) by (auto; lra). cbn [BE]. split; auto. lra.
  - destruct y as [|[]| |]; try discriminate; rewrite Badd_inf by auto; cbn [BE] in *; split; auto; lra.
Qed.

(** Subtraction of finite floats: not NaN, and its sign is that of the exact difference. *)
Lemma Bsub_sign (x y : B) : BinarySingleNaN.is_finite x = true -> BinarySingleNaN.is_finite y = true ->
  BinarySingleNaN.is_nan (Bminus mode_NE x y) = false /\
  (B2R y <= B2R x -> 0 <= BE (Bminus mode_NE x y)) /\ (B2R x <= B2R y -> BE (Bminus mode_NE x y) <= 0).
Proof.
  intros Fx Fy. pose proof emax_pos.
  pose proof (Bminus_correct prec emax Hprec Hmax mode_NE x y Fx Fy) as H1.
  destruct (Rlt_bool_spec (Rabs (rnd (B2R x - B2R y))) (bpow radix2 emax)) as [Hlt|Hge].
  - destruct H1 as [H1 [H2 _]]. split; [now apply fin_nan|].
    rewrite BE_fin, H1 by auto. split; intros; rewrite <- round_0'; apply round_le'; lra.
  - destruct H1 as [H1 H2]. apply B2SF_overflow in H1. rewrite H1.
    split; [auto|].
    assert (D : B2R x <> B2R y). { intros E. rewrite E, Rminus_diag_eq, round_0', Rabs_R0 in Hge by auto. lra. }
    assert (S : B2R x < B2R y -> Bsign x = true).
    { intros L. destruct (Bsign x) eqn:Sx; auto. 
      assert (0 <= B2R x). { apply Rnot_lt_le. intros N. rewrite Bsign_neg in Sx by auto. discriminate. }
      assert (0 < B2R y) by lra. rewrite (Bsign_pos y) in H2 by auto. discriminate. }
    assert (S' : B2R y < B2R x -> Bsign x = false).
    { intros L. destruct (Bsign x) eqn:Sx; auto. 
      assert (B2R x <= 0). { apply Rnot_lt_le. intros N. rewrite Bsign_pos in Sx by auto. discriminate. }
      assert (B2R y < 0) by lra. rewrite (Bsign_neg y) in H2 by auto. discriminate. }
    split; intros L.
    + rewrite S' by lra. cbn. lra.
    + rewrite S by lra. cbn. lra.
Qed.

Lemma Bmul_sign (x y : B) : BinarySingleNaN.is_finite x = true -> BinarySingleNaN.is_finite y = true ->
  BinarySingleNaN.is_nan (Bmult mode_NE x y) = false /\
  (0 <= B2R x -> 0 <= B2R y -> 0 <= BE (Bmult mode_NE x y)).
Proof.
  intros Fx Fy. pose proof emax_pos.
  pose proof (Bmult_correct prec emax Hprec Hmax mode_NE x y) as H1.
  destruct (Rlt_bool_spec (Rabs (rnd (B2R x * B2R y))) (bpow radix2 emax)) as [Hlt|Hge].
  - destruct H1 as [H1 [H2 _]]. rewrite Fx, Fy in H2. split; [now apply fin_nan|].
    intros. rewrite BE_fin, H1 by auto. rewrite <- round_0'; apply round_le'. now apply Rmult_le_pos.
  - apply B2SF_overflow in H1. rewrite H1. split; auto. intros Px Py.
    destruct (Req_dec (B2R x) 0) as [Z|Z]; [rewrite Z, Rmult_0_l, round_0', Rabs_R0 in Hge; lra|].
    destruct (Req_dec (B2R y) 0) as [Z'|Z']; [rewrite Z', Rmult_0_r, round_0', Rabs_R0 in Hge; lra|].
    rewrite (Bsign_pos x), (Bsign_pos y) by (auto; lra). cbn. lra.
Qed.

Lemma Bmul_sign_neg (x y : B) : BinarySingleNaN.is_finite x = true -> BinarySingleNaN.is_finite y = true ->
  B2R x <= 0 -> 0 <= B2R y -> BE (Bmult mode_NE x y) <= 0.
Proof.
  intros Fx Fy Px Py. pose proof emax_pos.
  pose proof (Bmult_correct prec emax Hprec Hmax mode_NE x y) as H1.
  destruct (Rlt_bool_spec (Rabs (rnd (B2R x * B2R y))) (bpow radix2 emax)) as [Hlt|Hge].
  - destruct H1 as [H1 [H2 _]]. rewrite Fx, Fy in H2.
    rewrite BE_fin, H1 by auto. rewrite <- round_0'; apply round_le'.
    pose proof (Rmult_le_pos (- B2R x) (B2R y)). lra.
  - apply B2SF_overflow in H1. rewrite H1.
    destruct (Req_dec (B2R x) 0) as [Z|Z]; [rewrite Z, Rmult_0_l, round_0', Rabs_R0 in Hge; lra|].
    destruct (Req_dec (B2R y) 0) as [Z'|Z']; [rewrite Z', Rmult_0_r, round_0', Rabs_R0 in Hge; lra|].
    rewrite (Bsign_neg x), (Bsign_pos y) by (auto; lra). cbn. lra.
Qed.

Lemma Bmul_inf_pos (y : B) : BinarySingleNaN.is_finite y = true -> 0 < B2R y ->
  Bmult mode_NE (B754_infinity false) y = B754_infinity false.
Proof.
  intros F P. pose proof (Bsign_pos y F P) as S.
  destruct y as [s|s| |s m e H]; try discriminate; cbn in *; try lra. now rewrite S.
Qed.

Lemma BE_Bopp (x : B) : BE (Bopp x) = - BE x.
Proof.
  destruct (BinarySingleNaN.is_finite x) eqn:F.
  - rewrite !BE_fin; [apply B2R_Bopp| |]; auto. now rewrite is_finite_Bopp.
  - destruct x as [|[]| |]; try discriminate; cbn; lra.
Qed.

Lemma format_IZR z : (Z.abs z <= 1000000)%Z -> rnd (IZR z) = IZR z.
Proof.
  intros H. apply round_generic; [apply valid_rnd_round_mode|].
  apply (generic_format_FLT radix2 (SpecFloat.emin prec emax) prec).
  exists (Float radix2 z 0); cbn.
  - unfold F2R; cbn. lra.
  - lia.
  - discriminate.
Qed.

Lemma IZR_lt_emax z : (Z.abs z <= 1000000)%Z -> Rabs (IZR z) < bpow radix2 emax.
Proof.
  intros H. rewrite <- abs_IZR. apply Rlt_trans with (bpow radix2 20).
  - change (bpow radix2 20) with (IZR (2 ^ 20)). apply IZR_lt. lia.
  - apply bpow_lt. reflexivity.
Qed.

Lemma FofZ_pos p : (Zpos p <= 1000000)%Z ->
  Ffin (PrimFloat.of_uint63 (Uint63.of_Z (Zpos p))) /\ B2R (Prim2B (PrimFloat.of_uint63 (Uint63.of_Z (Zpos p)))) = IZR (Zpos p).
Proof.
  intros H. rewrite Ffin_B, of_int63_equiv.
  rewrite Uint63.of_Z_spec, Z.mod_small by (change Uint63.wB with (2^63)%Z; lia).
  pose proof (binary_normalize_correct prec emax Hprec Hmax mode_NE (Zpos p) 0 false) as C.
  assert (E : F2R (Float radix2 (Zpos p) 0) = IZR (Zpos p)) by (unfold F2R; cbn; lra).
  cbn zeta in C. rewrite E, format_IZR, Rlt_bool_true in C by (try apply IZR_lt_emax; lia).
  destruct C as [C1 [C2 _]]. auto.
Qed.

Lemma Ffin_opp x : Ffin x -> Ffin (PrimFloat.opp x).
Proof. rewrite !Ffin_B, opp_equiv, is_finite_Bopp. auto. Qed.
Lemma Fok_opp x : Fok x -> Fok (PrimFloat.opp x).
Proof. rewrite !Fok_B, opp_equiv, is_nan_Bopp. auto. Qed.
Lemma FE_opp x : FE (PrimFloat.opp x) = - FE x.
Proof. unfold FE. rewrite opp_equiv. apply BE_Bopp. Qed.

Lemma FofZ_spec z : (-1000000 <= z <= 1000000)%Z -> Ffin (FofZ z) /\ FE (FofZ z) = IZR z.
Proof.
  intros H. destruct z as [|p|p]; cbn [FofZ].
  - split; [reflexivity|apply FE_0].
  - destruct (FofZ_pos p) as [F E]; [lia|]. split; auto. now rewrite FE_fin.
  - destruct (FofZ_pos p) as [F E]; [lia|]. split; [now apply Ffin_opp|].
    rewrite FE_opp, FE_fin, E by auto. rewrite <- opp_IZR. reflexivity.
Qed.

Lemma Flit_spec p q : (-1000000 <= p <= 1000000)%Z -> (1 <= q <= 1000000)%Z ->
  Ffin (PrimFloat.div (FofZ p) (FofZ q)) /\ FE (PrimFloat.div (FofZ p) (FofZ q)) = rnd (IZR p / IZR q).
Proof.
  intros Hp Hq. destruct (FofZ_spec p Hp) as [Fp Ep]. destruct (FofZ_spec q) as [Fq Eq]; [lia|].
  rewrite FE_fin in Ep, Eq by auto.
  assert (Q : 1 <= IZR q) by (apply IZR_le; lia).
  assert (Z : B2R (Prim2B (FofZ q)) <> 0) by (rewrite Eq; lra).
  pose proof (Bdiv_correct prec emax Hprec Hmax mode_NE (Prim2B (FofZ p)) (Prim2B (FofZ q)) Z) as C.
  rewrite Ep, Eq in C.
  assert (L : Rabs (rnd (IZR p / IZR q)) < bpow radix2 emax).
  { apply Rle_lt_trans with (Rabs (IZR p)); [|apply IZR_lt_emax; lia].
    assert (Rabs (IZR p / IZR q) <= Rabs (IZR p)).
    { unfold Rdiv. rewrite Rabs_mult. rewrite <- (Rmult_1_r (Rabs (IZR p))) at 2.
      apply Rmult_le_compat_l; [apply Rabs_pos|]. rewrite Rabs_inv, (Rabs_pos_eq (IZR q)) by lra.
      rewrite <- Rinv_1. apply Rinv_le; lra. }
    rewrite <- (format_IZR p) by lia.
    apply abs_round_le_generic; [apply (fexp_correct prec emax Hprec)|apply valid_rnd_round_mode| |].
    - apply generic_format_abs, generic_format_round. apply (fexp_correct prec emax Hprec). apply valid_rnd_round_mode.
    - rewrite format_IZR by lia. auto. }
  rewrite Rlt_bool_true in C by auto. destruct C as [C1 [C2 _]].
  assert (F : Ffin (PrimFloat.div (FofZ p) (FofZ q))) by (rewrite Ffin_B, div_equiv, C2; now apply Ffin_B).
  split; auto. rewrite FE_fin by auto. now rewrite div_equiv, C1.
Qed.

Lemma rnd_pos x : bpow radix2 (-100) <= x -> 0 < rnd x.
Proof.
  intros H. apply Rlt_le_trans with (bpow radix2 (-100)); [apply bpow_gt_0|].
  apply round_ge_generic; auto; [apply (fexp_correct prec emax Hprec)|apply valid_rnd_round_mode|].
  apply generic_format_bpow. unfold SpecFloat.fexp, SpecFloat.emin. cbn. lia.
Qed.

Lemma Babs_BE (x : B) : BinarySingleNaN.is_nan (Babs x) = BinarySingleNaN.is_nan x /\ 0 <= BE (Babs x).
Proof.
  split; [apply is_nan_Babs|]. pose proof emax_pos.
  destruct (BinarySingleNaN.is_finite x) eqn:F.
  - rewrite BE_fin, B2R_Babs by now rewrite is_finite_Babs. apply Rabs_pos.
  - destruct x as [|[]| |]; try discriminate; cbn; lra.
Qed.

#[global] Instance FNumOrd : NumOrd FNum.
Proof.
  refine {| nok := Fok : @num FNum -> Prop; nfin := Ffin : @num FNum -> Prop |};
  unfold nlit, n0, n1; cbn [num nofZ nadd nsub nmul ndiv nneg nabs nsqrt nltb nleb neqb nmin nmax ninf FNum].
  - apply Ffin_ok.
  - intros x y. rewrite Fleb_true. tauto.
  - intros x H. rewrite Fleb_true. repeat split; auto; lra.
  - intros x y z. rewrite !Fleb_true. intros [? [? ?]] [? [? ?]]; repeat split; auto; lra.
  - intros x y Hx Hy. rewrite !Fleb_true. destruct (Rle_dec (FE x) (FE y)); [left|right]; repeat split; auto; lra.
  - apply Fltb_Fleb.
  - apply Fltb_ok.
  - apply Feqb_Fleb.
  - intros x y Hx Hy. apply Fmin_FE; auto.
  - intros x y Hx Hy. rewrite Fleb_true. destruct (Fmin_FE x y Hx Hy) as [? ->]. repeat split; auto. apply Rmin_l.
  - intros x y Hx Hy. rewrite Fleb_true. destruct (Fmin_FE x y Hx Hy) as [? ->]. repeat split; auto. apply Rmin_r.
  - intros x y z. rewrite !Fleb_true. intros [? [? ?]] [? [? ?]].
    destruct (Fmin_FE x y) as [? ->]; auto. repeat split; auto. now apply Rmin_glb.
  - intros x y Hx Hy. apply Fmax_FE; auto.
  - intros x y Hx Hy. rewrite Fleb_true. destruct (Fmax_FE x y Hx Hy) as [? ->]. repeat split; auto. apply Rmax_l.
  - intros x y Hx Hy. rewrite Fleb_true. destruct (Fmax_FE x y Hx Hy) as [? ->]. repeat split; auto. apply Rmax_r.
  - intros x y z. rewrite !Fleb_true. intros [? [? ?]] [? [? ?]].
    destruct (Fmax_FE x y) as [? ->]; auto. repeat split; auto. now apply Rmax_lub.
  - intros z Hz. now apply FofZ_spec.
  - intros a b Ha Hb. destruct (FofZ_spec a Ha) as [Fa Ea], (FofZ_spec b Hb) as [Fb Eb].
    apply eq_true_iff_eq. rewrite Fleb_true, Z.leb_le, Ea, Eb. split.
    + intros [_ [_ H]]. now apply le_IZR.
    + intros H. repeat split; try now apply Ffin_ok. now apply IZR_le.
  - intros p q Hp Hq. now apply Flit_spec.
  - intros p q Hp Hq. destruct (Flit_spec p q) as [F E]; try lia. rewrite Fleb_true, E.
    change (FofZ 0) with PrimFloat.zero. rewrite FE_0. repeat split; [now apply Ffin_ok|].
    rewrite <- round_0'. apply round_le'. apply Rmult_le_pos; [apply IZR_le; lia|].
    apply Rlt_le, Rinv_0_lt_compat, IZR_lt; lia.
  - apply Fok_opp.
  - apply Ffin_opp.
  - intros x y. rewrite !Fleb_true, !FE_opp. intros [? [? ?]]. repeat split; try apply Fok_opp; auto. lra.
  - split; reflexivity.
  - intros x y Hx Hy. rewrite Fleb_true in Hy. rewrite Fleb_true. destruct Hy as [Hy1 [_ Hy2]].
    change (FofZ 0) with PrimFloat.zero in Hy2. rewrite FE_0 in Hy2.
    destruct (Badd_nonpos (Prim2B x) (Prim2B y)) as [H1 H2]; try (now apply Ffin_B); try (now apply Fok_B); auto.
    unfold FE. rewrite Fok_B, add_equiv. repeat split; auto. now apply Ffin_ok.
  - intros x y Hx Hy. rewrite Fleb_true in Hy. rewrite Fleb_true. destruct Hy as [_ [Hy1 Hy2]].
    change (FofZ 0) with PrimFloat.zero in Hy2. rewrite FE_0 in Hy2.
    destruct (Badd_nonneg (Prim2B x) (Prim2B y)) as [H1 H2]; try (now apply Ffin_B); try (now apply Fok_B); auto.
    unfold FE. rewrite !Fok_B, add_equiv. repeat split; auto. now apply Fok_B, Ffin_ok.
  - intros x y Hx Hy. rewrite !Fleb_true. intros [_ [_ H]]. rewrite !FE_fin in H by auto.
    destruct (Bsub_sign (Prim2B y) (Prim2B x)) as [H1 [H2 H3]]; try now apply Ffin_B.
    change (FofZ 0) with PrimFloat.zero. rewrite FE_0. unfold FE. rewrite sub_equiv.
    repeat split; [rewrite Fok_B, sub_equiv; auto|auto].
  - intros x y Hx Hy H. rewrite <- not_true_iff_false, Fleb_true, !FE_fin in H by auto.
    assert (B2R (Prim2B y) < B2R (Prim2B x)). { apply Rnot_le_lt. intros L. apply H. repeat split; auto; now apply Ffin_ok. }
    destruct (Bsub_sign (Prim2B y) (Prim2B x)) as [H1 [H2 H3]]; try now apply Ffin_B.
    rewrite Fleb_true. change (FofZ 0) with PrimFloat.zero. rewrite FE_0. unfold FE. rewrite sub_equiv.
    repeat split; [rewrite Fok_B, sub_equiv; auto|]. apply H3. lra.
  - intros x y Hx Hy. rewrite Fok_B, mul_equiv. apply Bmul_sign; now apply Ffin_B.
  - intros x y Hx Hy. rewrite !Fleb_true. change (FofZ 0) with PrimFloat.zero. rewrite FE_0, !FE_fin by auto.
    intros [_ [_ ?]] [_ [_ ?]]. destruct (Bmul_sign (Prim2B x) (Prim2B y)) as [H1 H2]; try now apply Ffin_B.
    unfold FE. rewrite mul_equiv. repeat split; [rewrite Fok_B, mul_equiv|]; auto.
  - intros x y. rewrite !Fleb_true. change (FofZ 0) with PrimFloat.zero. rewrite FE_0.
    intros [_ [Ox Px]] Hy H. apply Fltb_FE in H; [|reflexivity|now apply Ffin_ok]. rewrite FE_0, FE_fin in H by auto.
    unfold FE. rewrite mul_equiv. rewrite Fok_B in Ox. apply Ffin_B in Hy. unfold FE in Px. rewrite (Fok_B (PrimFloat.mul x y)), mul_equiv.
    split; [reflexivity|].
    destruct (BinarySingleNaN.is_finite (Prim2B x)) eqn:Fx.
    + rewrite BE_fin in Px by auto. destruct (Bmul_sign (Prim2B x) (Prim2B y)) as [H1 H2]; auto. split; auto. apply H2; lra.
    + pose proof emax_pos. destruct (Prim2B x) as [|[]| |]; try discriminate; cbn [BE] in Px; try lra.
      rewrite Bmul_inf_pos by auto. cbn. split; auto; lra.
  - intros p q Hp Hq. destruct (Flit_spec p q) as [F E]; try lia.
    apply Fltb_FE; [reflexivity|now apply Ffin_ok|]. change (FofZ 0) with PrimFloat.zero. rewrite FE_0, E.
    apply rnd_pos. apply Rle_trans with (1 / IZR q).
    + assert (0 < IZR q) by (apply IZR_lt; lia).
      apply Rmult_le_reg_r with (IZR q); auto. unfold Rdiv. rewrite Rmult_assoc, Rinv_l by lra.
      apply Rle_trans with (bpow radix2 (-100) * bpow radix2 20).
      * apply Rmult_le_compat_l; [apply bpow_ge_0|]. change (bpow radix2 20) with (IZR (2^20)). apply IZR_le. lia.
      * rewrite <- bpow_plus. rewrite Rmult_1_r. change 1 with (bpow radix2 0). apply bpow_le. lia.
    + apply Rmult_le_compat_r; [|apply IZR_le; lia]. apply Rlt_le, Rinv_0_lt_compat, IZR_lt; lia.
  - intros x. rewrite !Fok_B, abs_equiv. intros. destruct (Babs_BE (Prim2B x)) as [-> _]. auto.
  - intros x H. rewrite Fleb_true. change (FofZ 0) with PrimFloat.zero. rewrite FE_0.
    unfold FE. rewrite (Fok_B (PrimFloat.abs x)), abs_equiv. destruct (Babs_BE (Prim2B x)) as [E1 E2].
    rewrite E1. repeat split; auto. now apply (Fok_B x).
  - reflexivity.
  - intros x y Hy. destruct (PrimFloat.is_nan x) eqn:Nx.
    + unfold Fmax. intros Hm. destruct (PrimFloat.eqb x infinity) eqn:E1.
      { exfalso. rewrite eqb_equiv in E1. rewrite is_nan_equiv in Nx. destruct (Prim2B x); discriminate. }
      destruct (PrimFloat.eqb y infinity) eqn:E2; [rewrite Fleb_true; repeat split; auto; lra|].
      rewrite Nx in Hm. discriminate Hm.
    + intros _. destruct (Fmax_FE x y) as [A E]; auto. rewrite Fleb_true, E. repeat split; auto. apply Rmax_r.
  - intros x y Hx Hy. rewrite !Fleb_true. change (FofZ 0) with PrimFloat.zero. rewrite FE_0, !FE_fin by auto.
    intros [_ [_ ?]] [_ [_ ?]]. pose proof (Ffin_opp x Hx) as Hox.
    pose proof (FE_opp x) as E. rewrite !FE_fin in E by auto.
    destruct (Bmul_sign (Prim2B (PrimFloat.opp x)) (Prim2B y)) as [H1 _]; try now apply Ffin_B.
    unfold FE. rewrite mul_equiv. repeat split; [rewrite Fok_B, mul_equiv; auto|].
    apply Bmul_sign_neg; try (now apply Ffin_B); lra.
Defined.
