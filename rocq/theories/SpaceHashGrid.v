(** Proofs about the spatial hash: the grid function floor(x / celldim), over the reals and in float64. *)
From Coq Require Import ZArith Reals List Bool PeanoNat Lia Lra Floats Uint63.
From Flocq Require Import Core BinarySingleNaN PrimFloat.
From Verif Require Import Num NumReal NumFloat Vec BB SpaceHash SpaceHashSpec.
Local Open Scope R_scope.

Lemma real_floor (x : R) : floor (Nm := RNum) Ztrunc x = Zfloor x.
Proof.
  unfold floor. cbn [nltb neqb nofZ RNum n0]. unfold Rltb, Reqb. change (nofZ 0) with 0%R. cbn. destruct (Rlt_dec x 0) as [L|L].
  - cbn. rewrite (Ztrunc_ceil x) by lra. destruct (Req_EM_T (IZR (Zceil x)) x) as [E|E]; cbn.
    + rewrite <- E at 2. now rewrite Zfloor_IZR.
    + rewrite Zceil_floor_neq; [lia|]. intros Z. apply E. rewrite <- Z at 2. rewrite <- Z at 1. now rewrite Zceil_IZR.
  - cbn. now rewrite Ztrunc_floor by lra.
Qed.
Lemma real_monotone (dim : R) : 0 < dim -> monotone (Nm := RNum) Ztrunc dim (fun _ => True).
Proof.
  intros D x y _ _ L. rewrite !real_floor. apply Zfloor_le. cbn in *. apply Rleb_true in L. unfold Rdiv. apply Rmult_le_compat_r; auto. apply Rlt_le, Rinv_0_lt_compat, D.
Qed.

(** Go's int(f) for f within the range of int *)
Definition Fint (f : float) : Z := Btrunc (Prim2B f).
Lemma Fint_trunc f : IZR (Fint f) = IZR (Ztrunc (B2R (Prim2B f))).
Proof. unfold Fint. rewrite Btrunc_correct by (unfold Prec_gt_0, Prec_lt_emax; reflexivity). apply round_FIX_IZR. Qed.
Lemma Fint_eq f : Fint f = Ztrunc (B2R (Prim2B f)).
Proof. apply eq_IZR, Fint_trunc. Qed.
Lemma Fint_exact f : rnd (IZR (Fint f)) = IZR (Fint f).
Proof.
  apply round_generic; [apply valid_rnd_round_mode|]. rewrite Fint_trunc, <- round_FIX_IZR. apply generic_round_generic; try apply valid_rnd_ZR; try apply FIX_exp_valid; try apply (fexp_correct prec emax Hprec). apply generic_format_B2R.
Qed.
Lemma FofZ_big z : (Z.abs z < 2 ^ 63)%Z -> rnd (IZR z) = IZR z -> Ffin (FofZ z) /\ FE (FofZ z) = IZR z.
Proof.
  intros H G. assert (Bd : Rabs (IZR z) < bpow radix2 emax). { rewrite <- abs_IZR. apply Rlt_trans with (bpow radix2 63); [change (bpow radix2 63) with (IZR (2 ^ 63)); now apply IZR_lt|now apply bpow_lt]. }
  assert (P : forall p, (Zpos p < 2 ^ 63)%Z -> rnd (IZR (Zpos p)) = IZR (Zpos p) -> Rabs (IZR (Zpos p)) < bpow radix2 emax -> Ffin (PrimFloat.of_uint63 (Uint63.of_Z (Zpos p))) /\ B2R (Prim2B (PrimFloat.of_uint63 (Uint63.of_Z (Zpos p)))) = IZR (Zpos p)).
  { intros p Hp Gp Bp. rewrite Ffin_B, of_int63_equiv. rewrite Uint63.of_Z_spec, Z.mod_small by (change Uint63.wB with (2^63)%Z; lia).
    pose proof (binary_normalize_correct prec emax Hprec Hmax mode_NE (Zpos p) 0 false) as C. assert (E : F2R (Float radix2 (Zpos p) 0) = IZR (Zpos p)) by (unfold F2R; cbn; lra).
    cbn zeta in C. rewrite E, Gp, Rlt_bool_true in C by auto. destruct C as [C1 [C2 _]]. auto. }
  destruct z as [|p|p]; cbn [FofZ].
  - split; [reflexivity|apply FE_0].
  - destruct (P p) as [F E]; auto. split; auto. now rewrite FE_fin.
  - destruct (P p) as [F E]; [lia| |rewrite <- Rabs_Ropp, <- opp_IZR; exact Bd|].
    + change (Zneg p) with (- Zpos p)%Z in G. rewrite opp_IZR, round_NE_opp in G. apply (f_equal Ropp) in G. rewrite !Ropp_involutive in G. exact G.
    + split; [now apply Ffin_opp|]. rewrite FE_opp, FE_fin, E by auto. rewrite <- opp_IZR. reflexivity.
Qed.
Lemma float_floor f : Ffin f -> Rabs (FE f) <= bpow radix2 62 -> floor (Nm := FNum) Fint f = Zfloor (FE f).
Proof.
  intros F Bd. unfold floor. change (@nltb FNum f (@n0 FNum)) with (PrimFloat.ltb f PrimFloat.zero). change (@neqb FNum (@nofZ FNum (Fint f)) f) with (PrimFloat.eqb (FofZ (Fint f)) f). rewrite (FE_fin f F) in *.
  assert (Rg : (Z.abs (Fint f) < 2 ^ 63)%Z).
  { apply lt_IZR. rewrite abs_IZR, Fint_trunc, <- abs_IZR. rewrite <- Ztrunc_abs. apply Rle_lt_trans with (bpow radix2 62); [|change (bpow radix2 62) with (IZR (2 ^ 62)); now apply IZR_lt]. rewrite Ztrunc_floor by apply Rabs_pos. eapply Rle_trans; [apply Zfloor_lb|exact Bd]. }
  destruct (FofZ_big (Fint f) Rg (Fint_exact f)) as [Fz Ez].
  assert (O0 : Fok PrimFloat.zero) by reflexivity. pose proof (Fltb_FE f PrimFloat.zero (Ffin_ok _ F) O0) as LT. rewrite FE_0, (FE_fin f F) in LT.
  pose proof (Feqb_FE (FofZ (Fint f)) f (Ffin_ok _ Fz) (Ffin_ok _ F)) as EQ. rewrite Ez, (FE_fin f F), Fint_trunc in EQ. rewrite Fint_eq in *. set (x := B2R (Prim2B f)) in *.
  destruct (PrimFloat.ltb f PrimFloat.zero).
  - assert (L : x < 0) by (now apply LT). cbn [andb]. rewrite Ztrunc_ceil in * by lra. destruct (PrimFloat.eqb (FofZ (Zceil x)) f); cbn [negb].
    + assert (E : IZR (Zceil x) = x) by (now apply EQ). transitivity (Zfloor (IZR (Zceil x))); [now rewrite Zfloor_IZR|now rewrite E].
    + assert (E : IZR (Zceil x) <> x) by (intros E; apply EQ in E; discriminate). rewrite Zceil_floor_neq; [lia|]. intros Z. apply E. transitivity (IZR (Zceil (IZR (Zfloor x)))); [now rewrite Z|]. now rewrite Zceil_IZR.
  - cbn [andb]. apply Ztrunc_floor. destruct (Rlt_le_dec x 0) as [L|L]; auto. apply LT in L. discriminate.
Qed.
(** numbers the grid can deal with: finite, and less than 2^62 cells away from 0 *)
Definition gridded (dim x : float) : Prop := Ffin x /\ PrimFloat.leb (PrimFloat.abs (PrimFloat.div x dim)) 0x1p62 = true.
Lemma gridded_div dim x : Ffin dim -> 0 < FE dim -> gridded dim x -> Ffin (PrimFloat.div x dim) /\ Rabs (FE (PrimFloat.div x dim)) <= bpow radix2 62 /\ FE (PrimFloat.div x dim) = rnd (FE x / FE dim).
Proof.
  intros Fd Pd [Fx L]. apply Fleb_true in L as (Oa & _ & L). assert (E62 : FE 0x1p62 = bpow radix2 62). { replace 0x1p62%float with (FofZ (2 ^ 62)) by (vm_compute; reflexivity). apply FofZ_big; [reflexivity|]. change (IZR (2 ^ 62)) with (bpow radix2 62). apply round_generic; [apply valid_rnd_round_mode|]. apply generic_format_bpow. cbn. lia. } rewrite E62 in L.
  set (q := PrimFloat.div x dim) in *. assert (Fq : Ffin q /\ Rabs (FE q) <= bpow radix2 62).
  { rewrite Ffin_B. unfold FE in *. rewrite Fok_B, abs_equiv in Oa. rewrite abs_equiv in L. destruct (Prim2B q) as [s|s| |s m e Hb] eqn:Q.
    - split; auto. cbn [BE B2R]. rewrite Rabs_R0. apply bpow_ge_0.
    - exfalso. cbn [Babs BE] in L. apply Rle_not_lt in L. apply L. change (bpow radix2 62 < bpow radix2 emax). apply bpow_lt. reflexivity.
    - discriminate.
    - split; auto. cbn [BE]. pose proof (B2R_Babs prec emax (B754_finite s m e Hb)) as A. rewrite <- A. exact L. }
  destruct Fq as [Fq Bq]. split; auto. split; auto. rewrite !FE_fin by auto. rewrite FE_fin in Pd by auto. rewrite Ffin_B in Fq. unfold q in *. rewrite div_equiv in *.
  assert (Z : B2R (Prim2B dim) <> 0) by lra. pose proof (Bdiv_correct prec emax Hprec Hmax mode_NE (Prim2B x) (Prim2B dim) Z) as C. destruct (Rlt_bool_spec (Rabs (rnd (B2R (Prim2B x) / B2R (Prim2B dim)))) (bpow radix2 emax)) as [L'|L'].
  - apply C.
  - apply B2SF_overflow in C. rewrite C in Fq. discriminate.
Qed.
Lemma float_monotone dim : Ffin dim -> PrimFloat.ltb PrimFloat.zero dim = true -> monotone (Nm := FNum) Fint dim (gridded dim).
Proof.
  intros Fd Pd x y Gx Gy L. apply Fltb_FE in Pd; [|reflexivity|now apply Ffin_ok]. rewrite FE_0 in Pd. cbn [nleb FNum] in L. apply Fleb_true in L as (_ & _ & L).
  destruct (gridded_div dim x Fd Pd Gx) as (F1 & B1 & E1). destruct (gridded_div dim y Fd Pd Gy) as (F2 & B2 & E2). change (@ndiv FNum) with PrimFloat.div. rewrite !float_floor by auto. apply Zfloor_le. rewrite E1, E2. apply round_le'. unfold Rdiv. apply Rmult_le_compat_r; auto. apply Rlt_le, Rinv_0_lt_compat, Pd.
Qed.
