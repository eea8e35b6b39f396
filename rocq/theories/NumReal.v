(** The order laws hold for ideal reals.  No model definitions here. *)
From Coq Require Import ZArith Reals Bool Lra Lia.
From Verif Require Import Num.
Local Open Scope R_scope.

Lemma Rltb_true x y : Rltb x y = true <-> x < y.
Proof. unfold Rltb; destruct (Rlt_dec x y); split; auto; discriminate. Qed.
Lemma Rltb_false x y : Rltb x y = false <-> y <= x.
Proof. unfold Rltb; destruct (Rlt_dec x y); split; try discriminate; auto; lra. Qed.
Lemma Rleb_true x y : Rleb x y = true <-> x <= y.
Proof. unfold Rleb; destruct (Rle_dec x y); split; auto; discriminate. Qed.
Lemma Rleb_false x y : Rleb x y = false <-> y < x.
Proof. unfold Rleb; destruct (Rle_dec x y); split; try discriminate; auto; lra. Qed.
Lemma Reqb_true x y : Reqb x y = true <-> x = y.
Proof. unfold Reqb; destruct (Req_EM_T x y); split; auto; discriminate. Qed.
Lemma Reqb_false x y : Reqb x y = false <-> x <> y.
Proof. unfold Reqb; destruct (Req_EM_T x y); split; auto; try discriminate; contradiction. Qed.

Lemma Rltb_spec x y : BoolSpec (x < y) (y <= x) (Rltb x y).
Proof. destruct (Rltb x y) eqn:E; constructor; [now apply Rltb_true|now apply Rltb_false]. Qed.
Lemma Rleb_spec x y : BoolSpec (x <= y) (y < x) (Rleb x y).
Proof. destruct (Rleb x y) eqn:E; constructor; [now apply Rleb_true|now apply Rleb_false]. Qed.
Lemma Reqb_spec x y : BoolSpec (x = y) (x <> y) (Reqb x y).
Proof. destruct (Reqb x y) eqn:E; constructor; [now apply Reqb_true|now apply Reqb_false]. Qed.

(** Unfold the record operations at the real instance. *)
Ltac unR := unfold nhalf, nlit, n0, n1, n2 in *; cbn [num nofZ nadd nsub nmul ndiv nneg nabs nsqrt nltb nleb neqb nmin nmax ninf RNum] in *.

(** Split every real comparison in sight into cases. *)
Ltac rcases :=
  repeat match goal with
  | |- context [Rltb ?x ?y] => destruct (Rltb_spec x y)
  | |- context [Rleb ?x ?y] => destruct (Rleb_spec x y)
  | |- context [Reqb ?x ?y] => destruct (Reqb_spec x y)
  end.

#[global] Instance RNumOrd : NumOrd RNum.
Proof.
  refine {| nok := fun _ => True; nfin := fun _ => True |}; unR; intros; auto;
  rewrite ?Rleb_true, ?Rltb_true, ?Rleb_false in *; try lra;
  try (unfold Rmin; destruct Rle_dec; lra);
  try (unfold Rmax; destruct Rle_dec; lra).
  - destruct (Rltb_spec x y), (Rleb_spec y x); auto; lra.
  - destruct (Reqb_spec x y), (Rleb_spec x y), (Rleb_spec y x); auto; simpl; lra.
  - destruct (Rleb_spec (IZR a) (IZR b)) as [h|h], (Z.leb_spec a b) as [k|k]; auto.
    + apply le_IZR in h; lia.
    + apply lt_IZR in h; lia.
  - apply Rmult_le_pos; [apply IZR_le; lia|]. apply Rlt_le, Rinv_0_lt_compat, IZR_lt; lia.
  - apply Rmult_le_pos; auto.
  - apply Rmult_le_pos; lra.
  - apply Rmult_lt_0_compat; [apply IZR_lt; lia|]. apply Rinv_0_lt_compat, IZR_lt; lia.
  - apply Rabs_pos.
  - replace (- x * y) with (- (x * y)) by ring. pose proof (Rmult_le_pos x y). lra.
Defined.
