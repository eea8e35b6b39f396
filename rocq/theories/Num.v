(** Number operations used by the Go code, as a record, with two instances:
    ideal reals and IEEE binary64 (Go's float64).

    Models: Go's built-in float64 operators and the functions math.Min, math.Max,
    math.Abs, math.Sqrt used throughout /repo (e.g. bb.go:61-66, everything.go:307-313)
    and the constant [infinity] of everything.go:12 (math.MaxFloat64). *)
From Coq Require Import ZArith Reals Bool Floats Uint63.

(** The operations.  [nofZ] builds the literals appearing in the source; a literal such as
    0.1 is written [nlit 1 10] (one correctly rounded division, which yields the binary64
    value nearest to the decimal literal because both integers are exact). *)
Class Num := {
  num : Type;
  nofZ : Z -> num;
  nadd : num -> num -> num;
  nsub : num -> num -> num;
  nmul : num -> num -> num;
  ndiv : num -> num -> num;
  nneg : num -> num;
  nabs : num -> num;
  nsqrt : num -> num;
  nltb : num -> num -> bool;
  nleb : num -> num -> bool;
  neqb : num -> num -> bool;
  nmin : num -> num -> num;
  nmax : num -> num -> num;
  ninf : num
}.

Declare Scope num_scope.
Delimit Scope num_scope with num.
Infix "+" := nadd : num_scope.
Infix "-" := nsub : num_scope.
Infix "*" := nmul : num_scope.
Infix "/" := ndiv : num_scope.
Notation "- x" := (nneg x) : num_scope.
Infix "<?" := nltb : num_scope.
Infix "<=?" := nleb : num_scope.
Infix "=?" := neqb : num_scope.
Bind Scope num_scope with num.

Definition n0 {N : Num} : num := nofZ 0.
Definition n1 {N : Num} : num := nofZ 1.
Definition n2 {N : Num} : num := nofZ 2.
Definition nlit {N : Num} (p q : Z) : num := ndiv (nofZ p) (nofZ q).
(* literal 0.5 *)
Definition nhalf {N : Num} : num := nlit 1 2.

(** ** Ideal real arithmetic *)
Section RInstance.
Local Open Scope R_scope.
Definition Rltb (x y : R) : bool := if Rlt_dec x y then true else false.
Definition Rleb (x y : R) : bool := if Rle_dec x y then true else false.
Definition Reqb (x y : R) : bool := if Req_EM_T x y then true else false.
(* math.MaxFloat64 = (2^53-1) * 2^971; everything.go:12 *)
Definition RMaxFloat : R := IZR ((2 ^ 53 - 1) * 2 ^ 971).
End RInstance.

#[global] Instance RNum : Num := {|
  num := R; nofZ := IZR; nadd := Rplus; nsub := Rminus; nmul := Rmult; ndiv := Rdiv;
  nneg := Ropp; nabs := Rabs; nsqrt := R_sqrt.sqrt;
  nltb := Rltb; nleb := Rleb; neqb := Reqb; nmin := Rmin; nmax := Rmax; ninf := RMaxFloat |}.

(** ** IEEE binary64 *)
Section FInstance.
Local Open Scope float_scope.
(* integer literal to float64 (exact below 2^53, the only use in the model) *)
Definition FofZ (z : Z) : float :=
  match z with
  | Z0 => 0
  | Zpos p => PrimFloat.of_uint63 (Uint63.of_Z (Zpos p))
  | Zneg p => - PrimFloat.of_uint63 (Uint63.of_Z (Zpos p))
  end.
(* math.Min: -Inf wins, then NaN propagates, Min(-0,+0) = -0 *)
Definition Fmin (x y : float) : float :=
  if PrimFloat.eqb x neg_infinity then x
  else if PrimFloat.eqb y neg_infinity then y
  else if PrimFloat.is_nan x then nan
  else if PrimFloat.is_nan y then nan
  else if PrimFloat.eqb x 0 && PrimFloat.eqb y 0 then (if PrimFloat.get_sign x then x else y)
  else if PrimFloat.ltb x y then x else y.
(* math.Max: +Inf wins, then NaN propagates, Max(-0,+0) = +0 *)
Definition Fmax (x y : float) : float :=
  if PrimFloat.eqb x infinity then x
  else if PrimFloat.eqb y infinity then y
  else if PrimFloat.is_nan x then nan
  else if PrimFloat.is_nan y then nan
  else if PrimFloat.eqb x 0 && PrimFloat.eqb y 0 then (if PrimFloat.get_sign x then y else x)
  else if PrimFloat.ltb y x then x else y.
(* math.MaxFloat64; everything.go:12 *)
Definition FMaxFloat : float := 0x1.fffffffffffffp+1023.
End FInstance.

Definition FNum : Num := {|
  num := float; nofZ := FofZ; nadd := PrimFloat.add; nsub := PrimFloat.sub;
  nmul := PrimFloat.mul; ndiv := PrimFloat.div; nneg := PrimFloat.opp;
  nabs := PrimFloat.abs; nsqrt := PrimFloat.sqrt;
  nltb := PrimFloat.ltb; nleb := PrimFloat.leb; neqb := PrimFloat.eqb;
  nmin := Fmin; nmax := Fmax; ninf := FMaxFloat |}.

(** ** Order laws
    [nok x]: x is not NaN.  [nfin x]: x is neither NaN nor an infinity. *)
Class NumOrd (N : Num) := {
  nok : num -> Prop;
  nfin : num -> Prop;
  nfin_ok : forall x, nfin x -> nok x;
  nleb_ok : forall x y, nleb x y = true -> nok x /\ nok y;
  nleb_refl : forall x, nok x -> nleb x x = true;
  nleb_trans : forall x y z, nleb x y = true -> nleb y z = true -> nleb x z = true;
  nleb_total : forall x y, nok x -> nok y -> nleb x y = true \/ nleb y x = true;
  nltb_nleb : forall x y, nok x -> nok y -> nltb x y = negb (nleb y x);
  nltb_ok : forall x y, nltb x y = true -> nok x /\ nok y;
  neqb_nleb : forall x y, nok x -> nok y -> neqb x y = nleb x y && nleb y x;
  nmin_ok : forall x y, nok x -> nok y -> nok (nmin x y);
  nmin_l : forall x y, nok x -> nok y -> nleb (nmin x y) x = true;
  nmin_r : forall x y, nok x -> nok y -> nleb (nmin x y) y = true;
  nmin_glb : forall x y z, nleb z x = true -> nleb z y = true -> nleb z (nmin x y) = true;
  nmax_ok : forall x y, nok x -> nok y -> nok (nmax x y);
  nmax_l : forall x y, nok x -> nok y -> nleb x (nmax x y) = true;
  nmax_r : forall x y, nok x -> nok y -> nleb y (nmax x y) = true;
  nmax_lub : forall x y z, nleb x z = true -> nleb y z = true -> nleb (nmax x y) z = true;
  nofZ_fin : forall z, (-1000000 <= z <= 1000000)%Z -> nfin (nofZ z);
  nofZ_le : forall a b, (-1000000 <= a <= 1000000)%Z -> (-1000000 <= b <= 1000000)%Z ->
     nleb (nofZ a) (nofZ b) = Z.leb a b;
  nlit_fin : forall p q, (-1000000 <= p <= 1000000)%Z -> (1 <= q <= 1000000)%Z -> nfin (nlit p q);
  nlit_pos : forall p q, (0 <= p <= 1000000)%Z -> (1 <= q <= 1000000)%Z -> nleb n0 (nlit p q) = true;
  nneg_ok : forall x, nok x -> nok (nneg x);
  nneg_fin : forall x, nfin x -> nfin (nneg x);
  nneg_le : forall x y, nleb x y = true -> nleb (nneg y) (nneg x) = true;
  nneg_0 : nleb (nneg n0) n0 = true /\ nleb n0 (nneg n0) = true;
  nadd_nonpos : forall x y, nfin x -> nleb y n0 = true -> nleb (nadd x y) x = true;
  nadd_nonneg : forall x y, nfin x -> nleb n0 y = true -> nleb x (nadd x y) = true;
  nsub_nonneg : forall x y, nfin x -> nfin y -> nleb x y = true -> nleb n0 (nsub y x) = true;
  nsub_lt : forall x y, nfin x -> nfin y -> nleb x y = false -> nleb (nsub y x) n0 = true;
  nmul_fin_ok : forall x y, nfin x -> nfin y -> nok (nmul x y);
  nmul_nonneg : forall x y, nfin x -> nfin y -> nleb n0 x = true -> nleb n0 y = true ->
     nleb n0 (nmul x y) = true;
  nmul_pos_nonneg : forall x y, nleb n0 x = true -> nfin y -> nltb n0 y = true ->
     nleb n0 (nmul x y) = true;
  nlit_gt0 : forall p q, (1 <= p <= 1000000)%Z -> (1 <= q <= 1000000)%Z -> nltb n0 (nlit p q) = true;
  nabs_ok : forall x, nok x -> nok (nabs x);
  nabs_nonneg : forall x, nok x -> nleb n0 (nabs x) = true;
  ninf_fin : nfin ninf;
  nmax_r_ok : forall x y, nok y -> nok (nmax x y) -> nleb y (nmax x y) = true;
  nmul_neg_nonpos : forall x y, nfin x -> nfin y -> nleb n0 x = true -> nleb n0 y = true ->
     nleb (nmul (nneg x) y) n0 = true
}.
