(** Where the contour of MarchSoft runs, over the reals (for C50). *)
From Coq Require Import ZArith Reals List Bool Lia PeanoNat Lra Psatz Floats.
From Verif Require Import Num NumReal NumFloat Vec BB VecReal March MarchSpec MarchMain.
Import ListNotations.

(** every end of a segment is the vertex of a crossed edge *)
Section Ends.
Context {Nm : Num}.
Variables (sample : vec -> num) (bb : bb) (t : num) (xs ys : nat).
Local Notation crossed := (crossed sample bb t xs ys).
Local Notation vertex := (vertex true sample bb t xs ys).
Lemma in_seg (u v : vec) s : In s (seg u v) -> s = (v, u).
Proof. unfold seg. destruct (veqb u v); intros []; [auto|contradiction]. Qed.
Definition proper (p : vec) : Prop := exists e, edge_ok xs ys e /\ crossed e = true /\ p = vertex e.
Lemma soft_cell_ends i j s : (S i < xs)%nat -> (S j < ys)%nat -> In s (cell_at soft sample bb t xs ys i j) -> proper (fst s) /\ proper (snd s).
Proof.
  intros I J. unfold cell_at, soft.
  assert (L : crossed (false, i, j) = true -> proper (vertex (false, i, j))) by (intros C; eexists; split; [|split; [exact C|reflexivity]]; cbn; lia).
  assert (R : crossed (false, S i, j) = true -> proper (vertex (false, S i, j))) by (intros C; eexists; split; [|split; [exact C|reflexivity]]; cbn; lia).
  assert (B : crossed (true, i, j) = true -> proper (vertex (true, i, j))) by (intros C; eexists; split; [|split; [exact C|reflexivity]]; cbn; lia).
  assert (T : crossed (true, i, S j) = true -> proper (vertex (true, i, S j))) by (intros C; eexists; split; [|split; [exact C|reflexivity]]; cbn; lia).
  unfold crossed, inside in L, R, B, T. cbn [vertex] in L, R, B, T.
  destruct (nltb t (value _ _ _ _ (S i) (S j))), (nltb t (value _ _ _ _ i (S j))), (nltb t (value _ _ _ _ (S i) j)), (nltb t (value _ _ _ _ i j)); intros H; try destruct H;
    try (apply in_app_or in H as [H|H]); apply in_seg in H; subst s; cbn [fst snd]; auto.
Qed.
Lemma soft_ends ss s : march_soft sample bb t xs ys = Some ss -> In s ss -> proper (fst s) /\ proper (snd s).
Proof.
  intros M H. pose proof (march_out true sample bb t xs ys ss M) as E. rewrite E in H.
  apply in_flat_map in H as (j & J & H). apply in_flat_map in H as (i & I & H). apply in_seq in I, J. eapply soft_cell_ends; [| |exact H]; lia.
Qed.
End Ends.

Section Real.
Local Open Scope R_scope.
Local Notation rvec := (@vec RNum).
(** the crossing of an edge is the point where linear interpolation gives the threshold *)
Lemma interpolated (x0 x1 s0 s1 t : R) : xorb (Rltb t s0) (Rltb t s1) = true ->
  exists u, 0 <= u <= 1 /\ @midlerp RNum x0 x1 s0 s1 t = x0 * (1 - u) + x1 * u /\ s0 * (1 - u) + s1 * u = t.
Proof.
  intros H. exists ((t - s0) / (s1 - s0)). assert (D : s1 - s0 <> 0 /\ 0 <= (t - s0) / (s1 - s0) <= 1).
  { destruct (Rltb_spec t s0) as [A|A], (Rltb_spec t s1) as [B|B]; try discriminate.
    - split; [lra|]. replace ((t - s0) / (s1 - s0)) with ((s0 - t) / (s0 - s1)) by (field; lra). split.
      + apply Rmult_le_pos; [lra|]. apply Rlt_le, Rinv_0_lt_compat. lra.
      + apply Rmult_le_reg_r with (s0 - s1); [lra|]. unfold Rdiv. rewrite Rmult_assoc, Rinv_l by lra. lra.
    - split; [lra|]. split.
      + apply Rmult_le_pos; [lra|]. apply Rlt_le, Rinv_0_lt_compat. lra.
      + apply Rmult_le_reg_r with (s1 - s0); [lra|]. unfold Rdiv. rewrite Rmult_assoc, Rinv_l by lra. lra. }
  destruct D as [D B]. split; auto. split; [reflexivity|]. field. lra.
Qed.

(** ** On which side *)
Section Cell.
Variables (t a b c d x0 x1 y0 y1 : R).
Definition corner (q : bool * bool) : rvec := V (if fst q then x1 else x0) (if snd q then y1 else y0).
Definition worth (q : bool * bool) : R := match q with (false, false) => a | (true, false) => b | (false, true) => c | (true, true) => d end.
Definition beside (p q : bool * bool) : Prop := fst p = fst q /\ snd p <> snd q \/ fst p <> fst q /\ snd p = snd q.
(** w, on the directed segment from u to v, lies on an edge of the cell whose end above the threshold is to the left of the segment
    (or on its line) and whose other end is to the right *)
Definition guided (u v w : rvec) : Prop := exists p q, beside p q /\ t < worth p /\ worth q <= t /\
  (exists k, 0 <= k <= 1 /\ w = vlerp (corner p) (corner q) k /\ worth p * (1 - k) + worth q * k = t) /\
  0 <= vcross (vsub v u) (vsub (corner p) u) /\ vcross (vsub v u) (vsub (corner q) u) <= 0.
Hypothesis (Hx : x0 <= x1) (Hy : y0 <= y1).
Ltac guide p q := exists p, q; split; [unfold beside; cbn; (left; split; [reflexivity|discriminate]) || (right; split; [discriminate|reflexivity])|]; split; [cbn; lra|]; split; [cbn; lra|].
Ltac mix := match goal with
  | U : 0 <= ?u <= 1 |- exists k, _ => exists u; split; [exact U|]; split; [unfold corner, vlerp; cbn [fst snd]; unV; f_equal; ring|cbn; lra]
  | U : 0 <= ?u <= 1 |- exists k, _ => exists (1 - u); split; [lra|]; split; [unfold corner, vlerp; cbn [fst snd]; unV; f_equal; ring|cbn; lra]
  end.
Ltac sides := unfold corner; cbn [fst snd]; unV; lra.
Ltac fin := split; [mix|]; split; sides.
Ltac solve_guide := first
  [guide (false, false) (true, false); fin|guide (true, false) (false, false); fin|guide (false, true) (true, true); fin|guide (true, true) (false, true); fin
  |guide (false, false) (false, true); fin|guide (false, true) (false, false); fin|guide (true, false) (true, true); fin|guide (true, true) (true, false); fin].
Lemma edge_cross (p0 p1 s0 s1 : R) : xorb (Rltb t s0) (Rltb t s1) = true -> exists u, 0 <= u <= 1 /\ @midlerp RNum p0 p1 s0 s1 t = p0 + (p1 - p0) * u /\ s0 * (1 - u) + s1 * u = t.
Proof. intros H. destruct (interpolated p0 p1 s0 s1 t H) as (u & U & E & F). exists u. split; auto. split; auto. rewrite E. unR. lra. Qed.
Lemma soft_sides s : In s (@soft RNum t a b c d x0 x1 y0 y1) -> guided (fst s) (snd s) (fst s) /\ guided (fst s) (snd s) (snd s).
Proof.
  unfold soft. cbn [nltb RNum].
  pose proof (edge_cross x0 x1 a b) as B. pose proof (edge_cross x0 x1 c d) as T. pose proof (edge_cross y0 y1 a c) as L. pose proof (edge_cross y0 y1 b d) as R.
  destruct (Rltb t d) eqn:Ed, (Rltb t c) eqn:Ec, (Rltb t b) eqn:Eb, (Rltb t a) eqn:Ea; intros H; try destruct H; cbn [xorb] in B, T, L, R;
    repeat match goal with H : false = true -> _ |- _ => clear H | H : true = true -> _ |- _ => destruct (H eq_refl) as (? & ? & ? & ?); clear H end;
    repeat match goal with H : Rltb _ _ = true |- _ => apply Rltb_true in H | H : Rltb _ _ = false |- _ => apply Rltb_false in H end;
    try (apply in_app_or in H as [H|H]); apply in_seg in H; subst s; cbn [fst snd];
    repeat match goal with H : midlerp _ _ _ _ _ = _ |- _ => rewrite H; clear H end.
  all: pose proof (Rmult_le_pos (x1 - x0) (y1 - y0) ltac:(lra) ltac:(lra)) as A;
    repeat match goal with U : 0 <= ?u <= 1 |- ?g => lazymatch g with context [u] => fail | _ => clear U end end;
    match goal with U : 0 <= ?u <= 1, W : 0 <= ?w <= 1 |- _ => lazymatch u with w => fail | _ =>
      pose proof (Rmult_le_pos _ _ A (Rmult_le_pos u w (proj1 U) (proj1 W))); pose proof (Rmult_le_pos _ _ A (Rmult_le_pos u (1 - w) (proj1 U) ltac:(lra)));
      pose proof (Rmult_le_pos _ _ A (Rmult_le_pos (1 - u) w ltac:(lra) (proj1 W))); pose proof (Rmult_le_pos _ _ A (Rmult_le_pos (1 - u) (1 - w) ltac:(lra) ltac:(lra))) end end.
  all: split; solve_guide.
Qed.
End Cell.
End Real.
