(** Proofs for C50. *)
From Coq Require Import ZArith Reals List Bool Lia PeanoNat Floats Lra Psatz.
From Verif Require Import Num NumReal NumFloat Vec BB VecReal March MarchSpec.
Import ListNotations.

(** ** Equality of numbers *)
Lemma per_real : per RNum.
Proof.
  split; intros; cbn in *; unfold Reqb in *.
  - destruct (Req_EM_T x y), (Req_EM_T y x); congruence.
  - destruct (Req_EM_T x y), (Req_EM_T y z), (Req_EM_T x z); congruence.
Qed.
Lemma feqb_ok x y : PrimFloat.eqb x y = true -> Fok x /\ Fok y.
Proof.
  rewrite !Fok_B, Flocq.IEEE754.PrimFloat.eqb_equiv.
  destruct (Flocq.IEEE754.PrimFloat.Prim2B x) as [| | |], (Flocq.IEEE754.PrimFloat.Prim2B y) as [| | |]; cbn; try discriminate; auto.
Qed.
Lemma per_float : per FNum.
Proof.
  split.
  - intros x y. change (PrimFloat.eqb x y = PrimFloat.eqb y x).
    destruct (PrimFloat.eqb x y) eqn:E, (PrimFloat.eqb y x) eqn:F; auto.
    + destruct (feqb_ok _ _ E) as [H K]. apply Feqb_FE in E; auto. symmetry in E. apply Feqb_FE in E; congruence.
    + destruct (feqb_ok _ _ F) as [H K]. apply Feqb_FE in F; auto. symmetry in F. apply Feqb_FE in F; congruence.
  - intros x y z. change (PrimFloat.eqb x y = true -> PrimFloat.eqb y z = true -> PrimFloat.eqb x z = true). intros E F.
    destruct (feqb_ok _ _ E) as [H K]. destruct (feqb_ok _ _ F) as [_ L]. apply Feqb_FE in E, F; auto. apply Feqb_FE; auto. congruence.
Qed.

Section Any.
Context {Nm : Num}.
Hypothesis P : per Nm.
Lemma veqb_sym (u v : vec) : veqb u v = veqb v u.
Proof. destruct P as [S _]. unfold veqb. now rewrite (S (vx u)), (S (vy u)). Qed.
Lemma veqb_trans (u v w : vec) : veqb u v = true -> veqb v w = true -> veqb u w = true.
Proof. destruct P as [_ T]. unfold veqb. rewrite !andb_true_iff. intros [] []; split; eauto. Qed.
Lemma veqb_same (p u v : vec) : veqb u v = true -> veqb p u = veqb p v.
Proof.
  intros E. destruct (veqb p u) eqn:A, (veqb p v) eqn:B; auto.
  - rewrite (veqb_trans _ _ _ A E) in B. discriminate.
  - rewrite veqb_sym in E. rewrite (veqb_trans _ _ _ B E) in A. discriminate.
Qed.

(** ** Counting *)
Local Open Scope Z_scope.
Definition at_ (p v : vec) : Z := if veqb p v then 1 else 0.
Definition zs (p : vec) ss : Z := Z.of_nat (starts p ss).
Definition ze (p : vec) ss : Z := Z.of_nat (ends p ss).
Lemma zs_app p a b : zs p (a ++ b) = zs p a + zs p b.
Proof. unfold zs, starts. rewrite filter_app, app_length. lia. Qed.
Lemma ze_app p a b : ze p (a ++ b) = ze p a + ze p b.
Proof. unfold ze, ends. rewrite filter_app, app_length. lia. Qed.
Lemma zs_nil p : zs p [] = 0. Proof. reflexivity. Qed.
Lemma ze_nil p : ze p [] = 0. Proof. reflexivity. Qed.
(* the balance of one segment *)
Lemma seg_balance p u v : zs p (seg u v) - ze p (seg u v) = at_ p v - at_ p u.
Proof.
  unfold seg, zs, ze, starts, ends, at_. destruct (veqb u v) eqn:E.
  - rewrite (veqb_same p _ _ E). cbn. destruct (veqb p v); reflexivity.
  - cbn. destruct (veqb p v), (veqb p u); reflexivity.
Qed.
Lemma segs_balance p u m v : zs p (segs u m v) - ze p (segs u m v) = at_ p v - at_ p u.
Proof. unfold segs. rewrite zs_app, ze_app. pose proof (seg_balance p m v). pose proof (seg_balance p u m). lia. Qed.
Lemma seg_total p u v : ~ (veqb p u = true /\ veqb p v = true) -> zs p (seg u v) = at_ p v /\ ze p (seg u v) = at_ p u.
Proof.
  unfold seg, zs, ze, starts, ends, at_. destruct (veqb u v) eqn:E.
  - rewrite <- (veqb_same p _ _ E). cbn. destruct (veqb p u) eqn:F; [|auto]. intros H. exfalso. apply H. split; auto.
  - cbn. destruct (veqb p v), (veqb p u); auto.
Qed.
Lemma segs_total p u m v : veqb p m = false -> zs p (segs u m v) = at_ p v /\ ze p (segs u m v) = at_ p u.
Proof.
  intros H. unfold segs. rewrite zs_app, ze_app. destruct (seg_total p m v) as [A B]; [intros []; congruence|]. destruct (seg_total p u m) as [C D]; [intros []; congruence|].
  rewrite A, B, C, D. unfold at_. rewrite H. lia.
Qed.

(** ** One cell *)
Definition b2z (b : bool) : Z := if b then 1 else 0.
Definition flux (u v : bool) : Z := b2z u - b2z v.
Lemma soft_balance p (t a b c d x0 x1 y0 y1 : num) : let ss := soft t a b c d x0 x1 y0 y1 in
  zs p ss - ze p ss = at_ p (V (midlerp x0 x1 a b t) y0) * flux (nltb t a) (nltb t b) - at_ p (V x0 (midlerp y0 y1 a c t)) * flux (nltb t a) (nltb t c)
     + at_ p (V x1 (midlerp y0 y1 b d t)) * flux (nltb t b) (nltb t d) - at_ p (V (midlerp x0 x1 c d t) y1) * flux (nltb t c) (nltb t d).
Proof.
  cbv zeta. unfold soft.
  set (l := V x0 _). set (r := V x1 _). set (bo := V _ y0). set (to := V _ y1).
  destruct (nltb t d), (nltb t c), (nltb t b), (nltb t a); unfold flux, b2z; rewrite ?zs_app, ?ze_app, ?zs_nil, ?ze_nil;
    repeat match goal with |- context [zs p (seg ?u ?v)] => let H := fresh in pose proof (seg_balance p u v) as H; set (zs p (seg u v)) in *; set (ze p (seg u v)) in * end; lia.
Qed.
Lemma hard_balance p (t a b c d x0 x1 y0 y1 : num) : let ss := hard t a b c d x0 x1 y0 y1 in let xm := lerp x0 x1 nhalf in let ym := lerp y0 y1 nhalf in
  zs p ss - ze p ss = at_ p (V xm y0) * flux (nltb t a) (nltb t b) - at_ p (V x0 ym) * flux (nltb t a) (nltb t c)
     + at_ p (V x1 ym) * flux (nltb t b) (nltb t d) - at_ p (V xm y1) * flux (nltb t c) (nltb t d).
Proof.
  cbv zeta. unfold hard.
  set (xm := lerp x0 x1 nhalf). set (ym := lerp y0 y1 nhalf). set (l := V x0 _). set (r := V x1 _). set (bo := V _ y0). set (to := V _ y1). set (m := V xm ym).
  destruct (nltb t d), (nltb t c), (nltb t b), (nltb t a); unfold flux, b2z; rewrite ?zs_app, ?ze_app, ?zs_nil, ?ze_nil;
    repeat match goal with |- context [zs p (seg ?u ?v)] => let H := fresh in pose proof (seg_balance p u v) as H; set (zs p (seg u v)) in *; set (ze p (seg u v)) in *
    | |- context [zs p (segs ?u ?m ?v)] => let H := fresh in pose proof (segs_balance p u m v) as H; set (zs p (segs u m v)) in *; set (ze p (segs u m v)) in * end; lia.
Qed.
(* how many starts and ends together, when no two crossings of the cell coincide at p *)
Definition few (a b c d : Z) : Prop := a + b + c + d <= 1.
Lemma soft_total p (t a b c d x0 x1 y0 y1 : num) : let ss := soft t a b c d x0 x1 y0 y1 in
  let B := at_ p (V (midlerp x0 x1 a b t) y0) * b2z (xorb (nltb t a) (nltb t b)) in let L := at_ p (V x0 (midlerp y0 y1 a c t)) * b2z (xorb (nltb t a) (nltb t c)) in
  let R := at_ p (V x1 (midlerp y0 y1 b d t)) * b2z (xorb (nltb t b) (nltb t d)) in let T := at_ p (V (midlerp x0 x1 c d t) y1) * b2z (xorb (nltb t c) (nltb t d)) in
  B + L + R + T <= 1 -> zs p ss + ze p ss = B + L + R + T.
Proof.
  cbv zeta. unfold soft.
  set (l := V x0 _). set (r := V x1 _). set (bo := V _ y0). set (to := V _ y1).
  destruct (nltb t d), (nltb t c), (nltb t b), (nltb t a); cbn [xorb b2z negb]; rewrite ?zs_app, ?ze_app, ?zs_nil, ?ze_nil; intros F;
    repeat match goal with |- context [zs p (seg ?u ?v)] => let A := fresh in let B := fresh in destruct (seg_total p u v) as [A B];
      [intros [? ?]; unfold at_ in F; repeat match goal with H : veqb _ _ = true |- _ => rewrite H in F; clear H end; repeat match type of F with context [veqb p ?v] => destruct (veqb p v) end; lia
      |rewrite A, B; clear A B] end; lia.
Qed.
Lemma hard_total p (t a b c d x0 x1 y0 y1 : num) : let ss := hard t a b c d x0 x1 y0 y1 in let xm := lerp x0 x1 nhalf in let ym := lerp y0 y1 nhalf in
  let B := at_ p (V xm y0) * b2z (xorb (nltb t a) (nltb t b)) in let L := at_ p (V x0 ym) * b2z (xorb (nltb t a) (nltb t c)) in
  let R := at_ p (V x1 ym) * b2z (xorb (nltb t b) (nltb t d)) in let T := at_ p (V xm y1) * b2z (xorb (nltb t c) (nltb t d)) in
  veqb p (V xm ym) = false -> B + L + R + T <= 1 -> zs p ss + ze p ss = B + L + R + T.
Proof.
  cbv zeta. unfold hard.
  set (xm := lerp x0 x1 nhalf). set (ym := lerp y0 y1 nhalf). set (l := V x0 _). set (r := V x1 _). set (bo := V _ y0). set (to := V _ y1). set (m := V xm ym). intros M.
  destruct (nltb t d), (nltb t c), (nltb t b), (nltb t a); cbn [xorb b2z negb]; rewrite ?zs_app, ?ze_app, ?zs_nil, ?ze_nil; intros F;
    repeat match goal with |- context [zs p (segs ?u ?m ?v)] => let A := fresh in let B := fresh in destruct (segs_total p u m v M) as [A B]; rewrite A, B; clear A B
    | |- context [zs p (seg ?u ?v)] => let A := fresh in let B := fresh in destruct (seg_total p u v) as [A B];
      [intros [? ?]; unfold at_ in F; repeat match goal with H : veqb _ _ = true |- _ => rewrite H in F; clear H end; repeat match type of F with context [veqb p ?v] => destruct (veqb p v) end; lia
      |rewrite A, B; clear A B] end; lia.
Qed.

(** ** The grid *)
Section Grid.
Variables (cell : @cell_fun Nm) (sample : vec -> num) (bb : bb) (t : num) (xs ys : nat).
Local Notation value := (value sample bb xs ys).
Local Notation xa := (xat bb xs).
Local Notation ya := (yat bb ys).
Definition cell_at (i j : nat) : list (vec * vec) :=
  cell t (value i j) (value (S i) j) (value i (S j)) (value (S i) (S j)) (xa i) (xa (S i)) (ya j) (ya (S j)).
Lemma row_is j m : forall i b d, b = value i j -> d = value i (S j) ->
  row cell sample bb t xs (ya j) (ya (S j)) i b d (map (fun k => value k j) (seq (S i) m)) =
  (map (fun k => value k (S j)) (seq (S i) m), flat_map (fun k => cell_at k j) (seq i m)).
Proof.
  induction m as [|m IH]; intros i b d -> ->; [reflexivity|]. cbn [seq map row flat_map].
  rewrite (IH (S i) (value (S i) j)); [|reflexivity|reflexivity]. reflexivity.
Qed.
Lemma rows_is n : forall j, rows cell sample bb t xs ys n j (map (fun k => value k j) (seq 0 (S (xs - 1)))) =
  Some (flat_map (fun l => flat_map (fun k => cell_at k l) (seq 0 (xs - 1))) (seq j n)).
Proof.
  induction n as [|n IH]; intros j; [reflexivity|]. cbn [rows]. change (seq 0 (S (xs - 1))) with (0%nat :: seq 1 (xs - 1)). cbn [map].
  rewrite row_is; [|reflexivity|reflexivity].
  change (sample (V (bL bb) (ya (S j))) :: map (fun k => value k (S j)) (seq 1 (xs - 1))) with (map (fun k => value k (S j)) (seq 0 (S (xs - 1)))).
  rewrite IH. reflexivity.
Qed.
Lemma march_is : (ys <= 1 \/ 1 <= xs)%nat -> march cell sample bb t xs ys = Some (flat_map (fun l => flat_map (fun k => cell_at k l) (seq 0 (xs - 1))) (seq 0 (ys - 1))).
Proof.
  intros H. unfold march. destruct (Nat.eq_dec xs 0) as [E|E].
  - replace (ys - 1)%nat with 0%nat by lia. reflexivity.
  - replace (seq 0 xs) with (seq 0 (S (xs - 1))) by (f_equal; lia). rewrite (map_ext _ (fun k => value k 0)); [apply rows_is|]. intros [|i]; reflexivity.
Qed.
Lemma march_panics : (1 < ys)%nat -> xs = 0%nat -> march cell sample bb t xs ys = None.
Proof. intros H ->. unfold march. destruct (ys - 1)%nat eqn:E; [lia|]. reflexivity. Qed.
End Grid.

Fixpoint zsum (f : nat -> Z) (n : nat) : Z := match n with O => 0 | S n => zsum f n + f n end.
Lemma zsum_ext f g n : (forall i, (i < n)%nat -> f i = g i) -> zsum f n = zsum g n.
Proof. induction n as [|n IH]; intros H; [reflexivity|]. cbn. rewrite IH, H by (intros; try apply H; lia). reflexivity. Qed.
Lemma zsum_add f g n : zsum (fun i => f i + g i) n = zsum f n + zsum g n.
Proof. induction n as [|n IH]; [reflexivity|]. cbn. lia. Qed.
Lemma zsum_sub f g n : zsum (fun i => f i - g i) n = zsum f n - zsum g n.
Proof. induction n as [|n IH]; [reflexivity|]. cbn. lia. Qed.
Lemma zsum_tele f n : zsum (fun i => f (S i) - f i) n = f n - f 0%nat.
Proof. induction n as [|n IH]; [cbn; lia|]. cbn. lia. Qed.
Lemma zsum_zero f n : (forall i, (i < n)%nat -> f i = 0) -> zsum f n = 0.
Proof. induction n as [|n IH]; intros H; [reflexivity|]. cbn. rewrite IH, H by (intros; try apply H; lia). reflexivity. Qed.
Lemma zsum_swap (f : nat -> nat -> Z) n m : zsum (fun i => zsum (fun j => f i j) m) n = zsum (fun j => zsum (fun i => f i j) n) m.
Proof. induction n as [|n IH]; [cbn; now rewrite zsum_zero by auto|]. cbn. rewrite IH, <- zsum_add. apply zsum_ext. intros; reflexivity. Qed.
Lemma zsum_nonneg f n : (forall i, (i < n)%nat -> 0 <= f i) -> 0 <= zsum f n.
Proof. induction n as [|n IH]; intros H; [cbn; lia|]. cbn. specialize (IH (fun i Hi => H i (Nat.lt_lt_succ_r _ _ Hi))). specialize (H n (Nat.lt_succ_diag_r n)). lia. Qed.
Lemma zsum_le f n k : (forall i, (i < n)%nat -> 0 <= f i) -> (k < n)%nat -> f k <= zsum f n.
Proof.
  induction n as [|n IH]; intros H K; [lia|]. cbn. assert (N : 0 <= f n) by (apply H; lia).
  destruct (Nat.eq_dec k n) as [->|E]; [pose proof (zsum_nonneg f n (fun i Hi => H i (Nat.lt_lt_succ_r _ _ Hi))); lia|].
  assert (f k <= zsum f n) by (apply IH; [intros; apply H; lia|lia]). lia.
Qed.
Lemma zsum_le2 f n k l : (forall i, (i < n)%nat -> 0 <= f i) -> (k < n)%nat -> (l < n)%nat -> k <> l -> f k + f l <= zsum f n.
Proof.
  induction n as [|n IH]; intros H K L D; [lia|]. cbn. assert (N : 0 <= f n) by (apply H; lia). assert (H' : forall i, (i < n)%nat -> 0 <= f i) by (intros; apply H; lia).
  destruct (Nat.eq_dec k n) as [->|E]; [pose proof (zsum_le f n l H'); lia|]. destruct (Nat.eq_dec l n) as [->|F]; [pose proof (zsum_le f n k H'); lia|].
  pose proof (IH H'). lia.
Qed.
Lemma zs_flat p (f : nat -> list (vec * vec)) n : zs p (flat_map f (seq 0 n)) = zsum (fun i => zs p (f i)) n.
Proof. induction n as [|n IH]; [reflexivity|]. rewrite seq_S, flat_map_app, zs_app, IH. cbn. rewrite app_nil_r. reflexivity. Qed.
Lemma ze_flat p (f : nat -> list (vec * vec)) n : ze p (flat_map f (seq 0 n)) = zsum (fun i => ze p (f i)) n.
Proof. induction n as [|n IH]; [reflexivity|]. rewrite seq_S, flat_map_app, ze_app, IH. cbn. rewrite app_nil_r. reflexivity. Qed.
Lemma at_nonneg p v : 0 <= at_ p v. Proof. unfold at_. destruct (veqb p v); lia. Qed.

(* both kinds of cells *)
Section Both.
Variables (k : bool) (sample : vec -> num) (bb : bb) (t : num) (xs ys : nat).
Local Notation cell := (if k then soft else hard).
Local Notation inside := (inside sample bb t xs ys).
Local Notation crossed := (crossed sample bb t xs ys).
Local Notation vertex := (vertex k sample bb t xs ys).
Local Notation middle := (middle bb xs ys).
(* signed and unsigned number of contour points at p on an edge *)
Definition hf (p : vec) (i j : nat) : Z := at_ p (vertex (true, i, j)) * flux (inside i j) (inside (S i) j).
Definition vf (p : vec) (i j : nat) : Z := at_ p (vertex (false, i, j)) * flux (inside i j) (inside i (S j)).
Definition hc (p : vec) (i j : nat) : Z := at_ p (vertex (true, i, j)) * b2z (crossed (true, i, j)).
Definition vc (p : vec) (i j : nat) : Z := at_ p (vertex (false, i, j)) * b2z (crossed (false, i, j)).
Lemma cell_balance p i j : let ss := cell_at cell sample bb t xs ys i j in zs p ss - ze p ss = hf p i j - vf p i j + vf p (S i) j - hf p i (S j).
Proof. cbv zeta. unfold cell_at, hf, vf, vertex, inside. destruct k; [apply soft_balance|apply hard_balance]. Qed.
Lemma cell_total p i j : let ss := cell_at cell sample bb t xs ys i j in (k = false -> veqb p (middle i j) = false) ->
  hc p i j + vc p i j + vc p (S i) j + hc p i (S j) <= 1 -> zs p ss + ze p ss = hc p i j + vc p i j + vc p (S i) j + hc p i (S j).
Proof.
  cbv zeta. unfold cell_at, hc, vc, vertex, crossed, inside. destruct k; intros H; [apply soft_total|apply hard_total].
  apply H. reflexivity.
Qed.
Lemma hc_nonneg p i j : 0 <= hc p i j.
Proof. unfold hc. pose proof (at_nonneg p (vertex (true, i, j))). destruct (crossed (true, i, j)); cbn [b2z]; lia. Qed.
Lemma vc_nonneg p i j : 0 <= vc p i j.
Proof. unfold vc. pose proof (at_nonneg p (vertex (false, i, j))). destruct (crossed (false, i, j)); cbn [b2z]; lia. Qed.
Lemma hc_pos p i j : veqb p (vertex (true, i, j)) = true -> crossed (true, i, j) = true -> hc p i j = 1.
Proof. intros A B. unfold hc, at_. now rewrite A, B. Qed.
Lemma vc_pos p i j : veqb p (vertex (false, i, j)) = true -> crossed (false, i, j) = true -> vc p i j = 1.
Proof. intros A B. unfold vc, at_. now rewrite A, B. Qed.
Lemma h_zero p i j : ~ (crossed (true, i, j) = true /\ veqb p (vertex (true, i, j)) = true) -> hc p i j = 0 /\ hf p i j = 0.
Proof.
  unfold hc, hf, crossed, at_. intros H. destruct (veqb p _); [|lia]. destruct (inside i j), (inside (S i) j); cbn in *; try lia; exfalso; apply H; auto.
Qed.
Lemma v_zero p i j : ~ (crossed (false, i, j) = true /\ veqb p (vertex (false, i, j)) = true) -> vc p i j = 0 /\ vf p i j = 0.
Proof.
  unfold vc, vf, crossed, at_. intros H. destruct (veqb p _); [|lia]. destruct (inside i j), (inside i (S j)); cbn in *; try lia; exfalso; apply H; auto.
Qed.

Variable ss : list (vec * vec).
Hypothesis M : march cell sample bb t xs ys = Some ss.
Lemma march_out : ss = flat_map (fun l => flat_map (fun i => cell_at cell sample bb t xs ys i l) (seq 0 (xs - 1))) (seq 0 (ys - 1)).
Proof.
  destruct (le_lt_dec ys 1) as [H|H]; [|destruct (Nat.eq_dec xs 0) as [E|E]].
  - rewrite march_is in M by lia. congruence.
  - rewrite march_panics in M by auto. discriminate.
  - rewrite march_is in M by lia. congruence.
Qed.
Lemma balance p : zs p ss - ze p ss = zsum (fun i => hf p i 0 - hf p i (ys - 1)) (xs - 1) + zsum (fun j => vf p (xs - 1)%nat j - vf p 0%nat j) (ys - 1).
Proof.
  rewrite march_out, zs_flat, ze_flat.
  transitivity (zsum (fun j => zsum (fun i => (vf p (S i) j - vf p i j) + (hf p i j - hf p i (S j))) (xs - 1)) (ys - 1)).
  - rewrite <- zsum_sub. apply zsum_ext. intros j _. rewrite zs_flat, ze_flat, <- zsum_sub. apply zsum_ext. intros i _. pose proof (cell_balance p i j) as C. cbv zeta in C. lia.
  - rewrite (zsum_ext _ (fun j => zsum (fun i => vf p (S i) j - vf p i j) (xs - 1) + zsum (fun i => hf p i j - hf p i (S j)) (xs - 1))) by (intros; now rewrite <- zsum_add).
    rewrite zsum_add, Z.add_comm. f_equal.
    + rewrite zsum_swap. apply zsum_ext. intros i _.
      rewrite (zsum_ext _ (fun j => (- hf p i (S j)) - (- hf p i j))) by (intros; lia). rewrite (zsum_tele (fun j => - hf p i j)). lia.
    + apply zsum_ext. intros j _. rewrite (zsum_tele (fun i => vf p i j)). lia.
Qed.

Variable p : vec.
Section Inner.
(* no crossing of the border at p *)
Hypothesis inner : forall e, edge_ok xs ys e -> crossed e = true -> veqb p (vertex e) = true -> ~ on_border xs ys e.
Lemma trivial_grid : (xs <= 1 \/ ys <= 1)%nat -> ss = [].
Proof.
  intros H. rewrite march_out. destruct H as [H|H].
  - replace (xs - 1)%nat with 0%nat by lia. cbn. clear. induction (seq 0 (ys - 1)); auto.
  - replace (ys - 1)%nat with 0%nat by lia. reflexivity.
Qed.
Lemma border_zero : (1 < xs)%nat -> (1 < ys)%nat ->
  (forall i, (i < xs - 1)%nat -> hc p i 0 = 0 /\ hf p i 0 = 0 /\ hc p i (ys - 1) = 0 /\ hf p i (ys - 1) = 0) /\
  (forall j, (j < ys - 1)%nat -> vc p 0 j = 0 /\ vf p 0 j = 0 /\ vc p (xs - 1) j = 0 /\ vf p (xs - 1) j = 0).
Proof.
  intros X Y. split.
  - intros i I. destruct (h_zero p i 0) as [-> ->]; [intros [C V]; apply (inner (true, i, 0%nat)); auto; cbn; lia|].
    destruct (h_zero p i (ys - 1)) as [-> ->]; [intros [C V]; apply (inner (true, i, (ys - 1)%nat)); auto; cbn; lia|]. auto.
  - intros j J. destruct (v_zero p 0 j) as [-> ->]; [intros [C V]; apply (inner (false, 0%nat, j)); auto; cbn; lia|].
    destruct (v_zero p (xs - 1) j) as [-> ->]; [intros [C V]; apply (inner (false, (xs - 1)%nat, j)); auto; cbn; lia|]. auto.
Qed.
Lemma balanced : starts p ss = ends p ss.
Proof.
  destruct (le_lt_dec xs 1) as [X|X]; [rewrite trivial_grid by lia; reflexivity|]. destruct (le_lt_dec ys 1) as [Y|Y]; [rewrite trivial_grid by lia; reflexivity|].
  destruct (border_zero X Y) as [H V]. pose proof (balance p) as B. rewrite !zsum_zero in B; unfold zs, ze in B; [lia| |].
  - intros j J. destruct (V j J) as (_ & -> & _ & ->). reflexivity.
  - intros i I. destruct (H i I) as (_ & -> & _ & ->). reflexivity.
Qed.

End Inner.
Section One.
(* exactly one edge is crossed at p *)
Variable e : edge.
Hypothesis one : edge_ok xs ys e /\ crossed e = true /\ veqb p (vertex e) = true.
Hypothesis only : forall e', edge_ok xs ys e' -> crossed e' = true -> veqb p (vertex e') = true -> e' = e.
Hypothesis off : k = false -> forall i j, (S i < xs)%nat -> (S j < ys)%nat -> veqb p (middle i j) = false.
Definition is_edge (h : bool) (i j : nat) : Z := match e with (h', i', j') => if Bool.eqb h h' && Nat.eqb i i' && Nat.eqb j j' then 1 else 0 end.
Lemma is_edge_pos h i j : is_edge h i j = 1 /\ e = (h, i, j) \/ is_edge h i j = 0 /\ e <> (h, i, j).
Proof.
  unfold is_edge. destruct e as [[h' i'] j']. destruct (Bool.eqb_spec h h') as [->|]; cbn; [|right; split; congruence].
  destruct (Nat.eqb_spec i i') as [->|]; cbn; [|right; split; congruence]. destruct (Nat.eqb_spec j j') as [->|]; cbn; [left; auto|right; split; congruence].
Qed.
Lemma hc_is i j : (S i < xs)%nat -> (j < ys)%nat -> hc p i j = is_edge true i j.
Proof.
  intros I J. destruct (is_edge_pos true i j) as [[-> E]|[-> E]].
  - apply hc_pos; rewrite E in one; apply one.
  - apply h_zero. intros [C V]. apply E. symmetry. apply only; auto. cbn. auto.
Qed.
Lemma vc_is i j : (i < xs)%nat -> (S j < ys)%nat -> vc p i j = is_edge false i j.
Proof.
  intros I J. destruct (is_edge_pos false i j) as [[-> E]|[-> E]].
  - apply vc_pos; rewrite E in one; apply one.
  - apply v_zero. intros [C V]. apply E. symmetry. apply only; auto. cbn. auto.
Qed.
Lemma zsum_pick (f : nat -> Z) n k0 : (k0 < n)%nat -> (forall i, (i < n)%nat -> i <> k0 -> f i = 0) -> zsum f n = f k0.
Proof.
  induction n as [|n IH]; intros K H; [lia|]. cbn. destruct (Nat.eq_dec k0 n) as [->|E].
  - rewrite zsum_zero; [lia|]. intros i I. apply H; lia.
  - rewrite IH, (H n); try lia. intros i I. apply H; lia.
Qed.
Lemma zsum_at n j0 : zsum (fun j => if Nat.eqb j j0 then 1 else 0) n = if Nat.ltb j0 n then 1 else 0.
Proof.
  induction n as [|n IH]; [reflexivity|]. cbn [zsum]. rewrite IH. destruct (Nat.eqb_spec n j0), (Nat.ltb_spec j0 n), (Nat.ltb_spec j0 (S n)); lia.
Qed.
Lemma zsum_at' n j0 : zsum (fun j => if Nat.eqb (S j) j0 then 1 else 0) n = if Nat.ltb 0 j0 && Nat.leb j0 n then 1 else 0.
Proof.
  induction n as [|n IH]; [destruct j0; reflexivity|]. cbn [zsum]. rewrite IH. destruct (Nat.eqb_spec (S n) j0), (Nat.ltb_spec 0 j0), (Nat.leb_spec j0 n), (Nat.leb_spec j0 (S n)); cbn; lia.
Qed.
Definition border_b : bool := match e with (h, i, j) => if h then Nat.eqb j 0 || Nat.eqb (S j) ys else Nat.eqb i 0 || Nat.eqb (S i) xs end.
Lemma total : (1 < xs)%nat -> (1 < ys)%nat -> zs p ss + ze p ss = if border_b then 1 else 2.
Proof.
  intros X Y. destruct one as (Ok & Cr & Ve).
  rewrite march_out, zs_flat, ze_flat, <- zsum_add.
  rewrite (zsum_ext _ (fun j => zsum (fun i => is_edge true i j + is_edge false i j + is_edge false (S i) j + is_edge true i (S j)) (xs - 1))).
  2:{ intros j J. rewrite zs_flat, ze_flat, <- zsum_add. apply zsum_ext. intros i I.
      pose proof (cell_total p i j) as T. cbv zeta in T. rewrite (hc_is i j), (hc_is i (S j)), (vc_is i j), (vc_is (S i) j) in T by lia. apply T; [intros K; apply off; auto; lia|].
      destruct (is_edge_pos true i j) as [[-> E1]|[-> E1]], (is_edge_pos true i (S j)) as [[-> E2]|[-> E2]], (is_edge_pos false i j) as [[-> E3]|[-> E3]], (is_edge_pos false (S i) j) as [[-> E4]|[-> E4]]; try lia; exfalso; rewrite ?E1, ?E2, ?E3 in *; injection E2 || injection E3 || injection E4 || discriminate; intros; lia. }
  destruct e as [[h i0] j0] eqn:Ee. unfold border_b. rewrite Ee. destruct h; cbn in Ok.
  - rewrite (zsum_ext _ (fun j => (if Nat.eqb j j0 then 1 else 0) + (if Nat.eqb (S j) j0 then 1 else 0))).
    + rewrite zsum_add, zsum_at, zsum_at'. destruct (Nat.ltb_spec j0 (ys - 1)), (Nat.ltb_spec 0 j0), (Nat.leb_spec j0 (ys - 1)), (Nat.eqb_spec j0 0), (Nat.eqb_spec (S j0) ys); cbn; lia.
    + intros j J. rewrite (zsum_pick _ _ i0); [|lia|].
      * unfold is_edge. rewrite Ee. cbn [Bool.eqb andb]. rewrite Nat.eqb_refl. cbn. lia.
      * intros i I D. unfold is_edge. rewrite Ee. cbn [Bool.eqb andb]. destruct (Nat.eqb_spec i i0); [lia|reflexivity].
  - rewrite (zsum_pick _ _ j0); [|lia|].
    + rewrite (zsum_ext _ (fun i => (if Nat.eqb i i0 then 1 else 0) + (if Nat.eqb (S i) i0 then 1 else 0))).
      * rewrite zsum_add, zsum_at, zsum_at'. destruct (Nat.ltb_spec i0 (xs - 1)), (Nat.ltb_spec 0 i0), (Nat.leb_spec i0 (xs - 1)), (Nat.eqb_spec i0 0), (Nat.eqb_spec (S i0) xs); cbn; lia.
      * intros i I. unfold is_edge. rewrite Ee. cbn [Bool.eqb andb]. rewrite Nat.eqb_refl, !andb_true_r. lia.
    + intros j J D. apply zsum_zero. intros i I. unfold is_edge. rewrite Ee. cbn [Bool.eqb andb]. destruct (Nat.eqb_spec j j0); [lia|]. rewrite !andb_false_r. reflexivity.
Qed.
Lemma border_spec : border_b = true <-> on_border xs ys e.
Proof. clear one only off. unfold border_b, on_border. destruct e as [[[|] i] j]; rewrite orb_true_iff, !Nat.eqb_eq; tauto. Qed.
End One.

Section Count.
Hypothesis off : k = false -> forall i j, (S i < xs)%nat -> (S j < ys)%nat -> veqb p (middle i j) = false.
Hypothesis only : forall e e', edge_ok xs ys e -> edge_ok xs ys e' -> crossed e = true -> crossed e' = true -> veqb p (vertex e) = true -> veqb p (vertex e') = true -> e' = e.
Lemma once e : edge_ok xs ys e -> crossed e = true -> veqb p (vertex e) = true -> ~ on_border xs ys e -> starts p ss = 1%nat /\ ends p ss = 1%nat.
Proof.
  intros Ok Cr Ve In.
  assert (B : starts p ss = ends p ss). { apply balanced. intros e' Ok' Cr' Ve'. rewrite (only e e'); auto. }
  destruct (le_lt_dec xs 1) as [X|X]; [exfalso; destruct e as [[[|] i] j]; cbn in Ok, In; lia|]. destruct (le_lt_dec ys 1) as [Y|Y]; [exfalso; destruct e as [[[|] i] j]; cbn in Ok, In; lia|].
  pose proof (total e (conj Ok (conj Cr Ve)) (fun e' O C V => only e e' Ok O Cr C Ve V) off X Y) as T.
  destruct (border_b e) eqn:Bo; [apply (proj1 (border_spec e)) in Bo; contradiction|]. unfold zs, ze in T. lia.
Qed.
Lemma at_most : (starts p ss <= 1)%nat /\ (ends p ss <= 1)%nat.
Proof.
  destruct (le_lt_dec xs 1) as [X|X]; [rewrite trivial_grid by lia; cbn; lia|]. destruct (le_lt_dec ys 1) as [Y|Y]; [rewrite trivial_grid by lia; cbn; lia|].
  assert (D : (exists e, edge_ok xs ys e /\ crossed e = true /\ veqb p (vertex e) = true) \/ forall e, edge_ok xs ys e -> crossed e = true -> veqb p (vertex e) = false).
  { assert (K : forall n m, (exists e, (snd (fst e) < n)%nat /\ (snd e < m)%nat /\ edge_ok xs ys e /\ crossed e = true /\ veqb p (vertex e) = true) \/
       forall e, (snd (fst e) < n)%nat -> (snd e < m)%nat -> edge_ok xs ys e -> crossed e = true -> veqb p (vertex e) = false).
    { intros n m. induction n as [|n IHn]; [right; intros; lia|]. destruct IHn as [(e & A & B & C)|IHn]; [left; exists e; split; [lia|split; auto]|].
      induction m as [|m IHm]; [right; intros; lia|]. destruct IHm as [(e & A & B & C)|IHm]; [intros; apply IHn; auto|left; exists e; split; [lia|split; [lia|auto]]|].
      assert (T : forall h, (edge_ok xs ys (h, n, m) /\ crossed (h, n, m) = true /\ veqb p (vertex (h, n, m)) = true) \/ (edge_ok xs ys (h, n, m) -> crossed (h, n, m) = true -> veqb p (vertex (h, n, m)) = false)).
      { intros h. destruct (crossed (h, n, m)); [|right; discriminate]. destruct (veqb p (vertex (h, n, m))); [|right; auto].
        assert (Q : edge_ok xs ys (h, n, m) \/ ~ edge_ok xs ys (h, n, m)) by (destruct h; cbn; lia). destruct Q; [left; auto|right; tauto]. }
      destruct (T true) as [T1|T1]; [left; exists (true, n, m); split; [cbn; lia|split; [cbn; lia|exact T1]]|]. destruct (T false) as [T2|T2]; [left; exists (false, n, m); split; [cbn; lia|split; [cbn; lia|exact T2]]|].
      right. intros [[h i] j] I J. cbn in I, J. destruct (Nat.eq_dec i n) as [->|]; [|intros; apply IHn; auto; cbn; lia]. destruct (Nat.eq_dec j m) as [->|]; [|intros; apply IHm; auto; cbn; lia].
      destruct h; auto. }
    destruct (K xs ys) as [(e & _ & _ & H)|H]; [left; eauto|]. right. intros e Ok. apply H; auto; destruct e as [[[|] i] j]; cbn in *; lia. }
  destruct D as [(e & Ok & Cr & Ve)|D].
  - pose proof (total e (conj Ok (conj Cr Ve)) (fun e' O C V => only e e' Ok O Cr C Ve V) off X Y) as T.
    destruct (border_b e) eqn:Bo; unfold zs, ze in T; [lia|]. destruct (once e Ok Cr Ve); [intros H; apply (proj2 (border_spec e)) in H; congruence|lia].
  - assert (Z : zs p ss + ze p ss = 0).
    { rewrite march_out, zs_flat, ze_flat, <- zsum_add. apply zsum_zero. intros j J. rewrite zs_flat, ze_flat, <- zsum_add. apply zsum_zero. intros i I.
      pose proof (cell_total p i j) as T. cbv zeta in T.
      assert (Hh : forall j, (j < ys)%nat -> hc p i j = 0) by (intros j' J'; apply h_zero; intros [C V]; rewrite D in V; [discriminate|cbn; lia|auto]).
      assert (Hv : forall i, (i < xs)%nat -> vc p i j = 0) by (intros i' I'; apply v_zero; intros [C V]; rewrite D in V; [discriminate|cbn; lia|auto]).
      rewrite (Hh j), (Hh (S j)), (Hv i), (Hv (S i)) in T by lia. apply T; [intros K; apply off; auto; lia|lia]. }
    unfold zs, ze in Z. lia.
Qed.
End Count.
End Both.
End Any.
