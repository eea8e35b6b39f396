(** Proofs about point queries of polygons and of a space (Shapes.v) over the reals. *)
From Coq Require Import ZArith Reals Lra Psatz List Bool Lia Arith.
From Verif Require Import Num NumReal Vec BB Transform Shapes ShapesSpec VecReal ShapesPoint ShapesRay.
Import ListNotations.
Local Open Scope R_scope.

(** ** Sides *)
Lemma skipn_last {A} (l : list A) x : skipn (length (l ++ [x]) - 1) (l ++ [x]) = [x].
Proof. rewrite app_length. cbn [length]. replace (length l + 1 - 1)%nat with (length l) by lia. rewrite skipn_app, skipn_all, Nat.sub_diag. reflexivity. Qed.
Definition prev (vs : list rvec) (i : nat) : nat := match i with O => (length vs - 1)%nat | S i => i end.
Lemma nth_combine {A B} (l : list A) (m : list B) i x y : nth_error l i = Some x -> nth_error m i = Some y -> nth_error (combine l m) i = Some (x, y).
Proof. revert m i. induction l as [|a l IH]; intros [|b m] [|i]; simpl; try discriminate; [congruence|auto]. Qed.
Lemma combine_nth {A B} (l : list A) (m : list B) i x y : nth_error (combine l m) i = Some (x, y) -> nth_error l i = Some x /\ nth_error m i = Some y.
Proof. revert m i. induction l as [|a l IH]; intros [|b m] [|i]; simpl; try discriminate; [intros E; inversion E; auto|auto]. Qed.
Lemma sides_nth (vs : list rvec) a b : In (a, b) (sides vs) <-> exists i, nth_error vs i = Some b /\ nth_error vs (prev vs i) = Some a.
Proof.
  destruct vs as [|v0 vs0]; [simpl; split; [contradiction|intros [[|i] [E _]]; discriminate]|].
  set (vs := v0 :: vs0). destruct (exists_last (l := vs)) as [l [x EV]]; [discriminate|].
  unfold sides. assert (SK : skipn (length vs - 1) vs = [x]) by (rewrite EV; apply skipn_last). rewrite SK.
  assert (LX : nth_error vs (length vs - 1) = Some x).
  { rewrite EV, app_length. cbn [length]. replace (length l + 1 - 1)%nat with (length l) by lia. rewrite nth_error_app2 by lia. rewrite Nat.sub_diag. reflexivity. }
  split.
  - intros H. apply In_nth_error in H. destruct H as [i H]. apply combine_nth in H. destruct H as [H1 H2]. exists i. split; [exact H2|].
    destruct i as [|i]; cbn in H1; [|exact H1]. cbn [prev]. congruence.
  - intros [i [H1 H2]]. apply (nth_error_In _ i). apply nth_combine; [|exact H1]. destruct i as [|i]; cbn [prev] in H2; cbn; [congruence|exact H2].
Qed.
Lemma orient_cycle (a b c : rvec) : vcross (vsub b a) (vsub c a) = vcross (vsub c b) (vsub a b).
Proof. unV. rring. Qed.
Lemma side_vertex vs a b v : convex vs -> In (a, b) (sides vs) -> In v vs -> v = a \/ v = b \/ 0 < vcross (vsub b a) (vsub v a).
Proof.
  intros C H V. apply sides_nth in H. destruct H as [i [HB HA]]. apply In_nth_error in V. destruct V as [j V].
  assert (LI : (i < length vs)%nat) by (apply nth_error_Some; congruence). assert (LJ : (j < length vs)%nat) by (apply nth_error_Some; congruence).
  destruct (Nat.eq_dec j i) as [->|NI]; [right; left; congruence|].
  destruct (Nat.eq_dec j (prev vs i)) as [->|NP]; [left; congruence|]. right. right.
  destruct i as [|i]; cbn [prev] in *.
  - rewrite (orient_cycle a b v).
    apply (C 0%nat j (length vs - 1)%nat); auto; lia.
  - destruct (Nat.lt_ge_cases j i) as [L|L].
    + rewrite <- (orient_cycle v a b). apply (C j i (S i)); auto.
    + apply (C i (S i) j); auto; lia.
Qed.
Lemma side_in vs a b : In (a, b) (sides vs) -> In a vs /\ In b vs.
Proof. intros H. apply sides_nth in H. destruct H as [i [B A]]. split; eapply nth_error_In; eauto. Qed.
Lemma side_ne vs a b : convex vs -> (3 <= length vs)%nat -> In (a, b) (sides vs) -> a <> b.
Proof.
  intros C L H E. apply sides_nth in H. destruct H as [i [HB HA]]. subst b.
  assert (LI : (i < length vs)%nat) by (apply nth_error_Some; congruence).
  assert (exists j c, j <> i /\ j <> prev vs i /\ nth_error vs j = Some c) as (j & c & N1 & N2 & V).
  { assert (exists j, j <> i /\ j <> prev vs i /\ (j < length vs)%nat) as (j & N1 & N2 & LJ).
    { destruct i as [|[|i]]; cbn [prev]; [exists 1%nat|exists 2%nat|exists 0%nat]; lia. }
    destruct (nth_error vs j) as [c|] eqn:V; [eauto 6|]. apply nth_error_None in V. lia. }
  assert (LJ : (j < length vs)%nat) by (apply nth_error_Some; congruence).
  assert (Z : forall x y : rvec, ~ 0 < vcross (vsub x x) (vsub y x)) by (intros [x1 x2] [y1 y2]; unV; un; lra).
  assert (Z' : forall x y : rvec, ~ 0 < vcross (vsub y x) (vsub x x)) by (intros [x1 x2] [y1 y2]; unV; un; lra).
  assert (Z'' : forall x y : rvec, ~ 0 < vcross (vsub y x) (vsub y x)) by (intros [x1 x2] [y1 y2]; unV; un; lra).
  destruct i as [|i]; cbn [prev] in *.
  - apply (Z' a c). apply (C 0%nat j (length vs - 1)%nat); auto; lia.
  - destruct (Nat.lt_ge_cases j i) as [LT|LT]; [apply (Z'' c a)|apply (Z a c)].
    + apply (C j i (S i)); auto.
    + apply (C i (S i) j); auto; lia.
Qed.
(** ** The hull by half planes *)
Definition inside (vs : list rvec) (p : rvec) : Prop := forall a b, In (a, b) (sides vs) -> 0 <= vcross (vsub b a) (vsub p a).
Lemma cross_lerp (a b x y : rvec) (t : R) : vcross (vsub b a) (vsub (vlerp x y t) a) = (1 - t) * vcross (vsub b a) (vsub x a) + t * vcross (vsub b a) (vsub y a).
Proof. unV. rring. Qed.
Lemma lerp_0 (a b : rvec) : vlerp a b 0 = a.
Proof. veq. Qed.
Lemma lerp_1 (a b : rvec) : vlerp a b 1 = b.
Proof. veq. Qed.
Lemma between_mix a b x y t : between a b x -> between a b y -> 0 <= t <= 1 -> between a b (vlerp x y t).
Proof.
  intros [s [S ->]] [u [U ->]] T. exists ((1 - t) * s + t * u). split; [nra|]. destruct a as [ax ay], b as [bx by_]. unV. f_equal; rring.
Qed.
Lemma hull_side vs a b q : convex vs -> In (a, b) (sides vs) -> hull vs q -> 0 <= vcross (vsub b a) (vsub q a) /\ (vcross (vsub b a) (vsub q a) = 0 -> between a b q).
Proof.
  intros C H Q. induction Q as [v V|x y t HX [IX JX] HY [IY JY] T].
  - destruct (side_vertex vs a b v C H V) as [->|[->|L]].
    + split; [replace (vcross (vsub b a) (vsub a a)) with 0 by (unV; rring); lra|]. intros _. exists 0. split; [lra|]. rewrite lerp_0. reflexivity.
    + split; [replace (vcross (vsub b a) (vsub b a)) with 0 by (unV; rring); lra|]. intros _. exists 1. split; [lra|]. rewrite lerp_1. reflexivity.
    + un. split; [lra|]. lra.
  - rewrite cross_lerp. set (cx := vcross (vsub b a) (vsub x a)) in *. set (cy := vcross (vsub b a) (vsub y a)) in *. clearbody cx cy. un. split; [nra|]. intros Z.
    destruct (Req_dec t 0) as [->|T0]; [rewrite lerp_0; apply JX; lra|]. destruct (Req_dec t 1) as [->|T1]; [rewrite lerp_1; apply JY; lra|].
    assert (0 < t) by lra. assert (0 < 1 - t) by lra. assert (0 <= (1 - t) * cx) by nra. assert (0 <= t * cy) by nra. apply between_mix; [apply JX; nra|apply JY; nra|exact T].
Qed.
Lemma hull_inside vs q : convex vs -> hull vs q -> inside vs q.
Proof. intros C Q a b H. apply (hull_side vs a b q C H Q). Qed.
Lemma frac01 (x d : R) : 0 <= x <= d -> 0 < d -> 0 <= x / d <= 1.
Proof. intros X D. assert (E : x / d * d = x) by (field; lra). set (q := x / d) in *. clearbody q. split; nra. Qed.
Lemma triangle_hull vs (a b c p : rvec) : In a vs -> In b vs -> In c vs -> 0 < vcross (vsub b a) (vsub c a) ->
  0 <= vcross (vsub b a) (vsub p a) -> 0 <= vcross (vsub c b) (vsub p b) -> 0 <= vcross (vsub a c) (vsub p c) -> hull vs p.
Proof.
  intros A B C D. set (dd := vcross (vsub b a) (vsub c a)) in *. set (ga := vcross (vsub b a) (vsub p a)). set (al := vcross (vsub c b) (vsub p b)). set (be := vcross (vsub a c) (vsub p c)).
  intros G AL BE.
  assert (S : al + be + ga = dd) by (subst al be ga dd; unV; rring).
  assert (P : vadd (vadd (vscale a al) (vscale b be)) (vscale c ga) = vscale p dd).
  { subst al be ga dd. clear. destruct a as [ax ay], b as [bx by_], c as [cx cy], p as [px py]. unV. f_equal; rring. }
  clearbody al be ga dd. un.
  destruct (Req_dec (be + ga) 0) as [Z|Z].
  - assert (be = 0) by lra. assert (ga = 0) by lra. subst be ga. assert (al = dd) by lra. subst al.
    replace p with a; [apply hull_in; exact A|]. destruct a as [ax ay], b as [bx by_], c as [cx cy], p as [px py]. unV. injection P as P1 P2. un. f_equal; apply (Rmult_eq_reg_r dd); lra.
  - replace p with (vlerp a (vlerp b c (ga / (be + ga))) ((be + ga) / dd)).
    + apply hull_mix; [apply hull_in; exact A| |].
      * apply hull_mix; [apply hull_in; exact B|apply hull_in; exact C|]. apply frac01; lra.
      * apply frac01; lra.
    + destruct a as [ax ay], b as [bx by_], c as [cx cy], p as [px py]. unV. injection P as P1 P2. un. 
      assert (AD : al = dd - be - ga) by lra. subst al.
      f_equal; apply (Rmult_eq_reg_r dd); try lra; [rewrite <- P1|rewrite <- P2]; field; split; lra.
Qed.
Lemma sign_change (f : nat -> R) a k : 0 <= f a -> f (a + S k)%nat <= 0 -> exists i, (a <= i <= a + k)%nat /\ 0 <= f i /\ f (S i) <= 0.
Proof.
  revert a. induction k as [|k IH]; intros a P Q.
  - exists a. split; [lia|]. split; [exact P|]. replace (S a) with (a + 1)%nat by lia. exact Q.
  - destruct (Rle_dec (f (S a)) 0) as [L|L]; [exists a; split; [lia|auto]|].
    destruct (IH (S a)) as (i & I & H); [lra|replace (S a + S k)%nat with (a + S (S k))%nat by lia; exact Q|]. exists i. split; [lia|exact H].
Qed.
Lemma inside_hull vs p : convex vs -> (3 <= length vs)%nat -> inside vs p -> hull vs p.
Proof.
  intros C L IN. destruct vs as [|v0 vs0] eqn:EV; [simpl in L; lia|]. rewrite <- EV in *. assert (V0 : nth_error vs 0 = Some v0) by (rewrite EV; reflexivity).
  set (v := fun i => nth i vs v0). assert (NV : forall i, (i < length vs)%nat -> nth_error vs i = Some (v i)) by (intros i I; apply nth_error_nth'; exact I).
  set (f := fun i => vcross (vsub (v i) v0) (vsub p v0)).
  assert (S1 : forall i, (S i < length vs)%nat -> 0 <= vcross (vsub (v (S i)) (v i)) (vsub p (v i))).
  { intros i I. apply IN. apply sides_nth. exists (S i). split; apply NV; cbn [prev]; lia. }
  destruct (sign_change f 1 (length vs - 3)) as (i & I & F1 & F2).
  - assert (H := S1 0%nat). assert (E0 : v 0%nat = v0) by (subst v; rewrite EV; reflexivity). rewrite E0 in H. apply H. lia.
  - replace (1 + S (length vs - 3))%nat with (length vs - 1)%nat by lia.
    assert (H : 0 <= vcross (vsub v0 (v (length vs - 1)%nat)) (vsub p (v (length vs - 1)%nat))).
    { apply IN. apply sides_nth. exists 0%nat. split; [exact V0|]. apply NV. cbn [prev]. lia. }
    unfold f. set (w := v (length vs - 1)%nat) in *. clearbody w. replace (vcross (vsub w v0) (vsub p v0)) with (- vcross (vsub v0 w) (vsub p w)) by (unV; rring). un. lra.
  - apply (triangle_hull vs v0 (v i) (v (S i))).
    + eapply nth_error_In; exact V0.
    + eapply nth_error_In; apply NV; lia.
    + eapply nth_error_In; apply NV; lia.
    + apply (C 0%nat i (S i)); auto; [lia|apply NV; lia|apply NV; lia].
    + exact F1.
    + apply S1. lia.
    + unfold f in F2. set (w := v (S i)) in *. clearbody w. replace (vcross (vsub v0 w) (vsub p w)) with (- vcross (vsub w v0) (vsub p v0)) by (unV; rring). un. lra.
Qed.

(** ** Normals of the sides *)
Definition side_normal (a b : rvec) : rvec := vunit (vrperp (vsub b a)).
Lemma rperp_mag (w : rvec) : vmag (vrperp w) = vmag w.
Proof. unfold vmag. f_equal. unV. rring. Qed.
Lemma side_normal_unit a b : a <> b -> vdot (side_normal a b) (side_normal a b) = 1.
Proof. intros N. apply unit_dot. intros Z. apply N. symmetry. apply sub_zero. apply mag_0. rewrite <- rperp_mag. apply mag_0. exact Z. Qed.
Lemma side_normal_dot a b u : a <> b -> vdot (side_normal a b) u * vdist b a = - vcross (vsub b a) u.
Proof.
  intros N. assert (M : 0 < vmag (vsub b a)) by (apply mag_pos; intros Z; apply N; symmetry; apply sub_zero; exact Z).
  unfold side_normal, vunit. rewrite rperp_mag. unfold vdist. set (m := vmag (vsub b a)) in *. clearbody m. destruct a as [ax ay], b as [bx by_], u as [ux uy]. unV. un. field. lra.
Qed.
Lemma side_normal_sign a b p : a <> b -> (vdot (side_normal a b) (vsub p b) <= 0 <-> 0 <= vcross (vsub b a) (vsub p a)) /\ (vdot (side_normal a b) (vsub p b) = 0 <-> vcross (vsub b a) (vsub p a) = 0).
Proof.
  intros N. pose proof (side_normal_dot a b (vsub p b) N) as E. replace (vcross (vsub b a) (vsub p b)) with (vcross (vsub b a) (vsub p a)) in E by (unV; rring).
  assert (M : 0 < vdist b a) by (apply mag_pos; intros Z; apply N; symmetry; apply sub_zero; exact Z).
  set (m := vdist b a) in *. set (h := vdot (side_normal a b) (vsub p b)) in *. set (c := vcross (vsub b a) (vsub p a)) in *. clearbody m h c. un. change (@nmul RNum) with Rmult in E. split; split; intros; nra.
Qed.
(** ** Leaving the hull *)
Lemma exit_point (S : list (rvec * rvec)) (k p : rvec) : (forall a b, In (a, b) S -> 0 <= vcross (vsub b a) (vsub k a)) ->
  exists t, 0 <= t <= 1 /\ (forall a b, In (a, b) S -> 0 <= vcross (vsub b a) (vsub (vlerp k p t) a)) /\
    (t = 1 \/ exists a b, In (a, b) S /\ vcross (vsub b a) (vsub (vlerp k p t) a) = 0 /\ vcross (vsub b a) (vsub p a) < 0).
Proof.
  induction S as [|[x y] S IH]; intros K.
  - exists 1. split; [lra|]. split; [intros a b []|left; reflexivity].
  - destruct IH as (t & T & A & Z); [intros a b H; apply K; right; exact H|].
    destruct (Rle_dec 0 (vcross (vsub y x) (vsub (vlerp k p t) x))) as [L|L].
    + exists t. split; [exact T|]. split; [intros a b [E|H]; [inversion E; subst; exact L|auto]|]. destruct Z as [Z|(a & b & H & Z)]; [left; exact Z|right; exists a, b; split; [right; exact H|exact Z]].
    + assert (K0 := K x y (or_introl eq_refl)). rewrite cross_lerp in L. set (h0 := vcross (vsub y x) (vsub k x)) in *. set (h1 := vcross (vsub y x) (vsub p x)) in *.
      set (v := h0 / (h0 - h1)). assert (D : 0 < h0 - h1) by (clearbody h0 h1; un; nra).
      assert (V : v * (h0 - h1) = h0) by (subst v; field; un; lra).
      assert (VB : 0 <= v <= t) by (clearbody h0 h1 v; un; split; nra).
      exists v. split; [lra|]. split.
      * intros a b [E|H].
        -- inversion E; subst a b. rewrite cross_lerp. fold h0 h1. clearbody h0 h1 v. un. nra.
        -- specialize (A a b H). specialize (K a b (or_intror H)). rewrite cross_lerp in *. set (g0 := vcross (vsub b a) (vsub k a)) in *. set (g1 := vcross (vsub b a) (vsub p a)) in *. clearbody g0 g1 v. un.
           destruct (Rle_dec 0 (g1 - g0)); nra.
      * right. exists x, y. split; [left; reflexivity|]. rewrite cross_lerp. fold h0 h1. clearbody h0 h1 v. un. split; nra.
Qed.
Lemma boundary_hull vs q : on_boundary vs q -> hull vs q.
Proof. intros (a & b & H & t & T & ->). apply side_in in H. apply hull_mix; [apply hull_in|apply hull_in|exact T]; tauto. Qed.
Lemma cross_boundary vs k p : convex vs -> (3 <= length vs)%nat -> hull vs k -> ~ hull vs p -> exists q, on_boundary vs q /\ vdist p q <= vdist p k.
Proof.
  intros C L K P. destruct (exit_point (sides vs) k p (hull_inside vs k C K)) as (t & T & A & Z).
  assert (H : hull vs (vlerp k p t)) by (apply inside_hull; assumption).
  destruct Z as [->|(a & b & S & Z & _)]; [rewrite lerp_1 in H; contradiction|].
  exists (vlerp k p t). split; [exists a, b; split; [exact S|apply (hull_side vs a b _ C S H); exact Z]|].
  assert (E : vdist p (vlerp k p t) = Rabs (1 - t) * vdist p k).
  { pose proof (lerp_move k p t 1) as M. rewrite lerp_1 in M. exact M. }
  rewrite E, Rabs_right by lra. pose proof (dist_nonneg p k). nra.
Qed.
Lemma outside_dist vs p m : convex vs -> (3 <= length vs)%nat -> ~ hull vs p -> is_dist (on_boundary vs) p m -> is_dist (hull vs) p m.
Proof.
  intros C L P [[q [Q E]] M]. split; [exists q; split; [apply boundary_hull; exact Q|exact E]|].
  intros k K. destruct (cross_boundary vs k p C L K P) as (z & Z & D). specialize (M z Z). un. lra.
Qed.
Lemma nearest_angle (K : rvec -> Prop) p c : (forall x y t, K x -> K y -> 0 <= t <= 1 -> K (vlerp x y t)) -> K c -> (forall q, K q -> vdist p c <= vdist p q) ->
  forall q, K q -> vdot (vsub p c) (vsub q c) <= 0.
Proof.
  intros CV C M q Q. apply Rnot_lt_le. intros D. set (d := vdot (vsub p c) (vsub q c)) in *.
  assert (QQ : 0 < vdot (vsub q c) (vsub q c)).
  { destruct (Rle_lt_or_eq_dec _ _ (dot_nonneg (vsub q c))) as [X|X]; [exact X|]. exfalso. symmetry in X. apply dot_0 in X. subst d. rewrite X in D. revert D. unV. un. lra. }
  set (e := vdot (vsub q c) (vsub q c)) in *. set (s := Rmin 1 (d / e)).
  assert (S : 0 < s <= 1) by (split; [apply Rmin_glb_lt; [lra|apply Rdiv_lt_0_compat; assumption]|apply Rmin_l]).
  assert (SE : s * e <= d).
  { assert (s <= d / e) by apply Rmin_r. assert (d / e * e = d) by (field; un; lra). clearbody s d e. un. nra. }
  specialize (M _ (CV c q s C Q (conj (Rlt_le _ _ (proj1 S)) (proj2 S)))).
  assert (MM : vdot (vsub p c) (vsub p c) <= vdot (vsub p (vlerp c q s)) (vsub p (vlerp c q s))).
  { rewrite <- !mag_sq. unfold vdist in M. pose proof (mag_nonneg (vsub p c)). change (@nmul RNum) with Rmult. set (m1 := vmag _) in *. set (m2 := vmag _) in *. clearbody m1 m2. un. nra. }
  assert (E : vdot (vsub p (vlerp c q s)) (vsub p (vlerp c q s)) = vdot (vsub p c) (vsub p c) - 2 * s * d + s * (s * e)) by (subst d e; clearbody s; unV; rring).
  rewrite E in MM. clearbody s d e. un. nra.
Qed.
(** ** From the inside the nearest boundary point is straight through a side *)
Lemma list_argmin {A} (f : A -> R) (l : list A) : l <> [] -> exists x, In x l /\ forall y, In y l -> f x <= f y.
Proof.
  induction l as [|a l IH]; intros N; [contradiction|]. destruct l as [|b l]; [exists a; split; [left; reflexivity|intros y [<-|[]]; lra]|].
  destruct IH as (x & X & M); [discriminate|]. destruct (Rle_dec (f a) (f x)) as [L|L].
  - exists a. split; [left; reflexivity|]. intros y [<-|Y]; [lra|]. specialize (M y Y). lra.
  - exists x. split; [right; exact X|]. intros y [<-|Y]; [lra|]. exact (M y Y).
Qed.
Lemma inside_normal vs p a b c : convex vs -> (3 <= length vs)%nat -> hull vs p -> In (a, b) (sides vs) -> between a b c -> (forall q, on_boundary vs q -> vdist p c <= vdist p q) ->
  vsub c p = vscale (side_normal a b) (vdist p c).
Proof.
  intros C L P S B M.
  set (eta := fun e : rvec * rvec => - vdot (side_normal (fst e) (snd e)) (vsub p (snd e))).
  destruct (list_argmin eta (sides vs)) as ([x y] & XY & MIN); [intros E; rewrite E in S; contradiction|].
  assert (NXY := side_ne vs x y C L XY). assert (NAB := side_ne vs a b C L S).
  set (z := vadd p (vscale (side_normal x y) (eta (x, y)))).
  assert (UN : forall u v, u <> v -> vmag (side_normal u v) = 1).
  { intros u v UV. apply sq_eq; [apply mag_nonneg|lra|]. pose proof (mag_sq (side_normal u v)) as Q. rewrite side_normal_unit in Q by exact UV. un. change (@nmul RNum) with Rmult in Q. lra. }
  assert (E0 : 0 <= eta (x, y)).
  { subst eta. cbn [fst snd]. pose proof (hull_inside vs p C P x y XY) as H. apply (side_normal_sign x y p NXY) in H. un. lra. }
  assert (IZ : inside vs z).
  { intros u v UV. assert (NUV := side_ne vs u v C L UV). apply (side_normal_sign u v z NUV).
    assert (E : vdot (side_normal u v) (vsub z v) = - eta (u, v) + eta (x, y) * vdot (side_normal u v) (side_normal x y)).
    { subst z eta. cbn [fst snd]. set (n1 := side_normal u v). set (n2 := side_normal x y). clearbody n1 n2. unV. rring. }
    rewrite E. specialize (MIN _ UV). pose proof (dot_le (side_normal u v) (side_normal x y)) as CS. rewrite !UN in CS by assumption. un. nra. }
  assert (BZ : on_boundary vs z).
  { exists x, y. split; [exact XY|]. apply (hull_side vs x y z C XY (inside_hull vs z C L IZ)). apply (side_normal_sign x y z NXY).
    transitivity (vdot (side_normal x y) (vsub p y) + eta (x, y) * vdot (side_normal x y) (side_normal x y)); [subst z; set (n := side_normal x y); clearbody n; unV; rring|].
    rewrite side_normal_unit by exact NXY. subst eta. cbn [fst snd]. un. ring. }
  assert (DZ : vdist p z = eta (x, y)).
  { rewrite dist_sym. unfold vdist, z. rewrite add_sub, mag_scale, UN, Rabs_right by (try exact NXY; un; lra). un. ring. }
  assert (MZ := M z BZ). rewrite DZ in MZ.
  assert (NC : vdot (side_normal a b) (vsub c p) = eta (a, b)).
  { transitivity (vdot (side_normal a b) (vsub c b) + eta (a, b)); [subst eta; cbn [fst snd]; set (n := side_normal a b); clearbody n; unV; rring|].
    assert (Z : vdot (side_normal a b) (vsub c b) = 0).
    { apply (side_normal_sign a b c NAB). destruct B as [t [_ ->]]. rewrite cross_lerp. replace (vcross (vsub b a) (vsub a a)) with 0 by (unV; rring). replace (vcross (vsub b a) (vsub b a)) with 0 by (unV; rring). un. ring. }
    rewrite Z. un. ring. }
  specialize (MIN _ S). cbv beta in MIN. set (m := vdist p c) in *. set (n := side_normal a b) in *.
  apply sub_zero. apply dot_0. pose proof (dot_nonneg (vsub (vsub c p) (vscale n m))) as PO.
  assert (E : vdot (vsub (vsub c p) (vscale n m)) (vsub (vsub c p) (vscale n m)) = vdot (vsub c p) (vsub c p) - 2 * m * vdot n (vsub c p) + m * m * vdot n n) by (clearbody m n; unV; rring).
  assert (CM : vdot (vsub c p) (vsub c p) = m * m) by (rewrite <- mag_sq; fold (vdist c p); rewrite dist_sym; reflexivity).
  assert (NN : vdot n n = 1) by (apply side_normal_unit; exact NAB).
  rewrite NC, CM, NN in E. rewrite E in PO |- *. pose proof (dist_nonneg p c) as MP. fold m in MP. clearbody m. set (e1 := eta (a, b)) in *. set (e2 := eta (x, y)) in *. clearbody e1 e2. un. nra.
Qed.

(** ** The loop over the sides *)
Definition pairs (v0 : rvec) (ps : list plane) : list (rvec * plane) := combine (v0 :: map pl_v ps) ps.
Lemma poly_fold p ps : forall (v0 : rvec) (m0 : R) c0 k0 o0 v' m cp cn out, fold_left (poly_round p) ps (v0, m0, c0, k0, o0) = (v', m, cp, cn, out) ->
  m <= m0 /\ (forall a q, In (a, q) (pairs v0 ps) -> m <= vdist p (closest_point_on_segment p a (pl_v q))) /\
  ((m = m0 /\ cp = c0 /\ cn = k0) \/ exists a q, In (a, q) (pairs v0 ps) /\ cp = closest_point_on_segment p a (pl_v q) /\ m = vdist p cp /\ cn = pl_n q) /\
  (out = true <-> o0 = true \/ exists q, In q ps /\ 0 < vdot (pl_n q) (vsub p (pl_v q))).
Proof.
  induction ps as [|q ps IH]; intros v0 m0 c0 k0 o0 v' m cp cn out E.
  - simpl in E. inversion E; subst. repeat split; auto; try lra; [intros a q []|]. intros [H|[q [[] _]]]. exact H.
  - cbn [fold_left] in E. unfold poly_round at 2 in E.
    set (o1 := if o0 then true else _) in E. set (cl := closest_point_on_segment p v0 (pl_v q)) in E.
    change (pairs v0 (q :: ps)) with ((v0, q) :: pairs (pl_v q) ps).
    assert (O : o1 = true <-> o0 = true \/ 0 < vdot (pl_n q) (vsub p (pl_v q))).
    { subst o1. destruct o0; [tauto|]. unR. destruct (Rltb_spec 0 (vdot (pl_n q) (vsub p (pl_v q)))) as [L|L]; un; split; intros H; try tauto; try discriminate. destruct H as [H|H]; [discriminate|lra]. }
    assert (OUT : forall o, (o = true <-> o1 = true \/ exists q, In q ps /\ 0 < vdot (pl_n q) (vsub p (pl_v q))) -> (o = true <-> o0 = true \/ exists q', In q' (q :: ps) /\ 0 < vdot (pl_n q') (vsub p (pl_v q')))).
    { intros o [H1 H2]. split.
      - intros X. destruct (H1 X) as [Y|(q' & I & Y)]; [apply O in Y; destruct Y as [Y|Y]; [left; exact Y|right; exists q; split; [left; reflexivity|exact Y]]|right; exists q'; split; [right; exact I|exact Y]].
      - intros [Y|(q' & [<-|I] & Y)]; apply H2; [left; apply O; left; exact Y|left; apply O; right; exact Y|right; exists q'; split; assumption]. }
    change (@nltb RNum) with Rltb in E. destruct (Rltb_spec (vdist p cl) m0) as [L|L].
    + destruct (IH _ _ _ _ _ _ _ _ _ _ E) as (A & B & D & F). split; [un; lra|]. split; [|split; [|apply OUT; exact F]].
      * intros a' q' [X|X]; [inversion X; subst a' q'; exact A|auto].
      * right. destruct D as [(D1 & D2 & D3)|(a' & q' & I & D)]; [exists v0, q; split; [left; reflexivity|]; subst; auto|exists a', q'; split; [right; exact I|exact D]].
    + destruct (IH _ _ _ _ _ _ _ _ _ _ E) as (A & B & D & F). split; [exact A|]. split; [|split; [|apply OUT; exact F]].
      * intros a' q' [X|X]; [inversion X; subst a' q'; fold cl; un; lra|auto].
      * destruct D as [D|(a' & q' & I & D)]; [left; exact D|right; exists a', q'; split; [right; exact I|exact D]].
Qed.
Lemma planes_vertices vs : map pl_v (planes_of vs) = vs.
Proof.
  unfold planes_of. rewrite map_map. cbn [pl_v]. unfold sides. destruct vs as [|v0 vs0]; [reflexivity|].
  set (vs := v0 :: vs0). destruct (exists_last (l := vs)) as [l [x EV]]; [discriminate|]. rewrite EV at 1. rewrite EV at 1. rewrite skipn_last. cbn [app].
  assert (G : forall (l0 : list rvec) (m : list rvec), (length l0 >= length m)%nat -> map (fun e : rvec * rvec => snd e) (combine l0 m) = m).
  { induction l0 as [|a l' IH]; intros [|b m] H; simpl in *; try reflexivity; [lia|]. f_equal. apply IH. lia. }
  apply G. simpl. lia.
Qed.
Lemma pairs_sides ps x r : ps = planes_of (map pl_v ps) -> rev ps = x :: r ->
  (forall a q, In (a, q) (pairs (pl_v x) ps) -> In (a, pl_v q) (sides (map pl_v ps)) /\ pl_n q = side_normal a (pl_v q)) /\
  (forall a b, In (a, b) (sides (map pl_v ps)) -> exists q, In (a, q) (pairs (pl_v x) ps) /\ pl_v q = b) /\
  (forall q, In q ps -> exists a, In (a, q) (pairs (pl_v x) ps)).
Proof.
  intros E R. assert (EV : ps = rev r ++ [x]) by (rewrite <- (rev_involutive ps), R; reflexivity).
  set (vs := map pl_v ps) in *.
  assert (SD : sides vs = combine (pl_v x :: vs) vs).
  { unfold sides. f_equal. assert (V : vs = map pl_v (rev r) ++ [pl_v x]) by (subst vs; rewrite EV, map_app; reflexivity). rewrite V at 1 2. rewrite skipn_last. reflexivity. }
  assert (LEN : forall i q, nth_error ps i = Some q -> exists a, nth_error (pl_v x :: vs) i = Some a).
  { intros i q H. assert (i < length ps)%nat by (apply nth_error_Some; congruence). destruct (nth_error (pl_v x :: vs) i) eqn:N; [eauto|]. apply nth_error_None in N. subst vs. cbn [length] in N. rewrite map_length in N. lia. }
  split; [|split].
  - intros a q H. apply In_nth_error in H. destruct H as [i H]. apply combine_nth in H. destruct H as [H1 H2].
    change (map pl_v ps) with vs in H1.
    assert (HV : nth_error vs i = Some (pl_v q)) by (apply map_nth_error; exact H2).
    assert (HS : nth_error (sides vs) i = Some (a, pl_v q)) by (rewrite SD; apply nth_combine; assumption).
    split; [eapply nth_error_In; exact HS|]. rewrite E in H2. unfold planes_of in H2. rewrite (map_nth_error _ _ _ HS) in H2. inversion H2. cbn [pl_v pl_n fst snd]. reflexivity.
  - intros a b H. rewrite SD in H. apply In_nth_error in H. destruct H as [i H]. apply combine_nth in H. destruct H as [H1 H2].
    assert (exists q, nth_error ps i = Some q /\ pl_v q = b) as (q & Q & QB).
    { subst vs. rewrite nth_error_map in H2. destruct (nth_error ps i) as [q|]; [|discriminate]. cbn in H2. exists q. split; [reflexivity|congruence]. }
    exists q. split; [|exact QB]. apply (nth_error_In _ i). apply nth_combine; assumption.
  - intros q H. apply In_nth_error in H. destruct H as [i H]. destruct (LEN i q H) as [a A]. exists a. apply (nth_error_In _ i). apply nth_combine; assumption.
Qed.
Lemma poly_query (s : @poly RNum) p i : shape_ok (SPoly s) -> (exists q, on_boundary (map pl_v (po_dst s)) q /\ vdist p q < ninf) -> poly_point_query s p = Some i ->
  let vs := map pl_v (po_dst s) in
  is_dist (on_boundary vs) p (Rabs (pi_dist i + po_r s)) /\ (hull vs p <-> pi_dist i + po_r s <= 0) /\ (covers (SPoly s) p <-> pi_dist i <= 0) /\
  (~ on_boundary vs p -> is_dist (hull vs) (pi_point i) (po_r s) /\ vdist p (pi_point i) = Rabs (pi_dist i)) /\ vmag (pi_grad i) = 1.
Proof.
  intros (R0 & L & C & PL) NEAR Q vs. fold vs in NEAR, C, PL. assert (LV : (3 <= length vs)%nat) by (subst vs; rewrite map_length; exact L).
  unfold poly_point_query in Q. destruct (rev (po_dst s)) as [|x rs] eqn:RV; [discriminate|].
  destruct (pairs_sides _ _ _ PL RV) as (P1 & P2 & P3). fold vs in P1, P2.
  destruct (fold_left (poly_round p) (po_dst s) (pl_v x, ninf, vzero, vzero, false)) as [[[[v' m] cp] cn] out] eqn:F.
  destruct (poly_fold _ _ _ _ _ _ _ _ _ _ _ _ F) as (_ & MIN & AT & OUT). clear F.
  set (dist := if out then m else nneg m) in Q. set (g := vscale (vsub p cp) (ndiv n1 dist)) in Q.
  assert (DD : dist = if out then m else - m) by reflexivity. assert (DG : g = vscale (vsub p cp) (1 / dist)) by reflexivity. clearbody dist. clearbody g.
  injection Q as <-. cbn [pi_dist pi_point pi_grad].
  (* the nearest boundary point *)
  assert (LOW : forall z, on_boundary vs z -> m <= vdist p z).
  { intros z (a & b & S & B). destruct (P2 a b S) as (q & I & <-). eapply Rle_trans; [apply (MIN a q I)|].
    apply (closest_dist p a (pl_v q)); [eapply side_ne; eauto|exact B]. }
  assert (AT' : exists a q, In (a, q) (pairs (pl_v x) (po_dst s)) /\ cp = closest_point_on_segment p a (pl_v q) /\ m = vdist p cp /\ cn = pl_n q).
  { destruct AT as [(M & _)|AT]; [|exact AT]. exfalso. destruct NEAR as (z & Z & D). specialize (LOW z Z). un. lra. }
  clear AT. destruct AT' as (a & q & I & CP & M & CN). destruct (P1 a q I) as [S NQ].
  assert (NE := side_ne vs _ _ C LV S).
  assert (BC : between a (pl_v q) cp) by (rewrite CP; apply closest_between).
  assert (ON : on_boundary vs cp) by (exists a, (pl_v q); auto).
  assert (DB : is_dist (on_boundary vs) p m) by (split; [exists cp; auto|exact LOW]).
  assert (M0 : 0 <= m) by (rewrite M; apply dist_nonneg).
  assert (OO : out = true -> ~ hull vs p).
  { intros O HP. apply OUT in O. destruct O as [H|(z & Z & H)]; [discriminate|]. destruct (P3 z Z) as [a' A']. destruct (P1 a' z A') as [S' N']. rewrite N' in H.
    pose proof (proj2 (proj1 (side_normal_sign a' (pl_v z) p (side_ne vs _ _ C LV S'))) (hull_inside vs p C HP _ _ S')) as X. un. lra. }
  assert (OI : out = false -> hull vs p).
  { intros O. apply inside_hull; [exact C|exact LV|]. intros a' b' S'. destruct (P2 a' b' S') as (z & Z & <-). destruct (P1 a' z Z) as [_ N'].
    apply (side_normal_sign a' (pl_v z) p (side_ne vs _ _ C LV S')). rewrite <- N'. apply Rnot_lt_le. intros X.
    assert (out = true); [|congruence]. apply OUT. right. exists z. split; [apply in_combine_r in Z; exact Z|exact X]. }
  change (@nltb RNum) with Rltb. change (@nsub RNum) with Rminus.
  assert (DS : dist - po_r s + po_r s = dist) by ring. rewrite DS.
  assert (DM : Rabs dist = m) by (rewrite DD; destruct out; [apply Rabs_right; un; lra|rewrite Rabs_Ropp; apply Rabs_right; un; lra]).
  (* zero distance means on the boundary, hence in the hull *)
  assert (Z : m = 0 -> on_boundary vs p) by (intros X; rewrite X in M; symmetry in M; apply dist_0 in M; rewrite M; exact ON).
  assert (HD : hull vs p <-> dist <= 0).
  { rewrite DD. destruct out eqn:EO.
    - split; [intros H; exfalso; apply (OO eq_refl H)|]. intros LE. apply boundary_hull, Z. un. lra.
    - split; [un; intros; lra|]. intros _. apply OI. reflexivity. }
  (* the gradient and the surface point *)
  assert (SURF : m <> 0 -> vmag g = 1 /\ vdist p (vadd cp (vscale g (po_r s))) = Rabs (dist - po_r s) /\ is_dist (hull vs) (vadd cp (vscale g (po_r s))) (po_r s)).
  { intros MZ. assert (D0 : dist <> 0) by (intros X; rewrite X, Rabs_R0 in DM; lra).
    assert (PM : vmag (vsub p cp) = m) by (rewrite M; reflexivity).
    split.
    { rewrite DG, mag_scale, PM. rewrite <- DM at 1. rewrite <- Rabs_mult. transitivity (Rabs 1); [f_equal; unR; un; field; exact D0|apply Rabs_R1]. }
    split.
    { unfold vdist. replace (vsub p (vadd cp (vscale g (po_r s)))) with (vscale (vsub p cp) ((dist - po_r s) / dist)).
      - rewrite mag_scale, PM. rewrite <- DM at 1. rewrite <- Rabs_mult. f_equal. unR. un. field. exact D0.
      - rewrite DG. clear -D0. destruct p as [px py], cp as [cx cy]. unV. un. f_equal; field; exact D0. }
    destruct out eqn:EO.
    - assert (NH := OO eq_refl). assert (DH := outside_dist vs p m C LV NH DB).
      assert (AN : forall z, hull vs z -> vdot (vsub p cp) (vsub z cp) <= 0).
      { apply nearest_angle; [intros; apply hull_mix; assumption|apply boundary_hull; exact ON|]. rewrite <- M. apply DH. }
      replace (vadd cp (vscale g (po_r s))) with (vadd cp (vscale (vsub p cp) (po_r s / m))).
      + replace (po_r s) with (po_r s / m * vdist p cp) at 2 by (rewrite <- M; rfield; exact MZ).
        apply (beyond_dist (hull vs)); [apply boundary_hull; exact ON|exact AN|]. apply Rmult_le_pos; [exact R0|]. left. apply Rinv_0_lt_compat. un. lra.
      + rewrite DG, DD. clear -MZ. destruct p as [px py], cp as [cx cy]. unV. un. f_equal; field; exact MZ.
    - assert (HP := OI eq_refl).
      assert (NO : vsub cp p = vscale (side_normal a (pl_v q)) m).
      { rewrite M. apply (inside_normal vs); auto. rewrite <- M. exact LOW. }
      assert (GN : g = side_normal a (pl_v q)).
      { assert (PN : vsub p cp = vscale (side_normal a (pl_v q)) (- m)).
        { transitivity (vneg (vsub cp p)); [clear; veq|]. rewrite NO. set (n := side_normal a (pl_v q)). clearbody n. clear. veq. }
        rewrite DG, PN, DD. set (n := side_normal a (pl_v q)). clearbody n. clear -MZ. destruct n as [nx ny]. unV. un. f_equal; field; exact MZ. }
      rewrite GN. set (n := side_normal a (pl_v q)) in *.
      assert (DR : vdist (vadd cp (vscale n (po_r s))) cp = po_r s).
      { unfold vdist. rewrite add_sub, mag_scale. assert (NM : vmag n = 1).
        { apply sq_eq; [apply mag_nonneg|lra|]. pose proof (mag_sq n) as X. unfold n in X. rewrite side_normal_unit in X by exact NE. fold n in X. un. change (@nmul RNum) with Rmult in X. lra. }
        rewrite NM, Rabs_right by (un; lra). un. ring. }
      rewrite <- DR at 2. apply nearest_dist; [apply boundary_hull; exact ON|]. intros z HZ. rewrite add_sub.
      assert (N0 : vdot n (vsub cp (pl_v q)) = 0).
      { apply (side_normal_sign a (pl_v q) cp NE). destruct BC as [t [_ ->]]. rewrite cross_lerp. replace (vcross (vsub (pl_v q) a) (vsub a a)) with 0 by (unV; rring). replace (vcross (vsub (pl_v q) a) (vsub (pl_v q) a)) with 0 by (unV; rring). un. ring. }
      pose proof (proj2 (proj1 (side_normal_sign a (pl_v q) z NE)) (hull_inside vs z C HZ _ _ S)) as NZ. fold n in NZ.
      replace (vdot (vscale n (po_r s)) (vsub z cp)) with (po_r s * (vdot n (vsub z (pl_v q)) - vdot n (vsub cp (pl_v q)))) by (clearbody n; unV; rring).
      rewrite N0. un. nra. }
  split; [rewrite DM; exact DB|]. split; [exact HD|]. split.
  { destruct out eqn:EO.
    - assert (DH := outside_dist vs p m C LV (OO eq_refl) DB). rewrite (covers_dist (SPoly s) p m DH). simpl radius_of. rewrite DD. un. split; lra.
    - split; [intros _; rewrite DD; un; lra|]. intros _. exists p. split; [exact (OI eq_refl)|]. rewrite dist_self. exact R0. }
  split.
  { intros NB. destruct SURF as (_ & S1 & S2); [intros X; apply NB, Z, X|]. split; [exact S2|exact S1]. }
  match goal with |- context [Rltb ?e m] => destruct (Rltb_spec e m) as [LE|LE] end; [apply SURF; un; lra|].
  rewrite CN, NQ. apply sq_eq; [apply mag_nonneg|lra|]. pose proof (mag_sq (side_normal a (pl_v q))) as X. rewrite side_normal_unit in X by exact NE. un. change (@nmul RNum) with Rmult in X. lra.
Qed.

(** ** PointQueryNearest *)
Definition signed (s : shape) (p : rvec) (d : R) : Prop := (d <= 0 /\ covers s p) \/ (0 < d /\ is_dist (core s) p (d + radius_of s)).
Lemma query_signed s p i : shape_ok s -> in_range s p -> shape_point_query s p = Some i -> signed s p (pi_dist i).
Proof.
  destruct s as [c|g|q]; intros OK NEAR E; cbn [shape_point_query] in E.
  - injection E as <-. destruct (circle_query c p OK) as (D & CV & _). unfold signed. destruct (Rle_dec (pi_dist (circle_point_query c p)) 0) as [L|L]; [left; split; [exact L|apply CV; exact L]|right; split; [lra|exact D]].
  - injection E as <-. destruct OK as [R0 NE]. destruct (segment_query g p R0 NE) as (D & CV & _). unfold signed. destruct (Rle_dec (pi_dist (segment_point_query g p)) 0) as [L|L]; [left; split; [exact L|apply CV; exact L]|right; split; [lra|exact D]].
  - destruct (poly_query q p i OK NEAR E) as (D & H & CV & _). unfold signed. destruct (Rle_dec (pi_dist i) 0) as [L|L]; [left; split; [exact L|apply CV; exact L]|right; split; [lra|]].
    destruct OK as (R0 & LN & C & _). simpl radius_of. rewrite Rabs_right in D by (un; lra). apply outside_dist; [exact C|rewrite map_length; exact LN| |exact D].
    intros HP. apply H in HP. un. lra.
Qed.
Lemma radius_nonneg s : shape_ok s -> 0 <= radius_of s.
Proof. destruct s as [c|g|q]; simpl; tauto. Qed.
Lemma reach s p d : shape_ok s -> signed s p d -> exists q, covers s q /\ vdist p q <= Rmax d 0.
Proof.
  intros OK [[L CV]|[L [[k [K D]] _]]].
  - exists p. split; [exact CV|]. rewrite dist_self. apply Rmax_r.
  - pose proof (radius_nonneg s OK) as R0. set (r := radius_of s) in *. assert (DP : 0 < d + r) by lra.
    set (t := r / (d + r)). assert (T : t * (d + r) = r) by (subst t; field; lra). assert (T1 : 0 <= t <= 1) by (apply frac01; lra). clearbody t.
    exists (vlerp k p t). split.
    + exists k. split; [exact K|]. fold r. pose proof (lerp_move k p 0 t) as M. rewrite lerp_0 in M. rewrite M, D, Rminus_0_r, Rabs_right by lra. lra.
    + pose proof (lerp_move k p t 1) as M. rewrite lerp_1 in M. rewrite M, D, Rabs_right by lra. eapply Rle_trans; [|apply Rmax_l]. lra.
Qed.
Lemma common_point (b1 b2 : @bb RNum) q : bb_contains_vect b1 q = true -> bb_contains_vect b2 q = true -> bb_intersects b1 b2 = true.
Proof. rewrite <- !in_box_model. unfold in_box, bb_intersects. unR. intros H1 H2. rewrite !andb_true_iff, !Rleb_true. un. lra. Qed.
Lemma reach_box s p d mx b : shape_ok s -> signed s p d -> d < mx -> (forall q, covers s q -> bb_contains_vect b q = true) -> bb_intersects b (bb_circle p (@nmax RNum mx n0)) = true.
Proof.
  intros OK SG L B. destruct (reach s p d OK SG) as (q & C & D). apply (common_point _ _ q); [auto|]. apply in_box_model. unfold bb_circle, bb_extents.
  apply (inflate (vx p) (vy p) (vx p) (vy p) (@nmax RNum mx n0) q p).
  - unfold in_box. cbn [bL bR bB bT]. un. lra.
  - rewrite dist_sym. eapply Rle_trans; [exact D|]. unR. apply Rmax_case; [eapply Rle_trans; [apply Rlt_le; exact L|apply Rmax_l]|apply Rmax_r].
Qed.
(* the fold *)
Lemma nearest_fold p l : forall o (i0 : pinfo), let r := fold_left (nearest_step p) l (o, i0) in
  (forall j s i, In (j, s, false) l -> shape_point_query s p = Some i -> pi_dist (snd r) <= pi_dist i) /\
  (r = (o, i0) \/ exists j s, fst r = Some j /\ In (j, s, false) l /\ shape_point_query s p = Some (snd r) /\ pi_dist (snd r) < pi_dist i0) /\ pi_dist (snd r) <= pi_dist i0.
Proof.
  induction l as [|[[j s] f] l IH]; intros o i0 r.
  - subst r. simpl. split; [intros ? ? ? []|]. split; [left; reflexivity|un; lra].
  - subst r. cbn [fold_left]. unfold nearest_step at 2 4 6 8 10 12.
    destruct f.
    + destruct (IH o i0) as (A & B & C). split; [|split; [|exact C]].
      * intros j' s' i [E|I]; [discriminate|eauto].
      * destruct B as [B|(j' & s' & B1 & B2 & B3)]; [left; exact B|right; exists j', s'; split; [exact B1|]; split; [right; exact B2|exact B3]].
    + destruct (shape_point_query s p) as [i|] eqn:Q.
      * cbn [snd]. change (@nltb RNum) with Rltb. destruct (Rltb_spec (pi_dist i) (pi_dist i0)) as [L|L].
        -- destruct (IH (Some j) i) as (A & B & C). split; [|split; [|un; lra]].
           ++ intros j' s' i' [E|I]; [inversion E; subst; intros Q'; rewrite Q in Q'; injection Q' as <-; exact C|eauto].
           ++ right. destruct B as [B|(j' & s' & B1 & B2 & B3 & B4)]; [rewrite B; exists j, s; cbn [fst snd]; split; [reflexivity|]; split; [left; reflexivity|auto]|exists j', s'; split; [exact B1|]; split; [right; exact B2|]; split; [exact B3|un; lra]].
        -- destruct (IH o i0) as (A & B & C). split; [|split; [|exact C]].
           ++ intros j' s' i' [E|I]; [inversion E; subst; intros Q'; rewrite Q in Q'; injection Q' as <-; un; lra|eauto].
           ++ destruct B as [B|(j' & s' & B1 & B2 & B3)]; [left; exact B|right; exists j', s'; split; [exact B1|]; split; [right; exact B2|exact B3]].
      * destruct (IH o i0) as (A & B & C). split; [|split; [|exact C]].
        -- intros j' s' i' [E|I]; [inversion E; subst; congruence|eauto].
        -- destruct B as [B|(j' & s' & B1 & B2 & B3)]; [left; exact B|right; exists j', s'; split; [exact B1|]; split; [right; exact B2|exact B3]].
Qed.
Lemma query_nearest world visit p mx res : indexes world visit -> world_ok world p -> point_query_nearest visit p mx = res ->
  match res with
  | (Some j, i) => pi_dist i < mx /\ (exists s b, In (j, s, false, b) world /\ shape_point_query s p = Some i) /\
      forall j' s' b' i', In (j', s', false, b') world -> shape_point_query s' p = Some i' -> pi_dist i <= pi_dist i'
  | (None, _) => forall j' s' b' i', In (j', s', false, b') world -> shape_point_query s' p = Some i' -> mx <= pi_dist i'
  end.
Proof.
  intros [IX1 IX2] OK E. unfold point_query_nearest in E. pose proof (nearest_fold p (visit (bb_circle p (@nmax RNum mx n0))) None (PInfo vzero mx vzero)) as H. cbv zeta in H. rewrite E in H.
  destruct H as (A & B & C). cbn [pi_dist] in B, C.
  assert (ALL : forall j' s' b' i', In (j', s', false, b') world -> shape_point_query s' p = Some i' -> pi_dist (snd res) <= pi_dist i').
  { intros j' s' b' i' I Q. destruct (Rlt_dec (pi_dist i') mx) as [L|L]; [|un; lra].
    destruct (OK _ _ _ _ I) as (O & NR & BX). apply (A j' s'); [|exact Q]. apply (IX2 _ _ b' I). apply (reach_box s' p (pi_dist i')); auto. apply query_signed; assumption. }
  destruct res as [[j|] i].
  - destruct B as [B|(j' & s & E1 & I & Q & L)]; [discriminate|]. cbn [fst snd] in *. injection E1 as <-. split; [exact L|]. split; [|exact ALL]. destruct (IX1 _ _ I) as [b IB]. exists s, b. auto.
  - destruct B as [B|(j' & s & E1 & _)]; [|discriminate]. injection B as ->. exact ALL.
Qed.
