(** Proofs about Mass.v over the reals. *)
From Coq Require Import ZArith Reals Lra Lia List Bool Arith.
From Verif Require Import Num NumReal Vec BB Body Mass.
Import ListNotations.
Local Open Scope R_scope.

(* the sides of the polygon with these corners *)
Definition edges {A} (l : list A) : list (A * A) := combine l (tl l ++ firstn 1 l).
Fixpoint esum {A} (g : A -> A -> R) (es : list (A * A)) : R :=
  match es with [] => 0 | e :: es => g (fst e) (snd e) + esum g es end.
Definition cyc {A} (g : A -> A -> R) (l : list A) : R := esum g (edges l).
Fixpoint pth {A} (g : A -> A -> R) (a : A) (l : list A) : R :=
  match l with [] => 0 | b :: l => g a b + pth g b l end.

Lemma cyc_pth {A} (g : A -> A -> R) a l : cyc g (a :: l) = pth g a (l ++ [a]).
Proof.
  unfold cyc, edges. simpl.
  assert (H : forall m c z, esum g (combine (c :: m) (m ++ [z])) = pth g c (m ++ [z])).
  { induction m as [|b m IH]; intros c z; simpl; [reflexivity|]. rewrite <- (IH b z). reflexivity. }
  apply H.
Qed.
Lemma pth_app {A} (g : A -> A -> R) l a x m : pth g a (l ++ x :: m) = pth g a (l ++ [x]) + pth g x m.
Proof. revert a. induction l as [|b l IH]; intros a; simpl; [lra|]. rewrite IH. lra. Qed.
Lemma cyc_rot {A} (g : A -> A -> R) l m : cyc g (l ++ m) = cyc g (m ++ l).
Proof.
  destruct l as [|a l]; [rewrite app_nil_r; reflexivity|]. destruct m as [|b m]; [rewrite app_nil_r; reflexivity|].
  simpl. rewrite !cyc_pth, <- !app_assoc. simpl. rewrite (pth_app g l a b (m ++ [a])), (pth_app g m b a (l ++ [b])). lra.
Qed.
Lemma pth_tele {A} (f g : A -> A -> R) (G : A -> R) : (forall x y, f x y = g x y + G x - G y) ->
  forall l a z, pth f a (l ++ [z]) = pth g a (l ++ [z]) + G a - G z.
Proof. intros H. induction l as [|b l IH]; intros a z; simpl; rewrite H; [lra|]. rewrite IH. lra. Qed.
Lemma cyc_tele {A} (f g : A -> A -> R) (G : A -> R) l : (forall x y, f x y = g x y + G x - G y) -> cyc f l = cyc g l.
Proof. intros H. destruct l as [|a l]; [reflexivity|]. rewrite !cyc_pth, (pth_tele f g G H). lra. Qed.
Lemma cyc_ext {A} (f g : A -> A -> R) l : (forall x y, f x y = g x y) -> cyc f l = cyc g l.
Proof. intros H. apply cyc_tele with (G := fun _ => 0). intros. rewrite H. lra. Qed.
Lemma esum_lin {A} (f g h : A -> A -> R) c d es : (forall x y, f x y = c * g x y + d * h x y) -> esum f es = c * esum g es + d * esum h es.
Proof. intros H. induction es as [|e es IH]; simpl; [lra|]. rewrite IH, H. lra. Qed.
Lemma cyc_lin {A} (f g h : A -> A -> R) c d l : (forall x y, f x y = c * g x y + d * h x y) -> cyc f l = c * cyc g l + d * cyc h l.
Proof. intros H. apply esum_lin. exact H. Qed.
Lemma cyc_map {A B} (k : B -> A) (g : A -> A -> R) l : cyc g (map k l) = cyc (fun x y => g (k x) (k y)) l.
Proof.
  destruct l as [|a l]; [reflexivity|]. simpl. rewrite !cyc_pth. change [k a] with (map k [a]). rewrite <- map_app.
  generalize (l ++ [a]). intros m. revert a. induction m as [|b m IH]; intros a; simpl; [reflexivity|]. rewrite IH. reflexivity.
Qed.
Lemma pth_rev {A} (g : A -> A -> R) l a z : pth g z (rev l ++ [a]) = pth (fun x y => g y x) a (l ++ [z]).
Proof.
  revert a z. induction l as [|b l IH]; intros a z; simpl; [reflexivity|].
  rewrite <- app_assoc. simpl. rewrite pth_app, IH. simpl. lra.
Qed.
Lemma cyc_rev {A} (g : A -> A -> R) l : cyc g (rev l) = cyc (fun x y => g y x) l.
Proof. destruct l as [|a l]; [reflexivity|]. simpl. rewrite cyc_rot. simpl. rewrite !cyc_pth, pth_rev. reflexivity. Qed.

(* the loop runs over the sides *)
Lemma loop_edges {A : Type} (l : list vec) (f : A -> vec -> vec -> A) acc :
  poly_loop (length l) l f acc = Some (fold_left (fun acc e => f acc (fst e) (snd e)) (edges l) acc).
Proof.
  unfold poly_loop.
  assert (H : forall n is es acc, length l = n -> Forall2 (fun i e => nth_error l i = Some (fst e) /\ nth_error l (Nat.modulo (i + 1) n) = Some (snd e)) is es ->
    fold_left (fun acc i => match acc with Some acc => match nth_error l i with Some v1 => match nth_error l (Nat.modulo (i + 1) n) with Some v2 => Some (f acc v1 v2) | None => None end | None => None end | None => None end) is (Some acc) =
    Some (fold_left (fun acc e => f acc (fst e) (snd e)) es acc)).
  { intros n is es acc' _ F. revert acc'. induction F as [|i e is es [E1 E2] F IH]; intros acc'; simpl; [reflexivity|]. rewrite E1, E2. apply IH. }
  apply H; [reflexivity|]. clear.
  assert (L : length (edges l) = length l) by (unfold edges; rewrite combine_length, app_length; destruct l; [reflexivity|cbn [tl firstn length]; lia]).
  assert (K : forall es k, (length es = length l - k)%nat -> (k <= length l)%nat ->
     (forall j e, nth_error es j = Some e -> nth_error (edges l) (k + j)%nat = Some e) ->
     Forall2 (fun i e => nth_error l i = Some (fst e) /\ nth_error l (Nat.modulo (i + 1) (length l)) = Some (snd e)) (seq k (length es)) es).
  { induction es as [|e es IH]; intros k E Hk H; simpl; constructor.
    - specialize (H 0%nat e eq_refl). rewrite Nat.add_0_r in H. simpl in E. assert (k < length l)%nat by lia. clear - H H0.
      unfold edges in H.
      assert (G : forall (l m : list vec) k x y, nth_error (combine l m) k = Some (x, y) -> nth_error l k = Some x /\ nth_error m k = Some y).
      { induction l0; intros m k0 x y; [destruct k0; discriminate|]. destruct m; [destruct k0; discriminate|]. destruct k0; simpl; [intros Q; inversion Q; auto|apply IHl0]. }
      destruct e as [x y]. apply G in H. simpl. destruct H as [H1 H2]. split; [exact H1|]. destruct l as [|a l]; [simpl in H0; lia|]. simpl in H2. simpl length in *.
      destruct (Nat.eq_dec (k + 1) (S (length l))) as [Q|Q].
      + rewrite Q, Nat.mod_same by lia. rewrite nth_error_app2 in H2 by lia. replace (k - length l)%nat with 0%nat in H2 by lia. exact H2.
      + rewrite Nat.mod_small by lia. rewrite nth_error_app1 in H2 by lia. rewrite Nat.add_1_r. exact H2.
    - apply IH; simpl in E; [lia|lia|]. intros j e' J. replace (S k + j)%nat with (k + S j)%nat by lia. apply H. exact J. }
  pose proof (K (edges l) 0%nat) as G. rewrite L in G. apply G; [lia|lia|]. intros j e J. exact J.
Qed.
Lemma fold_sums (g h : @vec RNum -> @vec RNum -> R) es a b : fold_left (fun (s : @num RNum * @num RNum) e => (nadd (fst s) (g (fst e) (snd e)), nadd (snd s) (h (fst e) (snd e)))) es (a, b) = (a + esum g es, b + esum h es).
Proof. revert a b. induction es as [|e es IH]; intros a b; simpl; [f_equal; lra|]. rewrite IH. simpl. f_equal; lra. Qed.
Lemma fold_vsums (g : @vec RNum -> @vec RNum -> R) (h : @vec RNum -> @vec RNum -> @vec RNum) es a b :
  fold_left (fun (s : @num RNum * vec) e => (nadd (fst s) (g (fst e) (snd e)), vadd (snd s) (h (fst e) (snd e)))) es (a, b) =
  (a + esum g es, vadd b (V (esum (fun x y => vx (h x y)) es) (esum (fun x y => vy (h x y)) es))).
Proof.
  revert a b. induction es as [|e es IH]; intros a b; simpl.
  - f_equal; [lra|]. destruct b. unfold vadd. simpl. f_equal; lra.
  - rewrite IH. f_equal; [lra|]. unfold vadd. simpl. f_equal; lra.
Qed.

(* the four sums *)
Definition s_cross (l : list (@vec RNum)) : R := cyc (fun a b : @vec RNum => vcross a b) l.
Definition s_len (l : list (@vec RNum)) : R := cyc (fun a b : @vec RNum => vdist a b) l.
Definition s_cx (l : list (@vec RNum)) : R := cyc (fun a b : @vec RNum => vx (vadd a b) * vcross a b) l.
Definition s_cy (l : list (@vec RNum)) : R := cyc (fun a b : @vec RNum => vy (vadd a b) * vcross a b) l.
Definition s_mom (l : list (@vec RNum)) : R := cyc (fun a b : @vec RNum => vcross a b * (vdot a a + vdot a b + vdot b b)) l.

Lemma area_eq (l : list (@vec RNum)) (r : R) : area_for_poly (length l) l r = Some (r * (npi * Rabs r + s_len l) + s_cross l / 2).
Proof.
  unfold area_for_poly. rewrite loop_edges.
  rewrite (fold_sums (fun a b : @vec RNum => vcross a b) (fun a b : @vec RNum => vdist a b) (edges l) n0 n0). unR. f_equal.
  unfold s_cross, s_len, cyc. set (p := esum _ _). set (q := esum _ _). lra.
Qed.
Lemma centroid_eq (l : list (@vec RNum)) : centroid_for_poly (length l) l = Some (V (s_cx l * (1 / (3 * s_cross l))) (s_cy l * (1 / (3 * s_cross l)))).
Proof.
  unfold centroid_for_poly. rewrite loop_edges. cbv zeta.
  rewrite (fold_vsums (fun a b : @vec RNum => vcross a b) (fun a b : @vec RNum => vscale (vadd a b) (vcross a b)) (edges l) n0 vzero). unR. f_equal.
  unfold s_cx, s_cy, s_cross, cyc, vscale, vadd, vzero. cbn [vx vy nadd nmul RNum]. f_equal; set (p := esum _ _); set (q := esum _ _); unR; rewrite !Rplus_0_l; reflexivity.
Qed.
Lemma s_cross_shift l o : s_cross (map (fun v => vadd v o) l) = s_cross l.
Proof.
  unfold s_cross. rewrite cyc_map. apply cyc_tele with (G := fun v : @vec RNum => vcross v o). intros [x1 y1] [x2 y2]. destruct o as [ox oy].
  unfold vcross, vadd. cbn [vx vy]. unR. ring.
Qed.
Lemma s_mom_shift l o : s_mom (map (fun v => vadd v o) l) = s_mom l + (4 * (vx o * s_cx l + vy o * s_cy l) + 6 * vdot o o * s_cross l).
Proof.
  unfold s_mom. rewrite cyc_map.
  rewrite (cyc_tele _ (fun a b : @vec RNum => vcross a b * (vdot a a + vdot a b + vdot b b) + (4 * (vx o * (vx (vadd a b) * vcross a b) + vy o * (vy (vadd a b) * vcross a b)) + 6 * vdot o o * vcross a b))
     (fun v : @vec RNum => vcross v o * (vdot v v + 3 * vdot o v + 3 * vdot o o))).
  - rewrite (cyc_lin _ (fun a b : @vec RNum => vcross a b * (vdot a a + vdot a b + vdot b b))
       (fun a b : @vec RNum => 4 * (vx o * (vx (vadd a b) * vcross a b) + vy o * (vy (vadd a b) * vcross a b)) + 6 * vdot o o * vcross a b) 1 1) by (intros; unR; ring).
    rewrite (cyc_lin (fun a b : @vec RNum => 4 * (vx o * (vx (vadd a b) * vcross a b) + vy o * (vy (vadd a b) * vcross a b)) + 6 * vdot o o * vcross a b)
       (fun a b : @vec RNum => vx o * (vx (vadd a b) * vcross a b) + vy o * (vy (vadd a b) * vcross a b)) (fun a b : @vec RNum => vcross a b) 4 (6 * vdot o o)) by (intros; unR; ring).
    rewrite (cyc_lin (fun a b : @vec RNum => vx o * (vx (vadd a b) * vcross a b) + vy o * (vy (vadd a b) * vcross a b)) (fun a b : @vec RNum => vx (vadd a b) * vcross a b) (fun a b : @vec RNum => vy (vadd a b) * vcross a b) (vx o) (vy o)) by (intros; unR; ring).
    unfold s_cx, s_cy, s_cross. rewrite !Rmult_1_l. reflexivity.
  - intros [x1 y1] [x2 y2]. destruct o as [ox oy]. unfold vcross, vdot, vadd. cbn [vx vy]. unR. ring.
Qed.
Lemma s_cx_shift l o : s_cx (map (fun v => vadd v o) l) = s_cx l + 3 * vx o * s_cross l.
Proof.
  unfold s_cx. rewrite cyc_map. rewrite (cyc_tele _ (fun a b : @vec RNum => vx (vadd a b) * vcross a b + 3 * vx o * vcross a b) (fun v : @vec RNum => (vx v + 2 * vx o) * vcross v o)).
  - rewrite (cyc_lin _ (fun a b : @vec RNum => vx (vadd a b) * vcross a b) (fun a b : @vec RNum => vcross a b) 1 (3 * vx o)) by (intros; unR; ring). unfold s_cross. rewrite !Rmult_1_l. reflexivity.
  - intros [x1 y1] [x2 y2]. destruct o as [ox oy]. unfold vcross, vdot, vadd. cbn [vx vy]. unR. ring.
Qed.
Lemma s_cy_shift l o : s_cy (map (fun v => vadd v o) l) = s_cy l + 3 * vy o * s_cross l.
Proof.
  unfold s_cy. rewrite cyc_map. rewrite (cyc_tele _ (fun a b : @vec RNum => vy (vadd a b) * vcross a b + 3 * vy o * vcross a b) (fun v : @vec RNum => (vy v + 2 * vy o) * vcross v o)).
  - rewrite (cyc_lin _ (fun a b : @vec RNum => vy (vadd a b) * vcross a b) (fun a b : @vec RNum => vcross a b) 1 (3 * vy o)) by (intros; unR; ring). unfold s_cross. rewrite !Rmult_1_l. reflexivity.
  - intros [x1 y1] [x2 y2]. destruct o as [ox oy]. unfold vcross, vdot, vadd. cbn [vx vy]. unR. ring.
Qed.
Lemma s_len_shift l o : s_len (map (fun v => vadd v o) l) = s_len l.
Proof.
  unfold s_len. rewrite cyc_map. apply cyc_ext. intros [x1 y1] [x2 y2]. destruct o as [ox oy]. unfold vdist, vmag, vdot, vsub, vadd. cbn [vx vy]. unR. f_equal. ring.
Qed.
Lemma moment_eq (m : R) (l : list (@vec RNum)) o (r : R) : length l <> 2%nat ->
  moment_for_poly m (length l) l o r = Some (m * - s_mom (map (fun v => vadd v o) l) / (6 * - s_cross l)).
Proof.
  intros L. unfold moment_for_poly. apply Nat.eqb_neq in L. rewrite L. rewrite loop_edges. cbv zeta.
  rewrite (fold_sums (fun a b : @vec RNum => nmul (vcross (vadd b o) (vadd a o)) (nadd (nadd (vdot (vadd a o) (vadd a o)) (vdot (vadd a o) (vadd b o))) (vdot (vadd b o) (vadd b o))))
    (fun a b : @vec RNum => vcross (vadd b o) (vadd a o)) (edges l) n0 n0).
  rewrite <- (s_cross_shift l o). unfold s_mom, s_cross. rewrite !cyc_map.
  assert (E1 : esum (fun a b : @vec RNum => nmul (vcross (vadd b o) (vadd a o)) (nadd (nadd (vdot (vadd a o) (vadd a o)) (vdot (vadd a o) (vadd b o))) (vdot (vadd b o) (vadd b o)))) (edges l) =
    - cyc (fun x y : @vec RNum => vcross (vadd x o) (vadd y o) * (vdot (vadd x o) (vadd x o) + vdot (vadd x o) (vadd y o) + vdot (vadd y o) (vadd y o))) l).
  { rewrite <- (Rmult_1_l (cyc _ _)). rewrite Ropp_mult_distr_l. unfold cyc. erewrite esum_lin with (c := -1) (d := 0) (h := fun _ _ => 0).
    rewrite Rmult_0_l, Rplus_0_r. reflexivity. intros a b. unfold vcross. unR. ring. }
  assert (E2 : esum (fun a b : @vec RNum => vcross (vadd b o) (vadd a o)) (edges l) = - cyc (fun x y : @vec RNum => vcross (vadd x o) (vadd y o)) l).
  { rewrite <- (Rmult_1_l (cyc _ _)). rewrite Ropp_mult_distr_l. unfold cyc. erewrite esum_lin with (c := -1) (d := 0) (h := fun _ _ => 0).
    rewrite Rmult_0_l, Rplus_0_r. reflexivity. intros a b. unfold vcross. unR. ring. }
  rewrite E1, E2. unR. rewrite !Rplus_0_l. reflexivity.
Qed.

Local Notation rvec := (@vec RNum).
Local Ltac rring := match goal with |- @eq _ ?a ?b => apply (Rplus_eq_reg_l 0 a b) end; ring.
Local Ltac rfield := match goal with |- @eq _ ?a ?b => apply (Rplus_eq_reg_l 0 a b) end; field.
Lemma vadd0 (v : rvec) : vadd v vzero = v.
Proof. destruct v as [x y]. unfold vadd, vzero. cbn [vx vy]. unR. f_equal; ring. Qed.
Lemma map_vadd0 (l : list rvec) : map (fun v => vadd v vzero) l = l.
Proof. induction l; simpl; [|rewrite vadd0, IHl]; reflexivity. Qed.

Lemma area_translate (l : list rvec) o (r : R) : area_for_poly (length l) (map (fun v => vadd v o) l) r = area_for_poly (length l) l r.
Proof. rewrite <- (map_length (fun v => vadd v o) l) at 1. rewrite !area_eq, s_cross_shift, s_len_shift. reflexivity. Qed.
Lemma area0 (l : list rvec) : area_for_poly (length l) l 0 = Some (s_cross l / 2).
Proof. rewrite area_eq. f_equal. lra. Qed.
Lemma area_nz (l : list rvec) : area_for_poly (length l) l 0 <> Some 0 -> s_cross l <> 0.
Proof. intros H E. apply H. rewrite area0, E. f_equal. lra. Qed.
Lemma centroid_translate (l : list rvec) o c : area_for_poly (length l) l 0 <> Some 0 ->
  centroid_for_poly (length l) l = Some c -> centroid_for_poly (length l) (map (fun v => vadd v o) l) = Some (vadd c o).
Proof.
  intros A. apply area_nz in A. rewrite <- (map_length (fun v => vadd v o) l) at 2. rewrite !centroid_eq, s_cross_shift, s_cx_shift, s_cy_shift.
  intros E. inversion E; subst c. f_equal. unfold vadd. cbn [vx vy]. unR. f_equal; field; exact A.
Qed.
Lemma moment_offset (m : R) (l : list rvec) o (r : R) : length l <> 2%nat ->
  moment_for_poly m (length l) (map (fun v => vadd v o) l) vzero r = moment_for_poly m (length l) l o r.
Proof.
  intros L. rewrite (moment_eq m l o r L). rewrite <- (map_length (fun v => vadd v o) l) in L |- *. rewrite (moment_eq m _ vzero r L), map_vadd0, s_cross_shift. reflexivity.
Qed.
Lemma moment_parallel (m : R) (l : list rvec) o (r : R) c (i : R) : length l <> 2%nat -> area_for_poly (length l) l 0 <> Some 0 ->
  centroid_for_poly (length l) l = Some c -> moment_for_poly m (length l) l vzero r = Some i ->
  moment_for_poly m (length l) l o r = Some (i + m * (2 * vdot c o + vdot o o)).
Proof.
  intros L A. apply area_nz in A. rewrite !moment_eq, centroid_eq, map_vadd0 by exact L. intros E1 E2. inversion E1; inversion E2; subst c i. f_equal.
  rewrite s_mom_shift. unfold vdot. cbn [vx vy]. unR. field. exact A.
Qed.
Lemma poly_info (l : list rvec) (r : R) (m : R) : (2 < length l)%nat -> area_for_poly (length l) l 0 <> Some 0 ->
  exists p, poly_mass_info (length l) l r = Some p /\ centroid_for_poly (length l) l = Some (sm_cog p) /\ area_for_poly (length l) l r = Some (sm_area p) /\
    moment_for_poly m (length l) l vzero r = Some (m * sm_i p + m * vmagsq (sm_cog p)) /\
    moment_for_poly m (length l) l (vneg (sm_cog p)) r = Some (m * sm_i p).
Proof.
  intros L A. assert (L' : length l <> 2%nat) by lia. unfold poly_mass_info. destruct (@centroid_for_poly RNum (length l) l) as [c|] eqn:C; [|rewrite centroid_eq in C; discriminate].
  destruct (@moment_for_poly RNum n1 (length l) l (vneg c) r) as [i|] eqn:E; [|rewrite moment_eq in E by lia; discriminate].
  rewrite area_eq. eexists. split; [reflexivity|]. cbn [sm_i sm_cog sm_area]. split; [reflexivity|]. split; [reflexivity|].
  destruct (@moment_for_poly RNum m (length l) l vzero r) as [j|] eqn:F; [|rewrite moment_eq in F by lia; discriminate].
  pose proof (moment_parallel m l (vneg c) r c j L' A C F) as G.
  destruct (@moment_for_poly RNum n1 (length l) l vzero r) as [k|] eqn:H; [|rewrite moment_eq in H by lia; discriminate].
  pose proof (moment_parallel n1 l (vneg c) r c k L' A C H) as G'. rewrite E in G'. inversion G'; subst i.
  assert (J : j = m * k).
  { rewrite moment_eq in F, H by lia. rewrite map_vadd0 in F, H. injection F as F. injection H as H. rewrite <- F, <- H. change (@n1 RNum) with 1. unR. field. apply area_nz in A. exact A. }
  split; [|rewrite G]; f_equal; rewrite J; unfold vmagsq, vneg, vdot; cbn [vx vy]; unR; rring.
Qed.

Lemma rot_area (l m : list rvec) (r : R) : area_for_poly (length (l ++ m)) (l ++ m) r = area_for_poly (length (m ++ l)) (m ++ l) r.
Proof. rewrite !area_eq. unfold s_len, s_cross. rewrite !(cyc_rot _ l m). reflexivity. Qed.
Lemma rot_centroid (l m : list rvec) : centroid_for_poly (length (l ++ m)) (l ++ m) = centroid_for_poly (length (m ++ l)) (m ++ l).
Proof. rewrite !centroid_eq. unfold s_cx, s_cy, s_cross. rewrite !(cyc_rot _ l m). reflexivity. Qed.
Lemma segment_swap (m : R) a b (r : R) : moment_for_segment m a b r = moment_for_segment m b a r.
Proof.
  unfold moment_for_segment. replace (vlerp a b nhalf) with (vlerp b a nhalf).
  - replace (vdist b a) with (vdist a b); [reflexivity|]. unfold vdist, vmag, vdot, vsub. cbn [vx vy]. unR. f_equal. rring.
  - unfold vlerp, vadd, vscale. cbn [vx vy]. unR. f_equal; rfield.
Qed.
Lemma rot_moment (k : R) (l m : list rvec) o (r : R) : moment_for_poly k (length (l ++ m)) (l ++ m) o r = moment_for_poly k (length (m ++ l)) (m ++ l) o r.
Proof.
  assert (Q : length (m ++ l) = length (l ++ m)) by (rewrite !app_length; lia).
  destruct (Nat.eq_dec (length (l ++ m)) 2) as [E|E].
  - rewrite Q, E. unfold moment_for_poly. simpl. destruct l as [|a [|b [|c l]]], m as [|d [|e [|f m]]]; simpl in E; try discriminate; simpl; try reflexivity.
    f_equal. apply segment_swap.
  - rewrite !moment_eq by congruence. rewrite !map_app. unfold s_mom, s_cross. rewrite !(cyc_rot _ _ (map _ m)), !(cyc_rot _ l m). reflexivity.
Qed.
(* the other way round *)
Lemma cyc_opp {A} (f g : A -> A -> R) l : (forall x y, f x y = - g x y) -> cyc f l = - cyc g l.
Proof. intros H. rewrite (cyc_lin f g (fun _ _ => 0) (-1) 0) by (intros; rewrite H; rring). rring. Qed.
Lemma cross_rev l : s_cross (rev l) = - s_cross l.
Proof. unfold s_cross. rewrite cyc_rev. apply cyc_opp. intros x y. unfold vcross. unR. rring. Qed.
Lemma rev_area (l : list rvec) (a : R) : area_for_poly (length l) l 0 = Some a -> area_for_poly (length l) (rev l) 0 = Some (- a).
Proof. rewrite <- (rev_length l) at 2. rewrite !area0, cross_rev. intros E. inversion E. f_equal. lra. Qed.
Lemma rev_centroid (l : list rvec) : area_for_poly (length l) l 0 <> Some 0 -> centroid_for_poly (length l) (rev l) = centroid_for_poly (length l) l.
Proof.
  intros A. apply area_nz in A. rewrite <- (rev_length l) at 1. rewrite !centroid_eq, cross_rev. unfold s_cx, s_cy. rewrite !cyc_rev.
  rewrite (cyc_opp (fun x y : rvec => vx (vadd y x) * vcross y x) (fun x y => vx (vadd x y) * vcross x y)) by (intros; unfold vcross, vadd; cbn [vx vy]; unR; rring).
  rewrite (cyc_opp (fun x y : rvec => vy (vadd y x) * vcross y x) (fun x y => vy (vadd x y) * vcross x y)) by (intros; unfold vcross, vadd; cbn [vx vy]; unR; rring).
  f_equal. f_equal; unR; rfield; exact A.
Qed.
(* cutting off a triangle *)
Lemma cyc_fan (g : rvec -> rvec -> R) a b c l : (forall x y, g x y = - g y x) -> cyc g (a :: b :: c :: l) = cyc g [a; b; c] + cyc g (a :: c :: l).
Proof.
  intros S. rewrite !cyc_pth. simpl. specialize (S a c). lra.
Qed.
Lemma anti_cross (x y : rvec) : vcross x y = - vcross y x.
Proof. unfold vcross. unR. rring. Qed.
Lemma fan_area a b c (l : list rvec) (x y z : R) : area_for_poly (length (a :: b :: c :: l)) (a :: b :: c :: l) 0 = Some x ->
  area_for_poly 3 [a; b; c] 0 = Some y -> area_for_poly (length (a :: c :: l)) (a :: c :: l) 0 = Some z -> x = y + z.
Proof.
  change 3%nat with (length [a; b; c]). rewrite !area0. intros E1 E2 E3. inversion E1. inversion E2. inversion E3. unfold s_cross.
  pose proof (cyc_fan (fun a b : rvec => vcross a b) a b c l anti_cross) as Q; cbv beta in Q; rewrite Q. lra.
Qed.
Lemma fan_centroid a b c (l : list rvec) (x y z : R) u v w : area_for_poly (length (a :: b :: c :: l)) (a :: b :: c :: l) 0 = Some x ->
  area_for_poly 3 [a; b; c] 0 = Some y -> area_for_poly (length (a :: c :: l)) (a :: c :: l) 0 = Some z -> x <> 0 -> y <> 0 -> z <> 0 ->
  centroid_for_poly (length (a :: b :: c :: l)) (a :: b :: c :: l) = Some u -> centroid_for_poly 3 [a; b; c] = Some v -> centroid_for_poly (length (a :: c :: l)) (a :: c :: l) = Some w ->
  vscale u x = vadd (vscale v y) (vscale w z).
Proof.
  change 3%nat with (length [a; b; c]). rewrite !area0, !centroid_eq. intros E1 E2 E3. injection E1 as <-. injection E2 as <-. injection E3 as <-. intros X Y Z E4 E5 E6. injection E4 as <-. injection E5 as <-. injection E6 as <-.
  unfold s_cx, s_cy. 
  rewrite (cyc_fan (fun a b => vx (vadd a b) * vcross a b) a b c l) by (intros; unfold vcross, vadd; cbn [vx vy]; unR; rring).
  rewrite (cyc_fan (fun a b => vy (vadd a b) * vcross a b) a b c l) by (intros; unfold vcross, vadd; cbn [vx vy]; unR; rring).
  fold (s_cx [a; b; c]) (s_cy [a; b; c]) (s_cx (a :: c :: l)) (s_cy (a :: c :: l)).
  assert (Q : s_cross (a :: b :: c :: l) <> 0) by lra. assert (Q1 : s_cross [a; b; c] <> 0) by lra. assert (Q2 : s_cross (a :: c :: l) <> 0) by lra.
  clear - Q Q1 Q2. generalize dependent (s_cross (a :: b :: c :: l)). generalize dependent (s_cross (a :: c :: l)). generalize dependent (s_cross [a; b; c]).
  generalize (s_cx [a; b; c]) (s_cy [a; b; c]) (s_cx (a :: c :: l)) (s_cy (a :: c :: l)). intros.
  unfold vscale, vadd. cbn [vx vy]. unR. f_equal; rfield; auto.
Qed.
Lemma fan_moment a b c d (l : list rvec) (r x y z i j k : R) : area_for_poly (length (a :: b :: c :: d :: l)) (a :: b :: c :: d :: l) 0 = Some x ->
  area_for_poly 3 [a; b; c] 0 = Some y -> area_for_poly (length (a :: c :: d :: l)) (a :: c :: d :: l) 0 = Some z -> x <> 0 -> y <> 0 -> z <> 0 -> forall o,
  moment_for_poly (x : R) (length (a :: b :: c :: d :: l)) (a :: b :: c :: d :: l) o r = Some i -> moment_for_poly (y : R) 3 [a; b; c] o r = Some j ->
  moment_for_poly (z : R) (length (a :: c :: d :: l)) (a :: c :: d :: l) o r = Some k -> i = j + k.
Proof.
  change 3%nat with (length [a; b; c]). rewrite !area0. intros E1 E2 E3 X Y Z o. rewrite !moment_eq by (simpl; lia). intros E4 E5 E6. injection E1 as <-. injection E2 as <-. injection E3 as <-. injection E4 as <-. injection E5 as <-. injection E6 as <-.
  cbn [map]. 
  assert (F : s_mom (vadd a o :: vadd b o :: vadd c o :: vadd d o :: map (fun v => vadd v o) l) =
    s_mom [vadd a o; vadd b o; vadd c o] + s_mom (vadd a o :: vadd c o :: vadd d o :: map (fun v => vadd v o) l)).
  { unfold s_mom. apply cyc_fan. intros. unfold vcross, vdot. unR. rring. }
  rewrite F.
  assert (Q : s_cross (a :: b :: c :: d :: l) <> 0) by lra. assert (Q1 : s_cross [a; b; c] <> 0) by lra. assert (Q2 : s_cross (a :: c :: d :: l) <> 0) by lra.
  unR. rfield. auto.
Qed.
(* triangles *)
Lemma tri_cross (a b c : rvec) : s_cross [a; b; c] = vcross (vsub b a) (vsub c a).
Proof. unfold s_cross. rewrite cyc_pth. simpl. unfold vcross, vsub. cbn [vx vy]. unR. rring. Qed.
Lemma tri_area (a b c : rvec) : area_for_poly 3 [a; b; c] 0 = Some (vcross (vsub b a) (vsub c a) / 2).
Proof. change 3%nat with (length [a; b; c]). rewrite area0, tri_cross. reflexivity. Qed.
Lemma tri_centroid (a b c : rvec) : vcross (vsub b a) (vsub c a) <> 0 -> centroid_for_poly 3 [a; b; c] = Some (vscale (vadd a (vadd b c)) (1 / 3)).
Proof.
  intros H. change 3%nat with (length [a; b; c]). rewrite centroid_eq, tri_cross. f_equal. unfold s_cx, s_cy. rewrite !cyc_pth. simpl pth.
  revert H. unfold vcross, vsub, vadd, vscale. cbn [vx vy]. unR. intros H. f_equal; rfield; exact H.
Qed.
Lemma tri_moment (m : R) (a b c : rvec) (r : R) : vcross (vsub b a) (vsub c a) <> 0 ->
  moment_for_poly m 3 [a; b; c] (vneg (vscale (vadd a (vadd b c)) (1 / 3))) r = Some (m * (vdistsq a b + vdistsq b c + vdistsq c a) / 36).
Proof.
  intros H. change 3%nat with (length [a; b; c]) at 1. rewrite moment_eq by (simpl; lia). rewrite tri_cross. f_equal. unfold s_mom. cbn [map]. rewrite !cyc_pth. simpl pth.
  revert H. destruct a as [ax ay], b as [bx by_], c as [cx cy].
  unfold vdistsq, vmagsq, vcross, vdot, vsub, vadd, vscale, vneg. cbn [vx vy]. unR. intros H. rfield. exact H.
Qed.
(* boxes *)
Lemma box_area (b : @bb RNum) : area_for_poly 4 (box_verts b) 0 = Some ((bR b - bL b) * (bT b - bB b)).
Proof.
  change 4%nat with (length (box_verts b)). rewrite area0. f_equal. unfold s_cross, box_verts. rewrite cyc_pth. simpl pth. unfold vcross. cbn [vx vy]. unR. rfield.
Qed.
Lemma box_cross (b : @bb RNum) : s_cross (box_verts b) = 2 * ((bR b - bL b) * (bT b - bB b)).
Proof. unfold s_cross, box_verts. rewrite cyc_pth. simpl pth. unfold vcross. cbn [vx vy]. unR. rring. Qed.
Lemma box_centroid (b : @bb RNum) : bR b <> bL b -> bT b <> bB b -> centroid_for_poly 4 (box_verts b) = Some (V ((bL b + bR b) / 2) ((bB b + bT b) / 2)).
Proof.
  intros H1 H2. change 4%nat with (length (box_verts b)). rewrite centroid_eq, box_cross. f_equal. unfold s_cx, s_cy, box_verts. rewrite !cyc_pth. simpl pth.
  unfold vcross, vadd. cbn [vx vy]. unR. destruct b as [l bo ri t]. cbn [bL bR bB bT] in *. change (@num RNum) with R in *. f_equal; rfield; split; lra.
Qed.
Lemma box_moment (m : R) (b : @bb RNum) (r : R) : bR b <> bL b -> bT b <> bB b -> moment_for_poly m 4 (box_verts b) vzero r = Some (moment_for_box2 m b).
Proof.
  intros H1 H2. change 4%nat with (length (box_verts b)). rewrite moment_eq by (simpl; lia). rewrite box_cross, map_vadd0. f_equal. unfold s_mom, box_verts. rewrite !cyc_pth. simpl pth.
  unfold moment_for_box2, moment_for_box, vmagsq, vcross, vdot, vscale. cbn [vx vy]. unR. destruct b as [l bo ri t]. cbn [bL bR bB bT] in *. change (@num RNum) with R in *. f_equal. rfield; split; lra.
Qed.
Lemma box_moment_centre (m w h : R) (r : R) : w <> 0 -> h <> 0 -> moment_for_poly m 4 (box_verts (centred_box w h)) vzero r = Some (moment_for_box m w h).
Proof.
  intros H1 H2. rewrite box_moment; unfold centred_box; cbn [bL bR bB bT]; unR; [|lra|lra]. f_equal.
  unfold moment_for_box2, moment_for_box, vmagsq, vdot, vscale. cbn [vx vy bL bR bB bT]. unR. rfield.
Qed.
(* circles and segments *)
Local Notation rpi := (@npi RNum : R).
(* discs and rings: each ring of radius r adds its area times r squared *)
Lemma derive_ext (f g : R -> R) x l : (forall y, f y = g y) -> derivable_pt_lim g x l -> derivable_pt_lim f x l.
Proof. intros E H e He. destruct (H e He) as [d D]. exists d. intros h H0 Hd. rewrite !E. auto. Qed.
Lemma disc_area_derive (r : R) : area_for_circle 0 0 = 0 /\ (0 <= r -> derivable_pt_lim (fun x => area_for_circle 0 x) r (2 * rpi * r)).
Proof.
  assert (E : forall y : R, area_for_circle 0 y = rpi * y ^ 2) by (intros y; unfold area_for_circle; unR; rewrite Rabs_left1 by nra; rring).
  split; [rewrite E; rring|]. intros _. eapply derive_ext; [exact E|]. replace (2 * rpi * r) with (rpi * (INR 2 * r ^ 1)) by (simpl; rring).
  apply (derivable_pt_lim_scal (fun x => x ^ 2)), derivable_pt_lim_pow.
Qed.
Lemma disc_moment_derive (r : R) : moment_for_circle (area_for_circle 0 0) 0 0 vzero = 0 /\
  derivable_pt_lim (fun x => moment_for_circle (area_for_circle 0 x) 0 x vzero) r (2 * rpi * r * (r * r)).
Proof.
  assert (E : forall y : R, moment_for_circle (area_for_circle 0 y) 0 y vzero = rpi / 2 * y ^ 4).
  { intros y. unfold moment_for_circle, area_for_circle, vmagsq, vdot, vzero. cbn [vx vy]. unR. rewrite Rabs_left1 by nra. rfield. }
  split; [rewrite E; rring|]. eapply derive_ext; [exact E|]. replace (2 * rpi * r * (r * r)) with (rpi / 2 * (INR 4 * r ^ 3)) by (simpl; rfield).
  apply (derivable_pt_lim_scal (fun x => x ^ 4)), derivable_pt_lim_pow.
Qed.
Lemma ring_moment (d1 d2 : R) o : 0 <= d1 <= d2 ->
  moment_for_circle (area_for_circle d1 d2) d1 d2 o + moment_for_circle (area_for_circle 0 d1) 0 d1 o = moment_for_circle (area_for_circle 0 d2) 0 d2 o.
Proof.
  intros H. unfold moment_for_circle, area_for_circle. unR. rewrite !Rabs_left1 by nra. set (k := vmagsq o). rfield.
Qed.
Lemma circle_parallel (m d1 d2 : R) o : moment_for_circle m d1 d2 o = moment_for_circle m d1 d2 vzero + m * vdot o o.
Proof. unfold moment_for_circle, vmagsq, vdot, vzero. cbn [vx vy]. unR. rring. Qed.
Lemma circle_linear (m d1 d2 : R) o : moment_for_circle m d1 d2 o = m * moment_for_circle 1 d1 d2 o.
Proof. unfold moment_for_circle. unR. set (k := vmagsq o). rring. Qed.
Lemma circle2_diameter (m r : R) : moment_for_circle2 m r = moment_for_circle m n0 (2 * r) vzero.
Proof. unfold moment_for_circle2, moment_for_circle, vmagsq, vdot, vzero. cbn [vx vy]. unR. rfield. Qed.
Lemma circle2_four (m r : R) c : moment_for_circle2 m r = 4 * (m * sm_i (circle_mass_info r c)).
Proof. unfold circle_mass_info, moment_for_circle2, moment_for_circle, vmagsq, vdot, vzero. cbn [vx vy sm_i]. unR. rfield. Qed.
Lemma circle2_wrong : exists (m r : R) (c : rvec), 0 < m /\ 0 < r /\ moment_for_circle2 m r <> m * sm_i (circle_mass_info r c).
Proof. exists 1, 1, vzero. split; [lra|]. split; [lra|]. rewrite (circle2_four 1 1 vzero). unfold circle_mass_info, moment_for_circle, vmagsq, vdot, vzero. cbn [vx vy sm_i]. unR. lra. Qed.
Lemma segment_parallel (m : R) a b (r : R) : moment_for_segment m a b r = m * sm_i (segment_mass_info a b r) + m * vmagsq (sm_cog (segment_mass_info a b r)).
Proof.
  unfold moment_for_segment, segment_mass_info. cbn [sm_i sm_cog]. replace (vdist b a) with (vdist a b).
  - unfold moment_for_box. unR. rfield.
  - unfold vdist, vmag, vdot, vsub. cbn [vx vy]. unR. f_equal. rring.
Qed.
Lemma segment_as_poly (a b : rvec) (r : R) : 0 <= r -> area_for_poly 2 [a; b] r = Some (area_for_segment a b r).
Proof.
  intros H. change 2%nat with (length [a; b]). rewrite area_eq. f_equal. unfold s_len, s_cross. rewrite !cyc_pth. cbn [pth app]. unfold area_for_segment.
  replace (vdist b a) with (vdist a b) by (unfold vdist, vmag, vdot, vsub; cbn [vx vy]; unR; f_equal; rring).
  rewrite Rabs_right by lra. unfold vcross. unR. f_equal. rfield.
Qed.
Lemma circle_as_segment (a : rvec) (r : R) : area_for_segment a a r = area_for_circle 0 r.
Proof.
  unfold area_for_segment, area_for_circle, vdist, vmag, vdot, vsub. cbn [vx vy]. unR. 
  replace ((vx a - vx a) * (vx a - vx a) + (vy a - vy a) * (vy a - vy a)) with 0 by ring. rewrite sqrt_0.
  rewrite Rabs_left1 by nra. rring.
Qed.
Lemma two_offset : exists (m : R) (a b o : rvec) (r : R), moment_for_poly m 2 [a; b] o r <> moment_for_poly m 2 (map (fun v => vadd v o) [a; b]) vzero r.
Proof.
  exists 1, (@V RNum 0 0), (@V RNum 0 0), (@V RNum 1 0), 0. unfold moment_for_poly, moment_for_segment, vdist, vmag, vdot, vsub, vadd, vzero, vlerp, vmagsq, vscale, vdot. cbn [vx vy map Nat.eqb]. cbn [vx vy]. unR.
  intros E. inversion E as [F]. revert F. replace ((0 + 1 - (0 + 1)) * (0 + 1 - (0 + 1)) + (0 + 0 - (0 + 0)) * (0 + 0 - (0 + 0))) with 0 by ring.
  replace ((0 - 0) * (0 - 0) + (0 - 0) * (0 - 0)) with 0 by ring. rewrite sqrt_0. lra.
Qed.
(* the counter-clockwise unit square *)
Lemma square_area : exists a : R, area_for_poly 4 (box_verts (centred_box 1 1)) 0 = Some a /\ 0 < a /\ area_for_poly 4 (rev (box_verts (centred_box 1 1))) 0 = Some (- a).
Proof.
  assert (H : area_for_poly 4 (box_verts (centred_box 1 1)) 0 = Some 1) by (rewrite box_area; unfold centred_box; cbn [bL bR bB bT]; unR; f_equal; rfield).
  exists 1. split; [exact H|]. split; [lra|]. exact (rev_area (box_verts (centred_box 1 1)) 1 H).
Qed.
Lemma ex_poly : @area_for_poly RNum 3 [@V RNum 0 0; @V RNum 1 0; @V RNum 0 1] 0 = Some (1 / 2).
Proof. rewrite tri_area. unfold vcross, vsub. cbn [vx vy]. unR. f_equal. rfield. Qed.
