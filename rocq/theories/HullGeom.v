(** Proofs for C47, second part: over the reals the QuickHull recursion yields the convex hull. *)
From Coq Require Import ZArith Reals List Bool Lia Lra PeanoNat Permutation Psatz.
From Verif Require Import Num NumReal Vec VecReal Polyline PolylineSimple Hull HullSpec HullRefine ShapesSpec ShapesPoly.
Import ListNotations.
Local Open Scope R_scope.
Local Notation rvec := (@vec RNum).
Local Notation Arc := (arc (Nm := RNum) 0 True Rle).
Local Notation Over := (over (Nm := RNum) 0).
Local Notation val := (value (Nm := RNum)).

Lemma over_pos a b v : Over a b v = true <-> 0 < val a b v.
Proof. unfold over. cbn [nltb nmul RNum]. rewrite Rmult_0_l. apply Rltb_true. Qed.
Lemma over_neg a b v : Over a b v = false <-> val a b v <= 0.
Proof. unfold over. cbn [nltb nmul RNum]. rewrite Rmult_0_l. apply Rltb_false. Qed.
(** coordinates *)
Notation cr ax ay bx by_ := (ax * by_ - ay * bx).
Lemma val_coord (a b v : rvec) : val a b v = cr (vx v - vx a) (vy v - vy a) (vx b - vx a) (vy b - vy a).
Proof. reflexivity. Qed.

Lemma sq_pos x y u w : 0 < cr x y u w -> 0 < x * x + y * y.
Proof.
  intros H. destruct (Req_dec x 0) as [->|X]; [destruct (Req_dec y 0) as [->|Y]|].
  - lra.
  - pose proof (Rsqr_pos_lt y Y) as K. unfold Rsqr in K. lra.
  - pose proof (Rsqr_pos_lt x X) as K. unfold Rsqr in K. pose proof (Rle_0_sqr y) as K'. unfold Rsqr in K'. lra.
Qed.
Lemma sq_pos' x y u w : 0 < cr u w x y -> 0 < x * x + y * y.
Proof. intros H. apply (sq_pos x y (- u) (- w)). lra. Qed.
Lemma pos_of x y : 0 < x -> 0 < x * y -> 0 < y.
Proof. intros X H. apply Rmult_lt_reg_l with x; lra. Qed.
(** the geometry of one step *)
Section Step.
Variables (dx dy ex ey Bx By Qx Qy : R). (* da, db, b - a, q - a *)
Hypothesis (Q : 0 < cr Qx Qy Bx By).
Section At_a.
Hypothesis (DQ : 0 <= cr dx dy Qx Qy) (CA : 0 < cr dx dy Bx By \/ (cr dx dy Bx By = 0 /\ 0 < dx * Bx + dy * By)).
Lemma ca_strict : 0 < cr dx dy Bx By.
Proof.
  destruct CA as [|[Z P]]; auto. exfalso.
  (* da is a positive multiple of B *)
  assert (N : 0 < Bx * Bx + By * By) by exact (sq_pos' _ _ _ _ Q).
  assert (E : cr dx dy Qx Qy * (Bx * Bx + By * By) = - (dx * Bx + dy * By) * cr Qx Qy Bx By + cr dx dy Bx By * (Qx * Bx + Qy * By)) by ring.
  rewrite Z in E. nra.
Qed.
Lemma ca_next : 0 < cr dx dy Qx Qy \/ (cr dx dy Qx Qy = 0 /\ 0 < dx * Qx + dy * Qy).
Proof.
  pose proof ca_strict as S. destruct (Rle_lt_or_eq_dec _ _ DQ) as [|Z]; [now left|right]. split; [lra|].
  assert (E : cr dx dy Bx By * (dx * Qx + dy * Qy) = cr Qx Qy Bx By * (dx * dx + dy * dy) + cr dx dy Qx Qy * (dx * Bx + dy * By)) by ring.
  pose proof (sq_pos _ _ _ _ S) as N. rewrite <- Z in E. apply (pos_of _ _ S). rewrite E. pose proof (Rmult_lt_0_compat _ _ Q N). lra.
Qed.
Lemma right_a Xx Xy : 0 <= cr dx dy Xx Xy -> 0 < cr Xx Xy Qx Qy -> 0 < cr Xx Xy Bx By.
Proof.
  intros X R. pose proof ca_strict as S.
  assert (E : cr dx dy Qx Qy * cr Xx Xy Bx By = cr dx dy Xx Xy * cr Qx Qy Bx By + cr dx dy Bx By * cr Xx Xy Qx Qy) by ring.
  pose proof (Rmult_lt_0_compat _ _ S R). pose proof (Rmult_le_pos _ _ X (Rlt_le _ _ Q)). nra.
Qed.
End At_a.
Section At_b.
(* W = b - q *)
Hypothesis (EW : 0 <= cr ex ey (Qx - Bx) (Qy - By)) (CB : 0 < cr Bx By ex ey \/ (cr Bx By ex ey = 0 /\ 0 < Bx * ex + By * ey)).
Lemma cb_strict : 0 < cr Bx By ex ey.
Proof.
  destruct CB as [|[Z P]]; auto. exfalso.
  assert (N : 0 < Bx * Bx + By * By) by exact (sq_pos' _ _ _ _ Q).
  assert (E : cr ex ey (Qx - Bx) (Qy - By) * (Bx * Bx + By * By) = - (Bx * ex + By * ey) * cr Qx Qy Bx By - cr Bx By ex ey * ((Qx - Bx) * Bx + (Qy - By) * By)) by ring.
  rewrite Z in E. nra.
Qed.
Lemma cb_next : 0 < cr (Bx - Qx) (By - Qy) ex ey \/ (cr (Bx - Qx) (By - Qy) ex ey = 0 /\ 0 < (Bx - Qx) * ex + (By - Qy) * ey).
Proof.
  pose proof cb_strict as S. assert (EW' : 0 <= cr (Bx - Qx) (By - Qy) ex ey) by lra. destruct (Rle_lt_or_eq_dec _ _ EW') as [|Z]; [now left|right]. split; [lra|].
  assert (E : cr Bx By ex ey * ((Bx - Qx) * ex + (By - Qy) * ey) = cr (Bx - Qx) (By - Qy) ex ey * (Bx * ex + By * ey) + cr Qx Qy Bx By * (ex * ex + ey * ey)) by ring.
  pose proof (sq_pos' _ _ _ _ S) as N. rewrite <- Z in E. apply (pos_of _ _ S). rewrite E. pose proof (Rmult_lt_0_compat _ _ Q N). lra.
Qed.
(* X = x - a *)
Lemma right_b Xx Xy : 0 <= cr ex ey (Xx - Bx) (Xy - By) -> 0 < cr (Xx - Qx) (Xy - Qy) (Bx - Qx) (By - Qy) -> 0 < cr Xx Xy Bx By.
Proof.
  intros X R. pose proof cb_strict as S.
  assert (E : cr (Bx - Qx) (By - Qy) ex ey * cr Xx Xy Bx By = cr ex ey (Xx - Bx) (Xy - By) * cr Qx Qy Bx By + cr Bx By ex ey * cr (Xx - Qx) (Xy - Qy) (Bx - Qx) (By - Qy)) by ring.
  pose proof (Rmult_lt_0_compat _ _ S R). pose proof (Rmult_le_pos _ _ X (Rlt_le _ _ Q)). assert (0 <= cr (Bx - Qx) (By - Qy) ex ey) by lra. nra.
Qed.
End At_b.
Lemma not_both Xx Xy : cr Xx Xy Bx By <= cr Qx Qy Bx By -> 0 < cr Xx Xy Qx Qy -> 0 < cr (Xx - Qx) (Xy - Qy) (Bx - Qx) (By - Qy) -> False.
Proof. intros. lra. Qed.
End Step.

Fixpoint links (a : rvec) (h : list rvec) (b : rvec) : list (rvec * rvec) := match h with [] => [(a, b)] | v :: h => (a, v) :: links v h b end.
Lemma links_app a h q h' b : links a (h ++ q :: h') b = links a h q ++ links q h' b.
Proof. revert a. induction h; intros; cbn; [auto|]. now rewrite IHh. Qed.

Lemma arc_over a b S H : Arc a b S H -> Forall (fun v => 0 < val a b v) H.
Proof.
  destruct 1 as [a b S F|a b S q L M L1 M1 HL HR P F G Mx P1 F1 G1 A1 A2]; [constructor|].
  inversion F as [|? ? Fq FL]; subst. assert (K : forall x, In x L -> 0 < val a b x) by (intros x I; rewrite Forall_forall in FL; apply over_pos; auto).
  destruct (arc_in _ _ _ _ _ _ _ A1) as [r1 R1]. destruct (arc_in _ _ _ _ _ _ _ A2) as [r2 R2].
  apply Forall_app. split; [|constructor].
  - apply Forall_forall. intros x I. apply K. rewrite P1, in_app_iff, R1, in_app_iff. auto.
  - now apply over_pos.
  - apply Forall_forall. intros x I. apply K. rewrite P1, in_app_iff, R2, in_app_iff. auto.
Qed.
Lemma vec_eq (u v : rvec) : vx u = vx v -> vy u = vy v -> u = v.
Proof. destruct u, v. cbn. congruence. Qed.
Lemma lerp_x (u v : rvec) (t : R) : vx (vlerp u v t) = vx u * (1 - t) + vx v * t. Proof. reflexivity. Qed.
Lemma lerp_y (u v : rvec) (t : R) : vy (vlerp u v t) = vy u * (1 - t) + vy v * t. Proof. reflexivity. Qed.
Lemma hull_incl (vs ws : list rvec) x : incl vs ws -> hull vs x -> hull ws x.
Proof. intros I. induction 1; [apply hull_in; auto|now apply hull_mix]. Qed.
Lemma hull_trans (vs ws : list rvec) x : (forall y, In y vs -> hull ws y) -> hull vs x -> hull ws x.
Proof. intros I. induction 1; [auto|now apply hull_mix]. Qed.
Lemma triangle (a q b x : rvec) : 0 < val a b q -> 0 < val a b x -> val a q x <= 0 -> val q b x <= 0 -> hull [a; q; b] x.
Proof.
  intros D X A B. set (d := val a b q) in *. assert (Sum : - val a q x - val q b x + val a b x = d) by (unfold d; rewrite !val_coord; ring).
  assert (Bary : forall f : rvec -> R, f = @vx RNum \/ f = @vy RNum -> d * f x = - val q b x * f a + val a b x * f q - val a q x * f b) by (intros f [-> | ->]; unfold d; rewrite !val_coord; ring).
  destruct (Req_dec (val a b x) d) as [E|E].
  - replace x with q; [apply hull_in; right; now left|]. pose proof (Bary _ (or_introl eq_refl)) as Bx. pose proof (Bary _ (or_intror eq_refl)) as By.
    assert (val a q x = 0) as Z1 by lra. assert (val q b x = 0) as Z2 by lra. rewrite Z1, Z2, E in Bx, By. clearbody d. assert (vx q = vx x /\ vy q = vy x) as [Q1 Q2] by (split; apply Rmult_eq_reg_l with d; lra). clear -Q1 Q2. destruct x, q. cbn in *. congruence.
  - set (w := d - val a b x) in *. assert (W : 0 < w) by (unfold w; lra).
    replace x with (vlerp (vlerp a b (- val a q x / w)%R) q (val a b x / d)%R).
    + apply hull_mix; [apply hull_mix; [apply hull_in; now left|apply hull_in; right; right; now left|]|apply hull_in; right; now left|].
      * split; [apply Rmult_le_pos; [lra|apply Rlt_le, Rinv_0_lt_compat; lra]|]. apply Rmult_le_reg_r with w; auto. unfold Rdiv. rewrite Rmult_assoc, Rinv_l by lra. unfold w. lra.
      * split; [apply Rmult_le_pos; [lra|apply Rlt_le, Rinv_0_lt_compat; lra]|]. apply Rmult_le_reg_r with d; auto. unfold Rdiv. rewrite Rmult_assoc, Rinv_l by lra. lra.
    + assert (K : forall f : rvec -> R, d * f x = - val q b x * f a + val a b x * f q - val a q x * f b ->
        (f a * (1 - - val a q x / w) + f b * (- val a q x / w)) * (1 - val a b x / d) + f q * (val a b x / d) = f x).
      { intros f Hf. apply Rmult_eq_reg_l with d; [|lra]. rewrite Hf. assert (Q : - val q b x = w + val a q x) by (unfold w; lra). rewrite Q.
        replace (1 - val a b x / d) with (w / d) by (unfold w; field; lra). field. lra. }
      pose proof (K _ (Bary _ (or_introl eq_refl))) as Kx. pose proof (K _ (Bary _ (or_intror eq_refl))) as Ky.
      clearbody d w. assert (L : forall (u v : rvec) (t : R), vx (vlerp u v t) = vx u * (1 - t) + vx v * t /\ vy (vlerp u v t) = vy u * (1 - t) + vy v * t) by (intros; split; reflexivity).
      assert (Eq : forall u v : rvec, vx u = vx v -> vy u = vy v -> u = v) by (intros [? ?] [? ?]; cbn; congruence).
      apply Eq; [rewrite !(proj1 (L _ _ _))|rewrite !(proj2 (L _ _ _))]; auto.
Qed.
Section Geom.
Variable G : list rvec.
Definition all_left (e : rvec * rvec) : Prop := forall x, In x G -> leftish (fst e) (snd e) x.
Definition supports (d a : rvec) : Prop := forall x, In x G -> 0 <= vcross d (vsub x a).
Definition ahead (d e : rvec) : Prop := 0 < vcross d e \/ (vcross d e = 0 /\ 0 < vdot d e).
Lemma arc_hull a b S H : Arc a b S H -> forall da db, supports da a -> supports db b -> ahead da (vsub b a) -> ahead (vsub b a) db ->
  (forall x, In x G -> 0 < val a b x -> In x S) -> (forall x, In x S -> In x G) ->
  Forall all_left (links a H b) /\ NoDup H /\ forall x, In x G -> 0 < val a b x -> hull (a :: H ++ [b]) x.
Proof.
  induction 1 as [a b S F|a b S q L M L1 M1 HL HR P F Fm Mx P1 F1 G1 A1 IH1 A2 IH2]; intros da db SA SB CA CB IN SG.
  - split; [|split; [constructor|intros x I V; exfalso; rewrite Forall_forall in F; specialize (F x (IN x I V)); apply over_neg in F; lra]].
    cbn. constructor; [|constructor]. intros x I. unfold leftish. cbn [fst snd].
    assert (V : val a b x <= 0). { apply Rnot_lt_le. intros V. rewrite Forall_forall in F. specialize (F x (IN x I V)). apply over_neg in F. lra. }
    rewrite val_coord in V. unfold vcross, vsub. cbn. lra.
  - inversion F as [|? ? Fq FL]; subst. apply over_pos in Fq. rewrite Forall_forall in FL, Fm, F1, G1.
    assert (Gq : In q G) by (apply SG; rewrite P; now left).
    assert (GL : forall x, In x L -> In x G) by (intros x I; apply SG; rewrite P; right; apply in_or_app; auto).
    assert (Max : forall x, In x G -> val a b x <= val a b q).
    { intros x I. destruct (Rlt_le_dec 0 (val a b x)) as [V|V]; [|lra]. pose proof (IN x I V) as J. rewrite P in J. apply in_app_or in J as [J|J].
      - specialize (Mx Logic.I). rewrite Forall_forall in Mx. exact (Mx x J).
      - specialize (Fm x J). apply over_neg in Fm. lra. }
    assert (InL : forall x, In x G -> 0 < val a b x -> x <> q -> In x L).
    { intros x I V N. pose proof (IN x I V) as J. rewrite P in J. apply in_app_or in J as [[J|J]|J]; [congruence|auto|]. specialize (Fm x J). apply over_neg in Fm. lra. }
    assert (Ra : forall x, In x G -> 0 < val a q x -> 0 < val a b x).
    { intros x I V. rewrite val_coord in *. eapply right_a with (dx := vx da) (dy := vy da); [exact Fq|apply (SA q Gq)|exact CA|apply (SA x I)|exact V]. }
    assert (Rb : forall x, In x G -> 0 < val q b x -> 0 < val a b x).
    { intros x I V. rewrite val_coord in *. apply right_b with (ex := vx db) (ey := vy db) (Qx := vx q - vx a) (Qy := vy q - vy a); [exact Fq| |exact CB| |].
      - pose proof (SB q Gq) as K. unfold vcross, vsub in K. cbn in K. lra.
      - pose proof (SB x I) as K. unfold vcross, vsub in K. cbn in K. lra.
      - lra. }
    assert (Nb : forall x, In x G -> 0 < val a q x -> 0 < val q b x -> False).
    { intros x I V W. pose proof (Max x I) as K. rewrite !val_coord in *. lra. }
    assert (Sq : supports (vsub b a) q).
    { intros x I. pose proof (Max x I) as K. rewrite !val_coord in K. unfold vcross, vsub. cbn. lra. }
    destruct (IH1 da (vsub b a)) as (E1 & N1 & T1); auto.
    { unfold ahead, vcross, vdot, vsub. cbn. eapply ca_next; [exact Fq|apply (SA q Gq)|exact CA]. }
    { left. rewrite val_coord in Fq. unfold vcross, vsub. cbn. lra. }
    { intros x I V. assert (J : In x L) by (apply InL; auto; intros ->; rewrite val_coord in V; lra). rewrite P1 in J. apply in_app_or in J as [J|J]; auto. specialize (G1 x J). apply over_neg in G1. lra. }
    { intros x I. apply GL. rewrite P1. apply in_or_app. auto. }
    destruct (IH2 (vsub b a) db) as (E2 & N2 & T2); auto.
    { left. rewrite val_coord in Fq. unfold vcross, vsub. cbn. lra. }
    { pose proof (cb_next (vx db) (vy db) (vx b - vx a) (vy b - vy a) (vx q - vx a) (vy q - vy a) Fq) as K. unfold ahead, vcross, vdot, vsub. cbn.
      replace (vx b - vx q) with (vx b - vx a - (vx q - vx a)) by lra. replace (vy b - vy q) with (vy b - vy a - (vy q - vy a)) by lra. apply K; [|exact CB].
      pose proof (SB q Gq) as K'. unfold vcross, vsub in K'. cbn in K'. lra. }
    { intros x I V. assert (J : In x L) by (apply InL; auto; intros ->; rewrite val_coord in V; lra). rewrite P1 in J. apply in_app_or in J as [J|J]; auto.
      exfalso. specialize (F1 x J). apply over_pos in F1. eauto. }
    { intros x I. apply GL. rewrite P1. apply in_or_app. auto. }
    split; [|split].
    + rewrite links_app. apply Forall_app. auto.
    + destruct (arc_in _ _ _ _ _ _ _ A1) as [r1 R1]. pose proof (arc_over _ _ _ _ A1) as O1. pose proof (arc_over _ _ _ _ A2) as O2. rewrite Forall_forall in O1, O2.
      apply NoDup_Add with (a := q) (l := HL ++ HR); [apply Add_app|]. split.
      * assert (D : forall x, In x HL -> In x HR -> False).
        { intros x I J. apply (Nb x); [|now apply O1|now apply O2]. apply GL. rewrite P1. apply in_or_app. left. rewrite R1. apply in_or_app. auto. }
        clear -N1 N2 D. induction HL as [|x HL IH]; cbn; auto. inversion N1 as [|? ? Nx N1']; subst. constructor.
        -- intros I. apply in_app_or in I as [I|I]; [contradiction|]. apply (D x); auto. now left.
        -- apply IH; auto. intros y I. apply D. now right.
      * intros I. apply in_app_or in I as [I|I]; [apply O1 in I|apply O2 in I]; rewrite val_coord in I; lra.
    + intros x I V. destruct (Rlt_le_dec 0 (val a q x)) as [W|W]; [eapply hull_incl; [|apply T1; auto]|]. 
      { intros y [<-|J]; [now left|right]. rewrite <- app_assoc. apply in_or_app. apply in_app_or in J as [J|[<-|[]]]; [now left|right; now left]. }
      destruct (Rlt_le_dec 0 (val q b x)) as [W'|W']; [eapply hull_incl; [|apply T2; auto]|].
      { intros y [<-|J]; right; rewrite <- app_assoc; apply in_or_app; right; [now left|]. right. exact J. }
      eapply hull_incl; [|apply triangle with (a := a) (q := q) (b := b); auto]. intros y [<-|[<-|[<-|[]]]]; [now left| |]; right; rewrite <- app_assoc; apply in_or_app; right; [now left|]. right. apply in_or_app. right. now left.
Qed.
End Geom.

(** ** loopIndexes finds the lexicographically least and greatest vertices *)
Definition lex (u v : rvec) : Prop := vx u < vx v \/ (vx u = vx v /\ vy u <= vy v).
Lemma lex_refl u : lex u u. Proof. right. lra. Qed.
Lemma lex_trans u v w : lex u v -> lex v w -> lex u w.
Proof. unfold lex. intros [A|[A B]] [C|[C D]]; lra. Qed.
Definition below (u v : rvec) : bool := ((vx u <? vx v) || ((vx u =? vx v) && (vy u <? vy v)))%num.
Lemma below_true u v : below u v = true -> lex u v.
Proof.
  unfold below, lex. cbn [nltb neqb RNum]. intros H. apply orb_prop in H as [H|H]; [apply Rltb_true in H; auto|]. apply andb_prop in H as [E L]. apply Rltb_true in L.
  unfold Reqb in E. destruct (Req_EM_T (vx u) (vx v)); [|discriminate]. right. split; auto. apply Rlt_le. exact L.
Qed.
Lemma below_false u v : below u v = false -> lex v u.
Proof.
  unfold below, lex. cbn [nltb neqb RNum]. intros H. apply orb_false_elim in H as [H K]. apply Rltb_false in H.
  unfold Reqb in K. destruct (Req_EM_T (vx u) (vx v)) as [E|E]; cbn in K; [apply Rltb_false in K; right; split; auto|left]. apply Rnot_le_lt. intros X. apply E. apply Rle_antisym; auto.
Qed.
Lemma loop_lex (verts : list rvec) rest : forall i s f mn mx, (0 < i)%nat -> skipn i verts = rest -> (s < i)%nat -> (f < i)%nat -> mn = nth s verts vzero -> mx = nth f verts vzero ->
  (forall k, (k < i)%nat -> lex mn (nth k verts vzero) /\ lex (nth k verts vzero) mx) ->
  let '(s', f') := loop_from rest i s f mn mx in forall k, (k < i + length rest)%nat -> lex (nth s' verts vzero) (nth k verts vzero) /\ lex (nth k verts vzero) (nth f' verts vzero).
Proof.
  induction rest as [|v rest IH]; intros i s f mn mx I E Hs Hf Em Ex A; cbn [loop_from].
  - rewrite Nat.add_0_r. intros k K. subst. auto.
  - assert (V : nth i verts vzero = v). { rewrite <- (firstn_skipn i verts), E. rewrite app_nth2; rewrite firstn_length; [|lia]. replace (i - Nat.min i (length verts))%nat with 0%nat; [reflexivity|]. assert (i < length verts)%nat; [|lia]. destruct (le_lt_dec (length verts) i) as [Y|]; auto. rewrite skipn_all2 in E by auto. discriminate. }
    assert (E' : skipn (S i) verts = rest). { clear -E. revert verts E. induction i as [|i IHi]; intros [|w l] E; cbn in *; try discriminate; [injection E; auto|]. destruct l as [|u l]; [destruct i; discriminate|]. exact (IHi (u :: l) E). }
    change ((vx v <? vx mn) || ((vx v =? vx mn) && (vy v <? vy mn)))%num with (below v mn).
    replace ((vx mx <? vx v) || ((vx v =? vx mx) && (vy mx <? vy v)))%num with (below mx v).
    2:{ unfold below. cbn [neqb RNum]. unfold Reqb. destruct (Req_EM_T (vx mx) (vx v)), (Req_EM_T (vx v) (vx mx)); congruence. }
    cbn [length]. replace (i + S (length rest))%nat with (S i + length rest)%nat by lia.
    destruct (below v mn) eqn:B1; [|destruct (below mx v) eqn:B2].
    + apply IH; auto; try lia. intros k K. apply below_true in B1. destruct (Nat.eq_dec k i) as [->|N]; [rewrite V; split; [apply lex_refl|]|].
      * destruct (A 0%nat ltac:(lia)). eauto using lex_trans.
      * destruct (A k ltac:(lia)). eauto using lex_trans.
    + apply IH; auto; try lia. intros k K. apply below_true in B2. apply below_false in B1. destruct (Nat.eq_dec k i) as [->|N]; [rewrite V; split; [auto|apply lex_refl]|].
      destruct (A k ltac:(lia)). eauto using lex_trans.
    + apply IH; auto; try lia. intros k K. apply below_false in B1, B2. destruct (Nat.eq_dec k i) as [->|N]; [rewrite V; auto|]. apply A. lia.
Qed.
Lemma lex_anti u v : lex u v -> lex v u -> u = v.
Proof. destruct u as [a b], v as [c d]. unfold lex. cbn. intros [A|[A B]] [C|[C D]]; try lra. subst. f_equal. lra. Qed.

(** ** The hull *)
Lemma some_inj {A} (x y : A) : Some x = Some y -> x = y. Proof. congruence. Qed.
Fixpoint walk (first : rvec) (h : list rvec) : list (rvec * rvec) :=
  match h with
  | u :: (v :: _) as r => (u, v) :: walk first r
  | [u] => [(u, first)]
  | [] => []
  end.
Definition edges_of (h : list rvec) : list (rvec * rvec) := match h with [] => [] | u :: _ => walk u h end.
Lemma walk_links first u h : walk first (u :: h) = links u h first.
Proof. revert u. induction h as [|v h IH]; intros u; [reflexivity|]. change (walk first (u :: v :: h)) with ((u, v) :: walk first (v :: h)). now rewrite IH. Qed.
Lemma hull_real (verts : list rvec) : verts <> [] -> exists h, hull_verts verts = Some h /\ h <> [] /\ (exists rest, Permutation verts (h ++ rest)) /\ NoDup h /\
  (forall e x, In e (edges_of h) -> In x verts -> leftish (fst e) (snd e) x) /\ (forall x, In x verts -> hull h x).
Proof.
  intros N. unfold hull_verts. destruct (loop_indexes verts (length verts)) as [[s f]|] eqn:E; [|destruct verts; [congruence|discriminate]].
  assert (Lx : forall k, (k < length verts)%nat -> lex (nth s verts vzero) (nth k verts vzero) /\ lex (nth k verts vzero) (nth f verts vzero)).
  { destruct verts as [|v rest]; [congruence|]. unfold loop_indexes in E. replace (length (v :: rest) - 1)%nat with (length rest) in E by (cbn; lia). rewrite firstn_all in E. apply some_inj in E.
    pose proof (loop_lex (v :: rest) rest 1 0 0 v v ltac:(lia) eq_refl ltac:(lia) ltac:(lia) eq_refl eq_refl) as K. rewrite E in K. apply K.
    intros k K1. destruct k; [|lia]. cbn. split; apply lex_refl. }
  apply loop_range in E as R; [|destruct verts; [congruence|cbn; lia]]. destruct R as (Hs & Hf & Z).
  destruct (Nat.eq_dec s f) as [<-|D].
  - assert (All : forall x, In x verts -> x = nth s verts vzero). { intros x I. apply (In_nth _ _ vzero) in I as (k & K & <-). destruct (Lx k K). now apply lex_anti. }
    unfold convex_hull. rewrite E, Nat.eqb_refl. cbn [option_map]. destruct verts as [|v rest]; [congruence|]. exists [v]. cbn. split; auto. split; [discriminate|]. split; [exists rest; auto|]. split; [constructor; [intros []|constructor]|].
    split; [|intros x I; apply hull_in; left; rewrite (All x I); apply All; now left].
    intros e x [<-|[]] I. cbn. pose proof (All v (or_introl eq_refl)). unfold leftish, vcross, vsub. cbn. lra.
  - destruct (hull_ok (Nm := RNum) 0 True Rle) with (verts := verts) (s := s) (f := f) as (S & L & M & HL & HR & arr & K); auto.
    { intros _ a b v O. apply over_pos in O. apply Rltb_true. exact O. }
    { intros. apply Rle_refl. }
    { intros _ u m v U V. apply Rltb_true in V. cbn in *. lra. }
    { intros _ m v V. apply Rltb_false in V. exact V. }
    cbv zeta in K. destruct K as (P & PS & FL & FM & A1 & A2 & C & Fi).
    set (a := nth s verts vzero) in *. set (p := nth f verts vzero) in *.
    change (@n0 RNum) with 0. rewrite C. cbn [option_map]. rewrite Fi. exists (a :: HL ++ p :: HR). split; auto. split; [discriminate|].
    destruct (arc_in _ _ _ _ _ _ _ A1) as [r1 R1]. destruct (arc_in _ _ _ _ _ _ _ A2) as [r2 R2].
    assert (Per : Permutation verts ((a :: HL ++ p :: HR) ++ r1 ++ r2)).
    { rewrite P, PS, R1, R2. cbn. apply perm_skip. rewrite <- !app_assoc. cbn. rewrite <- Permutation_middle. apply perm_skip. apply Permutation_app_head. rewrite !app_assoc. apply Permutation_app_tail. apply Permutation_app_comm. }
    split; [exists (r1 ++ r2); exact Per|].
    assert (Ga : In a verts) by (rewrite P; now left). assert (Gp : In p verts) by (rewrite P; right; now left).
    assert (Lex : forall x, In x verts -> lex a x /\ lex x p). { intros x I. apply (In_nth _ _ vzero) in I as (k & K & <-). apply Lx. exact K. }
    assert (Ne : a <> p). { intros Q. assert (All : forall x, In x verts -> x = a) by (intros x I; destruct (Lex x I) as [U V]; rewrite <- Q in V; now apply lex_anti).
      (* two different indices of equal extremes: loopIndexes would not have moved *)
      apply D. clear -E All. destruct verts as [|v rest]; [discriminate|]. unfold loop_indexes in E. replace (length (v :: rest) - 1)%nat with (length rest) in E by (cbn; lia). rewrite firstn_all in E. apply some_inj in E.
      assert (K : forall l i, (forall x, In x l -> x = v) -> loop_from l i 0 0 v v = (0, 0)%nat).
      { induction l as [|w l IH]; intros i H; cbn [loop_from]; auto. rewrite (H w (or_introl eq_refl)). change ((vx v <? vx v) || ((vx v =? vx v) && (vy v <? vy v)))%num with (below v v).
        replace (below v v) with false by (unfold below; cbn [nltb RNum]; unfold Rltb; destruct (Rlt_dec (vx v) (vx v)) as [Y|_]; [exfalso; revert Y; apply Rlt_irrefl|]; destruct (Rlt_dec (vy v) (vy v)) as [Y|_]; [exfalso; revert Y; apply Rlt_irrefl|]; now rewrite andb_false_r).
        apply IH. intros x I. apply H. now right. }
      rewrite K in E by (intros x I; rewrite (All x) by (now right); symmetry; apply All; now left). congruence. }
    set (dx := vx p - vx a). set (dy := vy p - vy a).
    assert (Dir : 0 < dx \/ (dx = 0 /\ 0 < dy)).
    { destruct (Lex p Gp) as [[U|[U V]] _]; [left; unfold dx; cbn in *; lra|right; unfold dx, dy; cbn in *; split; [lra|]]. destruct (Rle_lt_or_eq_dec _ _ V) as [W|W]; [cbn in *; lra|]. exfalso. apply Ne. destruct a, p. cbn in *. congruence. }
    (* supporting directions at the two extremes *)
    assert (Sup : exists d : rvec, supports verts d a /\ ahead d (vsub p a) /\ supports verts (vneg d) p /\ ahead (vsub p a) (vneg d)).
    { destruct Dir as [X|[X Y]].
      - exists (@V RNum 0 (-1)). unfold supports, ahead, vcross, vsub, vneg, vdot. cbn. fold dx dy. split; [|split; [|split]].
        + intros x I. destruct (Lex x I) as [[U|[U _]] _]; cbn in *; lra.
        + left. lra.
        + intros x I. destruct (Lex x I) as [_ [U|[U _]]]; cbn in *; lra.
        + left. lra.
      - exists (@V RNum 1 0). unfold supports, ahead, vcross, vsub, vneg, vdot. cbn. fold dx dy. unfold dx in X. cbn in X. split; [|split; [|split]].
        + intros x I. destruct (Lex x I) as [[U|[U U']] [W|[W W']]]; cbn in *; lra.
        + left. lra.
        + intros x I. destruct (Lex x I) as [[U|[U U']] [W|[W W']]]; cbn in *; lra.
        + left. lra. }
    destruct Sup as (d & S1 & S2 & S3 & S4).
    assert (Opp : ahead (vneg d) (vsub a p) /\ ahead (vsub a p) d).
    { unfold ahead, vcross, vdot, vsub, vneg in *. cbn in *. split; [destruct S2 as [S2|[S2 S2']]|destruct S4 as [S4|[S4 S4']]]; [left|right; split|left|right; split]; lra. }
    destruct Opp as [O1 O2].
    rewrite Forall_forall in FL, FM.
    assert (Split : forall x, In x verts -> x = a \/ x = p \/ In x L \/ In x M). { intros x I. rewrite P in I. destruct I as [I|[I|I]]; auto. rewrite PS in I. apply in_app_or in I. tauto. }
    assert (GL : forall x, In x L -> In x verts) by (intros x I; rewrite P; right; right; rewrite PS; apply in_or_app; auto).
    assert (GM : forall x, In x M -> In x verts) by (intros x I; rewrite P; right; right; rewrite PS; apply in_or_app; auto).
    destruct (arc_hull verts _ _ _ _ A1 d (vneg d)) as (E1 & N1 & T1); auto.
    { intros x I W. destruct (Split x I) as [->|[->|[J|J]]]; auto; [rewrite val_coord in W; lra|rewrite val_coord in W; lra|]. specialize (FM x J). apply over_neg in FM. lra. }
    destruct (arc_hull verts _ _ _ _ A2 (vneg d) d) as (E2 & N2 & T2); auto.
    { intros x I W. destruct (Split x I) as [->|[->|[J|J]]]; auto; [rewrite val_coord in W; lra|rewrite val_coord in W; lra|]. specialize (FL x J). apply over_pos in FL. rewrite val_coord in FL, W. lra. }
    pose proof (arc_over _ _ _ _ A1) as V1. pose proof (arc_over _ _ _ _ A2) as V2. rewrite Forall_forall in V1, V2.
    split; [|split].
    + constructor.
      { intros I. apply in_app_or in I as [I|[I|I]]; [apply V1 in I|congruence|apply V2 in I]; rewrite val_coord in I; lra. }
      apply NoDup_Add with (a := p) (l := HL ++ HR); [apply Add_app|]. split.
      * assert (D' : forall x, In x HL -> In x HR -> False) by (intros x I J; apply V1 in I; apply V2 in J; rewrite val_coord in I, J; lra).
        clear -N1 N2 D'. induction HL as [|x HL IH]; cbn; auto. inversion N1 as [|? ? Nx N1']; subst. constructor.
        -- intros I. apply in_app_or in I as [I|I]; [contradiction|]. apply (D' x); auto. now left.
        -- apply IH; auto. intros y I. apply D'. now right.
      * intros I. apply in_app_or in I as [I|I]; [apply V1 in I|apply V2 in I]; rewrite val_coord in I; lra.
    + intros e x I J. unfold edges_of in I. rewrite walk_links, links_app in I. apply in_app_or in I as [I|I]; [rewrite Forall_forall in E1; exact (E1 e I x J)|rewrite Forall_forall in E2; exact (E2 e I x J)].
    + intros x I. destruct (Rlt_le_dec 0 (val a p x)) as [W|W]; [eapply hull_incl; [|apply T1; auto]|].
      { intros y [<-|J]; [now left|right]. apply in_or_app. apply in_app_or in J as [J|[<-|[]]]; [now left|right; now left]. }
      destruct (Rlt_le_dec 0 (val p a x)) as [W'|W']; [eapply hull_incl; [|apply T2; auto]|].
      { intros y [<-|J]; [right; apply in_or_app; right; now left|]. apply in_app_or in J as [J|[<-|[]]]; [right; apply in_or_app; right; now right|now left]. }
      apply hull_incl with (vs := [a; p]); [intros y [<-|[<-|[]]]; [now left|right; apply in_or_app; right; now left]|].
      destruct (Lex x I) as [U U']. rewrite val_coord in W, W'. fold dx dy in W, W'.
      assert (Zx : (vx x - vx a) * dy = (vy x - vy a) * dx) by (unfold dx, dy in *; lra).
      assert (T : exists t : R, 0 <= t <= 1 /\ x = vlerp a p t).
      { destruct Dir as [X|[X Y]].
        - exists ((vx x - vx a) / dx). split; [split|].
          + apply Rmult_le_pos; [destruct U as [U|[U _]]; cbn in *; lra|apply Rlt_le, Rinv_0_lt_compat; lra].
          + apply Rmult_le_reg_r with dx; auto. unfold Rdiv. rewrite Rmult_assoc, Rinv_l by lra. unfold dx. destruct U' as [U'|[U' _]]; cbn in *; lra.
          + apply vec_eq; [rewrite lerp_x|rewrite lerp_y].
            * replace (vx p) with (vx a + dx) by (unfold dx; rring). rfield. lra.
            * replace (vy p) with (vy a + dy) by (unfold dy; rring). apply Rmult_eq_reg_r with dx; [|lra]. transitivity ((vx x - vx a) * dy + vy a * dx); [rewrite Zx; rring|rfield; lra].
        - exists ((vy x - vy a) / dy). assert (Xa : vx x = vx a) by (rewrite X in Zx; apply Rmult_eq_reg_r with dy; [|lra]; cbn in *; lra). unfold dx in X.
          split; [split|].
          + apply Rmult_le_pos; [destruct U as [U|[_ U]]; cbn in *; lra|apply Rlt_le, Rinv_0_lt_compat; lra].
          + apply Rmult_le_reg_r with dy; auto. unfold Rdiv. rewrite Rmult_assoc, Rinv_l by lra. unfold dy. destruct U' as [U'|[_ U']]; cbn in *; lra.
          + apply vec_eq; [rewrite lerp_x|rewrite lerp_y].
            * replace (vx p) with (vx a) by (cbn in *; lra). rewrite Xa. rring.
            * replace (vy p) with (vy a + dy) by (unfold dy; rring). rfield. lra. }
      destruct T as (t & Ht & ->). apply hull_mix; auto; apply hull_in; [now left|right; now left].
Qed.
