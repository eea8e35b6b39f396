(** Proofs for C18: the cells a ray cast visits, over the reals. *)
From Coq Require Import ZArith Reals List Bool PeanoNat Lia Lra Permutation.
From Flocq Require Import Core.
From Verif Require Import Num NumReal Vec VecReal BB SpaceHash SpaceHashSpec SpaceHashInv SpaceHashOps SpaceHashQuery SpaceHashMain SpaceHashGrid.
Import ListNotations.
Local Open Scope R_scope.
Local Notation rvec := (@vec RNum).

Definition rfloor (x : R) : R := IZR (Zfloor x).
(** one coordinate of the point at time t on the way from a to b *)
Definition pos (a b t : R) : R := a + t * (b - a).
(** starts the walk gets right: going up, or going down from between two cells, or standing still not just above a cell's edge *)
Definition good_start (a b : R) : Prop := a < b \/ (b < a /\ a <> IZR (Zfloor a)) \/ (a = b /\ (a = IZR (Zfloor a) \/ 1 <= (a - IZR (Zfloor a)) * RMaxFloat)).

Definition inc (a b : R) : Z := if Rltb a b then 1%Z else (-1)%Z.
Definition dt (a b : R) : R := if Reqb (Rabs (b - a)) 0 then RMaxFloat else 1 / Rabs (b - a).
Definition first (a b : R) : R := let h := if Rltb a b then rfloor (a + 1) - a else a - rfloor a in if Reqb h 0 then dt a b else h * dt a b.
Definition crossing (a b : R) (c : Z) (next : R) : Prop := (a < b -> pos a b next = IZR c + 1) /\ (b < a -> pos a b next = IZR c) /\ (a = b -> 1 <= next).
Definition ahead (a b : R) (c : Z) (t : R) : Prop := (a < b -> (c <= Zfloor (pos a b t))%Z) /\ (b < a -> (Zfloor (pos a b t) <= c)%Z) /\ (a = b -> Zfloor (pos a b t) = c).

Lemma max_big : 1 < RMaxFloat.
Proof. unfold RMaxFloat. apply IZR_lt. reflexivity. Qed.
Lemma dt_ne a b : a <> b -> dt a b = 1 / Rabs (b - a) /\ 0 < Rabs (b - a).
Proof. intros N. assert (P : 0 < Rabs (b - a)) by (apply Rabs_pos_lt; lra). split; auto. unfold dt, Reqb. destruct (Req_EM_T _ _); [lra|auto]. Qed.
Lemma dt_pos a b : 0 < dt a b.
Proof. destruct (Req_dec a b) as [->|N]. - unfold dt, Reqb. replace (b - b) with 0 by lra. rewrite Rabs_R0. destruct (Req_EM_T 0 0); [pose proof max_big; lra|congruence]. - destruct (dt_ne a b N) as [-> P]. apply Rdiv_lt_0_compat; lra. Qed.
Lemma start_crossing a b : good_start a b -> crossing a b (Zfloor a) (first a b).
Proof.
  intros G. pose proof (Zfloor_lb a) as F1. pose proof (Zfloor_ub a) as F2. unfold first, rfloor, Rltb, Reqb. split; [|split].
  - intros L. destruct (Rlt_dec a b); [|lra]. assert (E : Zfloor (a + 1) = (Zfloor a + 1)%Z) by (apply Zfloor_imp; rewrite !plus_IZR; lra). rewrite E, plus_IZR. destruct (Req_EM_T _ 0); [lra|]. destruct (dt_ne a b) as [-> P]; [lra|]. rewrite Rabs_pos_eq by lra. unfold pos. field. lra.
  - intros L. destruct (Rlt_dec a b); [lra|]. destruct G as [G|[[_ G]|[G _]]]; try lra. destruct (Req_EM_T _ 0); [lra|]. destruct (dt_ne a b) as [-> P]; [lra|]. rewrite Rabs_minus_sym, Rabs_pos_eq by lra. unfold pos. field. lra.
  - intros E. destruct (Rlt_dec a b); [lra|]. assert (D : dt a b = RMaxFloat). { unfold dt, Reqb. replace (b - a) with 0 by lra. rewrite Rabs_R0. destruct (Req_EM_T 0 0); [auto|congruence]. } rewrite D. pose proof max_big. destruct (Req_EM_T _ 0) as [Z|Z]; [lra|]. destruct G as [G|[[G _]|[_ [G|G]]]]; lra.
Qed.
Lemma step_crossing a b c next : a <> b -> crossing a b c next -> crossing a b (c + inc a b) (next + dt a b).
Proof.
  intros N (C1 & C2 & C3). destruct (dt_ne a b N) as [-> P]. unfold crossing, inc, Rltb. split; [|split].
  - intros L. specialize (C1 L). destruct (Rlt_dec a b); [|lra]. rewrite plus_IZR. rewrite Rabs_pos_eq by lra. unfold pos in *. replace (a + (next + 1 / (b - a)) * (b - a)) with (a + next * (b - a) + 1) by (field; lra). lra.
  - intros L. specialize (C2 L). destruct (Rlt_dec a b); [lra|]. rewrite plus_IZR. rewrite Rabs_minus_sym, Rabs_pos_eq by lra. unfold pos in *. replace (a + (next + 1 / (a - b)) * (b - a)) with (a + next * (b - a) + -1) by (field; lra). lra.
  - intros; lra.
Qed.
Lemma strictly_ahead a b c next t : crossing a b c next -> ahead a b c t -> Zfloor (pos a b t) <> c -> next <= t /\ a <> b /\ (b < a -> next < t) /\ ahead a b (c + inc a b) t.
Proof.
  intros (C1 & C2 & C3) (A1 & A2 & A3) N. assert (NE : a <> b) by (intros E; apply N; auto). pose proof (Zfloor_lb (pos a b t)) as F1. pose proof (Zfloor_ub (pos a b t)) as F2.
  destruct (Rlt_or_le a b) as [L|L].
  - specialize (C1 L). specialize (A1 L). assert (Q : (c + 1 <= Zfloor (pos a b t))%Z) by lia. pose proof (IZR_le _ _ Q) as Q'. rewrite plus_IZR in Q'.
    assert (H : next <= t) by (unfold pos in *; nra). split; auto. split; auto. split; [intros; lra|]. unfold ahead, inc, Rltb. destruct (Rlt_dec a b); [|lra]. split; [auto|split; intros; lra].
  - assert (L' : b < a) by lra. specialize (C2 L'). specialize (A2 L'). assert (Q : (Zfloor (pos a b t) + 1 <= c)%Z) by lia. pose proof (IZR_le _ _ Q) as Q'. rewrite plus_IZR in Q'.
    assert (H : next < t) by (unfold pos in *; nra). split; [lra|]. split; auto. split; auto. unfold ahead, inc, Rltb. destruct (Rlt_dec a b); [lra|]. split; [intros; lra|split; [intros; lia|intros; lra]].
Qed.
Lemma still_in a b c next t : crossing a b c next -> Zfloor (pos a b t) = c -> next <= t -> t < 1 -> b < a /\ t = next /\ pos a b t = IZR c.
Proof.
  intros (C1 & C2 & C3) E L T. pose proof (Zfloor_lb (pos a b t)) as F1. pose proof (Zfloor_ub (pos a b t)) as F2. rewrite E in F1, F2.
  destruct (Rtotal_order a b) as [H|[H|H]].
  - specialize (C1 H). unfold pos in *. nra.
  - specialize (C3 H). lra.
  - specialize (C2 H). assert (t = next) by (unfold pos in *; nra). split; auto. split; auto. unfold pos in *. subst. lra.
Qed.
Lemma start_ahead a b t : 0 <= t -> ahead a b (Zfloor a) t.
Proof.
  intros T. unfold ahead, pos. split; [|split]; intros L.
  - apply Zfloor_le. nra.
  - apply Zfloor_le. nra.
  - f_equal. subst. lra.
Qed.

(** the ray goes left and up and is on a crossing of grid lines at time t *)
Definition at_corner (a b : rvec) (t : R) : Prop := vx b < vx a /\ vy a < vy b /\ exists i j : Z, pos (vx a) (vx b) t = IZR i /\ pos (vy a) (vy b) t = IZR j.
Definition steps (a b : rvec) : Z * Z * @num RNum * @num RNum := (inc (vx a) (vx b), inc (vy a) (vy b), dt (vx a) (vx b), dt (vy a) (vy b)).

Section Walk.
Variable cells : nat.
Lemma exit_le f d : forall fuel w te s out s' out' te' cs, walk_loop (Nm := RNum) cells fuel f d w te s out = Some (s', out', te', cs) -> te' <= te.
Proof.
  induction fuel as [|fuel IH]; intros w te s out s' out' te' cs; cbn [walk_loop]; destruct (now w <? te)%num; try discriminate; try (intros [= <- <- <- <-]; apply Rle_refl).
  destruct (query_cell _ _ _ _ _) as [[s1 [out1 t1]]|]; [|discriminate]. destruct (walk_loop _ fuel _ _ _ _ _ _) as [[[[s2 out2] te2] cs2]|] eqn:E; [|discriminate]. intros [= <- <- <- <-]. apply IH in E. eapply Rle_trans; [exact E|]. apply Rmin_l.
Qed.
Lemma covered (a b : rvec) f : forall fuel w te s out s' out' te' cs, walk_loop (Nm := RNum) cells fuel f (steps a b) w te s out = Some (s', out', te', cs) -> te <= 1 ->
  crossing (vx a) (vx b) (cell_x w) (next_h w) -> crossing (vy a) (vy b) (cell_y w) (next_v w) ->
  forall t, now w <= t < te' -> ahead (vx a) (vx b) (cell_x w) t -> ahead (vy a) (vy b) (cell_y w) t -> ~ at_corner a b t -> In (Zfloor (pos (vx a) (vx b) t), Zfloor (pos (vy a) (vy b) t)) cs.
Proof.
  induction fuel as [|fuel IH]; intros w te s out s' out' te' cs W T1 Cx Cy t [Tl Tu] Ax Ay Nc; pose proof (exit_le _ _ _ _ _ _ _ _ _ _ _ W) as EL; cbn [walk_loop] in W; change (@nltb RNum) with Rltb in W; unfold Rltb in W at 1; (destruct (Rlt_dec (now w) te) as [_|N]; [|lra]); try discriminate.
  destruct (query_cell _ _ _ _ _) as [[s1 [out1 t1]]|]; [|discriminate]. destruct (walk_loop _ fuel _ _ _ _ _ _) as [[[[s2 out2] te2] cs2]|] eqn:E; [|discriminate]. injection W as <- <- <- <-.
  assert (T1' : nmin te t1 <= 1) by (eapply Rle_trans; [apply Rmin_l|exact T1]).
  destruct (Z.eq_dec (Zfloor (pos (vx a) (vx b) t)) (cell_x w)) as [Ex|Ex]; [destruct (Z.eq_dec (Zfloor (pos (vy a) (vy b) t)) (cell_y w)) as [Ey|Ey]; [left; congruence|]|]; right.
  - destruct (strictly_ahead _ _ _ _ _ Cy Ay Ey) as (L & N & Lt & Ay'). unfold walk_step, steps in E. change (@nltb RNum) with Rltb in E. unfold Rltb in E at 1. destruct (Rlt_dec (next_v w) (next_h w)) as [V|V].
    + eapply (IH _ _ _ _ _ _ _ _ E); cbn; auto. now apply step_crossing.
    + exfalso. destruct (still_in _ _ _ _ _ Cx Ex) as (B & Et & Pt); [lra|lra|]. apply Nc. split; auto. assert (Ev : t = next_v w) by lra.
      assert (vy a < vy b) by (destruct (Rlt_or_le (vy a) (vy b)); auto; assert (next_v w < t) by (apply Lt; lra); lra). split; auto. exists (cell_x w), (cell_y w + 1)%Z. split; auto. rewrite plus_IZR. rewrite Ev. now apply Cy.
  - destruct (strictly_ahead _ _ _ _ _ Cx Ax Ex) as (L & N & Lt & Ax'). unfold walk_step, steps in E. change (@nltb RNum) with Rltb in E. unfold Rltb in E at 1. destruct (Rlt_dec (next_v w) (next_h w)) as [V|V].
    + destruct (Z.eq_dec (Zfloor (pos (vy a) (vy b) t)) (cell_y w)) as [Ey|Ey].
      * exfalso. destruct (still_in _ _ _ _ _ Cy Ey) as (B & Et & Pt); lra.
      * destruct (strictly_ahead _ _ _ _ _ Cy Ay Ey) as (L2 & N2 & Lt2 & Ay'). eapply (IH _ _ _ _ _ _ _ _ E); cbn; auto. now apply step_crossing.
    + eapply (IH _ _ _ _ _ _ _ _ E); cbn; auto. now apply step_crossing.
Qed.
(** the walk ends *)
Lemma ends (some_cells : (0 < cells)%nat) (a b : rvec) f : forall n m w te s out, inv cells s -> te <= 1 -> 1 <= next_h w + INR n * dt (vx a) (vx b) -> 1 <= next_v w + INR m * dt (vy a) (vy b) ->
  exists r, walk_loop (Nm := RNum) cells (n + m + 2) f (steps a b) w te s out = Some r.
Proof.
  assert (Last : forall fuel w te s out, 1 <= now w -> te <= 1 -> exists r, walk_loop (Nm := RNum) cells fuel f (steps a b) w te s out = Some r).
  { intros fuel w te s out N T. destruct fuel; cbn [walk_loop]; change (@nltb RNum) with Rltb; unfold Rltb; destruct (Rlt_dec (now w) te); try lra; eauto. }
  intros n m. remember (n + m)%nat as k eqn:K. revert n m K. induction k as [|k IH]; intros n m K w te s out I T Hn Hm; match goal with |- context [(?x + 2)%nat] => replace (x + 2)%nat with (S (x + 1))%nat by lia end; cbn [walk_loop]; (destruct (now w <? te)%num; [|eauto]);
    destruct (query_cell_ok cells some_cells (ray_note f) None (cell_x w, cell_y w) s (out, n1) I) as (hs & s1 & E & I1 & _); rewrite E; destruct (tell (ray_note f) s hs (out, n1)) as [out1 t1];
    (assert (T' : nmin te t1 <= 1) by (eapply Rle_trans; [apply Rmin_l|exact T])).
  - destruct n, m; try discriminate. cbn [INR] in Hn, Hm. destruct (Last (0 + 1)%nat (walk_step (Nm := RNum) (steps a b) w) (@nmin RNum te t1) s1 out1) as [[[[s2 o2] e2] c2] ->]; eauto.
    unfold walk_step, steps. destruct (next_v w <? next_h w)%num; cbn; lra.
  - assert (Go : exists r, walk_loop cells (S k + 1) f (steps a b) (walk_step (Nm := RNum) (steps a b) w) (@nmin RNum te t1) s1 out1 = Some r).
    { replace (S k + 1)%nat with (k + 2)%nat by lia. unfold walk_step, steps at 2. change (@nltb RNum) with Rltb. unfold Rltb. destruct (Rlt_dec (next_v w) (next_h w)) as [V|V].
      + destruct m as [|m].
        * apply Last; auto. cbn in Hm |- *. lra.
        * apply (IH n m); cbn [next_h next_v]; auto; try lia. rewrite S_INR in Hm. change (@nadd RNum) with Rplus. lra.
      + destruct n as [|n].
        * apply Last; auto. cbn in Hn |- *. lra.
        * apply (IH n m); cbn [next_h next_v]; auto; try lia. rewrite S_INR in Hn. change (@nadd RNum) with Rplus. lra. }
    destruct Go as [[[[s2 o2] e2] c2] Go]. rewrite Go. eauto.
Qed.
End Walk.

(** ** The statements *)
Section Ray.
Variables (dim : R) (cells : nat).
Hypothesis dim_pos : 0 < dim.
Hypothesis some_cells : (0 < cells)%nat.
Local Notation cast := (segment_query (Nm := RNum) Ztrunc dim cells rfloor).
Lemma start_ok (a b : rvec) : let '(w, d) := walk_start (Nm := RNum) Ztrunc rfloor a b in d = steps a b /\ now w = 0 /\ cell_x w = Zfloor (vx a) /\ cell_y w = Zfloor (vy a) /\ next_h w = first (vx a) (vx b) /\ next_v w = first (vy a) (vy b).
Proof using Type. clear. unfold walk_start. cbn [now cell_x cell_y next_h next_v]. rewrite !real_floor. repeat split. Qed.
Lemma scaled (a : rvec) : @vscale RNum a (n1 / dim)%num = @V RNum (vx a / dim) (vy a / dim).
Proof using Type. clear. unfold vscale. f_equal; change (@n1 RNum) with 1; change (@ndiv RNum) with Rdiv; change (@nmul RNum) with Rmult; unfold Rdiv; lra. Qed.
Lemma pos_scaled a b t : pos (a / dim) (b / dim) t = pos a b t / dim.
Proof using dim_pos. unfold pos. field. lra. Qed.
(** the point at time t on the way from a to b *)
Definition point_at (a b : rvec) (t : R) : rvec := @V RNum (pos (vx a) (vx b) t) (pos (vy a) (vy b) t).
Definition cell_of (p : rvec) : Z * Z := (Zfloor (vx p / dim), Zfloor (vy p / dim)).
Definition corner (a b : rvec) (t : R) : Prop := vx b < vx a /\ vy a < vy b /\ exists i j : Z, vx (point_at a b t) = IZR i * dim /\ vy (point_at a b t) = IZR j * dim.
Lemma ray_cells fuel f (a b : rvec) te s s' out te' cs : cast fuel f a b te s = Some (s', out, te', cs) -> te <= 1 -> good_start (vx a / dim) (vx b / dim) -> good_start (vy a / dim) (vy b / dim) ->
  forall t, 0 <= t < te' -> ~ corner a b t -> In (cell_of (point_at a b t)) cs.
Proof using dim_pos.
  intros E T Gx Gy t Ht Nc. unfold segment_query in E. rewrite !scaled in E. set (a' := @V RNum (vx a / dim) (vy a / dim)) in *. set (b' := @V RNum (vx b / dim) (vy b / dim)) in *.
  pose proof (start_ok a' b') as S0. destruct (walk_start _ _ a' b') as [w d]. destruct S0 as (-> & N & X & Y & H & Vv). destruct (walk_loop _ _ _ _ _ _ _ _) as [[[[s1 o1] e1] c1]|] eqn:W; [|discriminate]. injection E as <- <- <- <-.
  unfold cell_of, point_at. cbn [vx vy]. rewrite <- !pos_scaled. apply (covered cells a' b' f _ _ _ _ _ _ _ _ _ W T); rewrite ?N, ?X, ?Y, ?H, ?Vv.
  - now apply start_crossing. - now apply start_crossing. - auto. - apply start_ahead; lra. - apply start_ahead; lra.
  - intros (L & U & i & j & P & Q). apply Nc. cbn [vx vy a' b'] in *. rewrite pos_scaled in P, Q. assert (I : 0 < / dim) by now apply Rinv_0_lt_compat. unfold Rdiv in L, U. split; [|split].
    + apply Rmult_lt_reg_r in L; auto. + apply Rmult_lt_reg_r in U; auto.
    + exists i, j. unfold point_at. cbn [vx vy]. rewrite <- P, <- Q. split; rfield; lra.
Qed.
Lemma enough x d : 0 < d -> exists n : nat, 1 <= x + INR n * d.
Proof using Type.
  clear. intros D. exists (Z.to_nat (up ((1 - x) / d))). assert (H : (1 - x) / d <= INR (Z.to_nat (up ((1 - x) / d)))).
  { destruct (archimed ((1 - x) / d)) as [U _]. rewrite INR_IZR_INZ. eapply Rle_trans; [left; exact U|]. apply IZR_le. lia. }
  apply (Rmult_le_compat_r d) in H; [|lra]. unfold Rdiv in H. rewrite Rmult_assoc, Rinv_l in H by lra. lra.
Qed.
Lemma ray_ends f (a b : rvec) te s : inv cells s -> te <= 1 -> exists fuel r, cast fuel f a b te s = Some r.
Proof using some_cells.
  clear dim_pos. intros I T. unfold segment_query. rewrite !scaled. set (a' := @V RNum (vx a / dim) (vy a / dim)). set (b' := @V RNum (vx b / dim) (vy b / dim)). pose proof (start_ok a' b') as S0. destruct (walk_start _ _ a' b') as [w d]. destruct S0 as (-> & _).
  destruct (enough (next_h w) _ (dt_pos (vx a') (vx b'))) as [n Hn]. destruct (enough (next_v w) _ (dt_pos (vy a') (vy b'))) as [m Hm]. exists (n + m + 2)%nat. destruct (ends cells some_cells a' b' f n m w te s [] I T Hn Hm) as [[[[s1 o1] e1] c1] ->]. eauto.
Qed.
Lemma in_box_cell (bx : @bb RNum) (p : rvec) : bL bx <= vx p <= bR bx -> bB bx <= vy p <= bT bx -> In (cell_of p) (box_cells (Nm := RNum) Ztrunc dim bx).
Proof using dim_pos.
  intros [H1 H2] [H3 H4]. assert (M : forall x y, x <= y -> (Zfloor (x / dim) <= Zfloor (y / dim))%Z) by (intros x y L; apply Zfloor_le; unfold Rdiv; apply Rmult_le_compat_r; auto; left; now apply Rinv_0_lt_compat).
  unfold box_cells. rewrite !real_floor. apply in_flat_map. exists (Zfloor (vx p / dim)). split; [apply in_zrange; split; apply M; auto|]. apply in_map_iff. exists (Zfloor (vy p / dim)). split; [reflexivity|]. apply in_zrange; split; apply M; auto.
Qed.
Lemma ray_shapes k cs s fuel f (a b : rvec) te s' out te' vs : Forall fair cs -> ~ In Reindex cs -> run Ztrunc rfloor dim cells cs (new_hash cells k) = Some s -> cast fuel f a b te s = Some (s', out, te', vs) -> te <= 1 ->
  good_start (vx a / dim) (vx b / dim) -> good_start (vy a / dim) (vy b / dim) ->
  forall o bx t, boxes_after cs o = Some bx -> 0 <= t < te' -> ~ corner a b t -> (let p := point_at a b t in bL bx <= vx p <= bR bx /\ bB bx <= vy p <= bT bx) -> In o out.
Proof using dim_pos some_cells.
  intros Fa NR R E T Gx Gy o bx t Ho Ht Nc [P Q]. pose proof (ray_found (Nm := RNum) Ztrunc rfloor dim cells some_cells k cs s fuel f a b te _ Fa NR R E) as (_ & _ & H). eapply H; eauto; [|eapply ray_cells; eauto]. now apply in_box_cell.
Qed.
End Ray.
