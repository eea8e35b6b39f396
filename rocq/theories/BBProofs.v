(** Proofs about BB.v.  [bb_ok]/[bb_wf]/[In] are specification vocabulary. *)
From Coq Require Import ZArith Bool Reals Lra Lia.
From Verif Require Import Num NumReal Vec BB.
Local Open Scope num_scope.

Section Gen.
Context {N : Num} {O : NumOrd N}.

(** No side is NaN. *)
Definition bb_ok (a : bb) : Prop := nok (bL a) /\ nok (bB a) /\ nok (bR a) /\ nok (bT a).
Definition vok (v : vec) : Prop := nok (vx v) /\ nok (vy v).
(** Left is left of right, bottom is below top. *)
Definition bb_wf (a : bb) : Prop := (bL a <=? bR a) = true /\ (bB a <=? bT a) = true.
(** The point v lies in the closed box (spec, independent of the code). *)
Definition InBB (v : vec) (a : bb) : Prop :=
  (bL a <=? vx v) = true /\ (vx v <=? bR a) = true /\ (bB a <=? vy v) = true /\ (vy v <=? bT a) = true.

Lemma bb_wf_ok a : bb_wf a -> bb_ok a.
Proof. intros [H1 H2]. apply nleb_ok in H1, H2. unfold bb_ok. tauto. Qed.

Lemma contains_spec a o : bb_contains a o = true <->
  ((bL a <=? bL o) = true /\ (bR o <=? bR a) = true /\ (bB a <=? bB o) = true /\ (bT o <=? bT a) = true).
Proof. unfold bb_contains. rewrite !andb_true_iff. tauto. Qed.
Lemma intersects_spec a b : bb_intersects a b = true <->
  ((bL a <=? bR b) = true /\ (bL b <=? bR a) = true /\ (bB a <=? bT b) = true /\ (bB b <=? bT a) = true).
Proof. unfold bb_intersects. rewrite !andb_true_iff. tauto. Qed.
Lemma contains_vect_spec a v : bb_contains_vect a v = true <-> InBB v a.
Proof. unfold bb_contains_vect, InBB. rewrite !andb_true_iff. tauto. Qed.

Lemma contains_refl a : bb_ok a -> bb_contains a a = true.
Proof. intros [? [? [? ?]]]. apply contains_spec. repeat split; now apply nleb_refl. Qed.
Lemma contains_trans a b c : bb_contains a b = true -> bb_contains b c = true -> bb_contains a c = true.
Proof. rewrite !contains_spec. intros [? [? [? ?]]] [? [? [? ?]]]. repeat split; eapply nleb_trans; eauto. Qed.
Lemma merge_ok a b : bb_ok a -> bb_ok b -> bb_ok (bb_merge a b).
Proof.
  intros [? [? [? ?]]] [? [? [? ?]]]. repeat split; cbn; auto using nmin_ok, nmax_ok.
Qed.
Lemma merge_contains_l a b : bb_ok a -> bb_ok b -> bb_contains (bb_merge a b) a = true.
Proof.
  intros [? [? [? ?]]] [? [? [? ?]]]. apply contains_spec; cbn. repeat split; auto using nmin_l, nmax_l.
Qed.
Lemma merge_contains_r a b : bb_ok a -> bb_ok b -> bb_contains (bb_merge a b) b = true.
Proof.
  intros [? [? [? ?]]] [? [? [? ?]]]. apply contains_spec; cbn. repeat split; auto using nmin_r, nmax_r.
Qed.
Lemma merge_least a b c : bb_contains c a = true -> bb_contains c b = true -> bb_contains c (bb_merge a b) = true.
Proof.
  rewrite !contains_spec; cbn. intros [? [? [? ?]]] [? [? [? ?]]]. repeat split; auto using nmin_glb, nmax_lub.
Qed.
Lemma merge_wf a b : bb_wf a -> bb_ok b -> bb_wf (bb_merge a b).
Proof.
  intros [H1 H2] [? [? [? ?]]]. apply nleb_ok in H1 as K1. apply nleb_ok in H2 as K2.
  split; cbn; (eapply nleb_trans; [eapply nmin_l|eapply nleb_trans; [|eapply nmax_l]]; eauto; tauto).
Qed.
Lemma expand_contains a v : bb_ok a -> vok v -> bb_contains (bb_expand a v) a = true /\ InBB v (bb_expand a v).
Proof.
  intros [? [? [? ?]]] [? ?]. split; [apply contains_spec|unfold InBB]; cbn; repeat split; auto using nmin_l, nmax_l, nmin_r, nmax_r.
Qed.
Lemma expand_least a v c : bb_contains c a = true -> InBB v c -> bb_contains c (bb_expand a v) = true.
Proof.
  unfold InBB. rewrite !contains_spec; cbn. intros [? [? [? ?]]] [? [? [? ?]]]. repeat split; auto using nmin_glb, nmax_lub.
Qed.
Lemma intersects_sym a b : bb_intersects a b = bb_intersects b a.
Proof. apply eq_true_iff_eq. rewrite !intersects_spec. tauto. Qed.

Lemma intersects_point a b : bb_wf a -> bb_wf b ->
  (bb_intersects a b = true <-> exists v, InBB v a /\ InBB v b).
Proof.
  intros [Ax Ay] [Bx By]. pose proof (nleb_ok _ _ Ax) as [? ?]. pose proof (nleb_ok _ _ Ay) as [? ?].
  pose proof (nleb_ok _ _ Bx) as [? ?]. pose proof (nleb_ok _ _ By) as [? ?].
  rewrite intersects_spec. split.
  - intros [H1' [H2' [H3' H4']]].
    exists (V (nmax (bL a) (bL b)) (nmax (bB a) (bB b))). unfold InBB; cbn.
    repeat split; auto using nmax_l, nmax_r, nmax_lub.
  - intros [v [[? [? [? ?]]] [? [? [? ?]]]]]. repeat split; eapply nleb_trans; eauto.
Qed.
Lemma contains_points a b : bb_wf b ->
  (bb_contains a b = true <-> forall v, InBB v b -> InBB v a).
Proof.
  intros [Bx By]. pose proof (nleb_ok _ _ Bx) as [? ?]. pose proof (nleb_ok _ _ By) as [? ?].
  rewrite contains_spec. unfold InBB. split.
  - intros [? [? [? ?]]] v [? [? [? ?]]]. repeat split; eapply nleb_trans; eauto.
  - intros HP. destruct (HP (V (bL b) (bB b))) as [? [? [? ?]]]; cbn in *; [repeat split; auto using nleb_refl|].
    destruct (HP (V (bR b) (bT b))) as [? [? [? ?]]]; cbn in *; [repeat split; auto using nleb_refl|]. auto.
Qed.
Lemma contains_intersects a b q : bb_contains a b = true -> bb_intersects b q = true -> bb_intersects a q = true.
Proof.
  rewrite contains_spec, !intersects_spec. intros [? [? [? ?]]] [? [? [? ?]]]. repeat split; eapply nleb_trans; eauto.
Qed.

Lemma clamp_range x lo hi : nok x -> (lo <=? hi) = true ->
  (lo <=? nclamp x lo hi) = true /\ (nclamp x lo hi <=? hi) = true /\
  ((lo <=? x) = true -> (x <=? hi) = true -> (nclamp x lo hi =? x) = true).
Proof.
  intros Hx H. pose proof (nleb_ok _ _ H) as [Hl Hh]. unfold nclamp.
  rewrite nltb_nleb by auto.
  destruct (x <=? lo) eqn:E; cbn [negb].
  - split; [|split].
    + apply nmin_glb; auto using nleb_refl.
    + now apply nmin_r.
    + intros L1 L2. rewrite neqb_nleb by auto using nmin_ok. apply andb_true_iff. split.
      * eapply nleb_trans; [apply nmin_l; auto|]; auto.
      * apply nmin_glb; auto.
  - assert (L : (lo <=? x) = true). { destruct (nleb_total x lo); auto; congruence. }
    split; [|split].
    + now apply nmin_glb.
    + now apply nmin_r.
    + intros L1 L2. rewrite neqb_nleb by auto using nmin_ok. apply andb_true_iff. split; [now apply nmin_l|].
      apply nmin_glb; auto using nleb_refl.
Qed.
Lemma bb_clamp_in s v : bb_wf s -> vok v -> InBB (bb_clamp s v) s.
Proof.
  intros [W1 W2] [Vx Vy]. destruct (clamp_range _ _ _ Vx W1) as [? [? _]]. destruct (clamp_range _ _ _ Vy W2) as [? [? _]].
  unfold InBB; cbn. auto.
Qed.
End Gen.

(** ** Facts over the reals *)
Local Open Scope R_scope.
Notation Rvec := (@vec RNum).
Notation Rbb := (@bb RNum).

Definition RIn (v : Rvec) (s : Rbb) : Prop := bL s <= vx v <= bR s /\ bB s <= vy v <= bT s.
Lemma RIn_iff v s : InBB v s <-> RIn v s.
Proof. unfold InBB, RIn; unR. rewrite !Rleb_true. tauto. Qed.

Definition Rpoint (a b : Rvec) (t : R) : Rvec := V (vx a + t * (vx b - vx a)) (vy a + t * (vy b - vy a)).

Lemma clampR_nearest x lo hi y : lo <= hi -> lo <= y <= hi -> Rabs (x - nclamp (N:=RNum) x lo hi) <= Rabs (x - y).
Proof.
  intros H [H1 H2]. unfold nclamp; unR. destruct (Rltb_spec lo x); unfold Rmin; destruct Rle_dec;
  unfold Rabs; repeat destruct Rcase_abs; lra.
Qed.

Lemma bb_clamp_nearest (s : Rbb) v w : bL s <= bR s -> bB s <= bT s -> RIn w s ->
  vdistsq v (bb_clamp s v) <= vdistsq v w.
Proof.
  intros H1 H2 [Hx Hy]. unfold vdistsq, vmagsq, vdot, vsub, bb_clamp; cbn [vx vy]; unR.
  pose proof (clampR_nearest (vx v) _ _ _ H1 Hx) as A. pose proof (clampR_nearest (vy v) _ _ _ H2 Hy) as Bq.
  apply Rsqr_le_abs_1 in A. apply Rsqr_le_abs_1 in Bq. unfold Rsqr in *. lra.
Qed.

(** The slab test: after one axis, the interval is intersected with the set of t whose
    coordinate lies between lo and hi. *)
Lemma slab_spec lo hi a d tmin tmax : lo <= hi ->
  match slab (N:=RNum) lo hi a d tmin tmax with
  | None => forall t, ~ (lo <= a + t * d <= hi)
  | Some (u, w) => tmin <= u /\ w <= tmax /\ forall t, (tmin <= t <= tmax /\ lo <= a + t * d <= hi) <-> u <= t <= w
  end.
Proof.
  intros Hlh. unfold slab; unR. destruct (Reqb_spec d 0) as [E|E].
  - subst. destruct (Rltb_spec a lo), (Rltb_spec hi a); cbn; try (intros t; rewrite Rmult_0_r; lra).
    split; [lra|split; [lra|]]. intros t. rewrite Rmult_0_r. lra.
  - set (t1 := (lo - a) / d). set (t2 := (hi - a) / d).
    assert (E1 : t1 * d = lo - a) by (unfold t1; field; auto).
    assert (E2 : t2 * d = hi - a) by (unfold t2; field; auto).
    clearbody t1 t2.
    split; [apply Rmax_l|split; [apply Rmin_l|]].
    intros t. 
    assert (K : (lo <= a + t * d <= hi) <-> (Rmin t1 t2 <= t <= Rmax t1 t2)).
    { destruct (Rtotal_order d 0) as [D|[D|D]]; [|lra|].
      - assert (t2 <= t1) by nra. rewrite Rmin_right, Rmax_left by auto. split; intros; split; nra.
      - assert (t1 <= t2) by nra. rewrite Rmin_left, Rmax_right by auto. split; intros; split; nra. }
    rewrite K. split.
    + intros [[? ?] [? ?]]. split; [apply Rmax_lub|apply Rmin_glb]; auto.
    + intros [Hu Hw]. pose proof (Rmax_l tmin (Rmin t1 t2)). pose proof (Rmax_r tmin (Rmin t1 t2)).
      pose proof (Rmin_l tmax (Rmax t1 t2)). pose proof (Rmin_r tmax (Rmax t1 t2)). lra.
Qed.

Lemma RMaxFloat_big : 1 < RMaxFloat.
Proof. unfold RMaxFloat. apply IZR_lt. reflexivity. Qed.

(** First-entry characterisation of BB.SegmentQuery. *)
Lemma segment_query_spec (s : Rbb) a b : bL s <= bR s -> bB s <= bT s ->
  let t := bb_segment_query s a b in
  (t <> RMaxFloat /\ 0 <= t <= 1 /\ RIn (Rpoint a b t) s /\ (forall u, 0 <= u <= 1 -> RIn (Rpoint a b u) s -> t <= u))
  \/ (t = RMaxFloat /\ forall u, 0 <= u <= 1 -> ~ RIn (Rpoint a b u) s).
Proof.
  intros Hx Hy. cbn zeta. pose proof RMaxFloat_big as Big. unfold bb_segment_query, RIn, Rpoint; cbn [vx vy vsub]; unR.
  pose proof (slab_spec (bL s) (bR s) (vx a) (vx b - vx a) (- RMaxFloat) RMaxFloat Hx) as S1.
  destruct (slab _ _ _ _ _ _) as [[u1 w1]|]; [|right; split; auto; intros u Hu [H _]; exact (S1 u H)].
  destruct S1 as [_ [_ S1]].
  pose proof (slab_spec (bB s) (bT s) (vy a) (vy b - vy a) u1 w1 Hy) as S2.
  destruct (slab _ _ _ _ _ _) as [[u2 w2]|]; [|right; split; auto; intros u Hu [_ H]; exact (S2 u H)].
  destruct S2 as [_ [_ S2]].
  assert (K : forall t, -RMaxFloat <= t <= RMaxFloat -> 
     ((bL s <= vx a + t * (vx b - vx a) <= bR s) /\ (bB s <= vy a + t * (vy b - vy a) <= bT s)) <-> u2 <= t <= w2).
  { intros t Ht. rewrite <- S2, <- S1. tauto. }
  assert (K2 : forall t, u2 <= t <= w2 -> -RMaxFloat <= t <= RMaxFloat) by (intros t Ht; apply S2 in Ht as [Ht _]; now apply S1 in Ht).
  destruct (Rleb_spec u2 w2); cbn [andb]; [|right; split; auto; intros u Hu HI; apply K in HI; lra].
  destruct (Rleb_spec 0 w2); cbn [andb]; [|right; split; auto; intros u Hu HI; apply K in HI; lra].
  destruct (Rleb_spec u2 1); cbn [andb]; [|right; split; auto; intros u Hu HI; apply K in HI; lra].
  left. assert (M : 0 <= Rmax u2 0 <= 1) by (unfold Rmax; destruct Rle_dec; lra).
  split; [lra|]. split; [auto|]. split.
  - apply K; [lra|]. unfold Rmax; destruct Rle_dec; lra.
  - intros u Hu HI. apply K in HI; [|lra]. apply Rmax_lub; lra.
Qed.

Lemma Int_part_bounds z : IZR (Int_part z) <= z < IZR (Int_part z) + 1.
Proof. destruct (base_Int_part z). lra. Qed.

Lemma Rmod_bounds x y : 0 < y -> - y < Rmod x y < y /\ (0 <= x -> 0 <= Rmod x y).
Proof.
  intros Hy. unfold Rmod, Rtrunc. assert (E : x = x / y * y) by (field; lra).
  set (q := x / y) in *. clearbody q. rewrite E. destruct (Rlt_dec q 0).
  - rewrite opp_IZR. destruct (Int_part_bounds (- q)). assert (q * y < 0) by nra. split; [split; nra|intros; lra].
  - destruct (Int_part_bounds q). split; [split; nra|intros; nra].
Qed.
Lemma Rmod_mult x y : exists k : Z, Rmod x y = x - IZR k * y.
Proof. eexists. reflexivity. Qed.

Lemma wrap1_spec lo hi v : lo < hi ->
  lo < wrap1 (N:=RNum) Rmod lo hi v <= hi /\ exists k : Z, wrap1 (N:=RNum) Rmod lo hi v = v + IZR k * (hi - lo).
Proof.
  intros H. unfold wrap1; unR. rewrite Rabs_pos_eq by lra.
  destruct (Rmod_bounds (v - lo) (hi - lo)) as [Hb _]; [lra|].
  destruct (Rmod_mult (v - lo) (hi - lo)) as [k Hk].
  destruct (Rltb_spec 0 (Rmod (v - lo) (hi - lo))).
  - split; [lra|]. exists (- k)%Z. rewrite opp_IZR. lra.
  - split; [lra|]. exists (1 - k)%Z. rewrite minus_IZR. lra.
Qed.

Lemma intersects_segment_spec (s : Rbb) a b : bL s <= bR s -> bB s <= bT s ->
  (bb_intersects_segment s a b = true <-> exists u, 0 <= u <= 1 /\ RIn (Rpoint a b u) s).
Proof.
  intros Hx Hy. destruct (segment_query_spec s a b Hx Hy) as [[H1 [H2 [H3 _]]]|[H1 H2]]; cbn zeta in *;
  unfold bb_intersects_segment; unR.
  - split; [intros _; eauto|]. intros _. destruct (Reqb_spec (bb_segment_query s a b) RMaxFloat); auto; contradiction.
  - destruct (Reqb_spec (bb_segment_query s a b) RMaxFloat); [|contradiction]. split; [discriminate|].
    intros [u [Hu HI]]. destruct (H2 u Hu HI).
Qed.
Lemma bb_clamp_fix {N : Num} {O : NumOrd N} s v : InBB v s -> veqb (bb_clamp s v) v = true.
Proof.
  intros [H1 [H2 [H3 H4]]]. unfold veqb, bb_clamp; cbn.
  destruct (clamp_range (vx v) (bL s) (bR s)) as [_ [_ ->]]; auto; try (now apply nleb_ok in H1); try (eapply nleb_trans; eauto).
  destruct (clamp_range (vy v) (bB s) (bT s)) as [_ [_ ->]]; auto; try (now apply nleb_ok in H3); try (eapply nleb_trans; eauto).
Qed.
Lemma bb_wrap_spec (s : Rbb) v : bL s < bR s -> bB s < bT s ->
  let w := bb_wrap Rmod s v in
  bL s < vx w <= bR s /\ bB s < vy w <= bT s /\
  (exists k : Z, vx w = vx v + IZR k * (bR s - bL s)) /\
  (exists k : Z, vy w = vy v + IZR k * (bT s - bB s)).
Proof.
  intros Hx Hy. destruct (wrap1_spec _ _ (vx v) Hx), (wrap1_spec _ _ (vy v) Hy). cbn. auto.
Qed.

Lemma proximity_spec (a b : Rbb) :
  bb_proximity a b = 2 * (Rabs (vx (bb_center a) - vx (bb_center b)) + Rabs (vy (bb_center a) - vy (bb_center b))).
Proof.
  rewrite Rmult_plus_distr_l, <- (Rabs_right 2) at 1 by lra. rewrite <- (Rabs_right 2) at 2 by lra. rewrite <- !Rabs_mult.
  unfold bb_proximity, bb_center; cbn. unR. f_equal; f_equal; field.
Qed.
