(** The narrow phase does not depend on the origin. *)
From Coq Require Import ZArith NArith Bool Reals List Lra Lia Arith.
From Verif Require Import Num NumReal Vec VecReal BB Transform Shapes Narrow NarrowGjk Body BodySpec Solver SolverSpec Persist ShiftSpec ShiftShapeSpec.
From Verif Require Filter.
Import ListNotations.
Local Open Scope R_scope.

(** ** Bounds *)
Lemma far_pos : 1 <= far. Proof. unfold far. apply IZR_le. vm_compute. discriminate. Qed.
Lemma far_dot : 16 * far * far < RMaxFloat.
Proof. unfold far, RMaxFloat. rewrite <- !mult_IZR. apply IZR_lt. vm_compute. reflexivity. Qed.
Lemma far_inf : far < RMaxFloat. Proof. pose proof far_dot. pose proof far_pos. nra. Qed.
Lemma Rabs_iff a k : Rabs a <= k <-> - k <= a <= k.
Proof. unfold Rabs. destruct (Rcase_abs a); lra. Qed.
Lemma near_iff k (a b : R) : near k (BB.rvec a b) <-> - k <= a <= k /\ - k <= b <= k.
Proof. unfold near. cbn [BB.rvec vx vy]. now rewrite !Rabs_iff. Qed.
Lemma prod_bound a b k l : - k <= a <= k -> - l <= b <= l -> - (k * l) <= a * b <= k * l.
Proof. intros. split; nra. Qed.
Lemma near_dot k l u v : near k u -> near l v -> - (2 * k * l) <= (vdot u v : R) <= 2 * k * l.
Proof. destruct u as [a b], v as [c d]. rewrite !near_iff. intros [A B] [C D]. unV. pose proof (prod_bound _ _ _ _ A C). pose proof (prod_bound _ _ _ _ B D). lra. Qed.
Lemma near_sub k l u v : near k u -> near l v -> near (k + l) (vsub u v).
Proof. destruct u as [a b], v as [c d]. unfold vsub. cbn [vx vy]. rewrite !near_iff. unR. lra. Qed.
Lemma near_perp k u : near k u -> near k (vperp u).
Proof. destruct u as [a b]. unfold vperp. cbn [vx vy]. rewrite !near_iff. unR. lra. Qed.
Lemma near_neg k u : near k u -> near k (vneg u).
Proof. destruct u as [a b]. unfold vneg. cbn [vx vy]. rewrite !near_iff. unR. lra. Qed.
Lemma near_le k l u : k <= l -> near k u -> near l u.
Proof. destruct u as [a b]. rewrite !near_iff. lra. Qed.
Lemma lerp_bound (a b t k : R) : -1 <= t <= 1 -> - k <= a <= k -> - k <= b <= k -> - k <= a * (1 / 2 - 1 / 2 * t) + b * (1 / 2 + 1 / 2 * t) <= k.
Proof. intros. split; nra. Qed.
Lemma near_lerp k u v (t : R) : -1 <= t <= 1 -> near k u -> near k v -> near k (lerp_t u v t).
Proof.
  destruct u as [a b], v as [c d]. unfold lerp_t, vadd, vscale. cbn [vx vy]. rewrite !near_iff. unR. intros I [A B] [C D].
  split; [exact (lerp_bound a c t k I A C)|exact (lerp_bound b d t k I B D)].
Qed.
Lemma closest_t_in (u v : Rvec) : -1 <= (closest_t u v : R) <= 1.
Proof. unfold closest_t, clamp. unR. set (f := (_ / _)). clearbody f. unfold Rmin. rcases; destruct (Rle_dec _ _); lra. Qed.
Lemma near_unit v : near 1 (vunit v).
Proof.
  destruct (Req_dec (vmag v : R) 0) as [Z|Z].
  - apply mag_0 in Z. subst v. unfold vunit, vzero, vscale. cbn [vx vy]. unR. rewrite !Rmult_0_l. apply near_iff. lra.
  - assert (NZ : v <> vzero) by (intros ->; apply Z; apply mag_0; reflexivity). pose proof (VecReal.unit_dot v NZ) as D. destruct (vunit v) as [a b]. revert D. unV. intros D. apply near_iff. split; split; nra.
Qed.
Lemma near_over v (d : R) : 0 < d -> near 1 (vscale v (1 / ((vmag v : R) + d))).
Proof.
  intros P. assert (M : 0 <= (vmag v : R)) by (unfold vmag; unR; apply sqrt_pos). assert (S : (vmag v : R) * vmag v = vdot v v) by (unfold vmag; unR; apply sqrt_sqrt; destruct v; unV; nra).
  set (m := vmag v : R) in *. clearbody m. destruct v as [a b]. revert S. unfold vscale, vdot. cbn [vx vy]. unR. intros S.
  assert (K : forall c, c * c <= m * m -> - 1 <= c * (1 / (m + d)) <= 1).
  { intros c C. assert (E0 : - m <= c <= m) by (split; nra). assert (I : 0 < / (m + d)) by (apply Rinv_0_lt_compat; lra). assert (J : (m + d) * / (m + d) = 1) by (apply Rinv_r; lra). unfold Rdiv. rewrite Rmult_1_l.
    split; nra. }
  apply near_iff. split; apply K; nra.
Qed.

(** ** Support points *)
Definition smp (x : Rvec) (m : @mpoint RNum) : @mpoint RNum := MPoint (vadd (mp_a m) x) (vadd (mp_b m) x) (mp_ab m) (mp_id m).
Definition scp (x : Rvec) (c : @cpoints RNum) : @cpoints RNum := CPoints (vadd (cp_a c) x) (vadd (cp_b c) x) (cp_n c) (cp_d c) (cp_id c).
Definition ssp (x : Rvec) (s : @spoint RNum) : @spoint RNum := SPoint (vadd (sp_p s) x) (sp_i s).

Lemma dot_shift (v x n : Rvec) : (vdot (vadd v x) n : R) = (vdot v n : R) + vdot x n. Proof. destruct v, x, n. unV. ring. Qed.
Lemma ltb_shift (a b c : R) : Rltb (a + c) (b + c) = Rltb a b.
Proof. destruct (Rltb_spec (a + c) (b + c)), (Rltb_spec a b); auto; lra. Qed.
Lemma leb_shift (a b c : R) : Rleb (a + c) (b + c) = Rleb a b.
Proof. destruct (Rleb_spec (a + c) (b + c)), (Rleb_spec a b); auto; lra. Qed.
Lemma eqb_shift (a b c : R) : Reqb (a + c) (b + c) = Reqb a b.
Proof. destruct (Reqb_spec (a + c) (b + c)), (Reqb_spec a b); auto; lra. Qed.
Lemma sub_shift (u v x : Rvec) : vsub (vadd u x) (vadd v x) = vsub u v. Proof. destruct u, v, x. apply vec_ext; unV; ring. Qed.
Lemma veqb_shift (u v x : Rvec) : veqb (vadd u x) (vadd v x) = veqb u v.
Proof. unfold veqb, vadd. cbn [vx vy]. unR. now rewrite !eqb_shift. Qed.
Lemma round_shift x n ps : forall (mx : R) i j, fold_left (support_round n) (map (shift_plane x) ps) (mx + (vdot x n : R), i, j) =
  (let '(m, i, j) := fold_left (support_round n) ps (mx, i, j) in ((m : R) + (vdot x n : R), i, j)).
Proof.
  induction ps as [|q ps IH]; intros; [reflexivity|]. cbn [map fold_left support_round shift_plane pl_v]. rewrite dot_shift. unR. rewrite ltb_shift.
  destruct (Rltb _ _); apply IH.
Qed.
Lemma index_shift x n ps : near (4 * far) n -> Forall (fun q => near far (pl_v q)) ps -> Forall (fun q => near far (pl_v q)) (map (shift_plane x) ps) -> support_index (map (shift_plane x) ps) n = support_index ps n.
Proof.
  intros K F G. unfold support_index. destruct ps as [|q ps]; [reflexivity|]. cbn [map fold_left] in *. inversion F; inversion G; subst.
  assert (W : forall v, near far v -> Rltb (- RMaxFloat) (vdot v n) = true).
  { intros v V. apply Rltb_true. pose proof (near_dot _ _ _ _ V K). pose proof far_dot. pose proof far_pos. nra. }
  unfold support_round at 2 4. unR. rewrite (W _ H1), (W _ H5). cbn [shift_plane pl_v]. rewrite dot_shift.
  pose proof (round_shift x n ps (vdot (pl_v q) n) 0%nat 1%nat) as R1. unR. rewrite R1.
  destruct (fold_left _ ps _) as [[m i] j]. reflexivity.
Qed.
Lemma plane_shift x p i : (i < length (po_dst p))%nat -> plane_at (Poly (po_r p) (map (shift_plane x) (po_dst p)) (po_src p)) i = shift_plane x (plane_at p i).
Proof. intros L. unfold plane_at. cbn [po_dst]. rewrite nth_indep with (d' := shift_plane x (Plane vzero vzero)) by now rewrite map_length. apply map_nth. Qed.
Lemma has_shift x s : has_points (shift_shape x s) = has_points s.
Proof. destruct s as [c|g|p]; try reflexivity. cbn. destruct (po_dst p); reflexivity. Qed.
Lemma has_nil (p : @poly RNum) : has_points (SPoly p) = true -> po_dst p <> [].
Proof. cbn. destruct (po_dst p); discriminate. Qed.
Lemma support_shift x s n : has_points s = true -> near (4 * far) n -> placed s -> placed (shift_shape x s) -> support (shift_shape x s) n = ssp x (support s n).
Proof.
  intros P K F G. destruct s as [c|g|p]; cbn [shift_shape support placed] in *.
  - reflexivity.
  - cbn [sg_ta sg_tb]. rewrite !dot_shift. unR. rewrite ltb_shift. destruct (Rltb _ _); reflexivity.
  - cbn [po_dst] in *. rewrite index_shift; auto. rewrite plane_shift by now apply support_index_in, has_nil. reflexivity.
Qed.
Lemma point_shift x s i : has_points s = true -> point_of (shift_shape x s) i = ssp x (point_of s i).
Proof.
  intros P. destruct s as [c|g|p]; cbn [shift_shape point_of] in *.
  - reflexivity.
  - cbn [sg_ta sg_tb]. destruct (_ =? _)%N; reflexivity.
  - cbn [po_dst]. rewrite map_length. apply has_nil in P. destruct (N.ltb_spec i (N.of_nat (length (po_dst p)))).
    + rewrite plane_shift by lia. reflexivity.
    + rewrite plane_shift by (destruct (po_dst p); [congruence|cbn; lia]). reflexivity.
Qed.
Lemma plane_near p i : (i < length (po_dst p))%nat -> Forall (fun q => near far (pl_v q)) (po_dst p) -> near far (pl_v (plane_at p i)).
Proof. intros L F. unfold plane_at. rewrite Forall_forall in F. apply F, nth_In, L. Qed.
Lemma support_near s n : has_points s = true -> placed s -> near far (sp_p (support s n)).
Proof.
  intros P F. destruct s as [c|g|p]; cbn [support placed] in *; [exact F| |].
  - destruct (_ <? _)%num; apply F.
  - cbn [sp_p]. apply plane_near; auto. now apply support_index_in, has_nil.
Qed.
Lemma point_near s i : has_points s = true -> placed s -> near far (sp_p (point_of s i)).
Proof.
  intros P F. destruct s as [c|g|p]; cbn [point_of placed] in *; [exact F| |].
  - destruct (_ =? _)%N; apply F.
  - apply has_nil in P. cbn [sp_p]. apply plane_near; auto. destruct (N.ltb_spec i (N.of_nat (length (po_dst p)))); [lia|]. destruct (po_dst p); [congruence|cbn; lia].
Qed.
Lemma mpoint_shift x a b : new_mpoint (ssp x a) (ssp x b) = smp x (new_mpoint a b).
Proof. unfold new_mpoint, ssp, smp. cbn [sp_p sp_i mp_a mp_b mp_ab mp_id]. now rewrite sub_shift. Qed.
Lemma mpoint_near a b : near far (sp_p a) -> near far (sp_p b) -> near (2 * far) (mp_ab (new_mpoint a b)).
Proof. intros A B. cbn [new_mpoint mp_ab]. apply (near_le (far + far)); [lra|]. now apply near_sub. Qed.

(** ** GJK and EPA *)
Section Pair.
Context (tiny : R) (Htiny : 0 < tiny).
Context (x : Rvec) (s1 s2 : @shape RNum).
Context (P1 : has_points s1 = true) (P2 : has_points s2 = true) (F1 : placed s1) (F2 : placed s2) (G1 : placed (shift_shape x s1)) (G2 : placed (shift_shape x s2)).
Notation t1 := (shift_shape x s1). Notation t2 := (shift_shape x s2).
Definition mid (m : @mpoint RNum) : Prop := near (2 * far) (mp_ab m).

Lemma ctx_shift n : near (4 * far) n -> ctx_support t1 t2 n = smp x (ctx_support s1 s2 n) /\ mid (ctx_support s1 s2 n).
Proof.
  intros K. unfold ctx_support. rewrite !support_shift by auto using near_neg. rewrite mpoint_shift. split; [reflexivity|]. apply mpoint_near; now apply support_near.
Qed.
Lemma diff_near v0 v1 : mid v0 -> mid v1 -> near (4 * far) (vperp (vsub (mp_ab v1) (mp_ab v0))).
Proof. intros A B. apply near_perp. apply (near_le (2 * far + 2 * far)); [lra|]. now apply near_sub. Qed.
Lemma lerp_shift (a b : Rvec) (t : R) : lerp_t (vadd a x) (vadd b x) t = vadd (lerp_t a b t) x.
Proof. destruct a, b, x. unfold lerp_t. apply vec_ext; unV; field. Qed.
Lemma closest_shift v0 v1 : closest_points tiny (smp x v0) (smp x v1) = scp x (closest_points tiny v0 v1).
Proof. unfold closest_points. cbn [smp mp_a mp_b mp_ab mp_id]. rewrite !lerp_shift. destruct (_ || _); reflexivity. Qed.
Lemma closest_near v0 v1 : near 1 (cp_n (closest_points tiny v0 v1)).
Proof. unfold closest_points. destruct (_ || _); cbn [cp_n]; [apply near_unit|]. apply near_over. exact Htiny. Qed.
Lemma fold_same {A X} (f : X -> A -> X) (g : A -> A) l : (forall s a, f s (g a) = f s a) -> forall s, fold_left f (map g l) s = fold_left f l s.
Proof. intros E0. induction l as [|a l IH]; intros; [reflexivity|]. cbn. rewrite E0. apply IH. Qed.
Lemma ab_nth hull i : mp_ab (nth i (map (smp x) hull) (MPoint vzero vzero vzero 0)) = mp_ab (nth i hull (MPoint vzero vzero vzero 0)).
Proof. revert i. induction hull as [|h hull IH]; intros [|i]; try reflexivity. apply IH. Qed.
Lemma side_ext (at1 at2 : nat -> Rvec) (l : list (@mpoint RNum)) : (forall i, at1 i = at2 i) -> forall s,
  fold_left (fun st (_ : mpoint) => let '(i, j, md, mini) := st in let d := closest_dist (at1 i) (at1 j) in if (d <? md)%num then (j, S j, d, i) else (j, S j, md, mini)) l s =
  fold_left (fun st (_ : mpoint) => let '(i, j, md, mini) := st in let d := closest_dist (at2 i) (at2 j) in if (d <? md)%num then (j, S j, d, i) else (j, S j, md, mini)) l s.
Proof. intros E0. induction l as [|h l IH]; intros s; [reflexivity|]. cbn [fold_left]. destruct s as [[[i j] md] mini]. rewrite !E0. apply IH. Qed.
Lemma nearest_shift hull : nearest_side (map (smp x) hull) = nearest_side hull.
Proof.
  unfold nearest_side. rewrite map_length. rewrite fold_same by (intros [[[? ?] ?] ?] ?; reflexivity).
  rewrite (side_ext _ (fun i => mp_ab (nth i hull (MPoint vzero vzero vzero 0))) hull (ab_nth hull)). reflexivity.
Qed.
Lemma rebuild_shift p rest : forall last, rebuild (smp x last) (map (smp x) rest) (smp x p) = map (smp x) (rebuild last rest p).
Proof.
  induction rest as [|h tl IH]; intros last; [reflexivity|]. cbn [map rebuild].
  replace (match map (smp x) tl with h :: _ => mp_ab h | [] => mp_ab (smp x p) end) with (match tl with h :: _ => mp_ab h | [] => mp_ab p end) by (destruct tl; reflexivity).
  cbn [smp mp_ab]. destruct (point_greater _ _ _); [cbn [map]; f_equal; apply (IH h)|apply (IH last)].
Qed.
Lemma rebuild_in p rest : forall last m, In m (rebuild last rest p) -> In m rest.
Proof. induction rest as [|h tl IH]; intros last m; [easy|]. cbn [rebuild]. destruct (point_greater _ _ _); [intros [<-|I]; [now left|right; eauto]|intros I; right; eauto]. Qed.
Lemma nth_shift i hull d : (i < length hull)%nat -> nth i (map (smp x) hull) d = smp x (nth i hull d).
Proof. intros L. rewrite nth_indep with (d' := smp x d) by now rewrite map_length. apply map_nth. Qed.

Lemma epa_shift fuel : forall hull it, hull <> [] -> Forall mid hull ->
  epa_recurse tiny fuel t1 t2 (map (smp x) hull) it = option_map (scp x) (epa_recurse tiny fuel s1 s2 hull it) /\ forall c, epa_recurse tiny fuel s1 s2 hull it = Some c -> near 1 (cp_n c).
Proof.
  induction fuel as [|fuel IH]; intros hull it NE F; [split; [reflexivity|discriminate]|]. cbn [epa_recurse]. rewrite nearest_shift, map_length.
  assert (L1 := nearest_side_in hull NE). set (mini := nearest_side hull) in *. assert (L2 : (Nat.modulo (mini + 1) (length hull) < length hull)%nat) by (apply Nat.mod_upper_bound; lia).
  set (next := Nat.modulo (mini + 1) (length hull)) in *. clearbody next. clearbody mini. rewrite !nth_shift by assumption. set (v0 := nth mini hull _). set (v1 := nth next hull _).
  assert (M0 : mid v0) by (rewrite Forall_forall in F; apply F, nth_In, L1). assert (M1 : mid v1) by (rewrite Forall_forall in F; apply F, nth_In, L2).
  change (mp_ab (smp x v0)) with (mp_ab v0). change (mp_ab (smp x v1)) with (mp_ab v1). destruct (ctx_shift _ (diff_near v0 v1 M0 M1)) as [E0 Mp]. rewrite E0. set (p := ctx_support s1 s2 _) in *.
  change (mp_id (smp x v0)) with (mp_id v0). change (mp_id (smp x v1)) with (mp_id v1). change (mp_id (smp x p)) with (mp_id p). change (mp_ab (smp x p)) with (mp_ab p).
  destruct (negb _ && _ && _).
  - rewrite skipn_map, firstn_map, <- map_app, rebuild_shift. change (smp x p :: map (smp x) ?l) with (map (smp x) (p :: l)). apply IH; [discriminate|]. constructor; [exact Mp|].
    apply Forall_forall. intros m I. apply rebuild_in in I. rewrite Forall_forall in F. apply F. rewrite <- (firstn_skipn next hull). apply in_app_iff. apply in_app_iff in I. tauto.
  - rewrite closest_shift. split; [reflexivity|]. intros c Q. injection Q as <-. apply closest_near.
Qed.
Definition sce (r : @cpoints RNum * ending) : @cpoints RNum * ending := (scp x (fst r), snd r).
Lemma gjk_shift fuel : forall v0 v1 it, mid v0 -> mid v1 ->
  gjk_recurse tiny fuel t1 t2 (smp x v0) (smp x v1) it = option_map sce (gjk_recurse tiny fuel s1 s2 v0 v1 it) /\ forall r, gjk_recurse tiny fuel s1 s2 v0 v1 it = Some r -> near 1 (cp_n (fst r)).
Proof.
  induction fuel as [|fuel IH]; intros v0 v1 it M0 M1; [split; [reflexivity|discriminate]|]. cbn [gjk_recurse].
  destruct (Nat.ltb 30 it); [rewrite closest_shift; split; [reflexivity|intros r Q; injection Q as <-; apply closest_near]|].
  change (mp_ab (smp x v0)) with (mp_ab v0). change (mp_ab (smp x v1)) with (mp_ab v1). destruct (point_greater _ _ _); [apply IH; assumption|].
  set (t := closest_t _ _). assert (Ht : -1 <= (t : R) <= 1) by apply closest_t_in. match goal with |- context [ctx_support _ _ ?m] => set (n := m) end.
  assert (Kn : near (4 * far) n).
  { unfold n. destruct (_ && _); [now apply diff_near|]. apply near_neg. apply (near_le (2 * far)); [pose proof far_pos; lra|]. now apply near_lerp. }
  destruct (ctx_shift n Kn) as [E0 Mp]. rewrite E0. set (p := ctx_support s1 s2 n) in *. change (mp_ab (smp x p)) with (mp_ab p).
  destruct (point_greater (mp_ab p) _ _ && _).
  - unfold epa. change [smp x v0; smp x p; smp x v1] with (map (smp x) [v0; p; v1]). destruct (epa_shift 30 [v0; p; v1] 1) as [E1 E2]; [discriminate|repeat (constructor; [assumption|]); constructor|]. rewrite E1.
    destruct (epa_recurse (Nm := RNum) tiny 30 s1 s2 [v0; p; v1] 1) as [c|] eqn:Q; [|split; [reflexivity|discriminate]]. split; [reflexivity|]. intros r Z. injection Z as <-. now apply E2.
  - destruct (check_axis _ _ _ _); [rewrite closest_shift; split; [reflexivity|intros r Q; injection Q as <-; apply closest_near]|]. destruct (closest_dist _ _ <? closest_dist _ _)%num; apply IH; assumption.
Qed.
End Pair.

Lemma center_shift x (b : @bb RNum) : bb_center (shift_bb x b) = vadd (bb_center b) x.
Proof. destruct b, x. unfold bb_center, shift_bb. apply vec_ext; unV; cbn; unR; field. Qed.

Section Collide.
Context (tiny : R) (Htiny : 0 < tiny) (x : Rvec).
Definition ready (a : @nshape RNum) : Prop := placed (ns_s a) /\ near far (bb_center (ns_bb a)).
Notation sn := (shift_nshape x).
Lemma gjk_all a b id : ready a -> ready b -> ready (sn a) -> ready (sn b) ->
  gjk tiny (sn a) (sn b) id = option_map (sce x) (gjk tiny a b id) /\ forall r, gjk tiny a b id = Some r -> near 1 (cp_n (fst r)).
Proof.
  intros [F1 B1] [F2 B2] [G1 _] [G2 _]. unfold gjk. cbn [shift_nshape ns_s] in *. rewrite !has_shift. destruct (has_points (ns_s a)) eqn:P1; [|split; [reflexivity|discriminate]]. destruct (has_points (ns_s b)) eqn:P2; [|split; [reflexivity|discriminate]]. cbn [andb].
  assert (S : gjk_start (sn a) (sn b) id = (smp x (fst (gjk_start a b id)), smp x (snd (gjk_start a b id))) /\ mid (fst (gjk_start a b id)) /\ mid (snd (gjk_start a b id))).
  { unfold gjk_start. cbn [shift_nshape ns_s ns_bb]. destruct (negb _); cbn [fst snd].
    - rewrite !point_shift, !mpoint_shift by assumption. split; [reflexivity|]. split; apply mpoint_near; now apply point_near.
    - rewrite !center_shift, sub_shift. set (ax := vperp _). assert (K : near (4 * far) ax) by (apply near_perp; apply (near_le (far + far)); [pose proof far_pos; lra|]; now apply near_sub).
      destruct (ctx_shift x _ _ P1 P2 F1 F2 G1 G2 ax K) as [-> M0]. destruct (ctx_shift x _ _ P1 P2 F1 F2 G1 G2 (vneg ax) (near_neg _ _ K)) as [-> M1]. now split. }
  destruct S as (-> & M0 & M1). destruct (gjk_start a b id) as [v0 v1]. cbn [fst snd] in *. apply (gjk_shift tiny Htiny x _ _ P1 P2 F1 F2 G1 G2 61 v0 v1 1%nat M0 M1).
Qed.

Definition sedge (e : @edge RNum) : @edge RNum := Edge (vadd (e_a e) x) (e_ah e) (vadd (e_b e) x) (e_bh e) (e_r e) (e_n e).
Notation si := (shift_info x).
Lemma push_shift i p1 p2 h : push (si i) (vadd p1 x) (vadd p2 x) h = si (push i p1 p2 h).
Proof. unfold push, shift_info. cbn. now rewrite map_app. Qed.
Lemma cross_shift (v n : Rvec) : (vcross (vadd v x) n : R) = (vcross v n : R) + vcross x n. Proof. destruct v, x, n. unV. ring. Qed.
Lemma vlerp_shift (a b : Rvec) (t : R) : vlerp (vadd a x) (vadd b x) t = vadd (vlerp a b t) x.
Proof. destruct a, b, x. apply vec_ext; unV; ring. Qed.
Lemma add_shift (u v : Rvec) : vadd u (vadd v x) = vadd (vadd u v) x. Proof. destruct u, v, x. apply vec_ext; unV; ring. Qed.
Lemma add_shift_l (u v : Rvec) : vadd (vadd u x) v = vadd (vadd u v) x. Proof. destruct u, v, x. apply vec_ext; unV; ring. Qed.
Lemma minus_shift (a b c : R) : a + c - (b + c) = a - b. Proof. ring. Qed.
Lemma contacts_shift e1 e2 pts i : contact_points tiny (sedge e1) (sedge e2) (scp x pts) (si i) = si (contact_points tiny e1 e2 pts i).
Proof.
  unfold contact_points. cbn [sedge scp e_a e_b e_ah e_bh e_r e_n cp_n cp_d]. destruct (_ <? _)%num; [reflexivity|]. rewrite !cross_shift. unR. rewrite !minus_shift, !vlerp_shift, !add_shift, !sub_shift.
  change (with_n (si i) (cp_n pts)) with (si (with_n i (cp_n pts))). set (i1 := with_n i (cp_n pts)).
  repeat match goal with |- context [if Rleb ?a ?b then _ else _] => destruct (Rleb a b) end; rewrite ?push_shift; reflexivity.
Qed.
Lemma segment_edge_shift g h n : segment_edge (match shift_shape x (SSegment g) with SSegment g => g | _ => g end) h n = sedge (segment_edge g h n).
Proof. unfold segment_edge. cbn [shift_shape sg_tn]. destruct (_ <? _)%num; reflexivity. Qed.
Lemma poly_edge_shift (p : @poly RNum) h n : po_dst p <> [] -> near (4 * far) n -> placed (SPoly p) -> placed (shift_shape x (SPoly p)) ->
  poly_edge (Poly (po_r p) (map (shift_plane x) (po_dst p)) (po_src p)) h n = sedge (poly_edge p h n).
Proof.
  intros NE K F G. cbn [shift_shape placed po_dst] in *. unfold poly_edge. cbn [po_dst po_r]. rewrite map_length, index_shift by assumption. assert (L := support_index_in (po_dst p) n NE). set (i1 := support_index _ _) in *.
  assert (L0 : (Nat.modulo (i1 + length (po_dst p) - 1) (length (po_dst p)) < length (po_dst p))%nat) by (apply Nat.mod_upper_bound; lia).
  assert (L2 : (Nat.modulo (i1 + 1) (length (po_dst p)) < length (po_dst p))%nat) by (apply Nat.mod_upper_bound; lia). rewrite !plane_shift by assumption. cbn [shift_plane pl_n pl_v]. destruct (_ <? _)%num; reflexivity.
Qed.
Lemma circles_shift c1 c2 i : circle_to_circle (Circle (ci_c c1) (vadd (ci_tc c1) x) (ci_r c1)) (Circle (ci_c c2) (vadd (ci_tc c2) x) (ci_r c2)) (si i) = si (circle_to_circle c1 c2 i).
Proof. unfold circle_to_circle. cbn [ci_tc ci_r]. rewrite sub_shift. cbv zeta. destruct (_ <? _)%num; [|reflexivity]. rewrite !add_shift_l. apply (push_shift (with_n i _)). Qed.
Lemma ifc {A} (c c' : bool) (u v u' v' : A) : c = c' -> u = u' -> v = v' -> (if c then u else v) = (if c' then u' else v'). Proof. now intros -> -> ->. Qed.
Lemma circle_segment_shift c g i : circle_to_segment (Circle (ci_c c) (vadd (ci_tc c) x) (ci_r c)) (match shift_shape x (SSegment g) with SSegment g => g | _ => g end) (si i) = si (circle_to_segment c g i).
Proof.
  unfold circle_to_segment. cbn [shift_shape ci_tc ci_r sg_ta sg_tb sg_r sg_tn sg_at sg_bt sg_rot tangent]. rewrite !sub_shift. cbv zeta. set (t := clamp01 _). rewrite !add_shift_l, sub_shift.
  destruct (_ <? _)%num; [|reflexivity]. unfold tangent. cbn [sg_rot]. destruct (_ && _); [|reflexivity]. rewrite ?add_shift_l. apply (push_shift (with_n i _)).
Qed.
Lemma near1 n : near 1 n -> near (4 * far) n. Proof. apply near_le. pose proof far_pos. lra. Qed.
Lemma call_shift r a b i : ready a -> ready b -> ready (sn a) -> ready (sn b) -> call tiny r (sn a) (sn b) (si i) = option_map si (call tiny r a b i).
Proof.
  intros A B A' B'. unfold call. cbn [shift_nshape ns_s]. destruct r, (ns_s a) as [ca|ga|pa] eqn:Ea, (ns_s b) as [cb|gb|pb] eqn:Eb; try reflexivity; cbn [shift_shape option_map].
  - f_equal. apply circles_shift.
  - f_equal. apply (circle_segment_shift ca gb).
  - unfold segment_to_segment. destruct (gjk_all a b (nf_id i) A B A' B') as [E0 K]. change (nf_id (si i)) with (nf_id i). unfold shift_nshape in E0 at 1 2. unfold shift_nshape. rewrite E0. destruct (gjk (Nm := RNum) tiny a b (nf_id i)) as [[pts en]|]; [|reflexivity]. cbn [option_map sce fst snd]. f_equal.
    change (cp_id (scp x pts)) with (cp_id pts). change (cp_n (scp x pts)) with (cp_n pts). change (cp_d (scp x pts)) with (cp_d pts). change (cp_a (scp x pts)) with (vadd (cp_a pts) x). change (cp_b (scp x pts)) with (vadd (cp_b pts) x).
    change (with_id (si i) (cp_id pts)) with (si (with_id i (cp_id pts))). cbn [sg_ta sg_tb sg_r sg_at sg_bt]. rewrite !veqb_shift. unfold tangent. cbn [sg_rot ns_hash]. destruct (_ <? _)%num; [reflexivity|]. destruct (_ && _ && _ && _); [|reflexivity].
    rewrite <- contacts_shift. rewrite <- !segment_edge_shift. reflexivity.
  - unfold circle_to_poly. destruct (gjk_all a b (nf_id i) A B A' B') as [E0 K]. change (nf_id (si i)) with (nf_id i). unfold shift_nshape in E0 at 1 2. unfold shift_nshape. rewrite E0. destruct (gjk (Nm := RNum) tiny a b (nf_id i)) as [[pts en]|]; [|reflexivity]. cbn [option_map sce fst snd]. f_equal.
    change (cp_id (scp x pts)) with (cp_id pts). change (cp_n (scp x pts)) with (cp_n pts). change (cp_d (scp x pts)) with (cp_d pts). change (cp_a (scp x pts)) with (vadd (cp_a pts) x). change (cp_b (scp x pts)) with (vadd (cp_b pts) x).
    change (with_id (si i) (cp_id pts)) with (si (with_id i (cp_id pts))). cbn [ci_r po_r]. destruct (_ <=? _)%num; [|reflexivity]. rewrite !add_shift_l. exact (push_shift (with_n (with_id i (cp_id pts)) (cp_n pts)) _ _ _).
  - unfold segment_to_poly. destruct (gjk_all a b (nf_id i) A B A' B') as [E0 K]. change (nf_id (si i)) with (nf_id i). unfold shift_nshape in E0 at 1 2. unfold shift_nshape. rewrite E0. destruct (gjk (Nm := RNum) tiny a b (nf_id i)) as [[pts en]|] eqn:Q; [|reflexivity]. cbn [option_map sce fst snd]. f_equal.
    change (cp_id (scp x pts)) with (cp_id pts). change (cp_n (scp x pts)) with (cp_n pts). change (cp_d (scp x pts)) with (cp_d pts). change (cp_a (scp x pts)) with (vadd (cp_a pts) x). change (cp_b (scp x pts)) with (vadd (cp_b pts) x).
    change (with_id (si i) (cp_id pts)) with (si (with_id i (cp_id pts))). cbn [sg_ta sg_tb sg_r sg_at sg_bt po_r]. rewrite !veqb_shift. unfold tangent. cbn [sg_rot ns_hash]. destruct (_ && _); [|reflexivity].
    rewrite <- contacts_shift. rewrite <- segment_edge_shift. rewrite <- poly_edge_shift; [reflexivity| | | |].
    + intros Z. unfold gjk in Q. rewrite Eb in Q. cbn [has_points] in Q. rewrite Z, andb_false_r in Q. discriminate.
    + apply near_neg, near1, (K _ eq_refl).
    + rewrite <- Eb. apply B.
    + rewrite <- Eb. apply B'.
  - unfold poly_to_poly. destruct (gjk_all a b (nf_id i) A B A' B') as [E0 K]. change (nf_id (si i)) with (nf_id i). unfold shift_nshape in E0 at 1 2. unfold shift_nshape. rewrite E0. destruct (gjk (Nm := RNum) tiny a b (nf_id i)) as [[pts en]|] eqn:Q; [|reflexivity]. cbn [option_map sce fst snd]. f_equal.
    change (cp_id (scp x pts)) with (cp_id pts). change (cp_n (scp x pts)) with (cp_n pts). change (cp_d (scp x pts)) with (cp_d pts).
    change (with_id (si i) (cp_id pts)) with (si (with_id i (cp_id pts))). cbn [po_r ns_hash]. destruct (_ <=? _)%num; [|reflexivity].
    rewrite <- contacts_shift. rewrite <- !poly_edge_shift; [reflexivity| | | | | | | |].
    1, 5: intros Z; unfold gjk in Q; rewrite Ea, Eb in Q; cbn [has_points] in Q; rewrite Z, ?andb_false_r in Q; discriminate.
    all: try (apply near_neg); try (apply near1, (K _ eq_refl)).
    all: first [rewrite <- Ea; first [apply A | apply A'] | rewrite <- Eb; first [apply B | apply B']].
Qed.
Lemma order_shift a : order (sn a) = order a. Proof. unfold order. cbn. destruct (ns_s a); reflexivity. Qed.
Theorem collide_shift a b id : ready a -> ready b -> ready (sn a) -> ready (sn b) ->
  collide tiny (sn a) (sn b) id = option_map (fun r => (fst r, si (snd r))) (collide tiny a b id).
Proof.
  intros A B A' B'. unfold collide. rewrite !order_shift. destruct (Nat.ltb (order b) (order a)).
  - rewrite !order_shift. destruct (nth_error table _) as [r|]; [|reflexivity]. change (@NInfo RNum vzero [] id) with (si (NInfo vzero [] id)) at 1. rewrite call_shift by assumption. destruct (call (Nm := RNum) tiny r b a _); reflexivity.
  - rewrite !order_shift. destruct (nth_error table _) as [r|]; [|reflexivity]. change (@NInfo RNum vzero [] id) with (si (NInfo vzero [] id)) at 1. rewrite call_shift by assumption. destruct (call (Nm := RNum) tiny r a b _); reflexivity.
Qed.
End Collide.
