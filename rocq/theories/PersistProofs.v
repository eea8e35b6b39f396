(** Proofs for C56. *)
From Coq Require Import ZArith NArith Bool List Reals Lra Psatz FunctionalExtensionality.
From Verif Require Import Num NumReal Vec VecReal Transform Body BodySpec Solver SolverSpec Narrow Persist PersistSpec.
Import ListNotations.
Local Open Scope R_scope.

(** ** Any arithmetic *)
Section Any.
Context {N : Num}.
Lemma carry_hash (c o : contact) : k_hash (carry c o) = k_hash c.
Proof. unfold carry. destruct (Z.eqb _ _); reflexivity. Qed.
Lemma carry_none l : forall c : contact, (forall o, In o l -> k_hash o <> k_hash c) -> fold_left carry l c = c.
Proof.
  induction l as [|o l IH]; intros c H; simpl; auto. assert (E : carry c o = c).
  { unfold carry. destruct (Z.eqb_spec (k_hash c) (k_hash o)); auto. exfalso. apply (H o); [left|]; auto. }
  rewrite E. apply IH. intros p P. apply H. right; auto.
Qed.
Lemma carry_frame l : forall c : contact, exists x y, fold_left carry l c = Contact (k_r1 c) (k_r2 c) (k_nmass c) (k_tmass c) (k_bounce c) x y (k_jbias c) (k_bias c) (k_hash c).
Proof.
  induction l as [|o l IH]; intros c; simpl; [exists (k_jn c), (k_jt c); destruct c; reflexivity|].
  destruct (IH (carry c o)) as [x [y E]]. exists x, y. rewrite E. unfold carry. destruct (Z.eqb _ _); reflexivity.
Qed.
Lemma carry_last l1 o l2 (c : contact) : k_hash o = k_hash c -> (forall p, In p l2 -> k_hash p <> k_hash c) ->
  k_jn (fold_left carry (l1 ++ o :: l2) c) = k_jn o /\ k_jt (fold_left carry (l1 ++ o :: l2) c) = k_jt o.
Proof.
  intros E H. rewrite fold_left_app. simpl. destruct (carry_frame l1 c) as [x [y F]]. rewrite F. set (d := Contact _ _ _ _ _ _ _ _ _ _).
  assert (HD : k_hash d = k_hash c) by reflexivity. rewrite carry_none.
  - unfold carry. replace (Z.eqb (k_hash d) (k_hash o)) with true; [split; reflexivity|]. symmetry. apply Z.eqb_eq. congruence.
  - intros p P. rewrite carry_hash, HD. auto.
Qed.
Lemma update_nth pa pb (old : list contact) l : forall mem i, nth_error (update_contacts pa pb old mem l) i =
  option_map (update_contact pa pb old (mem i)) (nth_error l i).
Proof. induction l as [|c l IH]; intros mem [|i]; simpl; auto. apply (IH (fun k => mem (S k))). Qed.
(* what Update leaves in contact number i *)
Lemma update_carries H a b ma mb sw mem inf (s : sarb) i c : nth_error (nf_arr inf) i = Some c ->
  exists k, nth_error (s_contacts (update H a b ma mb sw mem inf s)) i = Some k /\ k_hash k = Z.of_N (nc_hash c) /\
    k_r1 k = vsub (nc_p1 c) (b_pos (H a)) /\ k_r2 k = vsub (nc_p2 c) (b_pos (H b)) /\
    (forall l1 o l2, s_contacts s = l1 ++ o :: l2 -> k_hash o = k_hash k -> (forall p, In p l2 -> k_hash p <> k_hash k) -> k_jn k = k_jn o /\ k_jt k = k_jt o) /\
    ((forall o, In o (s_contacts s) -> k_hash o <> k_hash k) -> k_jn k = n0 /\ k_jt k = n0).
Proof.
  intros E. simpl. rewrite update_nth, E. simpl. eexists. split; [reflexivity|]. unfold update_contact. set (c0 := Contact _ _ _ _ _ _ _ _ _ _).
  destruct (carry_frame (s_contacts s) c0) as [x [y F]]. rewrite F. simpl. split; auto. split; auto. split; auto. split.
  - intros l1 o l2 D HO HP. pose proof (carry_last l1 o l2 c0 HO HP) as [A B]. rewrite <- D, F in A, B. auto.
  - intros HN. rewrite carry_none in F by auto. injection F as <- <-. auto.
Qed.
Lemma update_length pa pb (old : list contact) l : forall mem, length (update_contacts pa pb old mem l) = length l.
Proof. induction l; intros; simpl; auto. Qed.
(* nothing of the old memory survives PreStep *)
Lemma stale_contact H (s : sarb) dt slop bias pa pb old m m' c :
  contact_prestep H s dt slop bias (update_contact pa pb old m c) = contact_prestep H s dt slop bias (update_contact pa pb old m' c).
Proof.
  unfold update_contact. set (c0 := Contact _ _ _ _ _ _ _ (k_jbias m) _ _). set (c1 := Contact _ _ _ _ _ _ _ (k_jbias m') _ _).
  assert (G : forall l (c c' : contact), k_r1 c = k_r1 c' -> k_r2 c = k_r2 c' -> k_jn c = k_jn c' -> k_jt c = k_jt c' -> k_hash c = k_hash c' ->
    contact_prestep H s dt slop bias (fold_left carry l c) = contact_prestep H s dt slop bias (fold_left carry l c')).
  { induction l as [|o l IH]; intros d d' A1 A2 A3 A4 A5; simpl.
    - unfold contact_prestep. rewrite A1, A2, A3, A4, A5. reflexivity.
    - apply IH; unfold carry; rewrite A5; destruct (Z.eqb _ _); simpl; auto. }
  apply G; reflexivity.
Qed.
Lemma stale_contacts H (s : sarb) dt slop bias pa pb old l : forall mem mem',
  map (contact_prestep H s dt slop bias) (update_contacts pa pb old mem l) = map (contact_prestep H s dt slop bias) (update_contacts pa pb old mem' l).
Proof. induction l as [|c l IH]; intros mem mem'; simpl; auto. f_equal; [apply stale_contact|apply IH]. Qed.
Lemma stale_irrelevant H H' a b ma mb sw mem mem' inf (s : sarb) dt slop bias :
  arb_prestep H' dt slop bias (update H a b ma mb sw mem inf s) = arb_prestep H' dt slop bias (update H a b ma mb sw mem' inf s).
Proof. unfold arb_prestep, with_contacts. simpl. f_equal. etransitivity; [apply stale_contacts with (mem' := mem')|reflexivity]. Qed.
End Any.

(** ** The reals *)
Lemma upd_comm (H : Rheap) i j x y : i <> j -> upd (upd H i x) j y = upd (upd H j y) i x.
Proof. intros D. extensionality k. unfold upd. destruct (Nat.eqb_spec k j), (Nat.eqb_spec k i); congruence. Qed.
Lemma upd_eq (H : Rheap) i x : upd H i x i = x.
Proof. unfold upd. rewrite Nat.eqb_refl. reflexivity. Qed.
Lemma upd_ne (H : Rheap) i j x : i <> j -> upd H i x j = H j.
Proof. intros D. unfold upd. destruct (Nat.eqb_spec j i); congruence. Qed.
Definition vn (v : rvec) : rvec := @V RNum (- vx v) (- vy v).
Lemma vneg_vn (v : rvec) : vneg v = vn v. Proof. destruct v. reflexivity. Qed.
Lemma vn_vn (v : rvec) : vn (vn v) = v.
Proof. destruct v. unfold vn. simpl. f_equal; apply Ropp_involutive. Qed.
Lemma impulses_swap (H : Rheap) a b (r1 r2 j : rvec) : a <> b -> apply_impulses H b a r2 r1 (vn j) = apply_impulses H a b r1 r2 j.
Proof.
  intros D. unfold apply_impulses. rewrite !upd_ne by congruence. rewrite upd_comm by congruence. f_equal. f_equal. f_equal. change (@V RNum (- vx (vn j)) (- vy (vn j))) with (vn (vn j)). apply vn_vn.
Qed.
Lemma bias_swap (H : Rheap) a b (r1 r2 j : rvec) : a <> b -> apply_bias_impulses H b a r2 r1 (vn j) = apply_bias_impulses H a b r1 r2 j.
Proof.
  intros D. unfold apply_bias_impulses. rewrite !upd_ne by congruence. rewrite upd_comm by congruence. f_equal. f_equal. f_equal. change (@V RNum (- vx (vn j)) (- vy (vn j))) with (vn (vn j)). apply vn_vn.
Qed.
Lemma rotate_neg (n v : rvec) : vrotate (vneg n) v = vn (vrotate n v).
Proof. unfold vn. destruct n, v. unV. f_equal; rring. Qed.
Lemma scale_neg (n : rvec) k : vscale (vneg n) k = vn (vscale n k).
Proof. unfold vn. destruct n. unV. f_equal; rring. Qed.
Lemma scale_vn (n : rvec) k : vscale (vn n) k = vn (vscale n k).
Proof. unfold vn. destruct n. unV. f_equal; rring. Qed.

Lemma mirror_cached sw s dtc H c : s_a s <> s_b s -> contact_cached (mirror sw s) dtc H (mirror_contact c) = contact_cached s dtc H c.
Proof. intros D. unfold contact_cached. simpl. rewrite rotate_neg, scale_vn. apply impulses_swap; auto. Qed.
Lemma mirror_arb_cached sw s dtc H : s_a s <> s_b s -> arb_cached (N := RNum) dtc H (mirror sw s) = arb_cached dtc H s.
Proof.
  intros D. unfold arb_cached. simpl. destruct (s_first s); auto. revert H. induction (s_contacts s) as [|c l IH]; intros H; simpl; auto.
  rewrite mirror_cached by auto. apply IH.
Qed.
Lemma kscalar_neg a b (r1 r2 n : rvec) : kscalar b a r2 r1 (vneg n) = kscalar a b r1 r2 n.
Proof. unfold kscalar, kscalar_body. destruct r1, r2, n. unV. rring. Qed.
Lemma perp_neg (n : rvec) : vperp (vneg n) = vneg (vperp n).
Proof. destruct n. unV. reflexivity. Qed.
Lemma rel_swap a b (r1 r2 : rvec) : relative_velocity b a r2 r1 = vneg (relative_velocity a b r1 r2).
Proof. unfold relative_velocity. destruct r1, r2, (b_vel a), (b_vel b). unV. f_equal; rring. Qed.
Lemma dot_neg_neg (v n : rvec) : vdot (vneg v) (vneg n) = vdot v n.
Proof. destruct v, n. unV. rring. Qed.
Lemma mirror_prestep sw s H dt slop bias c : contact_prestep H (mirror sw s) dt slop bias (mirror_contact c) = mirror_contact (contact_prestep (N := RNum) H s dt slop bias c).
Proof.
  unfold contact_prestep, mirror_contact. cbn [s_a s_b s_n s_e mirror k_r1 k_r2 k_jn k_jt k_hash]. rewrite perp_neg, !kscalar_neg. unfold normal_relative_velocity. rewrite rel_swap, dot_neg_neg.
  assert (E : vdot (vadd (vsub (k_r1 c) (k_r2 c)) (vsub (b_pos (H (s_a s))) (b_pos (H (s_b s))))) (vneg (s_n s)) = vdot (vadd (vsub (k_r2 c) (k_r1 c)) (vsub (b_pos (H (s_b s))) (b_pos (H (s_a s))))) (s_n s)).
  { destruct (k_r1 c), (k_r2 c), (b_pos (H (s_a s))), (b_pos (H (s_b s))), (s_n s). unV. rring. }
  rewrite E. reflexivity.
Qed.
Lemma mirror_arb_prestep sw s H dt slop bias : arb_prestep (N := RNum) H dt slop bias (mirror sw s) = mirror sw (arb_prestep H dt slop bias s).
Proof.
  unfold arb_prestep, with_contacts, mirror. cbn [s_a s_b s_e s_u s_svr s_n s_swapped s_first s_cached s_contacts]. f_equal. rewrite !map_map. apply map_ext. intros c. apply (mirror_prestep sw s).
Qed.
Lemma mirror_apply sw s H c : s_a s <> s_b s -> contact_apply (N := RNum) H (mirror sw s) (mirror_contact c) = (fst (contact_apply H s c), mirror_contact (snd (contact_apply H s c))).
Proof.
  intros D. unfold contact_apply. cbn [s_a s_b s_n s_e s_u s_svr mirror mirror_contact k_r1 k_r2 k_jn k_jt k_hash k_nmass k_tmass k_bounce k_jbias k_bias fst snd].
  rewrite perp_neg, rel_swap.
  replace (vadd (vneg (relative_velocity (H (s_a s)) (H (s_b s)) (k_r1 c) (k_r2 c))) (vneg (s_svr s))) with (vneg (vadd (relative_velocity (H (s_a s)) (H (s_b s)) (k_r1 c) (k_r2 c)) (s_svr s))) by veq.
  rewrite !dot_neg_neg.
  set (v1 := vadd (b_vbias (H (s_a s))) _). set (v2 := vadd (b_vbias (H (s_b s))) _).
  replace (vsub v1 v2) with (vneg (vsub v2 v1)) by (clearbody v1 v2; veq). rewrite dot_neg_neg.
  rewrite scale_neg, rotate_neg, bias_swap, impulses_swap by auto. reflexivity.
Qed.
Lemma mirror_contacts_apply sw s l : s_a s <> s_b s -> forall H, contacts_apply (N := RNum) H (mirror sw s) (map mirror_contact l) =
  (fst (contacts_apply H s l), map mirror_contact (snd (contacts_apply H s l))).
Proof.
  intros D. induction l as [|c l IH]; intros H; [reflexivity|]. cbn [map contacts_apply]. rewrite mirror_apply by auto. destruct (contact_apply H s c) as [H1 c1]. cbn [fst snd].
  rewrite IH. destruct (contacts_apply H1 s l) as [H2 l2]. reflexivity.
Qed.
Lemma mirror_arb_apply sw s H : s_a s <> s_b s -> arb_apply (N := RNum) H (mirror sw s) = (fst (arb_apply H s), mirror sw (snd (arb_apply H s))).
Proof.
  intros D. unfold arb_apply. cbn [s_contacts mirror]. change (SArb (s_b s) (s_a s) _ _ _ _ _ _ _ _) with (mirror sw s). rewrite mirror_contacts_apply by auto.
  destruct (contacts_apply H s (s_contacts s)) as [H1 l]. reflexivity.
Qed.

(* whole steps: the order of the shapes of any arbiter does not matter *)
Lemma pair_apply (s t : Rsarb) H : s_a s <> s_b s -> same_pair s t -> fst (arb_apply H t) = fst (arb_apply H s) /\ same_pair (snd (arb_apply H s)) (snd (arb_apply H t)) /\
  s_a (snd (arb_apply H s)) = s_a s /\ s_b (snd (arb_apply H s)) = s_b s.
Proof.
  intros D. assert (AB : s_a (snd (arb_apply H s)) = s_a s /\ s_b (snd (arb_apply H s)) = s_b s) by (unfold arb_apply; destruct (contacts_apply _ _ _); split; reflexivity).
  intros [->|[sw ->]]; [split; auto; split; auto; left; auto|]. rewrite mirror_arb_apply by auto. simpl. split; auto. split; auto. right. exists sw. reflexivity.
Qed.
Definition pairs (l l' : list Rsarb) : Prop := Forall2 (fun s t => s_a s <> s_b s /\ same_pair s t) l l'.
Lemma pairs_apply l l' : pairs l l' -> forall H, fst (arbs_apply H l') = fst (arbs_apply H l) /\ pairs (snd (arbs_apply H l)) (snd (arbs_apply H l')).
Proof.
  induction 1 as [|s t l l' [D P] _ IH]; intros H; simpl; [split; auto; constructor|].
  destruct (pair_apply s t H D P) as [A [B [C1 C2]]]. destruct (arb_apply H s) as [H1 s1], (arb_apply H t) as [H2 t1]. simpl in A, B, C1, C2. subst H2.
  destruct (IH H1) as [E F]. destruct (arbs_apply H1 l) as [H3 l1], (arbs_apply H1 l') as [H4 l2]. simpl in *. split; auto. constructor; auto. split; auto. congruence.
Qed.
Definition wpairs (w w' : Rworld) : Prop := w_heap w' = w_heap w /\ w_joints w' = w_joints w /\ pairs (w_arbs w) (w_arbs w').
Lemma pairs_iteration dt w w' : wpairs w w' -> wpairs (iteration dt w) (iteration dt w').
Proof.
  intros [A [B C]]. unfold iteration. rewrite A, B. destruct (pairs_apply _ _ C (w_heap w)) as [E F].
  destruct (arbs_apply (w_heap w) (w_arbs w)) as [H1 l1], (arbs_apply (w_heap w) (w_arbs w')) as [H2 l2]. simpl in E, F. subst H2.
  destruct (joints_apply H1 dt (w_joints w)) as [H3 js]. split; auto.
Qed.
Lemma pairs_iterations n dt : forall w w', wpairs w w' -> wpairs (iterations n dt w) (iterations n dt w').
Proof. induction n as [|n IH]; intros w w' P; simpl; auto. apply IH, pairs_iteration; auto. Qed.
Lemma pairs_cached dtc l l' : pairs l l' -> forall H, fold_left (arb_cached dtc) l' H = fold_left (arb_cached dtc) l H.
Proof.
  induction 1 as [|s t l l' [D P] _ IH]; intros H; simpl; auto. replace (arb_cached dtc H t) with (arb_cached dtc H s); [apply IH|].
  destruct P as [->|[sw ->]]; auto. symmetry. apply mirror_arb_cached; auto.
Qed.
Lemma pairs_prestep H dt slop bias l l' : pairs l l' -> pairs (map (arb_prestep H dt slop bias) l) (map (arb_prestep H dt slop bias) l').
Proof.
  induction 1 as [|s t l l' [D P] _ IH]; simpl; constructor; auto. split; auto. destruct P as [->|[sw ->]]; [left; auto|right; exists sw; apply mirror_arb_prestep].
Qed.
Lemma order_irrelevant n slop bias g d dt prevdt L (w w' : Rworld) : wpairs w w' -> wpairs (solve n slop bias g d dt prevdt L w) (solve n slop bias g d dt prevdt L w').
Proof.
  intros [A [B C]]. unfold solve. apply pairs_iterations. unfold cached_all, integrate_all, prestep_all. rewrite A, B.
  destruct (joints_prestep (w_heap w) dt (w_joints w)) as [H js]. cbn [w_heap w_arbs w_joints]. pose proof (pairs_prestep (w_heap w) dt slop bias _ _ C) as P.
  split; [|split; auto]. cbn [w_heap]. f_equal. apply pairs_cached; auto.
Qed.

(* Update: the same result in the other order, the same reports *)
Lemma mirror_update H a b ma mb sw sw' mem inf s t : same_pair s t ->
  update (N := RNum) H b a mb ma sw mem (flip inf) t = mirror sw (update H a b ma mb sw' mem inf s).
Proof.
  intros P. unfold update, mirror. cbn [s_a s_b s_e s_u s_svr s_n s_swapped s_first s_cached s_contacts nf_n nf_arr flip].
  assert (MC : forall x y : @num RNum, nmul x y = nmul y x) by (intros; apply Rmult_comm). rewrite (MC (mt_e mb)), (MC (mt_u mb)). f_equal.
  - unfold surface_velocity. destruct (mt_sv ma), (mt_sv mb), (nf_n inf). unV. f_equal; rring.
  - destruct P as [->|[sw0 ->]]; auto.
  - assert (G : forall l c, fold_left carry (map mirror_contact l) c = fold_left carry l c).
    { induction l as [|o l IH]; intros c; simpl; auto. }
    assert (K : forall pa pb m c, update_contact pb pa (s_contacts t) m (NContact (nc_p2 c) (nc_p1 c) (nc_hash c)) = mirror_contact (update_contact pa pb (s_contacts s) m c)).
    { intros pa pb m c. unfold update_contact. replace (fold_left carry (s_contacts t)) with (fold_left carry (s_contacts s)).
      - cbn [nc_p1 nc_p2 nc_hash]. generalize (s_contacts s). intros l. set (c0 := Contact (vsub (nc_p2 c) pb) _ _ _ _ _ _ _ _ _). set (c1 := Contact (vsub (nc_p1 c) pa) _ _ _ _ _ _ _ _ _).
        assert (E : c0 = mirror_contact c1) by reflexivity. rewrite E. clearbody c1. clear. revert c1. induction l as [|o l IH]; intros c1; simpl; auto.
        rewrite <- IH. f_equal. unfold carry. cbn [k_hash mirror_contact]. destruct (Z.eqb _ _); reflexivity.
      - destruct P as [->|[sw0 ->]]; auto. simpl. extensionality c0. symmetry. apply G. }
    generalize (b_pos (H a)) (b_pos (H b)). intros pa pb. revert mem. generalize (nf_arr inf). induction l as [|c l IH]; intros mem; simpl; auto. rewrite K, IH. reflexivity.
Qed.
Lemma mirror_normal s : arb_normal (N := RNum) (mirror (negb (s_swapped s)) s) = arb_normal s.
Proof. unfold arb_normal. simpl. destruct (s_swapped s), (s_n s); cbn [negb]; unV; f_equal; rring. Qed.
Lemma mirror_points H s : contact_point_set (N := RNum) H (mirror (negb (s_swapped s)) s) = contact_point_set H s.
Proof.
  unfold contact_point_set, arb_count. cbn [s_a s_b s_n s_swapped s_cached s_contacts mirror]. rewrite map_length. f_equal.
  - destruct (s_swapped s), (s_n s); cbn [negb]; unV; f_equal; rring.
  - rewrite firstn_map, map_map. apply map_ext. intros c. cbn [k_r1 k_r2 mirror_contact]. set (p := vadd _ _). set (q := vadd _ _).
    assert (E : vdot (vsub p q) (vneg (s_n s)) = vdot (vsub q p) (s_n s)) by (clearbody p q; destruct p, q, (s_n s); unV; rring). destruct (s_swapped s); cbn [negb]; rewrite E; reflexivity.
Qed.
Lemma mirror_total s : total_impulse (N := RNum) (mirror (negb (s_swapped s)) s) = total_impulse s.
Proof.
  unfold total_impulse, arb_count. cbn [s_a s_b s_n s_swapped s_cached s_contacts mirror]. rewrite map_length, firstn_map.
  assert (G : forall l v, fold_left (fun sum c => vadd sum (vrotate (vneg (s_n s)) (V (k_jn c) (k_jt c)))) (map mirror_contact l) (vneg v) = vneg (fold_left (fun sum c => vadd sum (vrotate (s_n s) (V (k_jn c) (k_jt c)))) l v)).
  { induction l as [|c l IH]; intros v; simpl; auto. rewrite <- IH. f_equal. destruct v, (s_n s); unV; f_equal; rring. }
  specialize (G (firstn (if s_cached s then 0%nat else length (s_contacts s)) (s_contacts s)) vzero).
  replace (vneg (@vzero RNum)) with (@vzero RNum) in G by (unV; f_equal; rring). rewrite G. clear G. set (v := fold_left _ _ _). clearbody v.
  destruct (s_swapped s); simpl; auto. destruct v. unV. f_equal; rring.
Qed.
(* the contact set reported after Update is what the narrow phase found *)
Lemma update_points H a b ma mb sw mem inf s :
  contact_point_set (N := RNum) H (update H a b ma mb sw mem inf s) =
  CPSet (if sw then vneg (nf_n inf) else nf_n inf)
    (map (fun c => let d := vdot (vsub (nc_p2 c) (nc_p1 c)) (nf_n inf) in if sw then (nc_p2 c, nc_p1 c, d) else (nc_p1 c, nc_p2 c, d)) (nf_arr inf)).
Proof.
  unfold contact_point_set, arb_count. cbn [s_a s_b s_n s_swapped s_cached s_contacts update]. rewrite update_length. f_equal.
  rewrite <- (update_length (b_pos (H a)) (b_pos (H b)) (s_contacts s) (nf_arr inf) mem), firstn_all. revert mem. generalize (nf_arr inf). induction l as [|c l IH]; intros mem; [reflexivity|]. cbn [map update_contacts].
  rewrite IH. f_equal. unfold update_contact. set (c0 := Contact _ _ _ _ _ _ _ _ _ _). destruct (carry_frame (s_contacts s) c0) as [x [y F]]. rewrite F. cbn [k_r1 k_r2]. cbv zeta. unfold c0. cbn [k_r1 k_r2].
  assert (E : forall p q : rvec, vadd p (vsub q p) = q) by (intros [] []; unV; f_equal; rring).
  rewrite !E. reflexivity.
Qed.
Lemma surface_tangent (a b : material) (n : rvec) : vdot n n = 1 -> vdot (surface_velocity a b n) n = 0 /\
  vdot (surface_velocity a b n) (vperp n) = vdot (mt_sv b) (vperp n) - vdot (mt_sv a) (vperp n).
Proof.
  intros U. unfold surface_velocity. destruct (mt_sv a) as [ax ay], (mt_sv b) as [bx by_], n as [x y]. unV. split; [|rring].
  change (x * x + y * y = 1) in U. change ((bx - ax - x * ((bx - ax) * x + (by_ - ay) * y)) * x + (by_ - ay - y * ((bx - ax) * x + (by_ - ay) * y)) * y = 0).
  replace (_ + _) with (((bx - ax) * x + (by_ - ay) * y) * (1 - (x * x + y * y))) by ring. rewrite U. ring.
Qed.
