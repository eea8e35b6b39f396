(** Proofs for C49: SimplifyVertexes and SimplifyCurves. *)
From Coq Require Import ZArith Reals List Bool Lia Lra PeanoNat Floats.
From Verif Require Import Num NumReal NumFloat Vec VecReal BB Polyline PolylineSpec.
Import ListNotations.

(** ** Positions on a cycle *)
Lemma next_pos count p : (0 < count)%nat -> next (p mod count) count = S p mod count.
Proof. intros H. unfold next. rewrite Nat.add_1_r. replace (S (p mod count)) with (p mod count + 1)%nat by lia. rewrite Nat.add_mod_idemp_l by lia. f_equal. lia. Qed.
Lemma same_pos count p e : (p <= e)%nat -> (e - p < count)%nat -> (p mod count = e mod count <-> p = e)%nat.
Proof.
  intros L B. split; [|congruence]. intros E. pose proof (Nat.div_mod p count ltac:(lia)). pose proof (Nat.div_mod e count ltac:(lia)).
  assert (p / count = e / count)%nat; [|nia]. assert (p / count <= e / count)%nat by (apply Nat.div_le_mono; lia). nia.
Qed.
Lemma span_pos count s e : (s <= e)%nat -> (e - s < count)%nat -> ((e mod count + count - s mod count) mod count = e - s)%nat.
Proof.
  intros L B. pose proof (Nat.div_mod s count ltac:(lia)) as A. pose proof (Nat.div_mod e count ltac:(lia)) as C.
  pose proof (Nat.mod_upper_bound s count ltac:(lia)). pose proof (Nat.mod_upper_bound e count ltac:(lia)).
  assert (D : (s / count <= e / count)%nat) by (apply Nat.div_le_mono; lia).
  set (x := (s mod count)%nat) in *. set (y := (e mod count)%nat) in *. set (a := (s / count)%nat) in *. set (b := (e / count)%nat) in *.
  assert (b = a \/ b = S a) as [->| ->] by nia.
  - replace (y + count - x)%nat with ((e - s) + 1 * count)%nat by lia. rewrite Nat.mod_add by lia. apply Nat.mod_small. lia.
  - replace (y + count - x)%nat with (e - s)%nat by nia. apply Nat.mod_small. lia.
Qed.

Section Any.
Context {Nm : Num}.
Variables (verts : list vec) (count : nat).
Local Notation at_ := (vert verts count).
Lemma vert_at k v : nth_error verts (k mod count) = Some v -> v = at_ k.
Proof. intros H. unfold vert. symmetry. now apply nth_error_nth. Qed.
Lemma farthest_where nv d n : forall p e mx mi r, (0 < count)%nat -> (p <= e)%nat -> (e - p < count)%nat ->
  farthest n verts count nv d (p mod count) (e mod count) mx mi = Some r -> r = (mx, mi) \/ exists q, (p <= q < e)%nat /\ snd r = (q mod count)%nat.
Proof.
  induction n as [|n IH]; intros p e mx mi r C L B H; cbn [farthest] in H.
  - destruct (Nat.eqb _ _); [|discriminate]. injection H as <-. auto.
  - destruct (Nat.eqb_spec (p mod count) (e mod count)) as [E|E]; [injection H as <-; auto|]. rewrite same_pos in E by auto.
    destruct (nth_error verts _) as [v|]; [|discriminate]. rewrite next_pos in H by auto.
    destruct (mx <? _)%num; apply IH in H; try lia; destruct H as [->|(q & Q & R)]; auto; right; (exists p; cbn; split; [lia|reflexivity]) || (exists q; split; [lia|auto]).
Qed.

Variables (min tol : num) (base : nat).
(** why the positions strictly between s and e were left out *)
Definition left_out (s e : nat) : Prop := (e - s < 2)%nat \/
  (visnear (at_ s) (at_ e) min = true /\ exists reduced, (length reduced <= base + s)%nat /\ is_short count reduced count (s mod count) (e mod count) n0 min = Some true) \/
  (exists n p mi, let nv := vunit (vperp (vsub (at_ e) (at_ s))) in
     farthest n verts count nv (vdot nv (at_ s)) (S s mod count) (e mod count) n0 p = Some mi /\ (tol <? fst mi)%num = false /\
     (visnear (at_ s) (at_ e) min = false \/ exists reduced, (length reduced <= base + s)%nat /\ is_short count reduced count (s mod count) (e mod count) n0 min = Some false)).
Lemma route_app ok s ks k ks' e : route ok s ks k -> route ok k ks' e -> route ok s (ks ++ k :: ks') e.
Proof. induction 1; intros; cbn; constructor; auto. Qed.
Lemma route_len ok s ks e : route ok s ks e -> (length ks < e - s)%nat.
Proof. induction 1; cbn; lia. Qed.
Lemma dp_route fuel : forall reduced s e r, (tol <? n0)%num = false -> (s < e)%nat -> (e - s < count)%nat -> (length reduced <= base + s)%nat ->
  douglas_peucker fuel verts reduced count (s mod count) (e mod count) min tol = Some r ->
  exists ks, route left_out s ks e /\ r = reduced ++ map at_ ks.
Proof.
  induction fuel as [|fuel IH]; intros reduced s e r T L B Len H; [discriminate|]. cbn [douglas_peucker] in H.
  destruct (Nat.eqb_spec count 0); [lia|]. rewrite span_pos in H by lia.
  destruct (Nat.ltb_spec (e - s) 2) as [S2|S2].
  { injection H as <-. exists []. rewrite app_nil_r. split; auto. constructor; auto. left. lia. }
  destruct (nth_error verts (s mod count)) as [a|] eqn:A; [|discriminate]. destruct (nth_error verts (e mod count)) as [b|] eqn:Bn; [|discriminate].
  apply vert_at in A, Bn. subst a b. rewrite next_pos in H by lia.
  remember (if visnear (at_ s) (at_ e) min then is_short count reduced count (s mod count) (e mod count) n0 min else Some false) as sh eqn:Sh.
  destruct sh as [[|]|]; [| |discriminate].
  - injection H as <-. exists []. rewrite app_nil_r. split; auto. constructor; auto. right. left.
    destruct (visnear _ _ _); [|discriminate]. split; auto. exists reduced. split; auto.
  - destruct (farthest _ _ _ _ _ _ _ _ _) as [[mx mi]|] eqn:F; [|discriminate]. destruct (tol <? mx)%num eqn:X.
    + destruct (farthest_where _ _ _ (S s) e _ _ _ ltac:(lia) ltac:(lia) ltac:(lia) F) as [E|(q & Q & E)].
      { injection E as -> ->. congruence. }
      cbn in E. subst mi. destruct (douglas_peucker fuel verts reduced _ _ (q mod count) _ _) as [r1|] eqn:D1; [|discriminate].
      destruct (nth_error verts (q mod count)) as [v|] eqn:V; [|discriminate]. apply vert_at in V. subst v.
      apply IH in D1 as (k1 & R1 & ->); auto; try lia. pose proof (route_len _ _ _ _ R1) as L1.
      apply IH in H as (k2 & R2 & ->); auto; try lia.
      * exists (k1 ++ q :: k2). split; [eapply route_app; eauto|]. rewrite map_app. cbn. now rewrite <- !app_assoc.
      * rewrite !app_length, map_length. cbn. lia.
    + injection H as <-. exists []. rewrite app_nil_r. split; auto. constructor; auto. right. right. exists count, (s mod count)%nat, (mx, mi). cbn [fst]. split; [exact F|]. split; auto.
      destruct (visnear _ _ _); [right|now left]. exists reduced. split; auto.
Qed.
End Any.

(** ** The two cases of SimplifyCurves *)
Section Curves.
Context {Nm : Num}.
Variables (tol : num) (l : list vec).
Hypothesis T : (tol <? n0)%num = false.
Lemma open_route r : is_closed l = false -> (2 <= length l)%nat -> simplify_curves tol l = Some r ->
  exists ks, route (left_out l (length l) (tol / n2)%num tol 1) 0 ks (length l - 1) /\ r = map (vert l (length l)) (0%nat :: ks ++ [length l - 1])%nat.
Proof.
  intros C L H. unfold simplify_curves in H. rewrite C in H.
  destruct (nth_error l 0) as [v|] eqn:V; [|discriminate]. cbn [app] in H.
  destruct (douglas_peucker _ _ _ _ _ _ _ _) as [r1|] eqn:D; [|discriminate]. destruct (nth_error l (length l - 1)) as [w|] eqn:W; [|discriminate]. injection H as <-.
  assert (M : forall k, (k < length l)%nat -> (k mod length l = k)%nat) by (intros; now apply Nat.mod_small).
  rewrite <- (M 0%nat) in D at 1 by lia. rewrite <- (M (length l - 1)%nat) in D by lia.
  apply dp_route with (base := 1%nat) in D as (ks & R & ->); auto; cbn; try lia. exists ks. split; auto. cbn [app map]. rewrite map_app. cbn [map].
  f_equal; [|f_equal; f_equal].
  - apply vert_at. now rewrite M by lia.
  - apply vert_at. now rewrite M by lia.
Qed.
Lemma loop_from_range rest : forall i s f mn mx, let n := (i + length rest)%nat in (s < i)%nat -> (f < i)%nat -> (s = f -> s = 0)%nat -> (0 < i)%nat ->
  let '(s', f') := loop_from rest i s f mn mx in (s' < n)%nat /\ (f' < n)%nat /\ (s' = f' -> s' = 0)%nat.
Proof.
  induction rest as [|v rest IH]; intros i s f mn mx n Hs F E I; cbn [loop_from].
  - unfold n. cbn. lia.
  - destruct (_ || _)%bool; [|destruct (_ || _)%bool].
    + specialize (IH (S i) i f v mx). cbn in IH. destruct (loop_from _ _ _ _ _ _) as [s' f']. unfold n. cbn. replace (i + S (length rest))%nat with (S (i + length rest)) by lia. apply IH; lia.
    + specialize (IH (S i) s i mn v). cbn in IH. destruct (loop_from _ _ _ _ _ _) as [s' f']. unfold n. cbn. replace (i + S (length rest))%nat with (S (i + length rest)) by lia. apply IH; lia.
    + specialize (IH (S i) s f mn mx). cbn in IH. destruct (loop_from _ _ _ _ _ _) as [s' f']. unfold n. cbn. replace (i + S (length rest))%nat with (S (i + length rest)) by lia. apply IH; lia.
Qed.
Lemma loop_range verts count s f : (1 <= count <= length verts)%nat -> loop_indexes verts count = Some (s, f) -> (s < count)%nat /\ (f < count)%nat /\ (s = f -> s = 0)%nat.
Proof.
  intros C H. unfold loop_indexes in H. destruct verts as [|v rest]; [discriminate|]. injection H as H. cbn in C.
  pose proof (loop_from_range (firstn (count - 1) rest) 1 0 0 v v) as R. cbv zeta in R. rewrite H in R. rewrite firstn_length_le in R by lia.
  replace (1 + (count - 1))%nat with count in R by lia. apply R; lia.
Qed.
Lemma closed_route r : is_closed l = true -> simplify_curves tol l = Some r ->
  (exists v, r = [v; v; v]) \/
  exists s m ks1 ks2, let n := (length l - 1)%nat in
    (s < n)%nat /\ route (left_out l n (tol / n2)%num tol 1) s ks1 m /\ route (left_out l n (tol / n2)%num tol 1) m ks2 (s + n)%nat /\
    r = map (vert l n) (s :: ks1 ++ m :: ks2 ++ [s + n])%nat.
Proof.
  intros C H. unfold simplify_curves in H. rewrite C in H.
  assert (L : (2 <= length l)%nat) by (destruct l as [|x [|y l']]; [discriminate|discriminate|cbn; lia]).
  destruct (loop_indexes l (length l - 1)) as [[s f]|] eqn:I; [|discriminate]. apply loop_range in I as (Hs & Hf & E); [|lia].
  destruct (nth_error l s) as [v|] eqn:V; [|discriminate]. cbn [app] in H.
  destruct (douglas_peucker _ _ [v] _ _ _ _ _) as [r1|] eqn:D1; [|discriminate]. destruct (nth_error l f) as [w|] eqn:W; [|discriminate].
  destruct (douglas_peucker _ _ (r1 ++ [w]) _ _ _ _ _) as [r2|] eqn:D2; [|discriminate]. injection H as <-.
  set (n := (length l - 1)%nat) in *.
  assert (M : forall k, (k < n)%nat -> (k mod n = k)%nat) by (intros; apply Nat.mod_small; lia).
  destruct (Nat.eq_dec s f) as [<-|N].
  { left. exists v. cbn [douglas_peucker] in D1, D2. destruct (Nat.eqb_spec n 0); [lia|]. replace ((s + n - s) mod n)%nat with 0%nat in D1, D2 by (replace (s + n - s)%nat with n by lia; now rewrite Nat.mod_same by lia).
    cbn in D1, D2. injection D1 as <-. injection D2 as <-. rewrite V in W. injection W as <-. reflexivity. }
  right. assert (Mn : forall k, (k < n)%nat -> ((k + n) mod n = k)%nat) by (intros; rewrite <- (Nat.mul_1_l n) at 1; rewrite Nat.mod_add by lia; auto).
  set (m := if Nat.ltb s f then f else (f + n)%nat). assert (Mm : (m mod n = f)%nat) by (unfold m; destruct (Nat.ltb s f); auto).
  assert (Mr : (s < m /\ m - s < n /\ m < s + n)%nat) by (unfold m; destruct (Nat.ltb_spec s f); lia).
  rewrite <- (M s Hs), <- Mm in D1. rewrite <- (Mn s Hs), <- Mm in D2.
  apply dp_route with (base := 1%nat) in D1 as (k1 & R1 & ->); auto; cbn; try lia. pose proof (route_len _ _ _ _ _ _ _ _ _ R1) as L1 || pose proof (route_len _ _ _ _ R1) as L1.
  apply dp_route with (base := 1%nat) in D2 as (k2 & R2 & ->); auto; try lia.
  - exists s, m, k1, k2. cbv zeta. split; [auto|]. split; [auto|]. split; [auto|]. cbn [map]. rewrite map_app. cbn [map]. rewrite map_app. cbn [map app].
    assert (v = vert l n s) as -> by (apply vert_at; now rewrite M). assert (w = vert l n m) as -> by (apply vert_at; now rewrite Mm).
    replace (vert l n (s + n)) with (vert l n s) by (unfold vert; rewrite Mn by auto; now rewrite M by auto). cbn. rewrite <- !app_assoc. reflexivity.
  - cbn [app length]. rewrite app_length. cbn. rewrite map_length. lia.
Qed.
End Curves.

(** ** SimplifyVertexes *)
Section Vertexes.
Context {Nm : Num}.
Definition straight (c : num) (y z v : vec) : bool := (cosine y z v <=? - c)%num.
Lemma loop_kept c rest : forall z y st, exists r, kept (straight c) y (z :: rest) r /\ simplify_loop (- c)%num (z :: y :: st) rest = rev r ++ y :: st.
Proof.
  induction rest as [|v rest IH]; intros z y st; cbn [simplify_loop].
  - exists [z]. split; [constructor|reflexivity].
  - change (sharpness y z v) with (cosine y z v). destruct (cosine y z v <=? - c)%num eqn:S.
    + destruct (IH v y st) as (r & K & E). exists r. split; [constructor; auto|auto].
    + destruct (IH v z (y :: st)) as (r & K & E). exists (z :: r). split; [constructor 3; auto|]. rewrite E. cbn. now rewrite <- app_assoc.
Qed.
Lemma kept_some st y l r : kept st y l r -> r <> [] /\ forall d, last r d = last l d.
Proof.
  induction 1 as [y z|y z v rest r S K [N IH]|y z v rest r S K [N IH]]; (split; [try discriminate; auto|]); intros d; auto.
  - change (last (z :: v :: rest) d) with (last (v :: rest) d). apply IH.
  - change (last (z :: v :: rest) d) with (last (v :: rest) d). rewrite <- IH. destruct r; [congruence|reflexivity].
Qed.
Lemma kept_thinned st y l r : kept st y l r -> thinned r l.
Proof. induction 1; [apply thinned_keep, thinned_nil|now apply thinned_out|now apply thinned_keep]. Qed.
Lemma vertexes_kept c v0 v1 rest r : simplify_vertexes c (v0 :: v1 :: rest) = Some r ->
  exists k, kept (straight c) v0 (v1 :: rest) k /\
    (r = v0 :: k \/ (is_closed (v0 :: v1 :: rest) = true /\ r = last (removelast (v0 :: k)) v0 :: k /\ (cosine (last (removelast (v0 :: k)) v0) v0 (hd v0 k) <? - c)%num = true)).
Proof.
  intros H. unfold simplify_vertexes in H. destruct (loop_kept c rest v1 v0 []) as (k & K & E). rewrite E in H. exists k. split; auto.
  destruct (kept_some _ _ _ _ K) as [N _]. destruct (exists_last N) as (k' & z & ->). rewrite rev_app_distr in H. change (rev [z]) with [z] in H. cbn [app] in H.
  assert (R : exists y st, rev k' ++ [v0] = y :: st /\ y = last (v0 :: k') v0).
  { destruct k' as [|q k'] using rev_ind; [exists v0, []; auto|]. rewrite rev_app_distr. cbn. exists q, (rev k' ++ [v0]). split; auto. destruct (k' ++ [q]) eqn:Q; [destruct k'; discriminate|]. rewrite <- Q. now rewrite last_last. }
  destruct R as (y & st & R & Y). rewrite R in H.
  assert (RR : rev (z :: y :: st) = v0 :: k' ++ [z]). { cbn [rev]. change (rev st ++ [y]) with (rev (y :: st)). rewrite <- R, rev_app_distr, rev_involutive. reflexivity. }
  rewrite RR in H. destruct (k' ++ [z]) as [|r1 r'] eqn:Q; [destruct k'; discriminate|].
  assert (RL : removelast (v0 :: r1 :: r') = v0 :: k') by (rewrite <- Q; change (v0 :: k' ++ [z]) with ((v0 :: k') ++ [z]); apply removelast_last).
  destruct (is_closed _) eqn:C; cbn [andb] in H; [|injection H as <-; now left].
  destruct (sharpness y v0 r1 <? - c)%num eqn:S; injection H as <-; [right|now left]. rewrite RL. rewrite <- Y. auto.
Qed.
Lemma vertexes_open c l r : is_closed l = false -> simplify_vertexes c l = Some r -> thinned r l /\ first_of r = first_of l /\ last_of r = last_of l.
Proof.
  intros C H. destruct l as [|v0 [|v1 rest]]; try discriminate. destruct (vertexes_kept _ _ _ _ _ H) as (k & K & [->|(Cl & _)]); [|congruence].
  split; [apply thinned_keep; eapply kept_thinned; eauto|]. split; auto. destruct (kept_some _ _ _ _ K) as [N L]. unfold last_of. specialize (L vzero).
  change (last (v0 :: v1 :: rest) vzero) with (last (v1 :: rest) vzero). rewrite <- L. destruct k; [congruence|reflexivity].
Qed.
Lemma vertexes_total c l : (2 <= length l)%nat <-> exists r, simplify_vertexes c l = Some r.
Proof.
  split.
  - intros L. destruct l as [|v0 [|v1 rest]]; cbn in L; try lia. unfold simplify_vertexes. destruct (loop_kept c rest v1 v0 []) as (k & K & E). rewrite E.
    destruct (kept_some _ _ _ _ K) as [N _]. destruct (exists_last N) as (k' & z & ->). rewrite rev_app_distr. change (rev [z]) with [z]. cbn [app]. destruct (rev k' ++ [v0]) as [|y st] eqn:R; [destruct (rev k'); discriminate|].
    assert (RR : rev (z :: y :: st) = v0 :: k' ++ [z]). { cbn [rev]. change (rev st ++ [y]) with (rev (y :: st)). rewrite <- R, rev_app_distr, rev_involutive. reflexivity. }
    rewrite RR. destruct (k' ++ [z]) as [|r1 r'] eqn:Q; [destruct k'; discriminate|]. destruct (_ && _)%bool; eauto.
  - intros [r H]. destruct l as [|v0 [|v1 rest]]; try discriminate. cbn. lia.
Qed.
End Vertexes.

(** ** Over the reals *)
Section Real.
Local Open Scope R_scope.
Local Notation rvec := (@vec RNum).
Variables (verts : list rvec) (count : nat).
Local Notation at_ := (vert verts count).
Lemma farthest_max nv (d : R) n : forall p e (mx : R) mi r, (0 < count)%nat -> (p <= e)%nat -> (e - p < count)%nat ->
  farthest (Nm := RNum) n verts count nv d (p mod count) (e mod count) mx mi = Some r ->
  mx <= fst r /\ forall i, (p <= i < e)%nat -> Rabs (vdot nv (at_ i) - d) <= fst r.
Proof.
  induction n as [|n IH]; intros p e mx mi r C L B H; cbn [farthest] in H.
  - destruct (Nat.eqb_spec (p mod count) (e mod count)) as [E|E]; [|discriminate]. rewrite same_pos in E by auto. injection H as <-. cbn. split; [lra|]. intros; lia.
  - destruct (Nat.eqb_spec (p mod count) (e mod count)) as [E|E]; rewrite same_pos in E by auto; [injection H as <-; cbn; split; [lra|intros; lia]|].
    destruct (nth_error verts _) as [v|] eqn:V; [|discriminate]. apply vert_at in V. subst v. rewrite next_pos in H by auto. cbn [nltb RNum nabs nsub] in H.
    destruct (Rltb_spec mx (Rabs (vdot nv (at_ p) - d))) as [X|X]; apply IH in H as [M A]; try lia; (split; [lra|]);
      intros i I; (destruct (Nat.eq_dec i p) as [->|]; [lra|apply A; lia]).
Qed.
Lemma line_distance (a b v : rvec) (tol : R) : 0 < vdistsq a b -> let nv := vunit (vperp (vsub b a)) in Rabs (vdot nv v - vdot nv a) <= tol -> near_line a b v tol.
Proof.
  intros D nv H. set (ux := vx b - vx a). set (uy := vy b - vy a). set (q := ux * ux + uy * uy).
  assert (Q : 0 < q) by (unfold vdistsq, vmagsq, vdot, vsub in D; cbn in D; unfold q, ux, uy; cbn; lra).
  set (s := ((vx v - vx a) * ux + (vy v - vy a) * uy) / q). exists s.
  assert (M : R_sqrt.sqrt q <> 0) by (intros Z; apply R_sqrt.sqrt_eq_0 in Z; lra).
  assert (SQ : R_sqrt.sqrt q * R_sqrt.sqrt q = q) by (apply R_sqrt.sqrt_sqrt; lra).
  assert (E : vdot nv v - vdot nv a = (ux * (vy v - vy a) - uy * (vx v - vx a)) / R_sqrt.sqrt q).
  { unfold nv, vunit, vmag, vperp, vsub, vscale, vdot. cbn. replace (- (vy b - vy a) * - (vy b - vy a) + (vx b - vx a) * (vx b - vx a)) with q by (unfold q, ux, uy; cbn; ring). unfold ux, uy. cbn. field. exact M. }
  set (k := ux * (vy v - vy a) - uy * (vx v - vx a)) in *.
  assert (V : vdist v (vlerp a b s) = R_sqrt.sqrt ((k / R_sqrt.sqrt q) * (k / R_sqrt.sqrt q))).
  { unfold vdist, vmag, vlerp, vsub, vadd, vscale, vdot. cbn. f_equal. transitivity (k * k / q); [|rewrite <- SQ at 1; field; exact M].
    unfold s, k. cbn. unfold q. fold ux uy. field_simplify_eq; [|unfold q in Q; lra]. unfold ux, uy. cbn. ring. }
  rewrite V. rewrite <- E. replace ((vdot nv v - vdot nv a) * (vdot nv v - vdot nv a)) with (Rsqr (vdot nv v - vdot nv a)) by reflexivity. rewrite R_sqrt.sqrt_Rsqr_abs. exact H.
Qed.
Lemma near_dist (a b : rvec) (m : R) : 0 < m -> visnear a b m = true <-> vdist a b < m.
Proof.
  intros M. unfold visnear. cbn [nltb RNum nmul]. rewrite Rltb_true. unfold vdist, vmag. fold (vmagsq (vsub a b)). fold (vdistsq a b).
  assert (P : 0 <= vdistsq a b). { unfold vdistsq, vmagsq, vdot. apply Rplus_le_le_0_compat; apply Rle_0_sqr. }
  assert (SQ : R_sqrt.sqrt (vdistsq a b) * R_sqrt.sqrt (vdistsq a b) = vdistsq a b) by (apply R_sqrt.sqrt_sqrt; auto).
  assert (G : forall x m s : R, 0 < m -> 0 <= s -> s * s = x -> (x < m * m <-> s < m)) by (intros x m' s M' S' E'; split; intros; nra).
  apply G; auto. apply R_sqrt.sqrt_pos.
Qed.
Lemma left_out_near (tol : R) base s e : 0 < tol -> (s < e)%nat -> (e - s < count)%nat -> left_out (Nm := RNum) verts count (tol / 2)%R tol base s e ->
  vdist (at_ s) (at_ e) < tol / 2 \/ forall i, (s < i < e)%nat -> near_line (at_ s) (at_ e) (at_ i) tol.
Proof.
  intros T L B H. destruct (@visnear RNum (at_ s) (at_ e) (tol / 2)%R) eqn:N; [left; now apply near_dist in N; [|lra]|right]. intros i I.
  destruct H as [H|[[H _]|(n & p & mi & F & X & _)]]; [lia|congruence|]. apply Rltb_false in X.
  apply farthest_max in F as [_ F]; try lia. specialize (F i ltac:(lia)). apply line_distance; [|exact (Rle_trans _ _ _ F X)].
  unfold visnear in N. apply Rltb_false in N. eapply Rlt_le_trans; [|exact N]. apply Rmult_lt_0_compat; lra.
Qed.
Lemma route_mono {ok ok' : nat -> nat -> Prop} s ks e : (forall a b, (s <= a)%nat -> (a < b)%nat -> (b <= e)%nat -> ok a b -> ok' a b) -> route ok s ks e -> route ok' s ks e.
Proof.
  intros H R. revert H. induction R as [s e L O|s k ks e L O R IH]; intros H.
  - constructor; auto.
  - assert (k < e)%nat by (clear -R; induction R; lia). constructor; auto; try (apply H; auto; lia). apply IH. intros; apply H; auto; lia.
Qed.
End Real.
Lemma curves_open (tol : R) (l r : list (@vec RNum)) : (0 < tol)%R -> is_closed l = false -> (2 <= length l)%nat -> simplify_curves tol l = Some r ->
  exists ks, route (fun a b => forall i, (a < i < b)%nat -> near_line (nth a l vzero) (nth b l vzero) (nth i l vzero) tol) 0 ks (length l - 1) /\
    r = map (fun k => nth k l vzero) (0 :: ks ++ [length l - 1])%nat.
Proof.
  intros T C L H. assert (T0 : (tol <? n0)%num = false) by (apply Rltb_false; cbn; lra).
  destruct (open_route (Nm := RNum) tol l T0 r C L H) as (ks & R & ->). exists ks.
  assert (M : forall k, (k < length l)%nat -> vert l (length l) k = nth k l vzero) by (intros; unfold vert; now rewrite Nat.mod_small).
  split.
  - eapply route_mono; [|exact R]. intros a b A B E O i I. rewrite <- !M by lia.
    assert (Np : forall reduced, (length reduced <= 1 + a)%nat -> is_short (Nm := RNum) (length l) reduced (length l) (a mod length l) (b mod length l) n0 (tol / 2)%R = None).
    { intros red Hr. rewrite !Nat.mod_small by lia. destruct (length l) as [|n] eqn:Ln; [lia|]. cbn [is_short]. rewrite <- Ln in *. destruct (Nat.eqb_spec a b); [lia|].
      unfold next. rewrite Nat.mod_small by lia. replace (nth_error red (a + 1)) with (@None (@vec RNum)) by (symmetry; apply nth_error_None; lia). now destruct (nth_error red a). }
    destruct O as [O|[[_ (red & Hr & O)]|(n & p & mi & F & X & O)]]; [lia|cbn in O, Np; rewrite Np in O by auto; discriminate|].
    destruct O as [O|(red & Hr & O)]; [|cbn in O, Np; rewrite Np in O by auto; discriminate].
    destruct (left_out_near l (length l) tol 1 a b T B ltac:(lia)) as [Q|Q]; [right; right; exists n, p, mi; auto| |apply Q; lia].
    apply (near_dist _ _ (tol / 2)%R) in Q; [|lra]. cbn in O, Q. congruence.
  - apply map_ext_in. intros k [<-|K]; [apply M; lia|]. apply M. apply in_app_or in K as [K|[<-|[]]]; [|lia].
    assert (G : forall ok s e, route ok s ks e -> In k ks -> (k < e)%nat). { clear. induction 1; intros [].  - subst. clear -H1. induction H1; lia. - auto. }
    specialize (G _ _ _ R K). lia.
Qed.
Lemma curves_closed (tol : R) (l r : list (@vec RNum)) : (0 < tol)%R -> is_closed l = true -> simplify_curves tol l = Some r ->
  (exists v, r = [v; v; v]) \/
  exists s m ks1 ks2, let n := (length l - 1)%nat in
    let ok a b := (vdist (vert l n a) (vert l n b) < tol / 2)%R \/ forall i, (a < i < b)%nat -> near_line (vert l n a) (vert l n b) (vert l n i) tol in
    (s < n)%nat /\ route ok s ks1 m /\ route ok m ks2 (s + n)%nat /\ r = map (vert l n) (s :: ks1 ++ m :: ks2 ++ [s + n])%nat.
Proof.
  intros T C H. assert (T0 : (tol <? n0)%num = false) by (apply Rltb_false; cbn; lra).
  destruct (closed_route (Nm := RNum) tol l T0 r C H) as [V|(s & m & k1 & k2 & S & R1 & R2 & E)]; [now left|right]. exists s, m, k1, k2. cbv zeta in *. split; auto.
  assert (G : forall ok s ks e, route ok s ks e -> (s < e)%nat) by (clear; induction 1; lia). pose proof (G _ _ _ _ R1). pose proof (G _ _ _ _ R2).
  split; [|split; [|exact E]]; (eapply route_mono; [|eassumption]); intros a b A B D O; eapply left_out_near; eauto; lia.
Qed.

(** ** When SimplifyCurves does not panic *)
Section Total.
Context {Nm : Num}.
Lemma nth_in (l : list vec) k : (k < length l)%nat -> exists v, nth_error l k = Some v.
Proof. intros H. destruct (nth_error l k) eqn:E; eauto. apply nth_error_None in E. lia. Qed.
Variables (verts : list vec) (count : nat).
Hypothesis Cl : (0 < count <= length verts)%nat.
Lemma farthest_total nv d n : forall p e mx mi, (p <= e)%nat -> (e - p < count)%nat -> (e - p <= n)%nat -> exists r, farthest n verts count nv d (p mod count) (e mod count) mx mi = Some r.
Proof.
  induction n as [|n IH]; intros p e mx mi L B F; cbn [farthest].
  - replace e with p by lia. rewrite Nat.eqb_refl. eauto.
  - destruct (Nat.eqb_spec (p mod count) (e mod count)) as [E|E]; [eauto|]. rewrite same_pos in E by auto.
    destruct (nth_in verts (p mod count)) as [v ->]; [pose proof (Nat.mod_upper_bound p count); lia|]. rewrite next_pos by lia.
    destruct (mx <? _)%num; apply IH; lia.
Qed.
Variables (min tol : num).
Hypothesis Far : forall i j, (i < count)%nat -> (j < count)%nat -> i <> j -> visnear (nth i verts vzero) (nth j verts vzero) min = false.
Lemma dp_total fuel : forall reduced s e, (tol <? n0)%num = false -> (s <= e)%nat -> (e - s < count)%nat -> (e - s < fuel)%nat ->
  exists r, douglas_peucker fuel verts reduced count (s mod count) (e mod count) min tol = Some r.
Proof.
  induction fuel as [|fuel IH]; intros reduced s e T L B F; [lia|]. cbn [douglas_peucker].
  destruct (Nat.eqb_spec count 0); [lia|]. rewrite span_pos by lia. destruct (Nat.ltb_spec (e - s) 2) as [S2|S2]; [eauto|].
  pose proof (Nat.mod_upper_bound s count ltac:(lia)) as Ms. pose proof (Nat.mod_upper_bound e count ltac:(lia)) as Me.
  destruct (nth_in verts (s mod count) ltac:(lia)) as [a A]. destruct (nth_in verts (e mod count) ltac:(lia)) as [b Bn]. rewrite A, Bn.
  replace (visnear a b min) with false.
  2:{ apply nth_error_nth with (d := vzero) in A, Bn. rewrite <- A, <- Bn. symmetry. apply Far; auto. rewrite same_pos by lia. lia. }
  rewrite next_pos by lia. destruct (farthest_total (vunit (vperp (vsub b a))) (vdot (vunit (vperp (vsub b a))) a) count (S s) e n0 (s mod count) ltac:(lia) ltac:(lia) ltac:(lia)) as [[mx mi] Fr]. rewrite Fr.
  destruct (tol <? mx)%num eqn:X; [|eauto].
  destruct (farthest_where verts count _ _ _ (S s) e _ _ _ ltac:(lia) ltac:(lia) ltac:(lia) Fr) as [E|(q & Q & E)].
  { injection E as -> ->. congruence. }
  cbn in E. subst mi. destruct (IH reduced s q T ltac:(lia) ltac:(lia) ltac:(lia)) as [r1 ->].
  destruct (nth_in verts (q mod count)) as [v ->]; [pose proof (Nat.mod_upper_bound q count); lia|]. apply IH; auto; lia.
Qed.
End Total.
Lemma curves_total {Nm : Num} (tol : num) (l : list vec) : (tol <? n0)%num = false -> l <> [] ->
  let n := if is_closed l then (length l - 1)%nat else length l in
  (forall i j, (i < n)%nat -> (j < n)%nat -> i <> j -> visnear (nth i l vzero) (nth j l vzero) (tol / n2)%num = false) ->
  exists r, simplify_curves tol l = Some r.
Proof.
  intros T N n Far. assert (L : (1 <= length l)%nat) by (destruct l; [congruence|cbn; lia]). unfold simplify_curves. destruct (is_closed l) eqn:C.
  - assert (L2 : (2 <= length l)%nat) by (destruct l as [|x [|y l']]; [discriminate|discriminate|cbn; lia]).
    destruct (loop_indexes l (length l - 1)) as [[s f]|] eqn:I; [|destruct l; discriminate]. apply loop_range in I as (Hs & Hf & E); [|lia]. fold n in Hs, Hf |- *.
    assert (M : forall k, (k < n)%nat -> (k mod n = k)%nat) by (intros; apply Nat.mod_small; lia).
    assert (Mn : forall k, (k < n)%nat -> ((k + n) mod n = k)%nat) by (intros; rewrite <- (Nat.mul_1_l n) at 1; rewrite Nat.mod_add by lia; auto).
    assert (D : forall a b red, (a < n)%nat -> (b < n)%nat -> exists r, douglas_peucker (S (length l)) l red n a b (tol / n2)%num tol = Some r).
    { intros a b red A B. destruct (le_lt_dec a b).
      - rewrite <- (M a A), <- (M b B). apply dp_total; auto; unfold n in *; lia.
      - rewrite <- (M a A), <- (Mn b B). apply dp_total; auto; unfold n in *; lia. }
    destruct (nth_in l s ltac:(unfold n in *; lia)) as [v ->]. cbn [app]. destruct (D s f [v] Hs Hf) as [r1 ->].
    destruct (nth_in l f ltac:(unfold n in *; lia)) as [w ->]. destruct (D f s (r1 ++ [w]) Hf Hs) as [r2 ->]. eauto.
  - destruct (nth_in l 0 ltac:(lia)) as [v ->]. cbn [app].
    destruct (dp_total l (length l) ltac:(lia) (tol / n2)%num tol Far (S (length l)) [v] 0 (length l - 1) T ltac:(lia) ltac:(lia) ltac:(lia)) as [r1 D].
    rewrite (Nat.mod_small 0), Nat.mod_small in D by lia. rewrite D. destruct (nth_in l (length l - 1) ltac:(lia)) as [w ->]. eauto.
Qed.

(** ** Examples and witnesses *)
Definition points (l : list (float * float)) : list (@vec FNum) := map (fun p => fvec (fst p) (snd p)) l.
Definition shown (l : list (@vec FNum)) : list (float * float) := map (fun v => (vx v, vy v)) l.
(* the cosine of 0.088 or so *)
Definition cos_tol0 : float := 0.99609375%float.
Definition wave : list (@vec FNum) := points [(0, 0); (1, 0.25); (2, 4); (3, 3.875); (4, 0)]%float.
Lemma wave_simplified : option_map shown (@simplify_curves FNum 0.5%float wave) = Some [(0, 0); (1, 0.25); (2, 4); (3, 3.875); (4, 0)]%float /\
  option_map shown (@simplify_curves FNum 1.5%float wave) = Some [(0, 0); (2, 4); (4, 0)]%float /\
  option_map shown (@simplify_vertexes FNum cos_tol0 (points [(0, 0); (1, 0); (2, 0.03125); (3, 0); (3, 2)]%float)) = Some [(0, 0); (3, 0); (3, 2)]%float.
Proof. vm_compute. auto. Qed.
Lemma no_result {A} (x : option A) : match x with Some _ => false | None => true end = true -> x = None.
Proof. destruct x; [discriminate|auto]. Qed.
Lemma curves_panic : exists l, length l = 3%nat /\ @simplify_curves FNum 1%float l = None.
Proof.
  exists (points [(0, 0); (5, 0); (0, 0.125)]%float). split; [reflexivity|]. apply no_result. vm_compute. reflexivity.
Qed.
Definition tile : list (@vec FNum) := points [(1, 0); (2, 0); (2, 2); (0, 2); (0, 0); (1, 0)]%float.
Lemma vertexes_unclosed : is_closed tile = true /\ exists r, @simplify_vertexes FNum cos_tol0 tile = Some r /\ is_closed r = false /\ shown r = [(0, 0); (2, 0); (2, 2); (0, 2); (0, 0); (1, 0)]%float.
Proof.
  split; [vm_compute; reflexivity|]. destruct (@simplify_vertexes FNum cos_tol0 tile) as [r|] eqn:E.
  - exists r. assert (H : option_map (fun r => (is_closed (Nm := FNum) r, shown r)) (@simplify_vertexes FNum cos_tol0 tile) = Some (false, [(0, 0); (2, 0); (2, 2); (0, 2); (0, 0); (1, 0)]%float)) by (vm_compute; reflexivity).
    rewrite E in H. injection H as H1 H2. auto.
  - assert (H : option_map (fun _ => tt) (@simplify_vertexes FNum cos_tol0 tile) = Some tt) by (vm_compute; reflexivity). rewrite E in H. discriminate.
Qed.
Lemma vertexes_panic : exists l : list (@vec FNum), l <> [] /\ forall c, @simplify_vertexes FNum c l = None.
Proof. exists (points [(1, 0)]%float). split; [discriminate|]. reflexivity. Qed.
Lemma single_doubled : exists l, length l = 1%nat /\ option_map shown (@simplify_curves FNum 1%float l) = Some [(1, 2); (1, 2)]%float.
Proof. exists (points [(1, 2)]%float). split; [reflexivity|]. vm_compute. reflexivity. Qed.
