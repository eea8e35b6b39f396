(** Mass data of bodies with shapes (C60). *)
From Coq Require Import ZArith Bool Reals List Lra Lia Arith Permutation.
From Verif Require Import Num NumReal Vec BB Transform Body BodySpec BodyProofs Mass ShapeMass ShapeMassSpec.
Import ListNotations.
Local Open Scope R_scope.

(** ** Sums that do not see shapes without mass *)
Definition blind (f : Rinfo -> R) : Prop := forall x, mi_m x = 0 -> f x = 0.
Definition alike (x y : Rinfo) : Prop := x = y \/ (mi_m x = 0 /\ mi_m y = 0).
Lemma sum_alike f l l' : blind f -> Forall2 alike l l' -> Rsum f l = Rsum f l'.
Proof.
  intros B. induction 1 as [|x y l l' A H IH]; auto. rewrite !Rsum_cons, IH. destruct A as [->|[X Y]]; auto. rewrite (B x X), (B y Y). reflexivity.
Qed.
Lemma sum_app {A} (f : A -> R) l m : Rsum f (l ++ m) = Rsum f l + Rsum f m.
Proof. induction l as [|x l IH]; cbn [app]; [cbn; ring|]. rewrite !Rsum_cons, IH. ring. Qed.
Lemma blind_mass : blind (fun s => mi_m s). Proof. intros x H. exact H. Qed.
Lemma blind_x : blind (fun s => mi_m s * vx (mi_cog s)). Proof. intros x H. rewrite H. apply Rmult_0_l. Qed.
Lemma blind_y : blind (fun s => mi_m s * vy (mi_cog s)). Proof. intros x H. rewrite H. apply Rmult_0_l. Qed.
Lemma blind_moment (c : Rvec) : blind (fun s => mi_m s * mi_i s + mi_m s * ((vx (mi_cog s) - vx c) * (vx (mi_cog s) - vx c) + (vy (mi_cog s) - vy c) * (vy (mi_cog s) - vy c))).
Proof. intros x H. rewrite H. rewrite !Rmult_0_l. ring. Qed.
Definition same_sums (l l' : list Rinfo) : Prop := forall f, blind f -> Rsum f l = Rsum f l'.
Lemma same_total l l' : same_sums l l' -> total_mass l = total_mass l'.
Proof. intros H. apply H, blind_mass. Qed.
Lemma same_matches b l l' : same_sums l l' -> matches b l -> matches b l'.
Proof.
  unfold matches, total_mass, first_x, first_y, moment_about. intros H. rewrite <- (H _ blind_mass), <- (H _ blind_x), <- (H _ blind_y), <- (H _ (blind_moment (b_cog b))). auto.
Qed.
Lemma fields_matches (b c : Rbody) l : b_mass c = b_mass b -> b_minv c = b_minv b -> b_moi c = b_moi b -> b_iinv c = b_iinv b -> b_cog c = b_cog b -> matches b l -> matches c l.
Proof. unfold matches. intros -> -> -> -> ->. auto. Qed.

(** ** Removing from the list *)
Lemma take_last i l1 l2 z : ~ In i l1 -> take_out i z (l1 ++ i :: l2) = l1 ++ z :: l2.
Proof.
  induction l1 as [|a l1 IH]; cbn [app take_out]; intros H; [rewrite Nat.eqb_refl; auto|]. destruct (Nat.eqb_spec a i) as [E|E]; [exfalso; apply H; left; auto|].
  rewrite IH; auto. intros X. apply H. right. auto.
Qed.
Lemma last_snoc (l : list nat) z d : last (l ++ [z]) d = z.
Proof. induction l as [|a l IH]; auto. cbn [app last]. rewrite IH. destruct (l ++ [z]) eqn:E; auto. destruct l; discriminate. Qed.
Lemma in_split_first (i : nat) l : In i l -> exists l1 l2, l = l1 ++ i :: l2 /\ ~ In i l1.
Proof.
  induction l as [|a l IH]; intros H; [destruct H|]. destruct (Nat.eq_dec a i) as [->|N]; [exists [], l; auto|]. destruct H as [H|H]; [congruence|].
  destruct (IH H) as (l1 & l2 & -> & X). exists (a :: l1), l2. split; auto. intros [Y|Y]; auto.
Qed.
Lemma removed_perm i l : In i l -> Permutation l (i :: removed i l).
Proof.
  intros H. unfold removed. replace (existsb (Nat.eqb i) l) with true; [|symmetry; apply existsb_exists; exists i; split; auto; apply Nat.eqb_refl].
  destruct (in_split_first i l H) as (l1 & l2 & -> & X). rewrite take_last by auto. destruct (exists_last (l := i :: l2)) as (m & z & E); [discriminate|].
  rewrite E, app_assoc, last_snoc, <- app_assoc, <- E. destruct m as [|a m].
  - cbn [app] in E. injection E as <- ->. rewrite removelast_last. symmetry. apply Permutation_cons_append.
  - cbn [app] in E. injection E as <- ->. change (z :: m ++ [z]) with ((z :: m) ++ [z]). rewrite app_assoc, removelast_last.
    symmetry. transitivity (i :: l1 ++ m ++ [z]); [constructor; apply Permutation_app_head, Permutation_cons_append|apply Permutation_middle].
Qed.
Lemma removed_out i l : ~ In i l -> removed i l = l.
Proof.
  intros H. unfold removed. destruct (existsb (Nat.eqb i) l) eqn:E; auto. apply existsb_exists in E. destruct E as (k & K & E). apply Nat.eqb_eq in E. subst k. contradiction.
Qed.

(** ** The invariant *)
Record ok (s : Rmbody) : Prop := {
  ok_pos : forall i, 0 <= shape_mass s i;
  ok_list : forall i, In i (mb_list s) -> (i < mb_next s)%nat;
  ok_frame : coherent (mb_body s);
  ok_mass : b_type (mb_body s) = Dynamic -> 0 < total_mass (infos s) -> matches (mb_body s) (infos s) }.
Lemma infos_pos s : (forall i, 0 <= shape_mass s i) -> Forall (fun x => 0 <= mi_m x) (infos s).
Proof. intros H. unfold infos. apply Forall_forall. intros x X. apply in_map_iff in X. destruct X as (i & <- & _). apply H. Qed.
Lemma accumulate_type (b : Rbody) l : b_type b <> Dynamic -> accumulate b l = b.
Proof. intros H. unfold accumulate. destruct (b_type b); auto; congruence. Qed.
Lemma accumulated_ok s : (forall i, 0 <= shape_mass s i) -> (forall i, In i (mb_list s) -> (i < mb_next s)%nat) -> coherent (mb_body s) -> ok (accumulated s).
Proof.
  intros P L C. split; auto; [apply accumulate_coherent, C|]. cbn [accumulated mb_body]. change (infos (accumulated s)) with (infos s). intros D M.
  destruct (btype_eqb (b_type (mb_body s)) Dynamic) eqn:E.
  - apply accumulate_mass; auto; [destruct (b_type (mb_body s)); auto; discriminate|apply infos_pos, P].
  - rewrite accumulate_type in D by (intros X; rewrite X in E; discriminate). rewrite D in E. discriminate.
Qed.
Lemma changed_ok s t : ok s -> (forall i, 0 <= shape_mass t i) -> (forall i, In i (mb_list t) -> (i < mb_next t)%nat) -> mb_body t = mb_body s -> same_sums (infos s) (infos t) -> ok t.
Proof.
  intros O P L B S. split; auto; [rewrite B; apply O|]. rewrite B. intros D M. apply (same_matches _ (infos s)); auto. apply (ok_mass s O); auto. rewrite (same_total _ _ S). auto.
Qed.
Lemma plain_fields (b : Rbody) o : plain o = true -> let c := bstep b o in
  b_mass c = b_mass b /\ b_minv c = b_minv b /\ b_moi c = b_moi b /\ b_iinv c = b_iinv b /\ b_cog c = b_cog b /\ (b_type c = Dynamic -> b_type b = Dynamic).
Proof.
  intros P. cbv zeta. assert (A : forall b' : Rbody, b_type (activate b') = b_type b').
  { intros b'. unfold activate. destruct (btype_eqb (b_type b') Dynamic) eqn:E; auto. destruct (b_type b') eqn:T; try discriminate. unfold b_type in *.
    destruct (neqb (b_idle b') ninf); [discriminate|]. cbn [set_idle_field b_idle b_mass]. destruct (neqb (b_mass b') ninf) eqn:Q; [discriminate|].
    replace (@neqb RNum n0 ninf) with false; auto. symmetry. exact Reqb_inf_0. }
  assert (F : forall b' : Rbody, b_mass (activate b') = b_mass b' /\ b_minv (activate b') = b_minv b' /\ b_moi (activate b') = b_moi b' /\ b_iinv (activate b') = b_iinv b' /\ b_cog (activate b') = b_cog b').
  { intros b'. unfold activate. destruct (btype_eqb _ _); auto 6. }
  destruct (F b) as (F1 & F2 & F3 & F4 & F5). pose proof (A b) as A0. unfold b_type in *.
  destruct o; try discriminate P; cbn [bstep];
    try (unfold set_position, set_angle, set_velocity, set_angular_velocity, set_force, set_torque, apply_force_local, apply_impulse_local, apply_force_world, apply_impulse_world, apply_impulse, set_transform, update_position;
         cbn [b_mass b_minv b_moi b_iinv b_cog b_idle set_pos_field set_angle_field set_vel_fields set_force_fields set_tf_field set_bias_fields];
         rewrite ?F1, ?F2, ?F3, ?F4, ?F5; repeat split; auto; try (rewrite <- A0, F1; auto); fail).
  assert (U : let c := update_velocity b g damping dt in b_mass c = b_mass b /\ b_minv c = b_minv b /\ b_moi c = b_moi b /\ b_iinv c = b_iinv b /\ b_cog c = b_cog b /\ b_idle c = b_idle b)
    by (unfold update_velocity; destruct (b_type b); auto 7).
  cbv zeta in U. destruct U as (U1 & U2 & U3 & U4 & U5 & U6). rewrite U1, U2, U3, U4, U5, U6. auto 7.
Qed.

(** ** Single operations *)
Lemma nonneg_zero (x : R) : 0 <= x -> @nltb RNum n0 x = false -> x = 0.
Proof. intros P H. apply Rltb_false in H. change (@n0 RNum) with 0 in H. lra. Qed.
Lemma put_mass s i x k : shape_mass (N := RNum) (put s i x) k = if Nat.eqb k i then mi_m (ms_info x) else shape_mass s k.
Proof. unfold shape_mass, put. cbn [mb_shape]. destruct (Nat.eqb k i); auto. Qed.
Lemma put_zero s i x : mi_m (ms_info x) = 0 -> shape_mass s i = 0 -> same_sums (infos s) (infos (put s i x)).
Proof.
  intros X Y f B. apply sum_alike; auto. unfold infos. cbn [put mb_list mb_shape]. induction (mb_list s) as [|k l IH]; cbn [map]; constructor; auto.
  destruct (Nat.eqb_spec k i) as [->|E]; [right; auto|left; auto].
Qed.
Lemma attach_ok s i : ok s -> (i < mb_next s)%nat -> ok (attach_shape s i).
Proof.
  intros O I. unfold attach_shape. set (s1 := MBody _ _ _ _). assert (L : forall k, In k (mb_list s1) -> (k < mb_next s1)%nat).
  { intros k K. subst s1. cbn [mb_list mb_next] in *. apply in_app_iff in K. destruct K as [K|[<-|[]]]; auto. apply (ok_list s O), K. }
  destruct (nltb n0 _) eqn:E.
  - apply accumulated_ok; auto; [apply (ok_pos s O)|apply (ok_frame s O)].
  - apply (changed_ok s); auto; [apply (ok_pos s O)|]. intros f B. unfold s1, infos. cbn [mb_list mb_shape]. rewrite map_app, sum_app. cbn [map]. rewrite Rsum_cons.
    rewrite (B _ (nonneg_zero _ (ok_pos s O i) E)). cbn. unR. ring.
Qed.
Lemma make_ok s g t : ok s -> make s g = Some t -> ok t /\ mb_next t = S (mb_next s) /\ mb_body t = mb_body s /\ mb_list t = mb_list s /\ (forall i, i <> mb_next s -> mb_shape t i = mb_shape s i).
Proof.
  intros O. unfold make, mass_info. destruct (geom_mass g) as [k|]; [|discriminate]. intros E. injection E as <-. cbn [mb_next mb_body mb_list mb_shape].
  split; [|repeat split; auto; intros i I; destruct (Nat.eqb_spec i (mb_next s)); congruence].
  apply (changed_ok s); auto.
  - intros i. unfold shape_mass. cbn [mb_shape]. destruct (Nat.eqb_spec i (mb_next s)); [cbn; unR; lra|apply (ok_pos s O)].
  - intros i I. cbn [mb_list mb_next] in *. apply (ok_list s O) in I. lia.
  - intros f B. unfold infos. cbn [mb_list mb_shape]. f_equal. apply map_ext_in. intros i I. apply (ok_list s O) in I. destruct (Nat.eqb_spec i (mb_next s)); auto. lia.
Qed.
Lemma remove_ok s i : ok s -> (i < mb_next s)%nat -> ok (remove_shape s i).
Proof.
  intros O I. unfold remove_shape. set (s1 := MBody _ _ _ _).
  assert (L : forall k, In k (mb_list s1) -> In k (mb_list s)).
  { intros k K. subst s1. cbn [mb_list] in K. destruct (in_dec Nat.eq_dec i (mb_list s)) as [J|J]; [|rewrite removed_out in K; auto]. eapply Permutation_in; [symmetry; apply removed_perm; exact J|right; auto]. }
  destruct (btype_eqb (b_type (mb_body s1)) Dynamic) eqn:T; cbn [andb].
  - destruct (nltb n0 _) eqn:E; [apply accumulated_ok; auto; [apply (ok_pos s O)|intros k K; apply (ok_list s O), L, K|apply (ok_frame s O)]|].
    apply (changed_ok s); auto; [apply (ok_pos s O)|intros k K; apply (ok_list s O), L, K|]. intros f B. unfold infos, s1. cbn [mb_list mb_shape].
    destruct (in_dec Nat.eq_dec i (mb_list s)) as [J|J]; [|rewrite removed_out; auto].
    rewrite (Rsum_perm f _ _ (Permutation_map _ (removed_perm i _ J))). cbn [map]. rewrite Rsum_cons, (B _ (nonneg_zero _ (ok_pos s O i) E)). unR. ring.
  - split; [apply (ok_pos s O)|intros k K; apply (ok_list s O), L, K|apply (ok_frame s O)|]. intros D. exfalso. rewrite D in T. discriminate.
Qed.
Lemma activate_coherent (b : Rbody) : coherent b -> coherent (activate b).
Proof. intros C. apply (coherent_frame _ b); auto. apply activate_frame. Qed.
Lemma set_mass_ok s i (m : R) : ok s -> (i < mb_next s)%nat -> 0 <= m -> ok (shape_set_mass s i m).
Proof.
  intros O I M. unfold shape_set_mass. apply accumulated_ok.
  - intros k. rewrite put_mass. destruct (Nat.eqb k i); auto. apply (ok_pos s O k).
  - apply (ok_list s O).
  - apply activate_coherent, (ok_frame s O).
Qed.
Lemma set_geom_ok s i g t : ok s -> (i < mb_next s)%nat -> set_geom s i g = Some t -> ok t.
Proof.
  intros O I. unfold set_geom, mass_info. cbv zeta. destruct (geom_mass g) as [k|]; [|discriminate]. intros E. injection E as <-. set (s1 := put _ _ _).
  assert (P : forall j, 0 <= shape_mass s1 j) by (intros j; unfold s1; rewrite put_mass; destruct (Nat.eqb_spec j i); apply (ok_pos s O)).
  destruct (Rltb 0 _) eqn:E.
  - apply accumulated_ok; auto; [apply (ok_list s O)|apply (ok_frame s O)].
  - apply (changed_ok s); auto; [apply (ok_list s O)|]. apply put_zero; apply (nonneg_zero _ (ok_pos s O i) E).
Qed.
Lemma set_verts_ok s i c v t : ok s -> (i < mb_next s)%nat -> set_verts s i c v = Some t -> ok t.
Proof.
  intros O I. unfold set_verts. destruct (ms_geom _); try discriminate. destruct (Nat.leb _ _); [|discriminate]. intros E. injection E as <-. set (s1 := put _ _ _).
  apply (changed_ok s); auto.
  - intros j; unfold s1; rewrite put_mass; destruct (Nat.eqb_spec j i); apply (ok_pos s O).
  - apply (ok_list s O).
  - intros f B. f_equal. unfold infos, s1. cbn [put mb_list mb_shape]. apply map_ext. intros k. destruct (Nat.eqb_spec k i) as [->|]; auto.
Qed.
Lemma set_type_ok s bt : ok s -> ok (set_type s bt).
Proof.
  intros O. unfold set_type, on_body. split; [apply (ok_pos s O)|apply (ok_list s O)|cbn [mb_body]; apply set_type_coherent, (ok_frame s O)|].
  cbn [mb_body]. change (infos (MBody _ (mb_list s) (mb_shape s) (mb_next s))) with (infos s). intros D M. unfold set_type_num in *.
  destruct (btype_eqb (b_type (mb_body s)) bt) eqn:E; [apply (ok_mass s O); auto|]. set (b1 := set_idle_field _ _) in *. destruct bt.
  - apply accumulate_mass; auto; [|apply infos_pos, (ok_pos s O)]. unfold b_type, b1. cbn [set_mass_fields set_idle_field b_idle b_mass].
    change (@neqb RNum n0 ninf) with (Reqb 0 RMaxFloat). rewrite Reqb_inf_0. reflexivity.
  - exfalso. revert D. unfold b_type, b1. cbn [set_vel_fields set_mass_fields set_idle_field b_idle b_mass]. change (@neqb RNum n0 ninf) with (Reqb 0 RMaxFloat). rewrite Reqb_inf_0.
    replace (@neqb RNum ninf ninf) with true; [discriminate|]. symmetry. change (Reqb RMaxFloat RMaxFloat = true). destruct (Reqb_spec RMaxFloat RMaxFloat); auto.
  - exfalso. revert D. unfold b_type, b1. cbn [set_vel_fields set_mass_fields set_idle_field b_idle b_mass].
    replace (@neqb RNum ninf ninf) with true; [discriminate|]. symmetry. change (Reqb RMaxFloat RMaxFloat = true). destruct (Reqb_spec RMaxFloat RMaxFloat); auto.
Qed.
Lemma on_body_ok s o : ok s -> plain o = true -> ok (on_body s (fun b => bstep b o)).
Proof.
  intros O P. destruct (plain_fields (mb_body s) o P) as (A & B & C & D & E & F). split; [apply (ok_pos s O)|apply (ok_list s O)|apply bstep_coherent, (ok_frame s O)|].
  cbn [on_body mb_body]. intros T M. apply (fields_matches (mb_body s)); auto. apply (ok_mass s O); auto.
Qed.
Lemma mstep_ok s o t : ok s -> mvalid s o -> mstep s o = Some t -> ok t.
Proof.
  intros O V E. destruct o; cbn [mvalid mstep] in *.
  - destruct (make s g) as [u|] eqn:U; [|discriminate]. injection E as <-. destruct (make_ok s g u O U) as (Ou & Nu & _). apply attach_ok; auto. lia.
  - destruct (make_ok s g t O E); auto.
  - injection E as <-. apply attach_ok; auto.
  - injection E as <-. apply remove_ok; auto.
  - injection E as <-. apply set_mass_ok; tauto.
  - injection E as <-. apply set_mass_ok; tauto.
  - unfold set_radius in E. destruct (ms_geom _); try discriminate; eapply set_geom_ok; eauto.
  - unfold set_endpoints in E. destruct (ms_geom _); try discriminate; eapply set_geom_ok; eauto.
  - unfold set_verts_raw in E. destruct (ms_geom _); try discriminate; eapply set_geom_ok; eauto.
  - eapply set_verts_ok; eauto.
  - injection E as <-. apply set_type_ok; auto.
  - injection E as <-. apply on_body_ok; auto.
Qed.
Lemma new_ok m i : ok (MBody (new_body m i) [] (fun _ => no_shape) 0).
Proof.
  split; [intros k; cbn; lra|intros k []|apply new_body_coherent|]. cbn [mb_body]. intros _ H. cbn in H. lra.
Qed.
Lemma lived_ok m i s : lived m i s -> ok s.
Proof. induction 1; [apply new_ok|eapply mstep_ok; eauto]. Qed.
Lemma mass_matches m i s : lived m i s -> b_type (mb_body s) = Dynamic -> 0 < total_mass (infos s) -> matches (mb_body s) (infos s).
Proof. intros L. apply ok_mass, (lived_ok m i), L. Qed.

(** ** The frame stays *)
Definition stays (s t : Rmbody) : Prop := forall q, local_to_world (mb_body t) q = local_to_world (mb_body s) q.
Lemma accumulated_stays s : coherent (mb_body s) -> stays s (accumulated s).
Proof. intros C q. destruct (accumulate_position (mb_body s) (infos s) C) as (_ & A & _). unfold local_to_world. cbn [accumulated mb_body]. rewrite A. reflexivity. Qed.
Lemma frame_stays m i s o t : lived m i s -> mvalid s o -> (forall b, o <> MOnBody b) -> mstep s o = Some t ->
  position (mb_body t) = position (mb_body s) /\ forall q, local_to_world (mb_body t) q = local_to_world (mb_body s) q.
Proof.
  intros L V Nb E. assert (O := lived_ok m i s L). pose proof (ok_frame s O) as C. cut (stays s t); [intros H; split; [apply (H vzero)|exact H]|].
  assert (G : forall i0 g u, set_geom s i0 g = Some u -> stays s u).
  { intros i0 g u U. unfold set_geom in U. cbv zeta in U. destruct (mass_info _ g); [|discriminate]. injection U as <-. destruct (Rltb 0 _); [|intros q; reflexivity].
    exact (accumulated_stays (put s i0 _) C). }
  assert (A : forall u i0, coherent (mb_body u) -> stays u (attach_shape u i0)).
  { intros u i0 Cu. unfold attach_shape. destruct (nltb n0 _); [|intros q; reflexivity]. exact (accumulated_stays (MBody (mb_body u) _ _ _) Cu). }
  assert (M : forall i0 (x : R), stays s (shape_set_mass s i0 x)).
  { intros i0 x q. unfold shape_set_mass. set (u := put _ _ _). rewrite (accumulated_stays u); [|apply activate_coherent, C]. unfold u, local_to_world. cbn [put on_body mb_body].
    unfold activate. destruct (btype_eqb _ _); reflexivity. }
  destruct o; cbn [mstep] in E.
  - destruct (make s g) as [u|] eqn:U; [|discriminate]. injection E as <-. destruct (make_ok s g u O U) as (Ou & _ & Bu & _). intros q. rewrite (A u); [|apply Ou]. unfold local_to_world. rewrite Bu. reflexivity.
  - destruct (make_ok s g t O E) as (_ & _ & Bu & _). intros q. unfold local_to_world. rewrite Bu. reflexivity.
  - injection E as <-. apply A, C.
  - injection E as <-. unfold remove_shape. destruct (_ && _); [|intros q; reflexivity]. exact (accumulated_stays (MBody (mb_body s) _ _ _) C).
  - injection E as <-. apply M.
  - injection E as <-. apply M.
  - unfold set_radius in E. destruct (ms_geom _); try discriminate; eapply G; eauto.
  - unfold set_endpoints in E. destruct (ms_geom _); try discriminate; eapply G; eauto.
  - unfold set_verts_raw in E. destruct (ms_geom _); try discriminate; eapply G; eauto.
  - unfold set_verts in E. destruct (ms_geom _); try discriminate. destruct (Nat.leb _ _); [|discriminate]. injection E as <-. intros q. reflexivity.
  - injection E as <-. unfold set_type, on_body. intros q. cbn [mb_body]. unfold set_type_num. destruct (btype_eqb _ bt); auto. set (b1 := set_idle_field _ _). destruct bt; auto.
    destruct (accumulate_position (set_mass_fields b1 n0 ninf n0 ninf) (infos s)) as (_ & X & _); [exact C|]. unfold local_to_world. rewrite X. reflexivity.
  - exfalso. apply (Nb o). reflexivity.
Qed.

(** ** Mass infos belong to the geometry *)
Definition info_is (s : Rmbody) (i : nat) : Prop := mass_info (shape_mass s i) (ms_geom (mb_shape s i)) = Some (ms_info (mb_shape s i)).
Lemma info_at (m : R) g k : mass_info m g = Some k -> mi_m k = m /\ forall m' : R, mass_info m' g = Some (MassInfo m' (mi_i k) (mi_area k) (mi_cog k)).
Proof. unfold mass_info. destruct (geom_mass g) as [x|]; [|discriminate]. intros E. injection E as <-. split; auto. Qed.
Lemma info_is_kept m i s : lived_raw m i s -> forall k, (k < mb_next s)%nat -> info_is s k.
Proof.
  induction 1 as [|s o t L IH V Nv E]; [intros k K; cbn in K; lia|].
  assert (G : forall i0 g u, set_geom s i0 g = Some u -> forall k, (k < mb_next s)%nat -> mb_next u = mb_next s /\ info_is u k).
  { intros i0 g u U k K. unfold set_geom in U. cbv zeta in U. destruct (mass_info _ g) as [y|] eqn:Y; [|discriminate]. injection U as <-.
    assert (W : forall w : Rmbody, mb_shape w = (fun j => if Nat.eqb j i0 then MShape g y else mb_shape s j) -> info_is w k).
    { intros w W. unfold info_is, shape_mass. rewrite W. destruct (Nat.eqb_spec k i0) as [->|]; [|apply IH; auto]. cbn [ms_info ms_geom]. destruct (info_at _ _ _ Y) as [Q _]. rewrite Q. exact Y. }
    destruct (Rltb 0 _); split; auto; apply W; reflexivity. }
  assert (M : forall i0 (x : R), (i0 < mb_next s)%nat -> forall k, (k < mb_next s)%nat -> info_is (shape_set_mass s i0 x) k).
  { intros i0 x I0 k K. unfold info_is, shape_mass, shape_set_mass, accumulated, put, on_body. cbn [mb_shape]. destruct (Nat.eqb_spec k i0) as [->|]; [|apply IH; auto]. cbn [ms_info ms_geom mi_m].
    apply (info_at _ _ _ (IH i0 I0)). }
  assert (A : forall u i0 k, info_is u k -> info_is (attach_shape u i0) k /\ mb_next (attach_shape u i0) = mb_next u).
  { intros u i0 k X. unfold attach_shape. destruct (nltb n0 _); auto. }
  assert (K0 : forall g u, make s g = Some u -> mb_next u = S (mb_next s) /\ forall k, (k < mb_next u)%nat -> info_is u k).
  { intros g u U. unfold make in U. destruct (mass_info n0 g) as [y|] eqn:Y; [|discriminate]. injection U as <-. split; auto. intros k K. cbn [mb_next] in K. unfold info_is, shape_mass. cbn [mb_shape].
    destruct (Nat.eqb_spec k (mb_next s)) as [->|]; [|apply IH; lia]. cbn [ms_info ms_geom]. destruct (info_at _ _ _ Y) as [Q _]. rewrite Q. exact Y. }
  destruct o; cbn [mstep mvalid] in *; intros k K.
  - destruct (make s g) as [u|] eqn:U; [|discriminate]. injection E as <-. destruct (K0 g u U) as [Nu Hu]. destruct (A u (mb_next s) k) as [X Y]; [|exact X]. apply Hu. revert K. unfold attach_shape. destruct (nltb n0 _); auto.
  - destruct (K0 g t E) as [Nu Hu]. auto.
  - injection E as <-. apply A, IH. revert K. unfold attach_shape. destruct (nltb n0 _); auto.
  - injection E as <-. revert K. unfold remove_shape. destruct (_ && _); intros K; apply IH; exact K.
  - injection E as <-. apply M; tauto.
  - injection E as <-. apply M; tauto.
  - unfold set_radius in E. destruct (ms_geom _) eqn:Q; try discriminate; (destruct (G _ _ _ E k) as [Z X]; [|exact X]); unfold set_geom in E; cbv zeta in E; destruct (mass_info _ _); try discriminate; injection E as <-; revert K; destruct (Rltb 0 _); intros K; exact K.
  - unfold set_endpoints in E. destruct (ms_geom _) eqn:Q; try discriminate; (destruct (G _ _ _ E k) as [Z X]; [|exact X]); unfold set_geom in E; cbv zeta in E; destruct (mass_info _ _); try discriminate; injection E as <-; revert K; destruct (Rltb 0 _); intros K; exact K.
  - unfold set_verts_raw in E. destruct (ms_geom _) eqn:Q; try discriminate; (destruct (G _ _ _ E k) as [Z X]; [|exact X]); unfold set_geom in E; cbv zeta in E; destruct (mass_info _ _); try discriminate; injection E as <-; revert K; destruct (Rltb 0 _); intros K; exact K.
  - exfalso. eapply Nv. reflexivity.
  - injection E as <-. apply IH. exact K.
  - injection E as <-. apply IH. exact K.
Qed.

Lemma info_matches m i s : lived_raw m i s -> forall k, (k < mb_next s)%nat -> true_info s k.
Proof.
  intros L k K. pose proof (info_is_kept m i s L k K) as H. unfold info_is, mass_info in H. unfold true_info, shape_area, shape_cog.
  destruct (geom_mass _) as [x|]; [|discriminate]. injection H as H. exists x. split; [reflexivity|]. rewrite <- H. auto.
Qed.

(** ** Setters and getters *)
Lemma set_mass_gets (s : Rmbody) i (m : R) k : shape_mass (shape_set_mass s i m) k = (if Nat.eqb k i then m else shape_mass s k) /\
  shape_area (shape_set_mass s i m) k = shape_area s k /\ shape_cog (shape_set_mass s i m) k = shape_cog s k /\ mb_list (shape_set_mass s i m) = mb_list s /\
  ms_geom (mb_shape (shape_set_mass s i m) k) = ms_geom (mb_shape s k).
Proof.
  unfold shape_mass, shape_area, shape_cog, shape_set_mass, accumulated, put, on_body. cbn [mb_shape mb_list]. destruct (Nat.eqb_spec k i) as [->|]; auto.
Qed.
Lemma density_gets (s : Rmbody) i (d : R) : shape_area s i <> 0 -> shape_density (shape_set_density s i d) i = d /\ shape_mass (shape_set_density s i d) i = d * shape_area s i.
Proof.
  unfold shape_set_density, shape_density, shape_mass, shape_area, shape_set_mass, accumulated, put, on_body. cbn [mb_shape]. rewrite Nat.eqb_refl. cbn [ms_info mi_m mi_area].
  intros A. unR. split; auto. field. exact A.
Qed.
