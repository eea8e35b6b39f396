(** Shape ids are never given twice; what SetGravity and RemoveBodyWithShapes really do. *)
From Coq Require Import ZArith List Bool Arith Lia Permutation.
From Verif Require Import Num Space SpaceSpec SpaceInv SpaceMove SpaceWake SpaceActivate SpaceOps SpaceShapes SpaceCons SpaceType.
From Verif Require Import SpaceFlood SpaceSleep SpaceStep SpaceProcess SpaceMain.
Import ListNotations.
Local Open Scope nat_scope.

Section Ids.
Context {N : Num}.
Lemma ofold_ids {A} (f : A -> space -> option space) : (forall a s s', f a s = Some s' -> s_ids s' = s_ids s) ->
  forall l s s', ofold f l s = Some s' -> s_ids s' = s_ids s.
Proof.
  intros H l. induction l as [|a l IH]; intros s s' E; [inversion E; auto|]. rewrite ofold_cons in E. destruct (f a s) eqn:F; [|discriminate].
  rewrite (IH _ _ E). eauto.
Qed.
Lemma fold_ids {A} (f : space -> A -> space) : (forall a s, s_ids (f s a) = s_ids s) -> forall l s, s_ids (fold_left f l s) = s_ids s.
Proof. intros H l. induction l as [|a l IH]; intros s; simpl; auto. rewrite IH. auto. Qed.
Ltac brk := try discriminate; repeat match goal with
  | H : match ?x with _ => _ end = Some _ |- _ => destruct x eqn:?; try discriminate
  | H : Some _ = Some _ |- _ => inversion H; clear H; subst end.
Lemma space_activate_ids b s s' : space_activate b s = Some s' -> s_ids s' = s_ids s.
Proof. unfold space_activate. intros E. brk; auto. destruct (mem _ _); auto. Qed.
Lemma wake_loop_ids n : forall c s s', wake_loop n c s = Some s' -> s_ids s' = s_ids s.
Proof.
  induction n as [|n IH]; intros c s s' E; simpl in E; brk; auto. rewrite (IH _ _ _ E). apply space_activate_ids in Heqo0. exact Heqo0.
Qed.
Lemma reset_ids b s : s_ids (reset_idle b s) = s_ids s.
Proof. unfold reset_idle. destruct (is_type _ _ _); auto. Qed.
Lemma body_activate_ids b s s' : body_activate b s = Some s' -> s_ids s' = s_ids s.
Proof.
  unfold body_activate. intros E. brk; auto; rewrite fold_ids; auto using reset_ids.
  all: match goal with H : wake_loop _ _ _ = Some _ |- _ => apply wake_loop_ids in H; exact H end.
Qed.
Lemma activate_static_ids b f s s' : activate_static b f s = Some s' -> s_ids s' = s_ids s.
Proof. apply ofold_ids. intros. cbv zeta in H. brk; auto; eapply body_activate_ids; eauto. Qed.
Lemma unlock_ids s s' : unlock s = Some s' -> s_ids s' = s_ids s.
Proof. unfold unlock. intros E. brk; auto. simpl. apply ofold_ids in Heqo; auto. apply space_activate_ids. Qed.
Lemma deactivate_ids b s s' : space_deactivate b s = Some s' -> s_ids s' = s_ids s.
Proof. unfold space_deactivate. intros E. brk. simpl. apply ofold_ids in Heqo0; auto. intros. unfold uncache_arbiter in *. brk. auto. Qed.
Lemma flood_ids n : forall r b s s', flood n r b s = Some s' -> s_ids s' = s_ids s.
Proof.
  induction n as [|n IH]; intros r b s s' E; simpl in E; brk; auto. apply ofold_ids in E; [|intros; eapply IH; eauto]. rewrite E. unfold component_add. destruct (b =? r); auto.
Qed.
Lemma sweep_ids n : forall t i s s', sweep n t i s = Some s' -> s_ids s' = s_ids s.
Proof.
  induction n as [|n IH]; intros t i s s' E; cbn [sweep] in E; destruct (nth_error (s_dyn s) i); try discriminate; try congruence.
  destruct (b_root (s_body s n0)); [apply IH in E; exact E|].
  destruct (flood _ _ _ _) eqn:F; [|discriminate]. destruct (walk _ _ _); [|discriminate]. apply flood_ids in F.
  destruct (component_active _ _ _); [apply IH in E; simpl in E; congruence|].
  destruct (ofold _ _ _) eqn:D; [|discriminate]. apply IH in E. apply ofold_ids in D; [|intros; eapply deactivate_ids; eauto]. simpl in D. congruence.
Qed.
Lemma push_contact_ids p x s s' : push_contact p x s = Some s' -> s_ids s' = s_ids s.
Proof.
  unfold push_contact, push_arbiter. intros E. brk; simpl; repeat match goal with H : body_activate _ _ = Some _ |- _ => apply body_activate_ids in H end; congruence.
Qed.
Lemma hold_ids x s s' : hold_constraint x s = Some s' -> s_ids s' = s_ids s.
Proof.
  unfold hold_constraint. intros E. brk; simpl; repeat match goal with H : body_activate _ _ = Some _ |- _ => apply body_activate_ids in H end; congruence.
Qed.
Lemma process_ids thr dt fast s s' : process_components thr dt fast s = Some s' -> s_ids s' = s_ids s.
Proof.
  unfold process_components. intros E.
  match type of E with match ofold _ _ ?s0 with _ => _ end = _ => assert (H : s_ids s0 = s_ids s) end.
  { destruct thr; auto. apply fold_ids. intros. unfold idle_update. destruct (is_type _ _ _); auto. }
  destruct (ofold _ _ _) eqn:D in E; [|discriminate]. apply ofold_ids in D; [|intros; eapply push_contact_ids; eauto]. rewrite H in D.
  destruct thr; [|congruence]. destruct (ofold hold_constraint _ _) eqn:F; [|discriminate]. apply ofold_ids in F; [|intros; eapply hold_ids; eauto].
  apply sweep_ids in E. congruence.
Qed.
Lemma step_ids thr dt fast evs old late s s' : step thr dt fast evs old late s = Some s' -> s_ids s' = s_ids s.
Proof.
  unfold step. intros E. cbv zeta in E.
  destruct (ofold do_event _ _) eqn:A; [|discriminate]. destruct (unlock s0) eqn:B; [|discriminate]. destruct (process_components _ _ _ _) eqn:C; [|discriminate].
  destruct (ofold body_activate _ _) eqn:D; [|discriminate].
  apply unlock_ids in E, B. apply process_ids in C. apply ofold_ids in D; [|intros; eapply body_activate_ids; eauto]. apply ofold_ids in A.
  - simpl in A, D. rewrite fold_ids in A; [congruence|]. intros. unfold unthread_awake. destruct (_ || _); auto.
  - intros e t t' H. destruct e; simpl in H; [|eapply body_activate_ids; eauto]. inversion H; subst. unfold collide. destruct (find _ _), accepted; auto.
Qed.
Lemma set_type_ids b t s s' : set_type b t s = Some s' -> s_ids s' = s_ids s.
Proof.
  unfold set_type. intros E.
  destruct (btype_eqb (ty s b) t); [congruence|]. destruct (negb (b_in _)); [inversion E; auto|]. destruct (negb (_ =? 0)%Z); [discriminate|].
  destruct (if btype_eqb (ty s b) Static then _ else _) eqn:A; [|discriminate].
  assert (H : s_ids s0 = s_ids s).
  { destruct (btype_eqb (ty s b) Static); [inversion A; auto|]. apply body_activate_ids in A. exact A. }
  destruct (btype_eqb (ty s b) Static), (btype_eqb t Static); brk; simpl; auto.
Qed.
Lemma gravity_ids n : forall k arr s s', gravity_loop n k arr s = Some s' -> s_ids s' = s_ids s.
Proof. induction n as [|n IH]; intros k arr s s' E; simpl in E; brk; auto. apply IH in E. apply body_activate_ids in Heqo0. congruence. Qed.
Lemma remove_shape_ids x s s' : remove_shape x s = Some s' -> s_ids s' = s_ids s.
Proof.
  unfold remove_shape. intros E. destruct (if is_type _ _ _ then _ else _) eqn:A in E; [|discriminate].
  assert (H : s_ids s0 = s_ids s) by (destruct (is_type _ _ _); [eapply activate_static_ids|eapply body_activate_ids]; eauto).
  assert (H1 : forall b t, s_ids (filter_arbiters b x t) = s_ids t).
  { intros b t. unfold filter_arbiters. simpl. apply fold_ids. reflexivity. }
  destruct (is_type _ _ _); brk; change (s_ids (filter_arbiters (sh_body (s_shape s x)) x (detach_shape x s0)) = s_ids s); rewrite H1; exact H.
Qed.
Lemma sstep_ids o s s' : sstep o s = Some s' -> s_ids s' = s_ids s \/ exists x, o = OAddShape x /\ s_ids s' = S (s_ids s).
Proof.
  intros E. destruct o; simpl in E; try solve [left; inversion E; reflexivity].
  - left. inversion E; subst. unfold add_body. destruct (is_type s b Static); reflexivity.
  - left. unfold remove_body in E. brk. apply body_activate_ids in Heqo. destruct (is_type _ _ _); exact Heqo.
  - right. exists x. split; auto. unfold add_shape in E. destruct (if is_type _ _ _ then _ else _) eqn:A in E; [|discriminate].
    assert (H : s_ids s0 = s_ids s) by (destruct (is_type _ _ _); [congruence|eapply body_activate_ids; eauto]).
    destruct (is_type _ _ _); brk; simpl; auto.
  - left. eapply remove_shape_ids; eauto.
  - left. unfold add_constraint in E. brk. simpl. apply body_activate_ids in Heqo, Heqo0. congruence.
  - left. unfold remove_constraint, body_remove_constraint in E. brk. simpl. apply body_activate_ids in Heqo, Heqo0. congruence.
  - left. eapply set_type_ids; eauto.
  - left. eapply body_activate_ids; eauto.
  - left. eapply activate_static_ids; eauto.
  - left. eapply gravity_ids; eauto.
  - left. apply unlock_ids in E; auto.
  - left. eapply step_ids; eauto.
Qed.
Lemma srun_ids h : forall s s', srun h s = Some s' -> s_ids s <= s_ids s'.
Proof.
  induction h as [|o h IH]; intros s s' E; [inversion E; auto|]. unfold srun in E. rewrite ofold_cons in E. destruct (sstep o s) eqn:F; [|discriminate].
  apply IH in E. apply sstep_ids in F. destruct F as [F|[x [_ F]]]; lia.
Qed.
Lemma run_reachable h : forall s, reachable s -> valid_run h s -> exists s', srun h s = Some s' /\ reachable s'.
Proof.
  induction h as [|o h IH]; intros s R V; [exists s; auto|]. inversion V as [|? ? ? V1 V2]; subst.
  destruct (no_panic s o R V1) as [s1 [E1 R1]]. destruct (IH s1 R1 (V2 s1 E1)) as [s2 [E2 R2]]. exists s2. split; auto. unfold srun. rewrite ofold_cons, E1. exact E2.
Qed.
(* an id given later is larger than every id seen before *)
Lemma ids_grow s h x y s' : reachable s -> contains_shape s x = true -> valid_run (h ++ [OAddShape y]) s ->
  srun (h ++ [OAddShape y]) s = Some s' -> sh_id (s_shape s x) < sh_id (s_shape s' y).
Proof.
  intros R X V E. unfold srun in E. rewrite ofold_app in E. destruct (ofold sstep h s) as [s1|] eqn:F; [|discriminate].
  assert (V1 : valid_run h s /\ valid (OAddShape y) s1).
  { clear -V F. revert s V F. induction h as [|o h IH]; intros s V F; simpl in V.
    - inversion F; subst. inversion V; subst. split; auto. constructor.
    - inversion V as [|? ? ? V1 V2]; subst. rewrite ofold_cons in F. destruct (sstep o s) as [t|] eqn:G; [|discriminate].
      destruct (IH t (V2 t eq_refl) F) as [A B]. split; auto. constructor; auto. intros t' Et. congruence. }
  destruct V1 as [V1 V2]. destruct (run_reachable h s R V1) as [s2 [E2 R2]]. assert (s2 = s1) by (unfold srun in E2; congruence). subst s2.
  assert (E3 : sstep (OAddShape y) s1 = Some s') by (unfold ofold in E; simpl in E; exact E).
  destruct (new_id s1 y s' R2 V2 E3) as [G _]. rewrite G. apply (is_lt _ _ _ (w_p _ _ (reachable_ok s R))) in X. apply srun_ids in F. lia.
Qed.
End Ids.

(** ** SetGravity *)
Section Gravity.
Context {N : Num}.
Definition prune (l : list nat) (o : option nat) : option nat := match o with Some r => if mem r l then Some r else None | None => None end.
Definition pruned (s s' : space) : Prop := incl (s_comps s') (s_comps s) /\ forall y, roots s' y = prune (s_comps s') (roots s y).
Lemma mem_in x l : mem x l = true <-> In x l.
Proof. unfold mem. rewrite existsb_exists. split; [intros [y [H E]]; apply Nat.eqb_eq in E; congruence|intros H; exists x; rewrite Nat.eqb_refl; auto]. Qed.
Lemma pruned_refl Q s : winv Q s -> pruned s s.
Proof.
  intros W. split; [apply incl_refl|]. intros y. destruct (roots s y) as [r|] eqn:E; simpl; auto. apply (g_root _ (w_g _ _ W)) in E. apply mem_in in E. rewrite E. auto.
Qed.
Lemma pruned_trans s1 s2 s3 : pruned s1 s2 -> pruned s2 s3 -> pruned s1 s3.
Proof.
  intros [A B] [C D]. split; [eapply incl_tran; eauto|]. intros y. rewrite D, B. destruct (roots s1 y) as [r|]; simpl; auto.
  destruct (mem r (s_comps s2)) eqn:E; simpl; auto. destruct (mem r (s_comps s3)) eqn:F; auto. apply mem_in, C, mem_in in F. congruence.
Qed.
Lemma root_root Q s r : winv Q s -> In r (s_comps s) -> roots s r = Some r.
Proof. intros W H. destruct (g_chain _ (w_g _ _ W) r H) as [l [A [_ C]]]. apply C. eapply chain_head; eauto. Qed.
Lemma wake_root Q s r : winv Q s -> In r (s_comps s) -> exists s', body_activate r s = Some s' /\ winv Q s' /\ s_comps s' = remove1 r (s_comps s) /\ pruned s s'.
Proof.
  intros W H. destruct (body_activate_ok Q s r W) as [s' [E [W' K]]]. exists s'. split; auto. split; auto.
  pose proof (root_root Q s r W H) as RR. pose proof (k_comps _ _ _ K) as KC. rewrite RR in KC. split; auto.
  split; [intros y Y; rewrite KC in Y; eapply remove1_in; eauto|].
  intros y. destruct (roots s y) as [q|] eqn:E1; simpl.
  - destruct (Nat.eq_dec q r) as [->|D].
    + replace (mem r (s_comps s')) with false; [apply (k_in _ _ _ K); split; congruence|].
      symmetry. apply not_true_iff_false. rewrite mem_in, KC, remove1_spec by apply (g_nd _ (w_g _ _ W)). tauto.
    + replace (mem q (s_comps s')) with true; [rewrite <- E1; apply (k_out _ _ _ K); intros [_ G]; congruence|].
      symmetry. rewrite mem_in, KC, remove1_spec by apply (g_nd _ (w_g _ _ W)). split; auto. eapply (g_root _ (w_g _ _ W)); eauto.
  - rewrite <- E1. apply (k_out _ _ _ K). intros [G1 G2]. congruence.
Qed.
Lemma wake_awake Q s z : winv Q s -> roots s z = None -> exists s', body_activate z s = Some s' /\ winv Q s' /\ s_comps s' = s_comps s /\ pruned s s' /\ roots s' z = None.
Proof.
  intros W H. destruct (body_activate_ok Q s z W) as [s' [E [W' K]]]. exists s'. split; auto. split; auto.
  pose proof (k_comps _ _ _ K) as KC. rewrite H in KC. split; auto.
  assert (RE : forall y, roots s' y = roots s y) by (intros y; apply (k_out _ _ _ K); intros [G _]; congruence).
  split; [|rewrite RE; auto]. split; [rewrite KC; apply incl_refl|]. intros y. rewrite RE, KC. apply (pruned_refl Q s W).
Qed.
Lemma nth_error_skipn' {A} : forall n (l : list A) j, nth_error (skipn n l) j = nth_error l (n + j).
Proof. induction n as [|n IH]; intros l j; simpl; auto. destruct l; simpl; auto. destruct j; auto. Qed.
(* what is left behind the end of the slice is woken again and again *)
Lemma gravity_tail Q z n : forall k arr s, winv Q s -> roots s z = None -> length (s_comps s) <= k ->
  (forall j r, k <= j -> nth_error arr j = Some r -> r = z) ->
  exists s', gravity_loop n k arr s = Some s' /\ winv Q s' /\ s_comps s' = s_comps s /\ pruned s s'.
Proof.
  induction n as [|n IH]; intros k arr s W Z L A; simpl; [exists s; eauto using pruned_refl|].
  destruct (nth_error arr k) as [r|] eqn:E; [|exists s; eauto using pruned_refl].
  assert (r = z) by (eapply A; eauto). subst r. destruct (wake_awake Q s z W Z) as [s1 [E1 [W1 [C1 [P1 Z1]]]]]. rewrite E1.
  destruct (IH (S k) (s_comps s1 ++ skipn (length (s_comps s1)) arr) s1 W1 Z1) as [s2 [E2 [W2 [C2 P2]]]].
  - rewrite C1. lia.
  - intros j r J H. rewrite nth_error_app2 in H by (rewrite C1; lia). rewrite nth_error_skipn' in H. apply (A (length (s_comps s1) + (j - length (s_comps s1)))); auto. rewrite C1 in *. lia.
  - exists s2. split; auto. split; auto. split; [congruence|]. eapply pruned_trans; eauto.
Qed.
Fixpoint skipped (l : list nat) : list nat := match l with a :: b :: ((c :: _) as r) => b :: skipped r | _ => [] end.
Lemma remove1_app x D r : ~ In x D -> remove1 x (D ++ x :: r) = D ++ r.
Proof. induction D as [|d D IH]; intros H; simpl; [rewrite Nat.eqb_refl; auto|]. destruct (Nat.eqb_spec x d); [subst; simpl in H; tauto|]. rewrite IH; auto. simpl in H. tauto. Qed.
Lemma nth_error_mid {A} (D : list A) a r : nth_error (D ++ a :: r) (length D) = Some a.
Proof. rewrite nth_error_app2, Nat.sub_diag by lia. reflexivity. Qed.
Lemma skipn_app_more {A} (D r : list A) n : n = length D -> skipn n (D ++ r) = r.
Proof. intros ->. induction D; simpl; auto. Qed.
Lemma gravity_main Q z : forall m rest n D st s, length rest <= m -> winv Q s -> s_comps s = D ++ rest -> n = length rest + length st -> Forall (eq z) st ->
  rest <> [] -> last rest z = z ->
  exists s', gravity_loop n (length D) (D ++ rest ++ st) s = Some s' /\ winv Q s' /\ s_comps s' = D ++ skipped rest /\ pruned s s'.
Proof.
  induction m as [|m IH]; intros rest n D st s LM W C NE F RN LZ; [destruct rest; simpl in *; [congruence|lia]|].
  destruct rest as [|a rest]; [congruence|]. assert (ND := g_nd _ (w_g _ _ W)). rewrite C in ND.
  assert (AI : In a (s_comps s)) by (rewrite C; apply in_app_iff; simpl; auto).
  assert (AD : ~ In a D) by (apply NoDup_remove_2 in ND; rewrite in_app_iff in ND; tauto).
  destruct (wake_root Q s a W AI) as [s1 [E1 [W1 [C1 P1]]]]. rewrite C, remove1_app in C1 by auto.
  destruct n as [|n]; [simpl in NE; lia|]. simpl gravity_loop. rewrite nth_error_mid, E1, C1.
  assert (ZN : roots s1 a = None).
  { rewrite (proj2 P1), (root_root Q s a W AI), C1. simpl. replace (mem a (D ++ rest)) with false; auto.
    symmetry. apply not_true_iff_false. rewrite mem_in. apply NoDup_remove_2 in ND. exact ND. }
  destruct rest as [|b rest].
  - simpl in LZ. subst z. rewrite app_nil_r in *. rewrite skipn_app_more by auto.
    destruct (gravity_tail Q a n (S (length D)) (D ++ a :: st) s1 W1 ZN) as [s2 [E2 [W2 [C2 P2]]]].
    + rewrite C1. lia.
    + intros j r J H. rewrite nth_error_app2 in H by lia. apply nth_error_In in H. destruct H as [H|H]; auto. rewrite Forall_forall in F. symmetry. apply F; auto.
    + exists s2. simpl. split; auto. split; auto. split; [rewrite app_nil_r; congruence|]. eapply pruned_trans; eauto.
  - assert (SK : skipn (length (D ++ b :: rest)) (D ++ (a :: b :: rest) ++ st) = last (b :: rest) z :: st).
    { rewrite app_length. destruct (exists_last (l := b :: rest)) as [q [w Q']]; [discriminate|].
      replace (D ++ (a :: b :: rest) ++ st) with ((D ++ a :: q) ++ w :: st) by (rewrite Q'; rewrite <- !app_assoc; simpl; rewrite <- app_assoc; reflexivity).
      rewrite skipn_app_more; [rewrite Q', last_last; auto|]. rewrite Q', !app_length. simpl. lia. }
    replace (last (b :: rest) z) with z in SK by (symmetry; exact LZ). simpl app in SK |- *. rewrite SK. clear SK.
    replace (S (length D)) with (length (D ++ [b])) by (rewrite app_length; simpl; lia).
    destruct rest as [|c rest].
    + simpl in LZ. subst z. simpl in NE.
      destruct n as [|n]; [lia|]. simpl gravity_loop.
      replace ((D ++ [b]) ++ b :: st) with ((D ++ [b]) ++ [b] ++ st) by reflexivity.
      assert (BI : In b (s_comps s1)) by (rewrite C1; apply in_app_iff; simpl; auto).
      assert (BD : ~ In b D) by (apply NoDup_remove_1 in ND; apply NoDup_remove_2 in ND; rewrite app_nil_r in ND; auto).
      destruct (wake_root Q s1 b W1 BI) as [s2 [E2 [W2 [C2 P2]]]]. rewrite C1, remove1_app, app_nil_r in C2 by auto.
      replace (nth_error ((D ++ [b]) ++ [b] ++ st) (length (D ++ [b]))) with (Some b) by (symmetry; apply nth_error_mid). rewrite E2.
      assert (ZB : roots s2 b = None).
      { rewrite (proj2 P2), (root_root Q s1 b W1 BI), C2. simpl. replace (mem b D) with false; auto. symmetry. apply not_true_iff_false. rewrite mem_in. auto. }
      rewrite C2, <- app_assoc, skipn_app_more by auto.
      destruct (gravity_tail Q b n (S (length (D ++ [b]))) (D ++ [b] ++ [b] ++ st) s2 W2 ZB) as [s3 [E3 [W3 [C3 P3]]]].
      * rewrite C2, app_length. simpl. lia.
      * intros j r J H. rewrite app_length in J. simpl in J. rewrite nth_error_app2 in H by lia. apply nth_error_In in H. simpl in H.
        destruct H as [H|[H|H]]; auto. rewrite Forall_forall in F. symmetry. apply F; auto.
      * exists s3. simpl. rewrite app_nil_r. split; auto. split; auto. split; [congruence|]. eapply pruned_trans; [eauto|]. eapply pruned_trans; eauto.
    + destruct (IH (c :: rest) n (D ++ [b]) (z :: st) s1) as [s2 [E2 [W2 [C2 P2]]]]; auto.
      * simpl in *. lia.
      * rewrite C1, <- app_assoc. reflexivity.
      * simpl in *. lia.
      * discriminate.
      * exists s2. split; [rewrite <- E2; f_equal; rewrite <- !app_assoc; reflexivity|]. split; auto. split; [rewrite C2, <- app_assoc; reflexivity|]. eapply pruned_trans; eauto.
Qed.
Lemma gravity_exact s : winv [] s -> exists s', set_gravity s = Some s' /\ winv [] s' /\ s_comps s' = skipped (s_comps s) /\ pruned s s'.
Proof.
  intros W. unfold set_gravity. destruct (s_comps s) as [|a l] eqn:E.
  - exists s. simpl. split; auto. split; auto. split; auto. eapply pruned_refl; eauto.
  - destruct (gravity_main [] (last (a :: l) 0) (length (a :: l)) (a :: l) (length (a :: l)) [] [] s) as [s' H]; auto.
    + discriminate.
    + clear. revert a. induction l as [|b l IH]; intros a; auto. simpl in *. apply IH.
    + exists s'. simpl app in H. rewrite app_nil_r in H. exact H.
Qed.
Lemma skipped_nth : forall m l, length l <= m -> NoDup l -> forall i r, nth_error l i = Some r -> (In r (skipped l) <-> Nat.odd i = true /\ S i < length l).
Proof.
  assert (SI : forall m l, length l <= m -> incl (skipped l) l).
  { induction m as [|m IH]; intros l L; [destruct l; simpl in *; [apply incl_refl|lia]|]. destruct l as [|a [|b [|c l]]]; try solve [intros x []].
    intros x [->|X]; [simpl; auto|]. do 2 right. apply IH in X; auto. simpl in *. lia. }
  induction m as [|m IH]; intros l L ND i r E; [destruct l; simpl in L; [destruct i; discriminate|lia]|].
  destruct l as [|a [|b [|c l]]].
  - destruct i; discriminate.
  - destruct i as [|[|i]]; simpl in *; try discriminate. intuition (try discriminate; lia).
  - destruct i as [|[|[|i]]]; simpl in *; try discriminate; intuition (try discriminate; lia).
  - inversion ND as [|? ? NA ND1]; subst. inversion ND1 as [|? ? NB ND2]; subst. change (skipped (a :: b :: c :: l)) with (b :: skipped (c :: l)).
    assert (IS := SI _ (c :: l) (le_n _)).
    destruct i as [|[|i]].
    + inversion E; subst. split; [|intros [H _]; discriminate]. intros [->|H]; [simpl in NA; tauto|]. apply IS in H. simpl in NA, H. tauto.
    + inversion E; subst. simpl. split; auto. intros _. split; auto. lia.
    + simpl in E. assert (RB : r <> b) by (intros ->; apply NB; apply nth_error_In in E; exact E).
      specialize (IH (c :: l) ltac:(simpl in *; lia) ND2 i r E). change (Nat.odd (S (S i))) with (Nat.odd i).
      simpl In. split; [intros [H|H]; [congruence|]; apply IH in H; simpl in *; split; [tauto|lia]|]. intros [H1 H2]. right. apply IH. split; auto. simpl in *. lia.
Qed.
Lemma gravity_group s s' i r : reachable s -> sstep OGravity s = Some s' -> nth_error (s_comps s) i = Some r ->
  forall b, group s b = Some r -> (is_sleeping s' b = true <-> Nat.odd i = true /\ S i < length (s_comps s)).
Proof.
  intros R E H b B. pose proof (reachable_ok s R) as W. destruct (gravity_exact s W) as [s1 [E1 [_ [C [_ P]]]]]. simpl in E. assert (s1 = s') by congruence. subst s1.
  rewrite <- (skipped_nth _ (s_comps s) (le_n _) (g_nd _ (w_g _ _ W)) i r H). rewrite <- C, <- mem_in. unfold is_sleeping. specialize (P b). unfold roots, group in *. rewrite P, B. simpl.
  destruct (mem r (s_comps s')); intuition discriminate.
Qed.
Lemma gravity_few s s' : reachable s -> sstep OGravity s = Some s' -> length (s_comps s) <= 2 -> forall b, is_sleeping s' b = false.
Proof.
  intros R E L b. pose proof (reachable_ok s R) as W. destruct (gravity_exact s W) as [s1 [E1 [_ [C [_ P]]]]]. simpl in E. assert (s1 = s') by congruence. subst s1.
  apply sleeping_roots. rewrite P. destruct (roots s b); simpl; auto. rewrite C. destruct (s_comps s) as [|x [|y [|z l]]]; simpl in *; auto; lia.
Qed.
End Gravity.

(** ** RemoveBodyWithShapes *)
Section Remove.
Context {N : Num}.
Lemma ofold_lock {A} (f : A -> space -> option space) : (forall a s s', f a s = Some s' -> s_lock s' = s_lock s) ->
  forall l s s', ofold f l s = Some s' -> s_lock s' = s_lock s.
Proof.
  intros H l. induction l as [|a l IH]; intros s s' E; [inversion E; auto|]. rewrite ofold_cons in E. destruct (f a s) eqn:F; [|discriminate].
  rewrite (IH _ _ E). eauto.
Qed.
Lemma fold_lock {A} (f : space -> A -> space) : (forall a s, s_lock (f s a) = s_lock s) -> forall l s, s_lock (fold_left f l s) = s_lock s.
Proof. intros H l. induction l as [|a l IH]; intros s; simpl; auto. rewrite IH. auto. Qed.
Lemma body_activate_lock b s s' : winv [] s -> body_activate b s = Some s' -> winv [] s' /\ s_lock s' = s_lock s.
Proof. intros W E. destruct (body_activate_ok [] s b W) as [s1 [E1 [W1 K]]]. assert (s1 = s') by congruence. subst. split; auto. apply (k_lock _ _ _ K). Qed.
Lemma remove_shape_lock x s s' : winv [] s -> remove_shape x s = Some s' -> s_lock s' = s_lock s.
Proof.
  intros W. unfold remove_shape. intros E. destruct (if is_type _ _ _ then _ else _) eqn:A in E; [|discriminate].
  assert (H : s_lock s0 = s_lock s).
  { destruct (is_type _ _ _); [|eapply body_activate_lock; eauto]. unfold activate_static in A. clear E. revert A.
    generalize (b_arbs (s_body s (sh_body (s_shape s x)))). generalize (sh_body (s_shape s x)). intros b l.
    revert s W. induction l as [|y l IH]; intros s W A; [inversion A; auto|].
    rewrite ofold_cons in A. cbv beta zeta in A. destruct (if _ || _ then _ else _) as [s1|] eqn:F; [|discriminate].
    destruct (_ || _); [destruct (body_activate_lock _ _ _ W F) as [W1 L1]; rewrite <- L1; apply IH; auto|inversion F; subst; apply IH; auto]. }
  assert (H1 : forall b t, s_lock (filter_arbiters b x t) = s_lock t).
  { intros b t. unfold filter_arbiters. simpl. apply fold_lock. reflexivity. }
  destruct (is_type _ _ _); destruct (ix_remove _ _); inversion E; subst; change (s_lock (filter_arbiters (sh_body (s_shape s x)) x (detach_shape x s0)) = s_lock s); rewrite H1; exact H.
Qed.
Lemma swap_length x l : In x l -> length (swap_remove x l) = pred (length l).
Proof. intros H. apply swap_remove_perm, Permutation_length in H. simpl in H. lia. Qed.
(* the loop takes out one shape and steps over the next *)
Lemma remove_each_ok b : forall n i s, winv [] s -> s_lock s = 0%Z -> (forall x, In x (b_shapes (s_body s b)) -> contains_shape s x = true) ->
  length (b_shapes (s_body s b)) <= n + i -> exists s', remove_each n i b s = Some s' /\ winv [] s' /\ s_lock s' = 0%Z /\
    incl (b_shapes (s_body s' b)) (b_shapes (s_body s b)) /\
    (forall x, contains_shape s' x = true <-> contains_shape s x = true /\ (In x (b_shapes (s_body s b)) -> In x (b_shapes (s_body s' b)))) /\
    length (b_shapes (s_body s' b)) = length (b_shapes (s_body s b)) - Nat.div2 (S (length (b_shapes (s_body s b)) - i)) /\
    (forall y, b_in (s_body s' y) = b_in (s_body s y)) /\ s_con s' = s_con s.
Proof.
  induction n as [|n IH]; intros i s W L A LE.
  - simpl. destruct (nth_error _ i) eqn:E; [assert (nth_error (b_shapes (s_body s b)) i <> None) by congruence; apply nth_error_Some in H; lia|].
    exists s. split; auto. split; auto. split; auto. split; [apply incl_refl|]. split; [tauto|]. split; [|auto].
    replace (length (b_shapes (s_body s b)) - i) with 0 by lia. simpl. lia.
  - simpl remove_each. destruct (nth_error _ i) as [x|] eqn:E.
    + assert (XI := nth_error_In _ _ E). assert (V : valid (ORemoveShape x) s) by (split; auto).
      assert (LI : i < length (b_shapes (s_body s b))) by (apply nth_error_Some; congruence).
      assert (XB : sh_body (s_shape s x) = b) by (apply (is_b _ _ _ (w_p _ _ W)); auto).
      assert (ND := is_n _ _ _ (w_p _ _ W) b).
      destruct (remove_shape_ok s x W V) as [s1 [E1 [W1 [B1 [S1 [C1 H1]]]]]]. rewrite E1.
      assert (L1 := remove_shape_lock x s s1 W E1). rewrite L in L1.
      specialize (H1 b). rewrite XB, Nat.eqb_refl in H1.
      assert (LEN : length (b_shapes (s_body s1 b)) = pred (length (b_shapes (s_body s b)))) by (rewrite H1; apply swap_length; auto).
      assert (IN1 : forall y, In y (b_shapes (s_body s1 b)) <-> In y (b_shapes (s_body s b)) /\ y <> x) by (intros y; rewrite H1; apply swap_remove_spec; auto).
      assert (SC : forall y, contains_shape s1 y = true <-> contains_shape s y = true /\ y <> x).
      { intros y. unfold contains_shape. rewrite S1. destruct (Nat.eqb_spec x y) as [<-|D]; simpl; intuition congruence. }
      destruct (IH (S i) s1) as [s2 [E2 [W2 [L2 [I2 [S2 [N2 [B2 C2]]]]]]]]; auto.
      * intros y Y. apply IN1 in Y. apply SC. split; [apply A|]; tauto.
      * lia.
      * exists s2. split; auto. split; auto. split; auto. split; [intros y Y; apply I2, IN1 in Y; tauto|]. split; [|split; [|split; [intros; rewrite B2; auto|congruence]]].
        -- intros y. rewrite S2, SC. split.
           ++ intros [[P1 P2] P3]. split; auto. intros P4. apply P3, IN1. auto.
           ++ intros [P1 P2]. assert (YX : y <> x). { intros ->. apply P2, I2, IN1 in XI. tauto. } split; auto. intros P4. apply IN1 in P4. tauto.
        -- rewrite N2, LEN. destruct (length (b_shapes (s_body s b)) - i) as [|[|m]] eqn:EM.
           ++ lia.
           ++ replace (pred _ - S i) with 0 by lia. simpl. lia.
           ++ replace (pred _ - S i) with m by lia. assert (Nat.div2 (S m) <= S m) by apply Nat.div2_decr, Nat.le_succ_diag_r || (rewrite Nat.div2_div; apply Nat.div_le_upper_bound; lia).
              change (Nat.div2 (S (S (S m)))) with (S (Nat.div2 (S m))). lia.
    + apply nth_error_None in E. exists s. split; auto. split; auto. split; auto. split; [apply incl_refl|]. split; [tauto|]. split; [|auto].
      replace (length (b_shapes (s_body s b)) - i) with 0 by lia. simpl. lia.
Qed.
Lemma remove_with_shapes s b : reachable s -> s_lock s = 0%Z -> contains_body s b = true ->
  (forall x, In x (b_shapes (s_body s b)) -> contains_shape s x = true) ->
  exists s', remove_body_with_shapes b s = Some s' /\ contains_body s' b = false /\ (forall y, y <> b -> contains_body s' y = contains_body s y) /\
    incl (b_shapes (s_body s' b)) (b_shapes (s_body s b)) /\
    length (b_shapes (s_body s' b)) = Nat.div2 (length (b_shapes (s_body s b))) /\
    (forall x, contains_shape s' x = true <-> contains_shape s x = true /\ (In x (b_shapes (s_body s b)) -> In x (b_shapes (s_body s' b)))).
Proof.
  intros R L B A. pose proof (reachable_ok s R) as W. unfold remove_body_with_shapes.
  destruct (remove_each_ok b (length (b_shapes (s_body s b))) 0 s W L A) as [s1 [E1 [W1 [L1 [I1 [S1 [N1 [B1 C1]]]]]]]]; [lia|]. rewrite E1.
  unfold remove_body. destruct (body_activate_ok [] s1 b W1) as [s2 [E2 [W2 K]]]. rewrite E2.
  assert (C := k_core _ _ _ K).
  eexists. split; [reflexivity|].
  assert (BS : forall y, s_body (if is_type s2 b Static then set_lists s2 (s_dyn s2) (remove1 b (s_sta s2)) else set_lists s2 (remove1 b (s_dyn s2)) (s_sta s2)) y = s_body s2 y) by (intros; destruct (is_type s2 b Static); auto).
  split; [|split; [|split; [|split]]].
  - unfold contains_body. simpl. unfold upd. rewrite Nat.eqb_refl. reflexivity.
  - intros y Y. unfold contains_body. simpl. unfold upd. destruct (Nat.eqb_spec b y); [congruence|]. rewrite BS, <- (ce_in _ _ C). auto.
  - simpl. unfold upd. rewrite Nat.eqb_refl. simpl. rewrite BS, <- (ce_sh _ _ C). auto.
  - simpl. unfold upd. rewrite Nat.eqb_refl. simpl. rewrite BS, <- (ce_sh _ _ C), N1, Nat.sub_0_r. generalize (length (b_shapes (s_body s b))).
    assert (D : forall n, Nat.div2 n + Nat.div2 (S n) = n). { induction n as [|n IHn]; auto. change (Nat.div2 (S (S n))) with (S (Nat.div2 n)). lia. }
    intros n. specialize (D n). lia.
  - intros x. simpl. unfold upd. rewrite Nat.eqb_refl. simpl. rewrite BS, <- (ce_sh _ _ C), <- S1. unfold contains_shape. simpl.
    destruct (is_type s2 b Static); simpl; rewrite <- (ce_shape _ _ C); tauto.
Qed.
End Remove.

(** ** SetType, all together *)
Section Types.
Context {N : Num}.
Ltac brk := try discriminate; repeat match goal with
  | H : match ?x with _ => _ end = Some _ |- _ => destruct x eqn:?; try discriminate
  | H : Some _ = Some _ |- _ => inversion H; clear H; subst end.
Lemma space_activate_lock b s s' : space_activate b s = Some s' -> s_lock s' = s_lock s.
Proof. unfold space_activate. intros E. brk; auto. destruct (mem _ _); auto. Qed.
Lemma wake_loop_lock n : forall c s s', wake_loop n c s = Some s' -> s_lock s' = s_lock s.
Proof.
  induction n as [|n IH]; intros c s s' E; simpl in E; brk; auto. rewrite (IH _ _ _ E). apply space_activate_lock in Heqo0. exact Heqo0.
Qed.
Lemma reset_lock b s : s_lock (reset_idle b s) = s_lock s.
Proof. unfold reset_idle. destruct (is_type _ _ _); auto. Qed.
Lemma body_activate_lock' b s s' : body_activate b s = Some s' -> s_lock s' = s_lock s.
Proof.
  unfold body_activate. intros E. brk; auto; rewrite fold_lock; auto using reset_lock.
  all: match goal with H : wake_loop _ _ _ = Some _ |- _ => apply wake_loop_lock in H; exact H end.
Qed.
Lemma set_type_lock b t s s' : set_type b t s = Some s' -> s_lock s' = s_lock s.
Proof.
  unfold set_type. intros E.
  destruct (btype_eqb (ty s b) t); [congruence|]. destruct (negb (b_in _)); [inversion E; auto|]. destruct (negb (_ =? 0)%Z); [discriminate|].
  destruct (if btype_eqb (ty s b) Static then _ else _) eqn:A; [|discriminate].
  assert (H : s_lock s0 = s_lock s).
  { destruct (btype_eqb (ty s b) Static); [inversion A; auto|]. apply body_activate_lock' in A. exact A. }
  destruct (btype_eqb (ty s b) Static), (btype_eqb t Static); brk; simpl; auto.
Qed.
Lemma set_type_moves s b t : reachable s -> valid (OSetType b t) s -> contains_body s b = true -> exists s', sstep (OSetType b t) s = Some s' /\ reachable s' /\
  ty s' b = t /\ (In b (s_sta s') <-> t = Static) /\ (In b (s_dyn s') <-> t <> Static) /\
  (forall x, In x (b_shapes (s_body s b)) -> (In (sh_id (s_shape s x), x) (s_six s') <-> t = Static) /\ (In (sh_id (s_shape s x), x) (s_dix s') <-> t <> Static)) /\
  (forall y, y <> b -> ty s' y = ty s y /\ (In y (s_sta s') <-> In y (s_sta s)) /\ (In y (s_dyn s') <-> In y (s_dyn s))) /\
  (forall y, contains_body s' y = contains_body s y) /\ (forall x, contains_shape s' x = contains_shape s x) /\
  (forall c, contains_constraint s' c = contains_constraint s c) /\ (forall y, group s' y = group s y) /\
  (forall i x, sh_body (s_shape s x) <> b -> (In (i, x) (s_six s') <-> In (i, x) (s_six s)) /\ (In (i, x) (s_dix s') <-> In (i, x) (s_dix s))).
Proof.
  intros R V B. destruct (no_panic s (OSetType b t) R V) as [s' [E R']]. exists s'. split; auto. split; auto.
  destruct (set_type_spec s b t s' R V E) as [T [T' [C [S [K G]]]]].
  pose proof V as [L [SL [[[_ AS]|[X _]] _]]]; [|congruence].
  pose proof (reachable_ok s R) as W.
  assert (L' : s_lock s' = 0%Z) by (rewrite <- L; exact (set_type_lock b t s s' E)).
  assert (SE : forall y, is_sleeping s' y = is_sleeping s y) by (intros y; unfold is_sleeping; specialize (G y); unfold group in G; rewrite G; auto).
  split; auto.
  destruct (bodies_listed s' b R' L') as [_ [_ [BS [BD _]]]].
  split; [rewrite BS, C, T; tauto|]. split; [rewrite BD, C, T, SE; tauto|]. split.
  { intros x X. assert (XB : sh_body (s_shape s x) = b) by (apply (is_b _ _ _ (w_p _ _ W)); auto).
    destruct (shapes_listed s' x R' L') as [_ [_ [XS [XD _]]]]. rewrite XS, XD. unfold contains_shape. rewrite !S, XB, T, SE, SL. specialize (AS x X). unfold contains_shape in AS. rewrite AS. intuition congruence. }
  split.
  { intros y Y. destruct (bodies_listed s' y R' L') as [_ [_ [YS [YD _]]]], (bodies_listed s y R L) as [_ [_ [YS0 [YD0 _]]]].
    rewrite YS, YD, YS0, YD0, C, SE, (T' y Y). tauto. }
  split; auto. split; [intros; unfold contains_shape; rewrite S; auto|]. split; [intros; unfold contains_constraint; rewrite K; auto|]. split; auto.
  intros i x X. destruct (shapes_listed s' x R' L') as [_ [_ [XS [XD _]]]], (shapes_listed s x R L) as [_ [_ [XS0 [XD0 _]]]].
  rewrite XS, XD, XS0, XD0. unfold contains_shape. rewrite !S, SE, (T' _ X). tauto.
Qed.
End Types.
