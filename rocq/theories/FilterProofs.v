From stdpp Require Import base list numbers.
From Verif Require Import HashSet HashSetSpec HashSetProofs Filter.
Local Open Scope N_scope.

Lemma reject_sym a b : reject a b = reject b a.
Proof.
  unfold reject. rewrite (N.eqb_sym (fgroup b) (fgroup a)).
  rewrite <- !orb_assoc, (orb_comm (N.land (fcats b) (fmask a) =? 0)). f_equal.
  destruct (N.eqb_spec (fgroup a) (fgroup b)) as [->|E]; [done|]. by rewrite !andb_false_r.
Qed.
Lemma land_zero_iff x y : N.land x y = 0 <-> ∀ i, ¬ (N.testbit x i = true ∧ N.testbit y i = true).
Proof.
  split.
  - intros H i [h1 h2]. assert (N.testbit (N.land x y) i = false) as E by (rewrite H; apply N.bits_0).
    rewrite N.land_spec, h1, h2 in E. done.
  - intros H. apply N.bits_inj_0. intros i. rewrite N.land_spec.
    destruct (N.testbit x i) eqn:h1, (N.testbit y i) eqn:h2; try done. destruct (H i); done.
Qed.
Lemma land_nonzero_ex x y : N.land x y ≠ 0 <-> ∃ i, N.testbit x i = true ∧ N.testbit y i = true.
Proof.
  split.
  - intros H. exists (N.log2 (N.land x y)). pose proof (N.bit_log2 _ H) as E.
    rewrite N.land_spec in E. apply andb_prop in E. done.
  - intros [i Hi] E. rewrite land_zero_iff in E. by apply (E i).
Qed.
Lemma bits64 x i : is_w64 x -> N.testbit x i = true -> i < 64.
Proof.
  intros Hx Hi. destruct (N.ltb_spec i 64) as [|Hge]; [done|].
  destruct (decide (x = 0)) as [->|Hx0]; [by rewrite N.bits_0 in Hi|].
  rewrite N.bits_above_log2 in Hi; [done|].
  apply N.log2_lt_pow2; [lia|]. unfold is_w64, w64 in Hx.
  eapply N.lt_le_trans; [exact Hx|]. by apply N.pow_le_mono_r.
Qed.
Lemma accept_iff a b : is_w64 (fcats a) -> is_w64 (fcats b) -> 
  reject a b = false <->
  (fgroup a = 0 ∨ fgroup a ≠ fgroup b) ∧
  (∃ i, i < 64 ∧ N.testbit (fcats a) i = true ∧ N.testbit (fmask b) i = true) ∧
  (∃ i, i < 64 ∧ N.testbit (fcats b) i = true ∧ N.testbit (fmask a) i = true).
Proof.
  intros Ha Hb. unfold reject. rewrite !orb_false_iff, andb_false_iff, negb_false_iff, N.eqb_eq, !N.eqb_neq.
  rewrite !land_nonzero_ex. split.
  - intros [[Hg [i Hi]] [j Hj]]. split; [done|split].
    + exists i. split; [|done]. destruct Hi. by apply (bits64 (fcats a)).
    + exists j. split; [|done]. destruct Hj. by apply (bits64 (fcats b)).
  - intros (Hg & (i & _ & Hi) & (j & _ & Hj)). eauto.
Qed.
Lemma reject_same_group a b : fgroup a = fgroup b -> fgroup a ≠ 0 -> reject a b = true.
Proof. intros E H. unfold reject. rewrite E, N.eqb_refl. rewrite E in H. apply N.eqb_neq in H. by rewrite H. Qed.
Lemma land_allones x : is_w64 x -> N.land x allones = x.
Proof.
  intros H. change allones with (N.ones 64). rewrite N.land_ones. apply N.mod_small. done.
Qed.
Lemma reject_all f : is_w64 (fcats f) -> is_w64 (fmask f) ->
  reject filter_all f = false <-> fcats f ≠ 0 ∧ fmask f ≠ 0.
Proof.
  intros Hc Hm. unfold reject, filter_all. cbn [fgroup fcats fmask]. cbn [N.eqb negb andb orb].
  rewrite (N.land_comm allones), !land_allones by done. rewrite orb_false_iff, !N.eqb_neq. tauto.
Qed.
Lemma reject_none f : reject filter_none f = true.
Proof. unfold reject, filter_none. cbn. done. Qed.

Lemma hash_pair_sym a b : hash_pair a b = hash_pair b a.
Proof. unfold hash_pair. apply N.lxor_comm. Qed.

(** Scanning, hence every table operation, only depends on the equality predicate. *)
Section Ext.
Context {T U : Type} (eq : T -> U -> bool) (p q : T).
Hypothesis E : ∀ u, eq p u = eq q u.
Lemma scan_ext c : scan eq p c = scan eq q c.
Proof. induction c as [|b c IH]; simpl; [done|]. by rewrite E, IH. Qed.
Lemma find_ext s h : find eq s h p = find eq s h q.
Proof. unfold find. destruct (idx s h) as [i|]; [|done]. simpl. destruct (table s !! i); [|done]. simpl. by rewrite scan_ext. Qed.
Lemma unlink_ext c : unlink eq p c = unlink eq q c.
Proof. induction c as [|b c IH]; simpl; [done|]. by rewrite E, IH. Qed.
Lemma remove_ext s h : remove eq s h p = remove eq s h q.
Proof. unfold remove. destruct (idx s h) as [i|]; [|done]. simpl. destruct (table s !! i); [|done]. simpl. by rewrite unlink_ext. Qed.
End Ext.

Lemma handler_eq_swap a b i j h : handler_eq (Handler a b i) h = handler_eq (Handler b a j) h.
Proof. unfold handler_eq. cbn. destruct (a =? htypeA h), (b =? htypeB h), (b =? htypeA h), (a =? htypeB h); done. Qed.
Lemma arb_eq_swap a b h : arbiter_set_eql (a, b) h = arbiter_set_eql (b, a) h.
Proof. unfold arbiter_set_eql. cbn. apply orb_comm. Qed.

Lemma lookup_swap s a b d : lookup_handler s a b d = lookup_handler s b a d.
Proof.
  unfold lookup_handler. rewrite (hash_pair_sym a b). erewrite find_ext; [done|].
  intros u. apply handler_eq_swap.
Qed.
Lemma uncache_swap s a b : uncache_arbiter s a b = uncache_arbiter s b a.
Proof.
  unfold uncache_arbiter. rewrite (hash_pair_sym a b). erewrite remove_ext; [done|].
  intros u. apply arb_eq_swap.
Qed.

(** Unordered pairs as keys. *)
Definition upair (a b : N) : N * N := (N.min a b, N.max a b).
Lemma upair_eq a b c d : upair a b = upair c d <-> (a = c ∧ b = d) ∨ (a = d ∧ b = c).
Proof.
  unfold upair. split.
  - intros [= H1 H2]. lia.
  - intros [[-> ->]|[-> ->]]; [done|]. f_equal; lia.
Qed.
Definition hkey (h : handler) := upair (htypeA h) (htypeB h).
Definition akey (h : arbkey) := upair (akA h) (akB h).
Lemma handler_eq_key p u : handler_eq p u = bool_decide (hkey p = hkey u).
Proof.
  apply eq_true_iff_eq. rewrite bool_decide_eq_true. unfold hkey. rewrite upair_eq. unfold handler_eq.
  destruct (N.eqb_spec (htypeA p) (htypeA u)), (N.eqb_spec (htypeB p) (htypeB u)), (N.eqb_spec (htypeB p) (htypeA u)), (N.eqb_spec (htypeA p) (htypeB u)); simpl; split; intros; try done; try tauto; lia.
Qed.
Lemma arb_eq_key p u : arbiter_set_eql p u = bool_decide (upair p.1 p.2 = akey u).
Proof.
  apply eq_true_iff_eq. rewrite bool_decide_eq_true. unfold akey. rewrite upair_eq. unfold arbiter_set_eql.
  rewrite orb_true_iff, !andb_true_iff, !N.eqb_eq. tauto.
Qed.
Definition hk (k : N * N) : N := hash_pair k.1 k.2.
Lemma hk_upair a b : hash_pair a b = hk (upair a b).
Proof.
  unfold hk, upair; cbn.
  destruct (N.min_spec a b) as [[? ->]|[? ->]], (N.max_spec a b) as [[? ->]|[? ->]]; try lia; try done.
  apply hash_pair_sym.
Qed.

(** Histories of registrations. *)
Definition reg_op (r : handler) : op handler handler := OpInsert (hash_pair (htypeA r) (htypeB r)) r r.
Lemma register_run s regs s' : register s regs = Some s' ->
  ∃ outs, run handler_eq s (reg_op <$> regs) = Some (s', outs).
Proof.
  revert s. induction regs as [|[a b i] regs IH]; intros s; simpl.
  - intros [= ->]. eauto.
  - unfold add_handler. cbn [htypeA htypeB hid].
    assert (∀ s h p, insert handler_eq s h p (λ h, h) = insert handler_eq s h p (λ _, p)) as -> by done.
    destruct (insert _ _ _ _ _) as [[s1 u]|]; [|done]. simpl.
    intros H. destruct (IH _ H) as [outs E]. exists (OutElt u :: outs).
    unfold fmap in E. rewrite E. done.
Qed.
Lemma reg_ops_ok regs : Forall (op_ok hkey hkey hk) (reg_op <$> regs).
Proof. apply Forall_fmap, Forall_forall. intros r _. simpl. split; [|done]. apply hk_upair. Qed.

Lemma arun_regs regs : ∀ m outs m', arun hkey hkey m (reg_op <$> regs) outs m' ->
  ∀ k, m' k = match m k with Some u => Some u | None => List.find (λ r, bool_decide (hkey r = k)) regs end.
Proof.
  induction regs as [|r regs IH]; simpl; intros m outs m' H k.
  - inversion H; subst. by destruct (m' k).
  - inversion H as [|? m1 ? ? ? ? ? H1 H2]; subst. rewrite (IH _ _ _ H2). clear IH H2.
    inversion H1 as [? ? ? u Hu|? ? ? ? Hn Hm'| | | | |]; subst.
    + destruct (m1 k) eqn:E; [done|]. case_bool_decide as D; [|done]. subst. congruence.
    + rewrite Hm'. case_decide as D.
      * subst k. rewrite Hn. rewrite bool_decide_true by done. done.
      * destruct (m k); [done|]. rewrite bool_decide_false by congruence. done.
Qed.

Lemma lookup_first s0 regs s a b d : new_hset = Some s0 -> register s0 regs = Some s ->
  lookup_handler s a b d = Some (default d (List.find (λ r, bool_decide (hkey r = upair a b)) regs)).
Proof.
  intros H0 Hr. destruct (register_run _ _ _ Hr) as [outs Hrun].
  destruct (run_ok handler_eq hkey hkey hk handler_eq_key s0 _ _ (new_Rel hkey hk s0 H0) (reg_ops_ok regs) s outs Hrun) as (m & Ha & HR).
  pose proof (arun_regs _ _ _ _ Ha (upair a b)) as Hm. simpl in Hm. rewrite <- Hm.
  destruct (scan_Rel handler_eq hkey hkey hk handler_eq_key s m (Handler a b 0) HR) as (c & Hi & Hc & Hs).
  change (hkey (Handler a b 0)) with (upair a b) in Hi, Hc, Hs.
  unfold lookup_handler, find. rewrite hk_upair, Hi. cbn [mbind option_bind].
  rewrite Hc. cbn [mbind option_bind]. by rewrite Hs.
Qed.

Lemma find_first_spec {A} (f : A -> bool) l :
  match List.find f l with
  | Some r => ∃ pre post, l = pre ++ r :: post ∧ f r = true ∧ ∀ x, x ∈ pre -> f x = false
  | None => ∀ x, x ∈ l -> f x = false
  end.
Proof.
  induction l as [|x l IH]; simpl.
  - intros x Hx. by apply elem_of_nil in Hx.
  - destruct (f x) eqn:E.
    + exists [], l. split; [done|split; [done|]]. intros y Hy. by apply elem_of_nil in Hy.
    + destruct (List.find f l) as [r|].
      * destruct IH as (pre & post & -> & Hr & Hpre). exists (x :: pre), post. split; [done|split; [done|]].
        intros y Hy. apply elem_of_cons in Hy as [->|Hy]; auto.
      * intros y Hy. apply elem_of_cons in Hy as [->|Hy]; auto.
Qed.

Definition same_types (a b : N) (h : handler) : Prop :=
  (htypeA h = a ∧ htypeB h = b) ∨ (htypeA h = b ∧ htypeB h = a).
Lemma key_types h a b : bool_decide (hkey h = upair a b) = true <-> same_types a b h.
Proof. rewrite bool_decide_eq_true. unfold hkey, same_types. rewrite upair_eq. tauto. Qed.

Lemma lookup_spec s0 regs s a b d : new_hset = Some s0 -> register s0 regs = Some s ->
  ∃ h, lookup_handler s a b d = Some h ∧ lookup_handler s b a d = Some h ∧
  ((∃ pre post, regs = pre ++ h :: post ∧ same_types a b h ∧ ∀ x, x ∈ pre -> ¬ same_types a b x)
   ∨ (h = d ∧ ∀ x, x ∈ regs -> ¬ same_types a b x)).
Proof.
  intros H0 Hr. pose proof (lookup_first s0 regs s a b d H0 Hr) as E.
  eexists. split; [exact E|]. split; [by rewrite lookup_swap|].
  pose proof (find_first_spec (λ r, bool_decide (hkey r = upair a b)) regs) as F.
  destruct (List.find _ regs) as [r|]; simpl.
  - left. destruct F as (pre & post & -> & Hr' & Hpre). exists pre, post. split; [done|]. split; [by apply key_types|].
    intros x Hx Hs. apply key_types in Hs. rewrite (Hpre x Hx) in Hs. done.
  - right. split; [done|]. intros x Hx Hs. apply key_types in Hs. rewrite (F x Hx) in Hs. done.
Qed.

(** The arbiter cache: asking for (a,b) then (b,a) yields the same arbiter. *)
Definition arb_op (a b id : N) : op (N * N) arbkey := OpInsert (hash_pair a b) (a, b) (ArbKey a b id).
Lemma cache_step s a b id : 
  step arbiter_set_eql s (arb_op a b id) =
  match cache_arbiter s a b id with Some (s', u) => Some (s', OutElt u) | None => None end.
Proof.
  unfold cache_arbiter, step, arb_op, insert. destruct (idx s (hash_pair a b)); [|done]. simpl.
  destruct (table s !! n); [|done]. simpl. destruct (scan _ _ _); [done|].
  destruct (push_bin _ _ _); [|done]. simpl. destruct (_ <=? _); [|done]. by destruct (resize _).
Qed.
Definition akeyT (p : N * N) := upair p.1 p.2.
Lemma arb_op_ok a b id : op_ok akeyT akey hk (arb_op a b id).
Proof. simpl. split; [|done]. apply hk_upair. Qed.

Lemma cache_swap s m a b i j s1 u1 : Rel akey hk s m ->
  cache_arbiter s a b i = Some (s1, u1) -> cache_arbiter s1 b a j = Some (s1, u1) ∧ cache_arbiter s1 a b j = Some (s1, u1).
Proof.
  intros HR H1.
  pose proof (step_ok arbiter_set_eql akeyT akey hk arb_eq_key s m (arb_op a b i) HR (arb_op_ok a b i)) as S1.
  rewrite cache_step, H1 in S1. destruct S1 as (m1 & A1 & R1).
  assert (m1 (upair a b) = Some u1) as Hm1.
  { inversion A1 as [? ? ? u Hu|? ? ? ? Hn Hm'| | | | |]; subst; [done|]. rewrite Hm'. by rewrite decide_True. }
  assert (∀ x y, upair x y = upair a b -> cache_arbiter s1 x y j = Some (s1, u1)) as Hx.
  { intros x y E. unfold cache_arbiter, insert.
    destruct (scan_Rel arbiter_set_eql akeyT akey hk arb_eq_key s1 m1 (x, y) R1) as (c & Hi & Hc & Hs).
    unfold akeyT in Hi, Hc, Hs; cbn [fst snd] in Hi, Hc, Hs.
    rewrite hk_upair, Hi. simpl. rewrite Hc. simpl. rewrite E, Hm1 in Hs.
    destruct (scan _ _ _) as [b'|]; [|done]. simpl in Hs. by injection Hs as ->. }
  split; apply Hx; [|done]. apply upair_eq; auto.
Qed.
Lemma cache_swap_reach s0 s (ops : list (op (N * N) arbkey)) outs a b i j s1 u1 :
  new_hset = Some s0 -> Forall (op_ok akeyT akey hk) ops -> run arbiter_set_eql s0 ops = Some (s, outs) ->
  cache_arbiter s a b i = Some (s1, u1) ->
  cache_arbiter s1 b a j = Some (s1, u1) ∧ cache_arbiter s1 a b j = Some (s1, u1).
Proof.
  intros H0 Hok Hr. 
  destruct (run_ok arbiter_set_eql akeyT akey hk arb_eq_key s0 _ ops (new_Rel akey hk s0 H0) Hok s outs Hr) as (m & _ & HR).
  by apply (cache_swap s m).
Qed.
