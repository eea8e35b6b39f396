From stdpp Require Import base list numbers.
From Verif Require Import HashSet HashSetSpec HashSetProofs Filter FilterProofs Dispatch DispatchSpec.
Local Open Scope N_scope.

Lemma for_types_key a b h : for_types a b h = bool_decide (hkey h = upair a b).
Proof.
  apply eq_true_iff_eq. rewrite key_types. unfold for_types, same_types. rewrite orb_true_iff, !andb_true_iff, !N.eqb_eq. tauto.
Qed.
Lemma find_ext_list {A} (f g : A -> bool) l : (∀ x, f x = g x) -> List.find f l = List.find g l.
Proof. intros H. induction l as [|x l IH]; simpl; [done|]. by rewrite H, IH. Qed.
Lemma lookup_chosen s0 regs s a b d : new_hset = Some s0 -> register s0 regs = Some s ->
  lookup_handler s a b d = Some (chosen regs a b d).
Proof.
  intros H0 Hr. rewrite (lookup_first _ _ _ _ _ _ H0 Hr). unfold chosen. do 2 f_equal. apply find_ext_list. intros x. by rewrite for_types_key.
Qed.
Lemma chosen_sym regs a b d : chosen regs a b d = chosen regs b a d.
Proof. unfold chosen. f_equal. apply find_ext_list. intros x. unfold for_types. by rewrite orb_comm. Qed.
Lemma chosen_cases regs a b d :
  (chosen regs a b d ∈ regs ∧ for_types a b (chosen regs a b d) = true) ∨ (chosen regs a b d = d ∧ List.find (for_types a b) regs = None).
Proof.
  unfold chosen. destruct (List.find _ regs) as [h|] eqn:E; simpl; [left|by right].
  apply find_some in E. rewrite elem_of_list_In. done.
Qed.

Lemma dispatch_ok s0 regs s wild ty a b oA oB :
  new_hset = Some s0 -> register s0 regs = Some s -> (∀ h, h ∈ regs -> 2 <= hid h) -> ty a ≠ wildcard -> ty b ≠ wildcard ->
  ∃ d, update_handlers (HSpace s wild) ty a b oA oB = Some d ∧
    d_main d = chosen regs (ty a) (ty b) (if wild then default_handler else do_nothing) ∧
    (shapes_of d = (a, b) ∨ shapes_of d = (b, a)) ∧
    (d_main d ∈ regs -> ty (fst (shapes_of d)) = htypeA (d_main d) ∧ ty (snd (shapes_of d)) = htypeB (d_main d)) ∧
    (d_main d ∉ regs -> shapes_of d = (a, b)) ∧
    (wild = true ∨ d_main d ∈ regs ->
       d_hA d = chosen regs (ty (fst (shapes_of d))) wildcard do_nothing ∧
       d_hB d = chosen regs (ty (snd (shapes_of d))) wildcard do_nothing).
Proof.
  intros H0 Hr Hid Na Nb. unfold update_handlers. cbn [hs_set hs_wild].
  change (hs_default (HSpace s wild)) with (if wild then default_handler else do_nothing).
  rewrite (lookup_chosen s0 regs s (ty a) (ty b) _ H0 Hr). cbn [mbind option_bind].
  set (dflt := if wild then default_handler else do_nothing). set (h := chosen regs (ty a) (ty b) dflt).
  assert (C : (h ∈ regs ∧ ((htypeA h = ty a ∧ htypeB h = ty b) ∨ (htypeA h = ty b ∧ htypeB h = ty a))) ∨ (h = dflt ∧ h ∉ regs)).
  { destruct (chosen_cases regs (ty a) (ty b) dflt) as [[C1 C2]|[C1 C2]]; fold h in C1; [left; fold h in C2|right].
    - split; [done|]. unfold for_types in C2. rewrite orb_true_iff, !andb_true_iff, !N.eqb_eq in C2. done.
    - split; [done|]. rewrite C1. intros I. specialize (Hid _ I). unfold dflt in Hid. destruct wild; simpl in Hid; lia. }
  assert (LA : ∀ t, lookup_handler s t wildcard do_nothing = Some (chosen regs t wildcard do_nothing)) by (intros; by apply (lookup_chosen s0)).
  rewrite !LA. cbn [mbind option_bind].
  assert (DW : htypeA dflt = wildcard) by (unfold dflt; by destruct wild).
  destruct C as [[Hin Ht]|[Hd Hn]].
  - assert (Hne : hid h =? hid dflt = false).
    { apply N.eqb_neq. specialize (Hid _ Hin). unfold dflt. destruct wild; simpl; lia. }
    rewrite Hne. cbn [negb orb].
    assert (Hw : htypeA h =? wildcard = false) by (apply N.eqb_neq; destruct Ht as [[-> _]|[-> _]]; done).
    rewrite Hw. rewrite andb_true_r.
    destruct (N.eqb_spec (ty a) (htypeA h)) as [E|E]; cbn [negb]; eexists; (split; [reflexivity|]); cbn; (split; [done|]).
    + split; [by left|]. split; [|split; [done|done]]. intros _. split; [done|]. destruct Ht as [[? ?]|[? ?]]; congruence.
    + split; [by right|]. split; [|split; [done|done]]. intros _. destruct Ht as [[? ?]|[? ?]]; split; congruence.
  - rewrite Hd, DW, !N.eqb_refl. cbn [negb orb]. rewrite andb_false_r.
    destruct wild; eexists; (split; [reflexivity|]); cbn; (split; [done|]); (split; [by left|]); rewrite <- Hd.
    + split; [done|]. split; [done|]. done.
    + split; [done|]. split; [done|]. intros [?|?]; done.
Qed.

Lemma invoke_plain fuel prog w h d : func_of prog h w ≠ FDefault ->
  invoke fuel prog w h d = Some (wild_calls prog w h (fst (shapes_of d)) (snd (shapes_of d)), wild_result prog w h).
Proof. intros N. unfold wild_calls, wild_result. destruct fuel; cbn; destruct (func_of prog h w); done. Qed.
Lemma shapes_flip d : shapes_of (flip d) = (snd (shapes_of d), fst (shapes_of d)).
Proof. unfold shapes_of, flip. cbn. by destruct (d_swapped d). Qed.
Lemma dispatch_user fuel prog w d r : func_of prog (d_main d) w = FUser r ->
  dispatch fuel prog w d = Some ([Call (hid (d_main d)) w (fst (shapes_of d)) (snd (shapes_of d))], r).
Proof. intros E. unfold dispatch. rewrite invoke_plain by congruence. unfold wild_calls, wild_result. by rewrite E. Qed.
Lemma dispatch_default fuel prog w d : func_of prog (d_main d) w = FDefault ->
  func_of prog (d_hA d) w ≠ FDefault -> func_of prog (d_hB d) w ≠ FDefault ->
  let x := fst (shapes_of d) in let y := snd (shapes_of d) in
  dispatch (S fuel) prog w d =
  Some (wild_calls prog w (d_hA d) x y ++ (if may_refuse w && negb (wild_result prog w (d_hA d)) then [] else wild_calls prog w (d_hB d) y x),
        if may_refuse w && negb (wild_result prog w (d_hA d)) then false else wild_result prog w (d_hB d)).
Proof.
  intros E NA NB x y. unfold dispatch. cbn [invoke]. rewrite E, (invoke_plain _ _ _ _ _ NA). cbn [mbind option_bind].
  rewrite (invoke_plain _ _ _ _ _ NB), shapes_flip. cbn [fst snd mbind option_bind]. fold x y.
  destruct w, (wild_result prog _ (d_hA d)); cbn; by rewrite ?app_nil_r.
Qed.

Lemma reregister s0 regs s a b id : new_hset = Some s0 -> register s0 regs = Some s ->
  (∃ h, h ∈ regs ∧ for_types a b h = true) -> add_handler s a b id = Some (s, chosen regs a b (Handler a b id)).
Proof.
  intros H0 Hr (h & Hin & Hf).
  pose proof (lookup_first s0 regs s a b (Handler a b id) H0 Hr) as L.
  destruct (register_run _ _ _ Hr) as [outs Hrun].
  destruct (run_ok handler_eq hkey hkey hk handler_eq_key s0 _ _ (new_Rel hkey hk s0 H0) (reg_ops_ok regs) s outs Hrun) as (m & Ha & HR).
  pose proof (arun_regs _ _ _ _ Ha (upair a b)) as Hm. simpl in Hm.
  destruct (scan_Rel handler_eq hkey hkey hk handler_eq_key s m (Handler a b id) HR) as (c & Hi & Hc & Hs).
  change (hkey (Handler a b id)) with (upair a b) in Hi, Hc, Hs.
  assert (EF : List.find (λ r, bool_decide (hkey r = upair a b)) regs = List.find (for_types a b) regs) by (apply find_ext_list; intros; by rewrite for_types_key).
  rewrite EF in Hm. unfold chosen.
  destruct (List.find (for_types a b) regs) as [u|] eqn:F.
  - unfold add_handler, insert. rewrite hk_upair, Hi. cbn [mbind option_bind]. rewrite Hc. cbn [mbind option_bind].
    rewrite Hm in Hs. destruct (scan handler_eq (Handler a b id) c) as [bn|]; simpl in Hs; [|done]. injection Hs as ->. done.
  - exfalso. apply elem_of_list_In in Hin. pose proof (find_none _ _ F h Hin). congruence.
Qed.

(** A handler for (t, wildcard) made with AddCollisionHandler has DefaultBegin as its begin function, which calls the wildcard
    handler of type t: itself. *)
Definition rec_prog : N -> what -> func := λ _ _, FDefault.
Lemma invoke_self fuel prog w h d : func_of prog h w = FDefault -> d_hA d = h -> invoke fuel prog w h d = None.
Proof. intros E A. induction fuel as [|fuel IH]; cbn; rewrite E; [done|]. by rewrite A, IH. Qed.
Lemma wildcard_recursion : ∃ regs s0 s d, new_hset = Some s0 ∧ register s0 regs = Some s ∧ (∀ h, h ∈ regs -> 2 <= hid h) ∧
  update_handlers (HSpace s true) (λ _, 5) 10 11 do_nothing do_nothing = Some d ∧ ∀ fuel w, dispatch fuel rec_prog w d = None.
Proof.
  exists [Handler 5 wildcard 2].
  destruct new_hset as [s0|] eqn:E0; [|vm_compute in E0; discriminate].
  exists s0. destruct (register s0 [Handler 5 wildcard 2]) as [s|] eqn:E1; [|exfalso; revert E1; vm_compute in E0; injection E0 as <-; vm_compute; discriminate].
  exists s. destruct (dispatch_ok s0 _ s true (λ _, 5) 10 11 do_nothing do_nothing E0 E1) as (d & U & M & _ & _ & SH & W); [|done|done|].
  { intros h Hh. apply elem_of_list_singleton in Hh. by subst h. }
  exists d. split; [done|]. split; [done|]. split. { intros h Hh. apply elem_of_list_singleton in Hh. by subst h. }
  split; [done|]. destruct W as [WA _]; [by left|]. unfold chosen in *. cbn in M, WA.
  assert (ME : d_main d = default_handler) by exact M. assert (AE : d_hA d = Handler 5 wildcard 2) by exact WA.
  intros fuel w. unfold dispatch. rewrite ME. destruct fuel; cbn [invoke func_of default_handler hid]; [done|].
  cbn. rewrite (invoke_self fuel rec_prog w (d_hA d) d); [done| |done]. rewrite AE. done.
Qed.
Lemma dispatch_terminates fuel prog w d :
  func_of prog (d_hA d) w ≠ FDefault -> func_of prog (d_hB d) w ≠ FDefault -> dispatch (S fuel) prog w d ≠ None.
Proof.
  intros A B. destruct (func_of prog (d_main d) w) as [| |r] eqn:E.
  - unfold dispatch. rewrite invoke_plain by congruence. done.
  - rewrite dispatch_default by done. done.
  - rewrite (dispatch_user _ _ _ _ r E). done.
Qed.
