From stdpp Require Import base list numbers.
From Verif Require Import HashSet HashSetSpec.
#[local] Arguments next_prime : simpl never.
#[local] Arguments resize : simpl never.

Lemma next_prime_from_spec ps n p : next_prime_from ps n = Some p -> p ∈ ps ∧ (n <= p)%N.
Proof.
  induction ps as [|q ps IH]; cbn; [done|]. destruct (N.ltb_spec q n).
  - intros Hp. apply IH in Hp as [? ?]. split; [now right|done].
  - intros [= <-]. split; [left|done].
Qed.
Lemma next_prime_ge n p : next_prime n = Some p -> p ∈ primes ∧ (n <= p)%N.
Proof. apply next_prime_from_spec. Qed.
Lemma next_prime_some n : (n <= 1610612741)%N -> next_prime n ≠ None.
Proof.
  intros Hn. unfold next_prime.
  assert (G : ∀ ps, 1610612741%N ∈ ps -> next_prime_from ps n ≠ None).
  { induction ps as [|q ps IH]; cbn; [intros H; now apply elem_of_nil in H|].
    destruct (N.ltb_spec q n); [|done]. intros H0. apply IH. apply elem_of_cons in H0 as [H0|H0]; [lia|done]. }
  apply G. unfold primes. repeat (apply elem_of_cons; first [left; reflexivity|right]).
Qed.

Lemma concat_insert_lookup {A} (t : list (list A)) i c c' :
  t !! i = Some c -> ∃ l1 l2, concat t = l1 ++ c ++ l2 ∧ concat (<[i:=c']> t) = l1 ++ c' ++ l2.
Proof.
  intros Hi. exists (concat (take i t)), (concat (drop (S i) t)).
  pose proof (lookup_lt_Some _ _ _ Hi) as Hlt.
  split.
  - rewrite <- (take_drop_middle t i c Hi) at 1. rewrite concat_app. done.
  - rewrite insert_take_drop by done. rewrite concat_app. done.
Qed.

Lemma each_table_concat {U} (t : list (list (bin U))) : each_table t = elt <$> concat t.
Proof. induction t as [|c t IH]; cbn; [done|]. rewrite IH, fmap_app. done. Qed.

Section Proofs.
Context {T U K : Type} `{EqDecision K} (isEqual : T -> U -> bool).
Context (keyT : T -> K) (keyU : U -> K) (hk : K -> N).
Context (isEqual_key : ∀ p u, isEqual p u = bool_decide (keyT p = keyU u)).

Notation key b := (keyU (elt b)).
Notation placed n i b := (bhash b = hk (key b) ∧ N.to_nat (bhash b `mod` n) = i).

Definition tab_ok (n : N) (t : list (list (bin U))) : Prop :=
  length t = N.to_nat n ∧ (∀ i c b, t !! i = Some c -> b ∈ c -> placed n i b).

Record Inv (s : hset U) : Prop := {
  inv_prime : size s ∈ primes;
  inv_pos : size s ≠ 0%N;
  inv_tab : tab_ok (size s) (table s);
  inv_count : entries s = N.of_nat (length (concat (table s)));
  inv_load : (entries s < size s)%N;
  inv_nodup : NoDup ((fun b => key b) <$> concat (table s)) }.

Definition Rel (s : hset U) (m : amap) : Prop :=
  Inv s ∧ ∀ k u, m k = Some u <-> (∃ b, b ∈ concat (table s) ∧ elt b = u ∧ key b = k).

Lemma push_ok n t i b : tab_ok n t -> n ≠ 0%N -> placed n i b ->
  ∃ t', push_bin t i b = Some t' ∧ tab_ok n t' ∧ concat t' ≡ₚ b :: concat t.
Proof.
  intros [Hl Hp] Hn [Hb Hi]. unfold push_bin.
  assert (i < length t) as Hlt. { rewrite Hl, <- Hi. pose proof (N.mod_upper_bound (bhash b) n Hn). lia. }
  apply lookup_lt_is_Some_2 in Hlt as [c Hc]. rewrite Hc. cbn. eexists. split; [done|]. split; [split|].
  - now rewrite insert_length.
  - intros j c' b' Hj Hb'. destruct (decide (j = i)) as [->|Hne].
    + rewrite list_lookup_insert in Hj by (now apply lookup_lt_Some in Hc). injection Hj as <-.
      apply elem_of_cons in Hb' as [->|Hb']; [done|]. eapply Hp; eauto.
    + rewrite list_lookup_insert_ne in Hj by done. eapply Hp; eauto.
  - destruct (concat_insert_lookup t i c (b :: c) Hc) as [l1 [l2 [-> ->]]].
    cbn. now rewrite <- Permutation_middle.
Qed.

Lemma move_chain_ok n c t : tab_ok n t -> n ≠ 0%N -> (∀ b, b ∈ c -> bhash b = hk (key b)) ->
  ∃ t', move_chain n c t = Some t' ∧ tab_ok n t' ∧ concat t' ≡ₚ c ++ concat t.
Proof.
  revert t. induction c as [|b c IH]; intros t Ht Hn Hc; cbn; [eauto|].
  destruct (push_ok n t (N.to_nat (bhash b `mod` n)) b) as [t1 [E1 [Ht1 P1]]]; auto.
  { split; [apply Hc; left|done]. }
  rewrite E1. cbn. destruct (IH t1) as [t2 [E2 [Ht2 P2]]]; auto. { intros; apply Hc; now right. }
  rewrite E2. eexists. split; [done|]. split; [done|]. rewrite P2, P1. cbn. now rewrite <- Permutation_middle.
Qed.
Lemma move_table_ok n old t : tab_ok n t -> n ≠ 0%N -> (∀ b, b ∈ concat old -> bhash b = hk (key b)) ->
  ∃ t', move_table n old t = Some t' ∧ tab_ok n t' ∧ concat t' ≡ₚ concat old ++ concat t.
Proof.
  revert t. induction old as [|c old IH]; intros t Ht Hn Hc; cbn; [eauto|].
  destruct (move_chain_ok n c t) as [t1 [E1 [Ht1 P1]]]; auto. { intros; apply Hc; cbn; apply elem_of_app; auto. }
  rewrite E1. cbn. destruct (IH t1) as [t2 [E2 [Ht2 P2]]]; auto. { intros; apply Hc; cbn; apply elem_of_app; auto. }
  rewrite E2. eexists. split; [done|]. split; [done|]. rewrite P2, P1. solve_Permutation || (rewrite !app_assoc; apply Permutation_app_tail, Permutation_app_comm).
Qed.

Lemma concat_replicate_nil {A} n : concat (replicate n ([] : list A)) = [].
Proof. induction n; cbn; auto. Qed.
Lemma tab_ok_empty n : tab_ok n (replicate (N.to_nat n) []).
Proof.
  split; [apply replicate_length|]. intros i c b Hi Hb. apply lookup_replicate in Hi as [-> _]. now apply elem_of_nil in Hb.
Qed.

Lemma tab_hash n t b : tab_ok n t -> b ∈ concat t -> bhash b = hk (key b).
Proof.
  intros [_ Hp] Hb. rewrite elem_of_list_In in Hb. apply in_concat in Hb as [c [Hc Hb]].
  apply elem_of_list_In in Hc, Hb. apply elem_of_list_lookup in Hc as [i Hi]. eapply Hp; eauto.
Qed.

Lemma primes_pos p : p ∈ primes -> (0 < p)%N ∨ p = 0%N.
Proof. destruct p; [by right|by left]. Qed.

Lemma resize_ok s : size s ∈ primes -> size s ≠ 0%N -> tab_ok (size s) (table s) ->
  entries s = N.of_nat (length (concat (table s))) -> (entries s <= size s)%N ->
  NoDup ((fun b => key b) <$> concat (table s)) ->
  match resize s with
  | None => (1610612741 <= size s)%N
  | Some s' => Inv s' ∧ concat (table s') ≡ₚ concat (table s)
  end.
Proof.
  intros Hpr Hpos Ht Hc Hle Hnd. unfold resize.
  destruct (next_prime (size s + 1)) as [n|] eqn:En; cbn.
  2:{ destruct (N.le_gt_cases (size s + 1) 1610612741) as [H0|H0]; [|lia]. now apply next_prime_some in H0. }
  apply next_prime_ge in En as [Hin Hge].
  destruct (move_table_ok n (table s) (replicate (N.to_nat n) [])) as [t [E [Ht' P]]].
  { apply tab_ok_empty. } { lia. } { intros; eapply tab_hash; eauto. }
  rewrite E. cbn. rewrite concat_replicate_nil, app_nil_r in P. split; [|done].
  split; cbn; auto; try lia.
  - now rewrite P.
  - rewrite P. done.
Qed.

Lemma idx_ok s h : Inv s -> ∃ c, idx s h = Some (N.to_nat (h `mod` size s)) ∧ table s !! N.to_nat (h `mod` size s) = Some c.
Proof.
  intros HI. unfold idx. destruct (N.eqb_spec (size s) 0) as [E|E]; [now apply inv_pos in HI|].
  destruct (inv_tab s HI) as [Hl _].
  assert (N.to_nat (h `mod` size s) < length (table s)) as Hlt.
  { rewrite Hl. pose proof (N.mod_upper_bound h _ E). lia. }
  apply lookup_lt_is_Some_2 in Hlt as [c Hc]. eauto.
Qed.

Lemma scan_some p c b : scan isEqual p c = Some b -> b ∈ c ∧ key b = keyT p.
Proof.
  induction c as [|x c IH]; cbn; [done|]. rewrite isEqual_key. case_bool_decide as D.
  - intros [= ->]. split; [left|done].
  - intros E. apply IH in E as [? ?]. split; [now right|done].
Qed.
Lemma scan_none p c b : scan isEqual p c = None -> b ∈ c -> key b ≠ keyT p.
Proof.
  induction c as [|x c IH]; cbn; intros E Hb; [now apply elem_of_nil in Hb|].
  rewrite isEqual_key in E. case_bool_decide as D; [done|].
  apply elem_of_cons in Hb as [->|Hb]; auto.
Qed.

(** A bin with the sought key can only be in the chain that is scanned. *)
Lemma in_chain s p c b : Inv s -> table s !! N.to_nat (hk (keyT p) `mod` size s) = Some c ->
  b ∈ concat (table s) -> key b = keyT p -> b ∈ c.
Proof.
  intros HI Hc Hb Hk. rewrite elem_of_list_In in Hb. apply in_concat in Hb as [c' [Hc' Hb]].
  apply elem_of_list_In in Hc', Hb. apply elem_of_list_lookup in Hc' as [i Hi].
  destruct (inv_tab s HI) as [_ Hp]. destruct (Hp _ _ _ Hi Hb) as [Hh Hidx].
  rewrite Hh, Hk in Hidx. subst i. rewrite Hc in Hi. injection Hi as <-. done.
Qed.
Lemma chain_in (t : list (list (bin U))) i c b : t !! i = Some c -> b ∈ c -> b ∈ concat t.
Proof.
  intros Hi Hb. rewrite elem_of_list_In. apply in_concat. exists c. rewrite <- !elem_of_list_In. split; [|done].
  eapply elem_of_list_lookup_2; eauto.
Qed.

Lemma key_inj s b b' : Inv s -> b ∈ concat (table s) -> b' ∈ concat (table s) -> key b = key b' -> b = b'.
Proof.
  intros HI Hb Hb' E. pose proof (inv_nodup s HI) as ND.
  apply elem_of_list_lookup in Hb as [i Hi]. apply elem_of_list_lookup in Hb' as [j Hj].
  assert (i = j). { eapply NoDup_lookup; [exact ND| |]; rewrite list_lookup_fmap; [rewrite Hi|rewrite Hj]; cbn; [reflexivity|congruence]. }
  subst. congruence.
Qed.

Lemma scan_Rel s m p : Rel s m ->
  ∃ c, idx s (hk (keyT p)) = Some (N.to_nat (hk (keyT p) `mod` size s)) ∧
       table s !! N.to_nat (hk (keyT p) `mod` size s) = Some c ∧ (elt <$> scan isEqual p c) = m (keyT p).
Proof.
  intros [HI Hm]. destruct (idx_ok s (hk (keyT p)) HI) as [c [Hi Hc]]. exists c. split; [done|]. split; [done|].
  destruct (scan isEqual p c) as [b|] eqn:E; cbn.
  - apply scan_some in E as [Hb Hk]. symmetry. apply Hm. exists b. split; [eapply chain_in; eauto|done].
  - destruct (m (keyT p)) as [u|] eqn:Em; [|done]. apply Hm in Em as [b [Hb [_ Hk]]].
    exfalso. eapply scan_none; eauto. eapply in_chain; eauto.
Qed.

Lemma insert_ok s m p new : Rel s m -> keyU new = keyT p ->
  match insert isEqual s (hk (keyT p)) p (fun _ => new) with
  | None => (1610612741 <= entries s + 1)%N
  | Some (s', u) => ∃ m', astep keyT keyU m (OpInsert (hk (keyT p)) p new) (OutElt u) m' ∧ Rel s' m'
  end.
Proof.
  intros HR Hnew. destruct (scan_Rel s m p HR) as [c [Hi [Hc Hs]]]. unfold insert. rewrite Hi; cbn. rewrite Hc; cbn.
  destruct (scan isEqual p c) as [b|] eqn:E; cbn in Hs.
  { exists m. split; [|done]. now constructor. }
  destruct HR as [HI Hm]. destruct (inv_tab s HI) as [Hl Hp].
  destruct (push_ok (size s) (table s) (N.to_nat (hk (keyT p) `mod` size s)) (Bin new (hk (keyT p)))) as [t [Et [Ht P]]].
  { done. } { now apply inv_pos in HI. } { split; cbn; [now rewrite Hnew|done]. }
  rewrite Et; cbn [mbind option_bind size entries].
  assert (ND : NoDup ((fun b => key b) <$> concat t)).
  { rewrite P. cbn. constructor; [|apply HI]. intros Hin. apply elem_of_list_fmap in Hin as [b [Hk Hb]].
    eapply scan_none; eauto; [|now rewrite <- Hk]. eapply in_chain; eauto. congruence. }
  assert (Cnt : (entries s + 1 = N.of_nat (length (concat t)))%N). { rewrite P. cbn. rewrite (inv_count s HI). lia. }
  set (m' := fun k => if decide (k = keyT p) then Some new else m k).
  assert (A : astep keyT keyU m (OpInsert (hk (keyT p)) p new) (OutElt new) m') by (apply AInsertNew; auto).
  assert (RM : ∀ t', concat t' ≡ₚ concat t -> ∀ k u, m' k = Some u <-> (∃ b, b ∈ concat t' ∧ elt b = u ∧ key b = k)).
  { intros t' P' k u. setoid_rewrite P'. setoid_rewrite P. unfold m'. destruct (decide (k = keyT p)) as [->|Hne].
    - split.
      + intros [= <-]. eexists. split; [left|done].
      + intros [b [Hb [Hu Hk]]]. apply elem_of_cons in Hb as [->|Hb]; [by rewrite <- Hu|].
        exfalso. eapply scan_none; eauto. eapply in_chain; eauto.
    - rewrite Hm. split; intros [b [Hb Hrest]]; exists b; split; auto; [now right|].
      apply elem_of_cons in Hb as [->|Hb]; [|done]. cbn in Hrest. destruct Hrest; congruence. }
  pose proof (inv_load s HI) as Hload.
  destruct (N.leb_spec (size s) (entries s + 1)) as [Hfull|Hroom].
  - pose proof (resize_ok (HSet (entries s + 1) (size s) t)) as RO. cbn [size table entries] in RO.
    specialize (RO (inv_prime s HI) (inv_pos s HI) Ht Cnt ltac:(lia) ND).
    destruct (resize (HSet (entries s + 1) (size s) t)) as [s''|]; cbn [mbind option_bind]; [|lia]. destruct RO as [HI' P']. exists m'. split; [done|]. split; [done|]. now apply RM.
  - exists m'. split; [done|]. split; [|now apply RM]. destruct HI. split; cbn; auto.
Qed.

Lemma unlink_scan p c : match unlink isEqual p c with
  | Some (b, c') => scan isEqual p c = Some b ∧ c ≡ₚ b :: c' 
  | None => scan isEqual p c = None end.
Proof.
  induction c as [|x c IH]; cbn; [done|]. destruct (isEqual p (elt x)); [done|].
  destruct (unlink isEqual p c) as [[b c']|]; cbn; [|done]. destruct IH as [? IH]. split; [done|].
  rewrite IH. apply Permutation_swap.
Qed.

Lemma tab_insert_sub n t i c c' : tab_ok n t -> t !! i = Some c -> (∀ b, b ∈ c' -> b ∈ c) -> tab_ok n (<[i:=c']> t).
Proof.
  intros [Hl Hp] Hi Hsub. split; [now rewrite insert_length|]. intros j d b Hj Hb.
  destruct (decide (j = i)) as [->|Hne].
  - rewrite list_lookup_insert in Hj by (now apply lookup_lt_Some in Hi). injection Hj as <-. eapply Hp; eauto.
  - rewrite list_lookup_insert_ne in Hj by done. eapply Hp; eauto.
Qed.

Lemma remove_ok s m p : Rel s m ->
  ∃ s' u m', remove isEqual s (hk (keyT p)) p = Some (s', u) ∧
    astep keyT keyU m (OpRemove (hk (keyT p)) p) (OutOpt u) m' ∧ Rel s' m'.
Proof.
  intros HR. destruct (scan_Rel s m p HR) as [c [Hi [Hc Hs]]]. unfold remove. rewrite Hi; cbn. rewrite Hc; cbn.
  destruct HR as [HI Hm].
  set (m' := fun k => if decide (k = keyT p) then None else m k).
  assert (A : astep keyT keyU m (OpRemove (hk (keyT p)) p) (OutOpt (m (keyT p))) m') by (apply ARemove; auto).
  pose proof (unlink_scan p c) as UL. destruct (unlink isEqual p c) as [[b c']|].
  - destruct UL as [Esc Pc]. rewrite Esc in Hs; cbn in Hs. rewrite <- Hs in A. apply scan_some in Esc as [Hb Hk].
    eexists _, _, m'. split; [done|]. split; [done|].
    destruct (concat_insert_lookup (table s) _ c c' Hc) as [l1 [l2 [E1 E2]]].
    assert (P : concat (table s) ≡ₚ b :: concat (<[N.to_nat (hk (keyT p) `mod` size s):=c']> (table s))).
    { rewrite E1, E2, Pc. cbn. now rewrite <- Permutation_middle. }
    pose proof (inv_nodup s HI) as ND. rewrite P in ND. cbn in ND. apply stdpp.list.NoDup_cons in ND as [Hni ND].
    pose proof (inv_count s HI) as Hcnt. rewrite P in Hcnt. cbn in Hcnt. pose proof (inv_load s HI).
    split.
    + destruct HI. split; cbn; auto; try lia. eapply tab_insert_sub; eauto. intros x Hx. rewrite Pc. now right.
    + intros k u. unfold m'. cbn. destruct (decide (k = keyT p)) as [->|Hne].
      * split; [done|]. intros [x [Hx [_ Hkx]]]. exfalso. apply Hni. apply elem_of_list_fmap. exists x. split; [congruence|done].
      * rewrite Hm. setoid_rewrite P. split; intros [x [Hx Hr]]; exists x; split; auto; [|now right].
        apply elem_of_cons in Hx as [->|Hx]; [|done]. destruct Hr; congruence.
  - rewrite UL in Hs; cbn in Hs. rewrite <- Hs in A. eexists _, _, m'. split; [done|]. split; [done|]. split; [done|].
    intros k u. unfold m'. destruct (decide (k = keyT p)) as [->|Hne]; [|apply Hm].
    rewrite <- Hm. rewrite <- Hs. done.
Qed.

Lemma enumerates_Rel s m : Rel s m -> enumerates keyU m (each s).
Proof.
  intros [HI Hm]. unfold each. rewrite each_table_concat. split.
  - pose proof (inv_nodup s HI) as ND. rewrite (list_fmap_compose elt keyU) in ND. now apply NoDup_fmap_1 in ND.
  - intros u. rewrite elem_of_list_fmap, Hm. split.
    + intros [b [-> Hb]]. eauto.
    + intros [b [Hb [<- _]]]. eauto.
Qed.

(** Filter on one chain *)
Lemma filter_chain_ok f c log : ∀ c' log' k, filter_chain f log c = (c', log', k) ->
  ∃ calls : list (U * bool), log' = rev calls ++ log ∧ fst <$> calls = elt <$> c ∧
    c' `sublist_of` c ∧ (∀ b, b ∈ c' -> (elt b, true) ∈ calls) ∧
    (∀ b, b ∈ c -> b ∈ c' ∨ (elt b, false) ∈ calls) ∧
    N.of_nat (length c) = (N.of_nat (length c') + k)%N ∧
    (∀ pre u r post, log' = pre ++ (u, r) :: post -> length post >= length log -> r = f (fst <$> post) u).
Proof.
  revert log. induction c as [|b c IH]; intros log c' log' k; cbn.
  { intros [= <- <- <-]. exists []. cbn. repeat split; auto.
    - intros b Hb; now apply elem_of_nil in Hb.
    - intros pre u r post -> Hge. rewrite app_length in Hge. cbn in Hge. lia. }
  destruct (filter_chain f ((elt b, f (fst <$> log) (elt b)) :: log) c) as [[c1 log1] k1] eqn:E.
  apply IH in E as [calls [El [Ef [Hsub [Ht [Hf [Hn Hdec]]]]]]].
  assert (Hdec' : ∀ pre u r post, log1 = pre ++ (u, r) :: post -> length post >= length log -> r = f (fst <$> post) u).
  { intros pre u r post Hlog Hge. destruct (decide (length post = length log)) as [El0|Hne].
    - assert (HH : rev calls ++ (elt b, f (fst <$> log) (elt b)) :: log = pre ++ (u, r) :: post) by congruence.
      apply app_inj_2 in HH as [_ HH]; [|cbn; lia]. injection HH as H1 H2 H3; subst; done.
    - eapply Hdec; eauto. cbn. lia. }
  intros HX. exists ((elt b, f (fst <$> log) (elt b)) :: calls).
  assert (log' = log1) as -> by (destruct (f _ _); congruence).
  repeat split; auto.
  - cbn. rewrite <- app_assoc. exact El.
  - cbn. now rewrite Ef.
  - destruct (f _ _); injection HX as <- <-; [now constructor|now constructor].
  - intros x Hx. destruct (f (fst <$> log) (elt b)) eqn:Ef0; injection HX as <- <-.
    + apply elem_of_cons in Hx as [->|Hx]; [left|right; auto].
    + right; auto.
  - intros x Hx. destruct (f (fst <$> log) (elt b)) eqn:Ef0; injection HX as <- <-.
    + apply elem_of_cons in Hx as [->|Hx]; [left; left|]. destruct (Hf x Hx); [left; now right|right; now right].
    + apply elem_of_cons in Hx as [->|Hx]; [right; left|]. destruct (Hf x Hx); [now left|right; now right].
  - destruct (f _ _); injection HX as <- <-; cbn; lia.
Qed.

Lemma filter_table_ok f t log : ∀ t' log' k, filter_table f log t = (t', log', k) ->
  ∃ calls : list (U * bool), log' = rev calls ++ log ∧ fst <$> calls = elt <$> concat t ∧
    Forall2 sublist t' t ∧ (∀ b, b ∈ concat t' -> (elt b, true) ∈ calls) ∧
    (∀ b, b ∈ concat t -> b ∈ concat t' ∨ (elt b, false) ∈ calls) ∧
    N.of_nat (length (concat t)) = (N.of_nat (length (concat t')) + k)%N ∧
    (∀ pre u r post, log' = pre ++ (u, r) :: post -> length post >= length log -> r = f (fst <$> post) u).
Proof.
  revert log. induction t as [|c t IH]; intros log t' log' k; cbn.
  { intros [= <- <- <-]. exists []. cbn. repeat split; auto.
    - intros b Hb; now apply elem_of_nil in Hb.
    - intros pre u r post -> Hge. rewrite app_length in Hge. cbn in Hge. lia. }
  destruct (filter_chain f log c) as [[c1 log1] k1] eqn:E1.
  destruct (filter_table f log1 t) as [[t1 log2] k2] eqn:E2. intros [= <- <- <-].
  apply filter_chain_ok in E1 as [calls1 [El1 [Ef1 [Hsub1 [Ht1 [Hf1 [Hn1 Hdec1]]]]]]].
  apply IH in E2 as [calls2 [El2 [Ef2 [Hsub2 [Ht2 [Hf2 [Hn2 Hdec2]]]]]]].
  exists (calls1 ++ calls2). repeat split.
  - rewrite El2, El1, rev_app_distr, app_assoc. done.
  - cbn [concat]. now rewrite !fmap_app, Ef1, Ef2.
  - now constructor.
  - intros b Hb. cbn in Hb. apply elem_of_app in Hb. apply elem_of_app. destruct Hb; auto.
  - intros b Hb. cbn in Hb |- *. rewrite !elem_of_app. apply elem_of_app in Hb as [Hb|Hb]; [destruct (Hf1 b Hb)|destruct (Hf2 b Hb)]; auto.
  - cbn. rewrite !app_length. lia.
  - intros pre u r post Hlog Hge. destruct (Compare_dec.le_lt_dec (length log1) (length post)) as [Hge1|Hlt].
    + eapply Hdec2; eauto.
    + rewrite Hlog in El2. symmetry in El2.
      (* the entry lies inside log1 *)
      assert (∃ pre', log1 = pre' ++ (u, r) :: post) as [pre' Hl1].
      { apply app_eq_inv in El2 as [[k [Ea Eb]]|[k [Ea Eb]]].
        - destruct k as [|y k]; cbn in Eb; [by exists []|].
          exfalso. injection Eb as <- Eb. rewrite Eb, app_length in Hlt. lia.
        - exists k. auto. }
      eapply Hdec1; eauto.
Qed.

Fixpoint absm (l : list (bin U)) : amap := fun k =>
  match l with
  | [] => None
  | b :: l => if decide (key b = k) then Some (elt b) else absm l k
  end.
Lemma absm_spec l k u : NoDup ((fun b => key b) <$> l) ->
  absm l k = Some u <-> ∃ b, b ∈ l ∧ elt b = u ∧ key b = k.
Proof.
  induction l as [|b l IH]; cbn; intros ND.
  { split; [done|]. intros [b [Hb _]]. now apply elem_of_nil in Hb. }
  apply stdpp.list.NoDup_cons in ND as [Hni ND]. destruct (decide (key b = k)) as [E|E].
  - split.
    + intros [= <-]. exists b. split; [left|done].
    + intros [b' [Hb' [Hu Hk]]]. apply elem_of_cons in Hb' as [->|Hb']; [congruence|].
      exfalso. apply Hni. apply elem_of_list_fmap. exists b'. split; [congruence|done].
  - rewrite IH by done. split; intros [b' [Hb' Hr]]; exists b'; split; auto; [now right|].
    apply elem_of_cons in Hb' as [->|Hb']; [destruct Hr; congruence|done].
Qed.

Lemma sublist_NoDup {A} (l k : list A) : l `sublist_of` k -> NoDup k -> NoDup l.
Proof.
  intros Hs ND. destruct (submseteq_Permutation l k) as [q Hq]; [now apply sublist_submseteq|].
  rewrite Hq in ND. now apply NoDup_app in ND as [? _].
Qed.
Lemma sublist_concat {A} (t' t : list (list A)) : Forall2 sublist t' t -> concat t' `sublist_of` concat t.
Proof. induction 1; cbn; [done|]. now apply sublist_app. Qed.

Lemma log_functional (log : list (U * bool)) u r r' : NoDup (fst <$> log) -> (u, r) ∈ log -> (u, r') ∈ log -> r = r'.
Proof.
  intros ND H1 H2. apply elem_of_list_lookup in H1 as [i Hi]. apply elem_of_list_lookup in H2 as [j Hj].
  assert (i = j). { eapply NoDup_lookup; [exact ND| |]; rewrite list_lookup_fmap; [rewrite Hi|rewrite Hj]; reflexivity. }
  subst. congruence.
Qed.

Lemma filter_ok s m f : Rel s m ->
  ∃ s' log m', filter s f = (s', log) ∧ astep keyT keyU m (OpFilter f) (OutFilter log) m' ∧ Rel s' m'.
Proof.
  intros HR. pose proof (enumerates_Rel s m HR) as [EN EM]. destruct HR as [HI Hm].
  unfold filter. destruct (filter_table f [] (table s)) as [[t log] k] eqn:E.
  apply filter_table_ok in E as [calls [El [Ef [Hsub [Ht [Hf [Hn Hdec]]]]]]].
  rewrite app_nil_r in El. subst log.
  assert (PC : fst <$> rev calls ≡ₚ each s).
  { unfold each. rewrite each_table_concat, <- Ef. apply fmap_Permutation. symmetry. apply Permutation_rev. }
  pose proof (sublist_concat _ _ Hsub) as SC.
  assert (ND : NoDup ((fun b => key b) <$> concat t)).
  { eapply sublist_NoDup; [|exact (inv_nodup s HI)]. now apply fmap_sublist. }
  assert (IN : ∀ u, (u, true) ∈ rev calls <-> ∃ b, b ∈ concat t ∧ elt b = u).
  { intros u. rewrite <- (Permutation_rev calls). split.
    - intros Hu. assert (u ∈ elt <$> concat (table s)) as Hin.
      { rewrite <- Ef. apply elem_of_list_fmap. exists (u, true). done. }
      apply elem_of_list_fmap in Hin as [b [-> Hb]]. exists b. split; [|done].
      destruct (Hf b Hb) as [?|Hff]; [done|]. exfalso.
      assert (true = false); [|done]. eapply (log_functional calls); eauto. rewrite Ef, <- each_table_concat. exact EN.
    - intros [b [Hb <-]]. auto. }
  eexists _, _, (absm (concat t)). split; [done|]. split.
  - apply AFilter.
    + split; [now rewrite PC|]. intros u. rewrite PC. apply EM.
    + intros pre u r post Hlog. eapply Hdec; [exact Hlog|]. cbn. lia.
    + intros k' u. rewrite absm_spec by done. rewrite IN, Hm. split.
      * intros [b [Hb [Hu Hk]]]. split; exists b; auto. split; [|done]. eapply elem_of_submseteq; eauto using sublist_submseteq.
      * intros [[b [Hb [Hu Hk]]] [b' [Hb' Hu']]]. exists b'. split; [done|]. split; [done|]. congruence.
  - split; [|intros; now apply absm_spec]. pose proof (inv_count s HI). pose proof (inv_load s HI).
    destruct HI. split; cbn [size entries table]; auto; try lia.
    destruct inv_tab0 as [Hl Hp]. split; [rewrite <- Hl; eapply Forall2_length; eauto|].
    intros i c b Hi Hb. destruct (Forall2_lookup_l _ _ _ _ _ Hsub Hi) as [c0 [Hc0 Hs]].
    eapply Hp; eauto. eapply elem_of_submseteq; eauto using sublist_submseteq.
Qed.

Lemma step_ok s m o : Rel s m -> op_ok keyT keyU hk o ->
  match step isEqual s o with
  | None => (1610612741 <= entries s + 1)%N
  | Some (s', x) => ∃ m', astep keyT keyU m o x m' ∧ Rel s' m'
  end.
Proof.
  intros HR Ho. destruct o as [h p new|h p|h p| | |f]; cbn in Ho |- *.
  - destruct Ho as [-> Hk]. pose proof (insert_ok s m p new HR Hk) as H.
    destruct (insert isEqual s (hk (keyT p)) p (λ _, new)) as [[s' u]|]; cbn; exact H.
  - subst h. destruct (remove_ok s m p HR) as [s' [u [m' [E [A R']]]]]. rewrite E. cbn. eauto.
  - subst h. destruct (scan_Rel s m p HR) as [c [Hi [Hc Hs]]]. unfold find. rewrite Hi; cbn. rewrite Hc; cbn.
    rewrite Hs. exists m. split; [constructor|done].
  - exists m. split; [|done]. pose proof (enumerates_Rel s m HR) as EN.
    assert (count s = N.of_nat (length (each s))) as ->.
    { unfold count, each. rewrite each_table_concat, fmap_length. apply HR. }
    now constructor.
  - exists m. split; [|done]. constructor. now apply enumerates_Rel.
  - destruct (filter_ok s m f HR) as [s' [log [m' [E [A R']]]]]. rewrite E. eauto.
Qed.

Lemma run_ok s m ops : Rel s m -> Forall (op_ok keyT keyU hk) ops ->
  (∀ s' xs, run isEqual s ops = Some (s', xs) -> ∃ m', arun keyT keyU m ops xs m' ∧ Rel s' m').
Proof.
  revert s m. induction ops as [|o ops IH]; intros s m HR Hops s' xs; cbn.
  { intros [= <- <-]. exists m. split; [constructor|done]. }
  apply Forall_cons_1 in Hops as [Ho Hops].
  pose proof (step_ok s m o HR Ho) as HS. destruct (step isEqual s o) as [[s1 x]|]; cbn; [|done].
  destruct HS as [m1 [A1 R1]]. destruct (run isEqual s1 ops) as [[s2 xs2]|] eqn:E; cbn; [|done].
  intros [= <- <-]. destruct (IH s1 m1 R1 Hops _ _ E) as [m2 [A2 R2]]. exists m2. split; [|done]. econstructor; eauto.
Qed.

Lemma new_Rel s : new_hset = Some s -> Rel s (fun _ => None).
Proof.
  unfold new_hset. assert (next_prime 0 = Some 5%N) as -> by reflexivity. intros [= <-]. split.
  - split; cbn; try done; try lia.
    + left.
    + apply (tab_ok_empty 5).
    + apply NoDup_nil_2.
  - intros k u. cbn. split; [done|]. intros [b [Hb _]]. now apply elem_of_nil in Hb.
Qed.

(** The number of successful new insertions bounds the size: no panic while small. *)
Lemma run_total ops : ∀ s m, Rel s m -> Forall (op_ok keyT keyU hk) ops ->
  (entries s + N.of_nat (length ops) < 1610612741)%N -> is_Some (run isEqual s ops).
Proof.
  induction ops as [|o ops IH]; intros s m HR Hops Hlen; cbn; [eauto|].
  apply Forall_cons_1 in Hops as [Ho Hops]. pose proof (step_ok s m o HR Ho) as HS.
  assert (G : ∀ s' x, step isEqual s o = Some (s', x) -> (entries s' <= entries s + 1)%N).
  { intros s' x. destruct o as [h p new|h p|h p| | |f]; cbn.
    - unfold insert. destruct (idx s h) as [i|]; cbn; [|done]. destruct (table s !! i) as [c|]; cbn; [|done].
      destruct (scan isEqual p c); cbn; [intros [= <- _]; lia|].
      destruct (push_bin (table s) i _) as [t|]; cbn; [|done].
      destruct (size s <=? entries s + 1)%N.
      + destruct (resize _) as [s''|] eqn:Er; cbn; [|done]. intros [= <- _]. unfold resize in Er.
        destruct (next_prime _); cbn in Er; [|done]. destruct (move_table _ _ _); cbn in Er; [|done]. injection Er as <-. cbn. lia.
      + intros [= <- _]. cbn. lia.
    - unfold remove. destruct (idx s h) as [i|]; cbn; [|done]. destruct (table s !! i) as [c|]; cbn; [|done].
      destruct (unlink isEqual p c) as [[b c']|]; cbn; intros [= <- _]; cbn; lia.
    - destruct (find isEqual s h p); cbn; [|done]. intros [= <- _]. lia.
    - intros [= <- _]; lia.
    - intros [= <- _]; lia.
    - unfold filter. destruct (filter_table f [] (table s)) as [[t log] k]. intros [= <- _]. cbn. lia. }
  destruct (step isEqual s o) as [[s1 x]|] eqn:E; cbn.
  - destruct HS as [m1 [_ R1]]. destruct (IH s1 m1 R1 Hops) as [[s2 xs] E2].
    { specialize (G s1 x eq_refl). cbn in Hlen. lia. }
    rewrite E2. cbn. eauto.
  - exfalso. cbn in Hlen. lia.
Qed.

Lemma reach_Rel s0 s ops outs : new_hset = Some s0 -> Forall (op_ok keyT keyU hk) ops ->
  run isEqual s0 ops = Some (s, outs) -> ∃ m, Rel s m.
Proof.
  intros H0 Hops Hr. destruct (run_ok s0 _ ops (new_Rel s0 H0) Hops s outs Hr) as [m [_ R]]. eauto.
Qed.
Lemma each_count s m : Rel s m -> count s = N.of_nat (length (each s)).
Proof. intros HR. unfold count, each. rewrite each_table_concat, fmap_length. apply HR. Qed.

Lemma filter_reach s0 s ops outs f : new_hset = Some s0 -> Forall (op_ok keyT keyU hk) ops ->
  run isEqual s0 ops = Some (s, outs) ->
  let '(s', log) := filter s f in
  NoDup (each s) /\ count s = N.of_nat (length (each s)) /\
  fst <$> log ≡ₚ each s /\
  NoDup (each s') /\ count s' = N.of_nat (length (each s')) /\
  (forall u, u ∈ each s' <-> u ∈ each s /\ (u, true) ∈ log) /\
  (forall pre u r post, log = pre ++ (u, r) :: post -> r = f (fst <$> post) u).
Proof.
  intros H0 Hops Hr. destruct (reach_Rel _ _ _ _ H0 Hops Hr) as [m HR].
  destruct (filter_ok s m f HR) as [s' [log [m' [E [A R']]]]]. rewrite E.
  pose proof (enumerates_Rel _ _ HR) as [E1 E2]. pose proof (enumerates_Rel _ _ R') as [E1' E2'].
  inversion A as [| | | | | |f' log' m'' EN HD HM]; subst. destruct EN as [EN1 EN2].
  repeat split; eauto using each_count.
  - apply NoDup_Permutation; auto. intros u. rewrite EN2, E2. done.
  - apply E2. now apply E2', HM in H.
  - now apply E2', HM in H.
  - intros [Hu Hl]. apply E2'. apply HM. split; [now apply E2|done].
Qed.
Lemma load_reach s0 s ops outs : new_hset = Some s0 -> Forall (op_ok keyT keyU hk) ops ->
  run isEqual s0 ops = Some (s, outs) ->
  (0 < size s)%N /\ size s ∈ primes /\ N.of_nat (length (table s)) = size s /\ (N.of_nat (length (each s)) < size s)%N.
Proof.
  intros H0 Hops Hr. destruct (reach_Rel _ _ _ _ H0 Hops Hr) as [m HR]. pose proof (each_count _ _ HR) as HC.
  destruct HR as [HI _]. pose proof (inv_pos s HI). pose proof (inv_load s HI). pose proof (inv_prime s HI).
  destruct (inv_tab s HI) as [Hl _]. unfold count in HC. repeat split; auto; lia.
Qed.
Lemma no_panic_reach : exists s0 : hset U, new_hset = Some s0 /\
  forall ops, Forall (op_ok keyT keyU hk) ops ->
  (N.of_nat (length ops) < 1610612741)%N -> is_Some (run isEqual s0 ops).
Proof.
  destruct new_hset as [s0|] eqn:E; [|exfalso; unfold new_hset in E; assert (next_prime 0 = Some 5%N) as EE by reflexivity; rewrite EE in E; done].
  exists s0. split; [done|]. intros ops Hops Hl. eapply run_total; eauto using new_Rel.
  assert (entries s0 = 0%N) as ->; [|lia].
  unfold new_hset in E. assert (next_prime 0 = Some 5%N) as EE by reflexivity. rewrite EE in E. injection E as <-. done.
Qed.
End Proofs.
