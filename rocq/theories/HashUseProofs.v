(** Proofs for C64. *)
From Coq Require Import ZArith List Bool Arith Permutation Lia Reals.
From Flocq Require Import Core.
From Verif Require Import Num NumReal Vec BB BBProofs BBTree BBTreeSpec Filter FilterProofs SpaceHash SpaceHashSpec SpaceHashInv SpaceHashOps SpaceHashMain SpaceHashGrid SpaceHashWalk SpaceQuery SpaceQuerySpec SpaceQueryProofs HashUse HashUseSpec.
From Verif Require Space SpaceSpec SpaceMain.
Import ListNotations.
Local Open Scope nat_scope.

Section Use.
Context {N : Num} {O : NumOrd N} (toint : num -> Z) (ffloor : num -> num) (dim : num) (cells : nat).
Hypothesis some_cells : (0 < cells)%nat.
Notation run := (run toint ffloor dim cells).
Notation hashed := (hashed toint ffloor dim cells).
Notation inv := (inv cells).

(** ** What a hash holds *)
Lemma each_spec order h : inv h -> (forall l, Permutation l (order l)) ->
  NoDup (each_shape order h) /\ length (each_shape order h) = count h /\ forall o, In o (each_shape order h) <-> exists x, obj (at_handle h x) = Some o.
Proof using Type.
  intros I P. unfold each_shape, count. rewrite (Permutation_length (P (hset h))).
  assert (Nd : NoDup (order (hset h))) by (eapply Permutation_NoDup; [apply P|apply (i_set _ _ I)]).
  assert (Lv : forall x, In x (order (hset h)) <-> live h x).
  { intros x. rewrite <- (i_obj _ _ I). split; apply Permutation_in; [symmetry|]; apply P. }
  assert (G : forall l, NoDup l -> (forall x, In x l -> live h x) -> let m := flat_map (fun x => match obj (at_handle h x) with Some o => [o] | None => [] end) l in
    NoDup m /\ length m = length l /\ forall o, In o m <-> exists x, In x l /\ obj (at_handle h x) = Some o).
  { induction l as [|x l IH]; intros Nl Ll; cbn [flat_map].
    - split; [constructor|]. split; auto. intros o. split; [intros []|intros (? & [] & _)].
    - inversion Nl as [|? ? Nx Nl']; subst. destruct IH as (A & B & C); auto; [intros; apply Ll; right; auto|]. pose proof (Ll x (or_introl eq_refl)) as Lx. unfold live in Lx.
      destruct (obj (at_handle h x)) as [o|] eqn:E; [|congruence]. cbn [app length]. split; [|split; [now rewrite B|]].
      + constructor; auto. intros J. apply C in J as (y & Hy & Ey). apply Nx. replace x with y; auto. apply (i_uniq _ _ I); [apply Ll; right; auto|congruence].
      + intros o'. split.
        * intros [<-|J]; [exists x; split; [left; auto|auto]|]. apply C in J as (y & Hy & Ey). exists y. split; [right; auto|auto].
        * intros (y & [<-|Hy] & Ey); [left; congruence|right; apply C; eauto]. }
  destruct (G (order (hset h)) Nd) as (A & B & C); [intros x; apply Lv|]. split; auto. split; auto. intros o. rewrite C. split.
  - intros (x & _ & E). eauto.
  - intros (x & E). exists x. split; auto. apply Lv. unfold live. congruence.
Qed.
Lemma indexed_obj h bx o : indexed toint dim cells h bx -> (exists x, obj (at_handle h x) = Some o) <-> bx o <> None.
Proof using Type.
  intros X. specialize (X o). destruct (bx o) as [b|]; split; try congruence.
  - intros _. destruct X as (x & E & _). eauto.
  - intros (x & E). now apply X in E.
Qed.
Lemma hashed_each l now order h : hashed l now h -> (forall l, Permutation l (order l)) ->
  NoDup (each_shape order h) /\ length (each_shape order h) = count h /\ forall o, In o (each_shape order h) <-> exists id, In (id, o) l.
Proof using some_cells.
  intros (k & cs & Fa & NR & R & M & _) P. destruct (run_inv toint ffloor dim cells some_cells k cs h Fa R) as (I & _ & X). specialize (X NR).
  destruct (each_spec order h I P) as (A & B & C). split; auto. split; auto. intros o. rewrite C, (indexed_obj _ _ _ X). apply M.
Qed.
Lemma insert_all_run k pick box l : insert_all toint dim cells pick box l (new_hash cells k) = run (map (fun o => Insert (pick o) o (box o)) l) (new_hash cells k).
Proof using Type.
  unfold insert_all, SpaceHashSpec.run. generalize (new_hash cells k). induction l as [|o l IH]; intros h; cbn [map all_of perform]; auto. destruct (insert _ _ _ _ _ _ _); auto.
Qed.
Lemma boxes_inserted pick (box : nat -> bb) l i : boxes_after (map (fun o => Insert (pick o) o (box o)) l) i = if in_dec Nat.eq_dec i l then Some (box i) else None.
Proof using Type.
  induction l as [|o l IH] using rev_ind; [reflexivity|]. rewrite map_app. unfold boxes_after in *. rewrite fold_left_app. cbn [map fold_left]. rewrite IH.
  destruct (Nat.eqb_spec i o) as [->|D].
  - destruct (in_dec Nat.eq_dec o (l ++ [o])) as [_|J]; auto. exfalso. apply J, in_or_app. right. left. auto.
  - destruct (in_dec Nat.eq_dec i l) as [A|A], (in_dec Nat.eq_dec i (l ++ [o])) as [B|B]; auto; exfalso; [apply B, in_or_app; auto|]. apply in_app_or in B as [B|[B|[]]]; auto.
Qed.
Lemma insert_all_hashed k pick box l ids : (forall i, In i l <-> exists id, In (id, i) ids) ->
  exists h, insert_all toint dim cells pick box l (new_hash cells k) = Some h /\ hashed ids (fun i b => b = box i) h.
Proof using some_cells.
  intros M. rewrite insert_all_run. set (cs := map (fun o => Insert (pick o) o (box o)) l).
  assert (Fa : Forall fair cs) by (apply Forall_forall; intros c J; apply in_map_iff in J as (o & <- & _); exact I).
  destruct (run_total toint ffloor dim cells some_cells k cs Fa) as [h R].
  { intros c J fuel f a b t E. apply in_map_iff in J as (o & <- & _). discriminate. }
  exists h. split; auto. exists k, cs. split; auto. split; [intros J; apply in_map_iff in J as (o & E & _); discriminate|]. split; auto. split.
  - intros i. unfold cs. rewrite boxes_inserted, <- M. destruct (in_dec Nat.eq_dec i l); split; auto; congruence.
  - intros i b. unfold cs. rewrite boxes_inserted. destruct (in_dec Nat.eq_dec i l); congruence.
Qed.
Lemma switch_ok s k pick box sta dyn : Permutation sta (map snd (Space.s_six s)) -> Permutation dyn (map snd (Space.s_dix s)) ->
  exists st dy, use_spatial_hash toint dim cells k pick box sta dyn = Some (st, dy) /\
    hashed (Space.s_six s) (fun i b => b = box i) st /\ hashed (Space.s_dix s) (fun i b => b = box i) dy.
Proof using some_cells.
  intros P Q.
  assert (G : forall l ids, Permutation l (map snd ids) -> forall i : nat, In i l <-> exists id : nat, In (id, i) ids).
  { intros l ids X i. split.
    - intros J. apply (Permutation_in _ X), in_map_iff in J as ([id j] & <- & J). eauto.
    - intros [id J]. apply (Permutation_in _ (Permutation_sym X)), in_map_iff. exists (id, i). auto. }
  destruct (insert_all_hashed k pick box sta _ (G _ _ P)) as (st & E1 & H1). destruct (insert_all_hashed k pick box dyn _ (G _ _ Q)) as (dy & E2 & H2).
  exists st, dy. unfold use_spatial_hash. rewrite E1, E2. auto.
Qed.

(** ** The space *)
Variable ok : num -> Prop.
Hypothesis mono : monotone toint dim ok.
Definition good (b : bb) : Prop := box_in ok b /\ valid_box b.
Lemma where_listed (s : Space.space) i : SpaceSpec.reachable s -> Space.s_lock s = 0%Z ->
  ((exists id, In (id, i) (Space.s_dix s)) <-> contained s i /\ ~ resting s i) /\ ((exists id, In (id, i) (Space.s_six s)) <-> contained s i /\ resting s i).
Proof using Type.
  clear mono. clear - s. intros R L. destruct (SpaceMain.shapes_listed s i R L) as (_ & _ & X & Y & _). unfold contained, resting, body_of. split.
  - split.
    + intros [h H]. apply Y in H. destruct H as (A & _ & B & C). split; auto. intros [E|E]; congruence.
    + intros [A B]. exists (Space.sh_id (Space.s_shape s i)). apply Y. split; auto. split; auto. split; [intros E; apply B; auto|].
      destruct (Space.is_sleeping s _) eqn:E; auto. exfalso. apply B. auto.
  - split.
    + intros [h H]. apply X in H. tauto.
    + intros [A B]. exists (Space.sh_id (Space.s_shape s i)). apply X. auto.
Qed.
Lemma ids_nodup (l : list (nat * nat)) : (forall i a b, In (a, i) l -> In (b, i) l -> a = b) -> NoDup l -> NoDup (map snd l).
Proof using Type.
  intros U. induction l as [|[a i] l IH]; intros Nd; cbn [map]; constructor; inversion Nd; subst.
  - intros J. apply in_map_iff in J as ([b j] & E & J). cbn [snd] in E. subst j. assert (b = a) by (eapply U; [right; exact J|left; reflexivity]). subst. contradiction.
  - apply IH; auto. intros j x y A B. eapply U; right; eauto.
Qed.
Lemma counts_ok s nowS nowD st dy : SpaceSpec.reachable s -> Space.s_lock s = 0%Z -> hashed (Space.s_six s) nowS st -> hashed (Space.s_dix s) nowD dy ->
  hash_counts st dy = (length (Space.s_dix s), length (Space.s_six s), length (Space.s_six s) + length (Space.s_dix s)).
Proof using some_cells.
  intros R L HS HD.
  assert (G : forall l now h, NoDup l -> (forall i a b, In (a, i) l -> In (b, i) l -> a = b) -> hashed l now h -> count h = length l).
  { intros l now h Nd U H. destruct (hashed_each l now (fun l => l) h H) as (A & B & C); [intros; apply Permutation_refl|]. rewrite <- B, <- (map_length snd l). apply Permutation_length.
    apply NoDup_Permutation; auto; [apply ids_nodup; auto|]. intros o. rewrite C, in_map_iff. split; [intros [id J]; exists (id, o); auto|intros ([id j] & <- & J); eauto]. }
  assert (UD : forall i a b, In (a, i) (Space.s_dix s) -> In (b, i) (Space.s_dix s) -> a = b).
  { intros i a b A B. destruct (SpaceMain.shapes_listed s i R L) as (_ & _ & _ & Y & _). apply Y in A, B. destruct A as (_ & -> & _), B as (_ & -> & _). reflexivity. }
  assert (US : forall i a b, In (a, i) (Space.s_six s) -> In (b, i) (Space.s_six s) -> a = b).
  { intros i a b A B. destruct (SpaceMain.shapes_listed s i R L) as (_ & _ & X & _). apply X in A, B. destruct A as (_ & -> & _), B as (_ & -> & _). reflexivity. }
  destruct (SpaceMain.shapes_listed s 0 R L) as (Nd & Ns & _). unfold hash_counts. rewrite (G _ _ _ Nd UD HD), (G _ _ _ Ns US HS). reflexivity.
Qed.
Lemma mention_one i j (l : list (nat * nat)) : NoDup l -> i <> j -> In (i, j) l -> ~ In (j, i) l -> length (List.filter (ment i j) l) = 1.
Proof using Type.
  intros Nd D. induction l as [|p l IH]; intros J K; [destruct J|]. inversion Nd; subst. cbn [List.filter]. destruct J as [->|J].
  - unfold ment at 1. cbn [fst snd]. rewrite !Nat.eqb_refl. cbn [andb orb length]. rewrite filter_none; auto. intros q Q. destruct (ment i j q) eqn:M; auto. exfalso.
    destruct (ment_ij _ _ _ M) as [-> | ->]; [contradiction|apply K; right; auto].
  - destruct (ment i j p) eqn:M; [|apply IH; auto; intros Z; apply K; right; auto]. exfalso. destruct (ment_ij _ _ _ M) as [-> | ->]; [contradiction|apply K; left; auto].
Qed.
Lemma mention_sym i j p : ment i j p = ment j i p.
Proof using Type. unfold ment. rewrite orb_comm, (andb_comm (Nat.eqb j (fst p))), (andb_comm (Nat.eqb j (snd p))). reflexivity. Qed.
Lemma mention_either i j (l : list (nat * nat)) : NoDup l -> i <> j -> (forall a b, In (a, b) l -> ~ In (b, a) l) -> In (i, j) l \/ In (j, i) l -> length (List.filter (ment i j) l) = 1.
Proof using Type.
  intros Nd D A [J|J]; [apply mention_one; auto; apply A; auto|]. rewrite (filter_ext _ _ (mention_sym i j)). apply mention_one; auto; apply A; auto.
Qed.
Lemma filtered_mentions (rej : nat -> nat -> bool) i j l : (forall a b, rej a b = rej b a) ->
  mentions i j (List.filter (fun p => negb (rej (fst p) (snd p))) l) = if rej i j then 0 else length (List.filter (ment i j) l).
Proof using Type.
  intros Sy. unfold mentions. change (fun p => (Nat.eqb i (fst p) && Nat.eqb j (snd p)) || (Nat.eqb i (snd p) && Nat.eqb j (fst p))) with (ment i j).
  induction l as [|p l IH]; [destruct (rej i j); reflexivity|]. cbn [List.filter]. destruct (ment i j p) eqn:M.
  - assert (E : rej (fst p) (snd p) = rej i j) by (destruct (ment_ij _ _ _ M) as [-> | ->]; cbn [fst snd]; auto).
    rewrite E. destruct (rej i j) eqn:Q; cbn [negb]; [auto|]. cbn [List.filter]. rewrite M. cbn [length]. rewrite IH. reflexivity.
  - destruct (negb _); auto. cbn [List.filter]. rewrite M. exact IH.
Qed.
Lemma pairs_exact s flt box order nowD st dy : SpaceSpec.reachable s -> Space.s_lock s = 0%Z -> (forall l, Permutation l (order l)) ->
  hashed (Space.s_six s) (fun i b => b = box i) st -> hashed (Space.s_dix s) nowD dy -> (forall i, contained s i -> good (box i)) ->
  exists ps, hash_pairs toint dim cells s flt box order st dy = Some ps /\ forall i j,
    (eligible s flt box i j -> mentions i j ps = 1) /\ (~ eligible s flt box i j -> mentions i j ps = 0).
Proof using some_cells mono.
  intros R L P HS HD Gd. pose proof HD as (kd & cd & Fd & Nd & Rd & Md & _). destruct HS as (ks & cs & Fs & Ns & Rs & Ms & Bs).
  destruct (pairs_found toint ffloor dim cells some_cells ok mono kd cd dy order box Fd Nd Rd P) as (dy' & out & E1 & N1 & In1 & All1).
  assert (HD' : hashed (Space.s_dix s) (fun _ _ => True) dy').
  { exists kd, (cd ++ [ReindexQuery order box]). split; [apply Forall_app; split; [exact Fd|constructor; [exact P|constructor]]|]. split; [intros J; apply in_app_or in J as [J|[J|[]]]; [auto|discriminate]|].
    split; [rewrite run_snoc, Rd; cbn; rewrite E1; reflexivity|]. split; [|auto]. intros i. unfold boxes_after in *. rewrite fold_left_app. cbn [fold_left]. rewrite <- Md. destruct (fold_left _ cd _ i); cbn; split; congruence. }
  destruct (hashed_each _ _ order dy' HD' P) as (Ne & _ & Me).
  destruct (static_pairs toint ffloor dim cells some_cells ok mono ks cs st (each_shape order dy') box out Fs Ns Rs Ne) as (st' & new & E2 & N2 & In2 & All2).
  unfold hash_pairs. rewrite E1, E2. eexists. split; [reflexivity|]. intros i j.
  assert (Sy : forall a b, query_reject s flt (index0 box (fun _ => vzero)) a b = query_reject s flt (index0 box (fun _ => vzero)) b a) by (intros; apply query_reject_sym; auto).
  rewrite (filtered_mentions (query_reject s flt (index0 box (fun _ => vzero))) i j _ Sy). pose proof (query_reject_spec s flt (index0 box (fun _ => vzero)) i j R) as Q. cbn [x_box index0] in Q.
  assert (A1 : forall a b, In (a, b) out -> (contained s a /\ ~ resting s a) /\ (contained s b /\ ~ resting s b)).
  { intros a b J. destruct (In1 a b J) as (_ & Ha & Hb & _). apply Md in Ha, Hb. destruct (where_listed s a R L) as [Wa _], (where_listed s b R L) as [Wb _]. tauto. }
  assert (A2 : forall a b, In (a, b) new -> (contained s a /\ ~ resting s a) /\ (contained s b /\ resting s b)).
  { intros a b J. destruct (In2 a b J) as (Ha & _ & Hb). apply Me in Ha. apply Ms in Hb. destruct (where_listed s a R L) as [Wa _], (where_listed s b R L) as [_ Wb]. tauto. }
  assert (ND : NoDup (rev (new ++ out))).
  { apply NoDup_rev, nodup_app; auto. intros [a b] J K. apply A1 in K. apply A2 in J. tauto. }
  assert (AS : forall a b, In (a, b) (rev (new ++ out)) -> ~ In (b, a) (rev (new ++ out))).
  { intros a b. rewrite <- !in_rev, !in_app_iff. intros [J|J] [K|K].
    - apply A2 in J, K. tauto. - apply A2 in J. apply A1 in K. tauto. - apply A1 in J. apply A2 in K. tauto.
    - destruct (In1 a b J) as (_ & _ & _ & X). contradiction. }
  split.
  - intros (Ci & Cj & Nr & Nb & Fl & Bx & Nc). rewrite (proj2 Q) by auto. assert (ij : i <> j) by (intros ->; apply Nb; reflexivity). apply mention_either; auto. rewrite <- !in_rev, !in_app_iff.
    destruct (where_listed s i R L) as [Di Si], (where_listed s j R L) as [Dj Sj]. destruct (Gd i Ci) as [Gi Vi], (Gd j Cj) as [Gj Vj].
    assert (Si' : resting s i -> boxes_after cs i = Some (box i)).
    { intros Ri. destruct (boxes_after cs i) as [b|] eqn:B; [f_equal; auto|]. exfalso. apply (proj2 (Ms i)); [apply Si; auto|exact B]. }
    assert (Sj' : resting s j -> boxes_after cs j = Some (box j)).
    { intros Rj. destruct (boxes_after cs j) as [b|] eqn:B; [f_equal; auto|]. exfalso. apply (proj2 (Ms j)); [apply Sj; auto|exact B]. }
    destruct (resting_dec s i) as [Ri|Ri], (resting_dec s j) as [Rj|Rj].
    + exfalso. auto.
    + right. left. apply (All2 j i (box i)); auto. apply Me, Dj. auto.
    + left. left. apply (All2 i j (box j)); auto; [apply Me, Di; auto|]. rewrite intersects_sym. auto.
    + destruct (All1 i j) as [J|J]; auto; [apply Md, Di; auto|apply Md, Dj; auto].
  - intros Nel. destruct (query_reject _ _ _ i j) eqn:Qr; auto. destruct (proj1 Q eq_refl) as (Nb & Fl & Bx & Nc). apply filter_none. intros p Jp. destruct (ment i j p) eqn:M; auto. exfalso. apply Nel.
    assert (X : (contained s i /\ contained s j) /\ ~ (resting s i /\ resting s j)).
    { apply in_rev, in_app_or in Jp. destruct (ment_ij _ _ _ M) as [-> | ->]; destruct Jp as [J|J]; [apply A2 in J|apply A1 in J|apply A2 in J|apply A1 in J]; tauto. }
    destruct X as [[Ci Cj] Nr]. repeat split; auto.
Qed.
Lemma bb_exact s flt box f q st dy : SpaceSpec.reachable s -> Space.s_lock s = 0%Z ->
  hashed (Space.s_six s) (fun i b => b = box i) st -> hashed (Space.s_dix s) (fun i b => b = box i) dy -> (forall i, contained s i -> good (box i)) -> good q ->
  exists l, hash_bb_query toint dim cells flt box f q st dy = Some l /\ NoDup l /\ forall i, In i l <-> contained s i /\ reject (flt i) f = false /\ bb_intersects (box i) q = true.
Proof using some_cells mono.
  intros R L (ks & cs & Fs & Ns & Rs & Ms & Bs) (kd & cd & Fd & Nd & Rd & Md & Bd) Gd [Gq Vq].
  destruct (found toint ffloor dim cells some_cells ok mono ks cs st None q Fs Ns Rs) as (st' & l & E1 & N1 & In1 & All1).
  destruct (found toint ffloor dim cells some_cells ok mono kd cd dy None q Fd Nd Rd) as (dy' & m & E2 & N2 & In2 & All2).
  unfold hash_bb_query. rewrite E1, E2. eexists. split; [reflexivity|]. split.
  - apply NoDup_filter, nodup_app; try apply NoDup_rev; auto. intros x J K. rewrite <- in_rev in J, K. apply In1 in J as [J _]. apply In2 in K as [K _]. apply Ms in J. apply Md in K. destruct (where_listed s x R L) as [A B]. tauto.
  - intros i. rewrite filter_In, in_app_iff, <- !in_rev. unfold bb_accepts. cbn [x_box index0]. rewrite andb_true_iff, negb_true_iff. destruct (where_listed s i R L) as [A B]. split.
    + intros [[J|J] [X Y]]; [apply In1 in J as [J _]; apply Ms, B in J|apply In2 in J as [J _]; apply Md, A in J]; tauto.
    + intros (C & X & Y). split; auto. destruct (Gd i C) as [Gi Vi]. destruct (resting_dec s i) as [Ri|Ri]; [left|right].
      * destruct (boxes_after cs i) as [b|] eqn:E; [|exfalso; apply (proj2 (Ms i)); [apply B; auto|exact E]]. assert (b = box i) by (apply Bs; auto). subst b. eapply All1; eauto; discriminate.
      * destruct (boxes_after cd i) as [b|] eqn:E; [|exfalso; apply (proj2 (Md i)); [apply A; auto|exact E]]. assert (b = box i) by (apply Bd; auto). subst b. eapply All2; eauto; discriminate.
Qed.
(** the tree and the hash agree *)
Lemma same_as_tree s flt x order tree_order nowD st dy : SpaceSpec.reachable s -> Space.s_lock s = 0%Z -> (forall l, Permutation l (order l)) ->
  reached x -> indexes_space s x -> SpaceQuerySpec.fresh x false -> Permutation tree_order (x_leaves x true) ->
  hashed (Space.s_six s) (fun i b => b = x_box x i) st -> hashed (Space.s_dix s) nowD dy -> (forall i, contained s i -> good (x_box x i)) ->
  exists ps, hash_pairs toint dim cells s flt (x_box x) order st dy = Some ps /\ forall i j, mentions i j ps = mentions i j (narrow_pairs s flt x tree_order).
Proof using some_cells mono O.
  intros R L P Rx Ix F PT HS HD Gd. destruct (pairs_exact s flt (x_box x) order nowD st dy R L P HS HD Gd) as (ps & E & A). exists ps. split; auto. intros i j.
  destruct (narrow_exact s flt x tree_order R L Rx Ix F PT i j) as [B1 B2]. destruct (A i j) as [A1 A2].
  assert (D : {eligible s flt (x_box x) i j} + {~ eligible s flt (x_box x) i j}).
  { destruct (query_reject s flt x i j) eqn:Q.
    - right. intros (_ & _ & _ & Nb & Fl & Bx & Nc). assert (X : query_reject s flt x i j = false) by (apply query_reject_spec; auto). congruence.
    - apply query_reject_spec in Q; auto. destruct Q as (Nb & Fl & Bx & Nc). unfold eligible, contained. destruct (Space.contains_shape s i) eqn:Ci; [|right; intros (X & _); discriminate].
      destruct (Space.contains_shape s j) eqn:Cj; [|right; intros (_ & X & _); discriminate]. destruct (resting_dec s i) as [Ri|Ri], (resting_dec s j) as [Rj|Rj]; [right; tauto| left; tauto | left; tauto | left; tauto]. }
  destruct D as [D|D]; [rewrite A1, B1 by auto|rewrite A2, B2 by auto]; reflexivity.
Qed.
End Use.
