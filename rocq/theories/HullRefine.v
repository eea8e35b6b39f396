(** Proofs for C47, first part: the in-place array program computes the QuickHull recursion on lists ([arc]). *)
From Coq Require Import ZArith Reals List Bool Lia PeanoNat Permutation.
From Verif Require Import Num NumReal Vec Polyline Hull.
Import ListNotations.

Ltac len := cbn [length app] in *; repeat (rewrite app_length in *; cbn [length app] in *); lia.
Section Any.
Context {Nm : Num}.
Implicit Types (l A B X L M S H : list vec).

Lemma set_app l1 x l2 v : set (l1 ++ x :: l2) (length l1) v = Some (l1 ++ v :: l2).
Proof. induction l1 as [|y l1 IH]; cbn; auto. now rewrite IH. Qed.
Lemma nth_app l1 (x : vec) l2 : nth_error (l1 ++ x :: l2) (length l1) = Some x.
Proof. induction l1; auto. Qed.
Lemma swap_far l1 x l2 y l3 : swap (l1 ++ x :: l2 ++ y :: l3) (length l1) (length l1 + S (length l2)) = Some (l1 ++ y :: l2 ++ x :: l3).
Proof.
  unfold swap. rewrite nth_app. replace (l1 ++ x :: l2 ++ y :: l3) with ((l1 ++ x :: l2) ++ y :: l3) at 1 by (now rewrite <- app_assoc).
  replace (length l1 + S (length l2))%nat with (length (l1 ++ x :: l2)) by (rewrite app_length; reflexivity). rewrite nth_app, set_app.
  replace (l1 ++ y :: l2 ++ y :: l3) with ((l1 ++ y :: l2) ++ y :: l3) by (now rewrite <- app_assoc).
  replace (length (l1 ++ x :: l2)) with (length (l1 ++ y :: l2)) by (now rewrite !app_length). rewrite set_app. now rewrite <- app_assoc.
Qed.
Lemma swap_same l1 x l2 : swap (l1 ++ x :: l2) (length l1) (length l1) = Some (l1 ++ x :: l2).
Proof. unfold swap. now rewrite nth_app, set_app, set_app. Qed.

(** [value]: how far v is to the right of the line from a to b *)
Definition value (a b v : vec) : num := vcross (vsub v a) (vsub b a).
Variables (tol : num) (proper : Prop) (le : num -> num -> Prop).
Definition over (a b v : vec) : bool := (tol * vmag (vsub b a) <? value a b v)%num.
Hypothesis pos : proper -> forall a b v, over a b v = true -> (n0 <? value a b v)%num = true.
Hypothesis le_refl : proper -> forall x, le x x.
Hypothesis le_step : proper -> forall u m v, le u m -> (m <? v)%num = true -> le u v.
Hypothesis le_stay : proper -> forall m v, (m <? v)%num = false -> le v m.

Section Loop.
Variables (a b : vec) (pre post : list vec).
Lemma loop_ok n : forall A X B mx pivot, length X = n ->
  Forall (fun v => over a b v = true) A -> Forall (fun v => over a b v = false) B ->
  ((A = [] /\ pivot = 0%nat /\ mx = n0) \/ exists A1 q A2, A = A1 ++ q :: A2 /\ length A1 = pivot /\ (proper -> mx = value a b q /\ Forall (fun v => le (value a b v) (value a b q)) A)) ->
  exists L M pivot', partition_loop n (pre ++ A ++ X ++ B ++ post) (length pre) (length A) a (vsub b a) (tol * vmag (vsub b a))%num mx pivot = Some (pre ++ L ++ M ++ post, length L, pivot') /\
    Permutation (A ++ X ++ B) (L ++ M) /\ Forall (fun v => over a b v = true) L /\ Forall (fun v => over a b v = false) M /\
    ((L = [] /\ pivot' = 0%nat) \/ exists L1 q L2, L = L1 ++ q :: L2 /\ length L1 = pivot' /\ (proper -> Forall (fun v => le (value a b v) (value a b q)) L)).
Proof.
  induction n as [|n IH]; intros A X B mx pivot Hn FA FB Pi; cbn [partition_loop].
  - destruct X; [|discriminate]. exists A, B, pivot. split; [reflexivity|]. split; [auto|]. split; auto. split; auto.
    destruct Pi as [(-> & -> & _)|(A1 & q & A2 & E & P & Q)]; [now left|right]. exists A1, q, A2. split; auto. split; auto. intros Pr. apply Q, Pr.
  - destruct X as [|x X]; [discriminate|]. injection Hn as Hn.
    replace (pre ++ A ++ (x :: X) ++ B ++ post) with ((pre ++ A) ++ x :: X ++ B ++ post) by (now rewrite <- app_assoc).
    replace (length pre + length A)%nat with (length (pre ++ A)) by apply app_length. rewrite nth_app. fold (value a b x).
    fold (over a b x). destruct (over a b x) eqn:O.
    + assert (FA' : Forall (fun v => over a b v = true) (A ++ [x])) by (apply Forall_app; auto).
      assert (LA : length (A ++ [x]) = S (length A)) by (rewrite app_length; cbn; lia).
      assert (Ar : (pre ++ A) ++ x :: X ++ B ++ post = pre ++ (A ++ [x]) ++ X ++ B ++ post) by (now rewrite <- !app_assoc). rewrite Ar, <- LA.
      assert (Pe : forall Q, Permutation ((A ++ [x]) ++ X ++ B) Q -> Permutation (A ++ (x :: X) ++ B) Q) by (intros Q; now rewrite <- app_assoc).
      destruct (mx <? value a b x)%num eqn:G.
      * destruct (IH (A ++ [x]) X B (value a b x) (length A) Hn FA' FB) as (L & M & p' & E & P & R); [|exists L, M, p'; split; [exact E|split; [now apply Pe|exact R]]].
        right. exists A, x, []. split; auto. split; auto. intros Pr. split; auto. apply Forall_app. split; [|constructor; auto].
        destruct Pi as [(-> & _)|(A1 & q & A2 & E & _ & Q)]; [constructor|]. destruct (Q Pr) as [-> F]. eapply Forall_impl; [|exact F]. intros v Hv. cbn in Hv. eapply le_step; eauto.
      * destruct (IH (A ++ [x]) X B mx pivot Hn FA' FB) as (L & M & p' & E & P & R); [|exists L, M, p'; split; [exact E|split; [now apply Pe|exact R]]].
        right. destruct Pi as [(-> & -> & ->)|(A1 & q & A2 & E & P & Q)].
        -- exists [], x, []. split; auto. split; auto. intros Pr. rewrite (pos Pr) in G by auto. discriminate.
        -- exists A1, q, (A2 ++ [x]). split; [rewrite E, <- app_assoc; reflexivity|]. split; auto. intros Pr. destruct (Q Pr) as [Em F]. split; auto.
           apply Forall_app. split; auto. constructor; auto. rewrite <- Em. now apply le_stay.
    + assert (K : exists X', length X' = n /\ swap ((pre ++ A) ++ x :: X ++ B ++ post) (length (pre ++ A)) (length pre + (length A + n)) = Some (pre ++ A ++ X' ++ (x :: B) ++ post) /\ Permutation X X').
      { destruct X as [|y X'] using rev_ind.
        - cbn in Hn. subst n. exists []. split; auto. split; auto. rewrite Nat.add_0_r, <- app_length, swap_same. cbn. now rewrite <- app_assoc.
        - clear IHX'. rewrite app_length in Hn. cbn in Hn. exists (y :: X'). split; [cbn; lia|]. split; [|symmetry; apply Permutation_cons_append].
          replace ((X' ++ [y]) ++ B ++ post) with (X' ++ y :: B ++ post) by (now rewrite <- app_assoc).
          replace (length pre + (length A + n))%nat with (length (pre ++ A) + S (length X'))%nat by (rewrite app_length; lia). rewrite swap_far. f_equal. now rewrite <- !app_assoc. }
      destruct K as (X' & HX & -> & PX).
      destruct (IH A X' (x :: B) mx pivot HX FA (Forall_cons _ O FB) Pi) as (L & M & p' & E & P & R). exists L, M, p'. split; [exact E|]. split; [|exact R].
      rewrite <- P. apply Permutation_app_head. cbn. rewrite PX. apply Permutation_middle.
Qed.
Lemma partition_ok S : exists L M, partition (pre ++ S ++ post) (length pre) (length S) a b tol = Some (pre ++ L ++ M ++ post, length L) /\
  Permutation S (L ++ M) /\ Forall (fun v => over a b v = true) L /\ Forall (fun v => over a b v = false) M /\
  (L = [] \/ exists q L', L = q :: L' /\ (proper -> Forall (fun v => le (value a b v) (value a b q)) L)).
Proof.
  unfold partition. destruct (Nat.eqb_spec (length S) 0) as [Z|Z].
  { destruct S; [|discriminate]. exists [], []. cbn. auto 7. }
  destruct (loop_ok (length S) [] S [] n0 0 eq_refl (Forall_nil _) (Forall_nil _) (or_introl (conj eq_refl (conj eq_refl eq_refl)))) as (L & M & p' & E & P & FL & FM & Q).
  cbn [app length] in E. rewrite E. rewrite app_nil_r in P. cbn [app] in P. destruct (Nat.eqb_spec p' 0) as [->|N].
  - exists L, M. split; auto. split; auto. split; auto. split; auto. destruct Q as [[-> _]|(L1 & q & L2 & -> & HL & F)]; [now left|right]. destruct L1; [|discriminate]. exists q, L2. auto.
  - destruct Q as [[_ Z']|(L1 & q & L2 & -> & HL & F)]; [contradiction|]. destruct L1 as [|x L1]; [cbn in HL; congruence|].
    replace (pre ++ ((x :: L1) ++ q :: L2) ++ M ++ post) with (pre ++ x :: L1 ++ q :: (L2 ++ M ++ post)) by (cbn; now rewrite <- app_assoc).
    rewrite <- HL. cbn [length]. rewrite swap_far.
    assert (PL : Permutation ((x :: L1) ++ q :: L2) (q :: L1 ++ x :: L2)).
    { cbn. rewrite <- Permutation_middle. rewrite perm_swap. apply perm_skip. apply Permutation_middle. }
    exists (q :: L1 ++ x :: L2), M. split; [cbn; rewrite <- app_assoc; cbn; rewrite !app_length; cbn; f_equal; f_equal; lia|].
    split; [rewrite P; now apply Permutation_app_tail|]. split; [eapply Permutation_Forall; eauto|]. split; auto. right. exists q, (L1 ++ x :: L2). split; auto.
    intros Pr. eapply Permutation_Forall; [exact PL|]. auto.
Qed.
End Loop.

(** QuickHull on lists: [arc a b S H] says that H are the hull vertices strictly right of a -> b, found among the points S *)
Inductive arc : vec -> vec -> list vec -> list vec -> Prop :=
| arc_none a b S : Forall (fun v => over a b v = false) S -> arc a b S []
| arc_some a b S q L M L1 M1 HL HR : Permutation S ((q :: L) ++ M) ->
    Forall (fun v => over a b v = true) (q :: L) -> Forall (fun v => over a b v = false) M -> (proper -> Forall (fun v => le (value a b v) (value a b q)) (q :: L)) ->
    Permutation L (L1 ++ M1) -> Forall (fun v => over a q v = true) L1 -> Forall (fun v => over a q v = false) M1 ->
    arc a q L1 HL -> arc q b M1 HR -> arc a b S (HL ++ q :: HR).
Lemma reduce_ok fuel : forall S P1 gap post a p b, (length S < fuel)%nat -> gap <> [] ->
  exists H junk, reduce fuel tol (P1 ++ gap ++ S ++ post) (length (P1 ++ gap)) (length S) a p b (length P1) = Some (P1 ++ H ++ junk ++ post, length H) /\
    (length H + length junk = length gap + length S)%nat /\ (length H <= length S + 1)%nat /\
    exists L M HL HR, Permutation S (L ++ M) /\ Forall (fun v => over a p v = true) L /\ Forall (fun v => over a p v = false) M /\ arc a p L HL /\ arc p b M HR /\ H = HL ++ p :: HR.
Proof.
  induction fuel as [|fuel IH]; intros S P1 gap post a p b F G; [lia|]. cbn [reduce]. destruct gap as [|g gap]; [congruence|].
  destruct (Nat.eqb_spec (length S) 0) as [Z|Z].
  { destruct S; [|discriminate]. exists [p], gap. cbn [app]. rewrite set_app. cbn. split; [reflexivity|]. split; [lia|]. split; [lia|].
    exists [], [], [], []. cbn. repeat split; auto using arc_none. }
  replace (P1 ++ (g :: gap) ++ S ++ post) with ((P1 ++ g :: gap) ++ S ++ post) by (now rewrite <- app_assoc).
  destruct (partition_ok a p (P1 ++ g :: gap) post S) as (L & M & E & P & FL & FM & Best). rewrite E. clear E.
  assert (LS : length S = (length L + length M)%nat) by (rewrite (Permutation_length P); apply app_length).
  (* the left part *)
  set (left := if Nat.eqb (length L) 0 then _ else _).
  assert (HLeft : exists HL junk, left = Some (P1 ++ HL ++ junk ++ M ++ post, length HL) /\ (length HL + length junk = 1 + length gap + length L)%nat /\ (length HL <= length L)%nat /\ arc a p L HL).
  { destruct Best as [->|(q & L' & -> & Mx)].
    - exists [], (g :: gap). unfold left. cbn. rewrite <- app_assoc. repeat split; auto. now constructor.
    - unfold left. cbn [length Nat.eqb]. cbn [app]. rewrite nth_app.
      replace (slice _ _) with true by (symmetry; apply Nat.leb_le; rewrite !app_length; cbn; rewrite !app_length; lia).
      replace (P1 ++ g :: gap) with (P1 ++ g :: gap) by reflexivity.
      destruct (IH L' P1 ((g :: gap) ++ [q]) (M ++ post) a q p) as (H & junk & E & J & K & L2 & M2 & HL & HR & P2 & F2 & G2 & A1 & A2 & ->); [cbn in LS; lia|discriminate|].
      exists (HL ++ q :: HR), junk. split; [|split; [|split]].
      + rewrite <- E. f_equal; [|len|lia]. rewrite <- !app_assoc. cbn. rewrite <- ?app_assoc. reflexivity.
      + rewrite J. cbn. rewrite app_length. cbn. lia.
      + cbn. lia.
      + eapply arc_some with (M := []); eauto. rewrite app_nil_r. auto. }
  destruct HLeft as (HL & junk & -> & J & K & AL). cbv beta iota.
  destruct junk as [|j junk]; [cbn in J; lia|].
  replace (P1 ++ HL ++ (j :: junk) ++ M ++ post) with ((P1 ++ HL) ++ j :: junk ++ M ++ post) by (now rewrite <- app_assoc).
  replace (length P1 + length HL)%nat with (length (P1 ++ HL)) by apply app_length. rewrite set_app.
  set (Q := P1 ++ HL ++ [p]).
  replace ((P1 ++ HL) ++ p :: junk ++ M ++ post) with (Q ++ junk ++ M ++ post) by (unfold Q; now rewrite <- !app_assoc).
  assert (Vo : (length (P1 ++ g :: gap) + length L = length (Q ++ junk))%nat) by (unfold Q; rewrite !app_length; cbn; cbn in J; lia). rewrite Vo.
  replace (slice _ _) with true by (symmetry; apply Nat.leb_le; rewrite !app_length; lia). cbn [negb].
  replace (length S - length L)%nat with (length M) by lia.
  replace (Q ++ junk ++ M ++ post) with ((Q ++ junk) ++ M ++ post) by (now rewrite <- app_assoc).
  destruct (partition_ok p b (Q ++ junk) post M) as (R & N & E & P' & FR & FN & Best'). rewrite E. clear E.
  assert (LM : length M = (length R + length N)%nat) by (rewrite (Permutation_length P'); apply app_length).
  destruct Best' as [->|(q & R' & -> & Mx)].
  - cbn [length Nat.eqb]. exists (HL ++ [p]), (junk ++ N). split; [|split; [|split]].
    + unfold Q. cbn [app]. rewrite app_length. cbn. rewrite <- !app_assoc. cbn. f_equal. f_equal. lia.
    + rewrite !app_length. cbn in *. lia.
    + rewrite !app_length. cbn in *. lia.
    + exists L, M, HL, []. repeat split; auto. apply arc_none. cbn in P'. eapply Permutation_Forall; [symmetry; exact P'|auto].
  - cbn [length Nat.eqb]. cbn [app]. rewrite nth_app.
    replace (slice _ _) with true by (symmetry; apply Nat.leb_le; rewrite !app_length; cbn; rewrite !app_length; lia).
    replace (slice _ _) with true by (symmetry; apply Nat.leb_le; unfold Q; rewrite !app_length; cbn; rewrite !app_length; lia). cbn [andb].
    destruct (IH R' Q (junk ++ [q]) (N ++ post) p q b) as (H & junk2 & E & J2 & K2 & L2 & M2 & HL2 & HR2 & P2 & F2 & G2 & A1 & A2 & EH); [cbn in LM; lia|destruct junk; discriminate|].
    exists (HL ++ p :: H), (junk2 ++ N). split; [|split; [|split]].
    + match goal with |- option_map _ ?x = _ => replace x with (Some (Q ++ H ++ junk2 ++ N ++ post, length H)) end.
      * cbn. unfold Q. rewrite <- !app_assoc. cbn. rewrite app_length. cbn. f_equal. f_equal. lia.
      * rewrite <- E. f_equal; [|len|lia|unfold Q; len]. rewrite <- !app_assoc. reflexivity.
    + rewrite !app_length in *. cbn in *. lia.
    + rewrite !app_length. cbn in *. lia.
    + exists L, M, HL, H. repeat split; auto. subst H. eapply arc_some; eauto.
Qed.
Lemma arc_in a b S H : arc a b S H -> exists rest, Permutation S (H ++ rest).
Proof.
  induction 1 as [a b S F|a b S q L M L1 M1 HL HR P F G Mx P1 F1 G1 A1 [r1 R1] A2 [r2 R2]]; [exists S; reflexivity|].
  exists (r1 ++ r2 ++ M). rewrite P. cbn. rewrite P1, R1, R2. rewrite <- !app_assoc. cbn.
  rewrite <- Permutation_middle. apply perm_skip. apply Permutation_app_head. rewrite !app_assoc. apply Permutation_app_tail. apply Permutation_app_tail. apply Permutation_app_comm.
Qed.

(** ** The top level *)
Lemma swap_le arr i j : (i <= j < length arr)%nat -> exists arr', swap arr i j = Some arr' /\ Permutation arr arr' /\
  nth i arr' vzero = nth j arr vzero /\ nth j arr' vzero = nth i arr vzero /\ forall k, k <> i -> k <> j -> nth k arr' vzero = nth k arr vzero.
Proof.
  intros [L B]. destruct (nth_error arr i) as [x|] eqn:X; [|apply nth_error_None in X; lia]. apply nth_error_split in X as (l1 & m & -> & <-).
  destruct (Nat.eq_dec j (length l1)) as [->|N].
  { exists (l1 ++ x :: m). rewrite swap_same. auto. }
  destruct (nth_error m (j - length l1 - 1)) as [y|] eqn:Y; [|apply nth_error_None in Y; rewrite app_length in B; cbn in B; lia]. apply nth_error_split in Y as (l2 & l3 & -> & E).
  assert (j = length l1 + Datatypes.S (length l2))%nat by lia. subst j. exists (l1 ++ y :: l2 ++ x :: l3). rewrite swap_far.
  assert (N1 : forall a b, nth (length l1) (l1 ++ a :: b) vzero = a) by (intros; rewrite app_nth2, Nat.sub_diag by lia; reflexivity).
  assert (N2 : forall a b c, nth (length l1 + Datatypes.S (length l2)) (l1 ++ a :: l2 ++ b :: c) vzero = b).
  { intros. rewrite app_nth2 by lia. replace (length l1 + Datatypes.S (length l2) - length l1)%nat with (Datatypes.S (length l2)) by lia. cbn. rewrite app_nth2, Nat.sub_diag by lia. reflexivity. }
  rewrite !N1, !N2. split; auto. split; [|split; auto; split; auto].
  - apply Permutation_app_head. rewrite <- !Permutation_middle. apply perm_swap.
  - intros k K1 K2. destruct (lt_dec k (length l1)); [rewrite !app_nth1 by lia; auto|]. rewrite !app_nth2 by lia.
    destruct (k - length l1)%nat as [|d] eqn:D; [lia|]. cbn. destruct (lt_dec d (length l2)); [rewrite !app_nth1 by lia; auto|]. rewrite !app_nth2 by lia.
    destruct (d - length l2)%nat eqn:D'; [lia|reflexivity].
Qed.
Lemma hull_ok verts s f : loop_indexes verts (length verts) = Some (s, f) -> (s < length verts)%nat -> (f < length verts)%nat -> s <> f ->
  exists S L M HL HR arr, let a := nth s verts vzero in let p := nth f verts vzero in
    Permutation verts (a :: p :: S) /\ Permutation S (L ++ M) /\ Forall (fun v => over a p v = true) L /\ Forall (fun v => over a p v = false) M /\
    arc a p L HL /\ arc p a M HR /\
    convex_hull tol verts = Some (arr, length (a :: HL ++ p :: HR)) /\ firstn (length (a :: HL ++ p :: HR)) arr = a :: HL ++ p :: HR.
Proof.
  intros E Hs Hf N. unfold convex_hull. rewrite E. destruct (Nat.eqb_spec s f); [contradiction|].
  destruct (swap_le verts 0 s ltac:(lia)) as (a1 & -> & P1 & Z1 & S1 & O1). assert (L1 : length a1 = length verts) by (now rewrite (Permutation_length P1)).
  set (k := if Nat.eqb f 0 then s else f). assert (K : (1 <= k < length a1)%nat) by (unfold k; destruct (Nat.eqb_spec f 0); lia).
  destruct (swap_le a1 1 k K) as (a2 & -> & P2 & Z2 & S2 & O2). assert (L2 : length a2 = length verts) by (rewrite <- (Permutation_length P2); auto).
  assert (A : nth 0 a2 vzero = nth s verts vzero) by (rewrite O2 by lia; auto).
  assert (B : nth 1 a2 vzero = nth f verts vzero). { rewrite Z2. unfold k. destruct (Nat.eqb_spec f 0) as [->|]; auto. }
  destruct a2 as [|a [|p S]]; [cbn in L2; lia|cbn in L2; lia|]. cbn in A, B. rewrite <- A, <- B.
  destruct (reduce_ok (Datatypes.S (length (a :: p :: S))) S [a] [p] [] a p a) as (H & junk & R & J & K' & L & M & HL & HR & P & F & G & A1 & A2 & ->); [cbn; lia|discriminate|].
  exists S, L, M, HL, HR, ([a] ++ (HL ++ p :: HR) ++ junk). cbv zeta.
  split; [rewrite P1; exact P2|]. split; auto. split; auto. split; auto. split; auto. split; auto.
  rewrite !app_nil_r in R. cbn [app length] in R. replace (length (a :: p :: S) - 2)%nat with (length S) by (cbn; lia). cbn [length] in *. rewrite R. cbn [option_map]. split; [reflexivity|].
  cbn [app firstn]. f_equal. rewrite firstn_app, Nat.sub_diag, firstn_all. cbn. now rewrite app_nil_r.
Qed.
End Any.
