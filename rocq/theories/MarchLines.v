(** Marching squares and PolyLineCollectSegment together; examples (for C48, C50). *)
From Coq Require Import ZArith Reals List Bool Lia PeanoNat Permutation Floats.
From Verif Require Import Num NumReal NumFloat Vec BB March MarchSpec MarchMain MarchGeom Polyline PolylineSpec PolylineMain.
Import ListNotations.

Section Any.
Context {Nm : Num}.
Hypothesis P : per Nm.
Variables (sample : vec -> num) (bb : bb) (t : num) (xs ys : nat).
Local Notation crossed := (crossed sample bb t xs ys).
Local Notation vertex := (vertex true sample bb t xs ys).
(** no two crossed edges of the grid are crossed at the same point, and none at a NaN *)
Definition generic : Prop := forall e e', edge_ok xs ys e -> edge_ok xs ys e' -> crossed e = true -> crossed e' = true -> (veqb (vertex e) (vertex e') = true <-> e' = e).
Lemma generic_at (G : generic) p : forall e e', edge_ok xs ys e -> edge_ok xs ys e' -> crossed e = true -> crossed e' = true -> veqb p (vertex e) = true -> veqb p (vertex e') = true -> e' = e.
Proof. intros e e' O O' C C' V V'. apply G; auto. rewrite veqb_sym in V by auto. exact (veqb_trans P _ _ _ V V'). Qed.
Lemma contours ss l : generic -> march_soft sample bb t xs ys = Some ss -> In l (collect_all ss) ->
  veqb (first_of l) (last_of l) = true \/
  ((exists e, edge_ok xs ys e /\ crossed e = true /\ on_border xs ys e /\ same (first_of l) (vertex e)) /\
   (exists e, edge_ok xs ys e /\ crossed e = true /\ on_border xs ys e /\ same (last_of l) (vertex e))).
Proof.
  intros G M I.
  assert (A : forall p, (starts p ss <= 1)%nat /\ (ends p ss <= 1)%nat) by (intros p; apply (at_most P true sample bb t xs ys ss M p); [discriminate|now apply generic_at]).
  destruct (loose_ends P ss l (fun p => proj1 (A p)) (fun p => proj2 (A p)) I) as [C|[E S]]; [now left|right].
  destruct (collected ss) as (F & ss' & Sa & Pe). rewrite Forall_forall in F. pose proof (F l I) as L.
  assert (B : forall p, (exists s, In s ss /\ (same p (fst s) \/ same p (snd s))) -> ends p ss = 0%nat \/ starts p ss = 0%nat ->
     exists e, edge_ok xs ys e /\ crossed e = true /\ on_border xs ys e /\ same p (vertex e)).
  { intros p (s & Is & Pr) Z. destruct (soft_ends sample bb t xs ys ss s M Is) as [(e1 & O1 & C1 & V1) (e2 & O2 & C2 & V2)].
    assert (K : exists e, edge_ok xs ys e /\ crossed e = true /\ same p (vertex e)).
    { destruct Pr as [Pr|Pr]; [exists e1; rewrite <- V1; auto|exists e2; rewrite <- V2; auto 6]. }
    destruct K as (e & O & C & V). exists e. split; auto. split; auto. split; auto.
    assert (Bo : on_border xs ys e \/ ~ on_border xs ys e) by (destruct e as [[[|] i] j]; cbn; lia). destruct Bo as [|Bo]; auto. exfalso.
    assert (V' : veqb p (vertex e) = true) by (destruct V as [->|V]; auto; now apply G).
    destruct (once P true sample bb t xs ys ss M p ltac:(discriminate) (generic_at G p) e O C V' Bo). lia. }
  assert (In_ss : forall q, In q (pairs l) -> exists s, In s ss /\ same_segment q s).
  { intros q Iq. assert (Iq' : In q ss') by (apply (Permutation_in _ Pe); apply in_flat_map; eauto). clear -Sa Iq'. induction Sa as [|x y a b H Sa IH]; [destruct Iq'|]. destruct Iq' as [<-|Iq']; [exists y; split; [now left|auto]|]. destruct (IH Iq') as (s & ? & ?). exists s. split; [now right|auto]. }
  split; apply B; auto.
  - destruct (pairs_tail l L) as (q & Eq & Fq). destruct (In_ss q) as (s & Is & [S1 _]); [rewrite Eq; now left|]. exists s. split; auto. left. now rewrite <- Fq.
  - destruct (pairs_front l L) as (q & Eq & Fq). destruct (In_ss q) as (s & Is & [_ S2]); [rewrite Eq; apply in_or_app; right; now left|]. exists s. split; auto. right. now rewrite <- Fq.
Qed.
End Any.

(** ** Examples *)
(* a disc sampled on a 4 x 4 grid: one closed contour; half of it: one open contour *)
Definition disc (p : @vec FNum) : float := (2 - (vx p * vx p + vy p * vy p))%float.
Definition disc_bb : @bb FNum := fbb (-2) (-2) 2 2.
Definition half_bb : @bb FNum := fbb 0.125 (-2) 2 2.
Definition run_disc (b : @bb FNum) : list (list (@vec FNum)) := match @march_soft FNum disc b 0%float 4 4 with Some ss => collect_all ss | None => [] end.
Definition closed_b (l : list (@vec FNum)) : bool := @veqb FNum (first_of l) (last_of l).
Lemma disc_run : map closed_b (run_disc disc_bb) = [true] /\ map (@length _) (run_disc disc_bb) = [9%nat] /\ map closed_b (run_disc half_bb) = [false].
Proof. vm_compute. auto. Qed.
(* its grid is generic *)
Definition edges (xs ys : nat) : list edge := filter (fun e => let '(h, i, j) := e in if h : bool then Nat.ltb (S i) xs && Nat.ltb j ys else Nat.ltb i xs && Nat.ltb (S j) ys)
  (flat_map (fun h => flat_map (fun i => map (fun j => (h, i, j)) (seq 0 ys)) (seq 0 xs)) [true; false]).
Lemma edges_all xs ys e : edge_ok xs ys e -> In e (edges xs ys).
Proof.
  destruct e as [[h i] j]. intros H. unfold edges. apply filter_In. split.
  - apply in_flat_map. exists h. split; [destruct h; cbn; auto|]. apply in_flat_map. exists i. split; [apply in_seq; destruct h; cbn in H; lia|]. apply in_map_iff. exists j. split; auto. apply in_seq. destruct h; cbn in H; lia.
  - destruct h; cbn in H; apply andb_true_iff; split; apply Nat.ltb_lt; lia.
Qed.
Definition edge_eqb (e f : edge) : bool := let '(h, i, j) := e in let '(h', i', j') := f in Bool.eqb h h' && Nat.eqb i i' && Nat.eqb j j'.
Lemma edge_eqb_spec e f : edge_eqb e f = true <-> f = e.
Proof.
  destruct e as [[h i] j], f as [[h' i'] j']. cbn. rewrite !andb_true_iff, Bool.eqb_true_iff, !Nat.eqb_eq. split; [intros [[-> ->] ->]; auto|intros E; injection E as -> -> ->; auto].
Qed.
Definition generic_b (b : @bb FNum) : bool := forallb (fun e => forallb (fun e' =>
  implb (@crossed FNum disc b 0%float 4 4 e && @crossed FNum disc b 0%float 4 4 e') (Bool.eqb (@veqb FNum (@vertex FNum true disc b 0%float 4 4 e) (@vertex FNum true disc b 0%float 4 4 e')) (edge_eqb e e'))) (edges 4 4)) (edges 4 4).
Lemma disc_generic : @generic FNum disc half_bb 0%float 4 4.
Proof.
  assert (H : generic_b half_bb = true) by (vm_compute; reflexivity). unfold generic_b in H. intros e e' O O' C C'.
  rewrite forallb_forall in H. specialize (H e (edges_all _ _ _ O)). rewrite forallb_forall in H. specialize (H e' (edges_all _ _ _ O')). rewrite C, C' in H. cbn [andb implb] in H.
  apply Bool.eqb_prop in H. rewrite H. apply edge_eqb_spec.
Qed.
Lemma march_no_column : exists xs ys, forall (sample : @vec FNum -> float) bb t, @march_soft FNum sample bb t xs ys = None.
Proof. exists 0%nat, 2%nat. reflexivity. Qed.
