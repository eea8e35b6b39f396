(** Circles end to end, and concrete spaces for C58 and C59. *)
From Coq Require Import ZArith NArith List Bool Arith Permutation Lia Floats Reals Lra Psatz.
From Verif Require Import Num NumReal NumFloat Vec BB BBProofs BBTreeRay Transform Shapes BBTree BBTreeSpec BBTreeMain Filter Narrow NarrowCircle NarrowMain SpaceQuery SpaceQuerySpec SpaceQueryProofs.
From Verif Require Space SpaceSpec SpaceInv SpaceMain SpaceRuns.
Import ListNotations.

(** ** Circles *)
Section Circles.
Local Open Scope R_scope.
Definition discs (sh : nat -> @nshape RNum) (cen : nat -> @vec RNum) (rad : nat -> R) : Prop :=
  forall i, 0 <= rad i /\ exists c, sh i = NShape (SCircle (Circle c (cen i) (rad i))) (bb_circle (cen i) (rad i)) (ns_hash (sh i)).
Lemma near_boxes (p q : @vec RNum) (r s : R) : 0 <= r -> 0 <= s -> vdist p q < r + s -> bb_intersects (N := RNum) (bb_circle q s) (bb_circle p r) = true.
Proof.
  intros Hr Hs H. destruct p as [a b], q as [c d]. unfold vdist, vmag, vsub, vdot in H. cbn [vx vy] in H. unR.
  set (A := (a - c)) in *. set (B := (b - d)) in *.
  assert (S : sqrt (A * A + B * B) * sqrt (A * A + B * B) = A * A + B * B) by (apply sqrt_sqrt; nra).
  pose proof (sqrt_pos (A * A + B * B)) as P. set (m := sqrt (A * A + B * B)) in *. clearbody m.
  assert (- m <= A <= m) by (split; nra). assert (- m <= B <= m) by (split; nra). unfold A, B in *.
  unfold bb_intersects, bb_circle, bb_extents. cbn [bL bB bR bT vx vy]. unR. repeat (apply andb_true_iff; split); apply Rleb_true; lra.
Qed.
Lemma circle_query (tiny : R) s flt sensor sh cen rad x a : SpaceSpec.reachable (N := RNum) s -> Space.s_lock s = 0%Z -> reached (N := RNum) x -> indexes_space s x ->
  fresh x false -> fresh x true -> discs sh cen rad -> (forall i, x_box x i = ns_bb (sh i)) ->
  forall b, In b (map fst (fst (shape_query (N := RNum) tiny flt sensor sh x a (ns_bb (sh a))))) <->
    contained s b /\ b <> a /\ reject (flt a) (flt b) = false /\ vdist (cen a) (cen b) < rad a + rad b.
Proof.
  intros R L Rx Ix F0 F1 D Bx b. destruct (shape_query_exact (N := RNum) tiny s flt sensor sh x a (ns_bb (sh a)) R L Rx Ix F0 F1) as (_ & A & B).
  destruct (D a) as (Ra & ca & Ea), (D b) as (Rb & cb & Eb).
  destruct (circles tiny (sh a) (sh b) (Circle ca (cen a) (rad a)) (Circle cb (cen b) (rad b)) (f_equal ns_s Ea) (f_equal ns_s Eb) Ra Rb) as (n & l & E & T & U). cbn [ci_tc ci_r] in T, U. split.
  - intros I. apply in_map_iff in I. destruct I as ([b' [n' l']] & Q & I). cbn [fst] in Q. subst b'. apply A in I. destruct I as (I1 & I2 & I3 & I4 & I5).
    repeat split; auto. rewrite E in I4. injection I4 as <- <-. destruct (Rlt_or_le (vdist (cen a) (cen b)) (rad a + rad b)) as [K|K]; auto. exfalso. apply I5. auto.
  - intros (C & Nb & Rj & K). destruct (T K) as (c & -> & _). apply in_map_iff. exists (b, (n, [c])). split; auto. apply B; auto; try discriminate.
    rewrite Bx, Ea, Eb. cbn [ns_bb]. apply near_boxes; auto.
Qed.
Definition discs_sh (i : nat) : @nshape RNum := NShape (SCircle (Circle (@V RNum 0 0) (@V RNum (INR i) 0) 1)) (bb_circle (@V RNum (INR i) 0) 1) 0.
Definition discs_x : @index RNum := xrun (index0 (fun i => ns_bb (discs_sh i)) (fun _ => @V RNum 0 0)) [XInsert false 0; XInsert true 1].
Lemma discs_example : exists (s : @Space.space RNum) (cen : nat -> @vec RNum) (rad : nat -> R), SpaceSpec.reachable (N := RNum) s /\ Space.s_lock s = 0%Z /\ reached (N := RNum) discs_x /\ indexes_space s discs_x /\
  fresh discs_x false /\ fresh discs_x true /\ discs discs_sh cen rad /\ (forall i, x_box discs_x i = ns_bb (discs_sh i)) /\
  contained s 0%nat /\ contained s 1%nat /\ vdist (cen 1%nat) (cen 0%nat) < rad 1%nat + rad 0%nat.
Proof.
  destruct (SpaceRuns.sees_ex (SpaceRuns.runb (map (fun i => Space.OAttach i) (seq 0 2) ++ map (fun i => Space.OAddBody i) (seq 0 2) ++ map (fun i => Space.OAddShape i) (seq 0 2))
     (Space.space0 (SpaceRuns.tyf [Space.Static]) (fun x => x) (fun _ => Space.Co 1 2 false false))) (fun s => (Space.s_lock s =? 0)%Z && Space.contains_shape s 0 && Space.contains_shape s 1 &&
    match Space.s_dix s with [(_, 1%nat)] => true | _ => false end && match Space.s_six s with [(_, 0%nat)] => true | _ => false end)) as (s & E & H); [vm_compute; reflexivity|].
  rewrite !andb_true_iff in H. destruct H as [[[[L C0] C1] Dx] Sx]. apply Z.eqb_eq in L.
  exists s, (fun i => @V RNum (INR i) 0), (fun _ => 1). split; [eapply SpaceRuns.runb_reachable; exact E|]. split; auto.
  assert (G : forall i, good_box (N := RNum) (ns_bb (discs_sh i)) /\ good_vel (N := RNum) (@V RNum 0 0)).
  { intros i. split; [|split; exact I]. split; [|repeat split]. rewrite wf_R. cbn. unR. lra. }
  set (x0 := index0 (fun i => ns_bb (discs_sh i)) (fun _ => @V RNum 0 0)) in *. set (x1 := do_insert x0 false 0).
  assert (V1 : ~ In 0%nat (x_leaves x0 false)) by (cbn; tauto).
  assert (R1 : reached x1) by (exists (fun i => ns_bb (discs_sh i)), (fun _ => @V RNum 0 0), [XInsert false 0]; cbn [xvalid_all]; auto).
  assert (Lv : x_leaves x1 true = [] /\ x_leaves x1 false = [0%nat]) by (unfold x1, do_insert; rewrite !add_leaves; split; reflexivity).
  assert (V2 : ~ In 1%nat (x_leaves x1 true)) by (destruct Lv as [-> _]; intros []).
  assert (R2 : reached discs_x) by (exists (fun i => ns_bb (discs_sh i)), (fun _ => @V RNum 0 0), [XInsert false 0; XInsert true 1]; cbn [xvalid_all]; auto).
  split; auto. change discs_x with (xstep x1 (XInsert true 1)) in *.
  assert (T : forall i, In i (x_leaves (xstep x1 (XInsert true 1)) true) <-> i = 1%nat).
  { intros i. rewrite (membership x1 (XInsert true 1) R1 V2). destruct Lv as [-> _]. cbn. intuition. }
  assert (F : forall i, In i (x_leaves (xstep x1 (XInsert true 1)) false) <-> i = 0%nat).
  { intros i. rewrite (membership x1 (XInsert true 1) R1 V2). destruct Lv as [_ ->]. cbn. split; [intros [[X _]|[<-|[]]]; [discriminate X|reflexivity]|intros ->; right; left; reflexivity]. }
  assert (X1 : x_box x1 = x_box x0) by apply insert_xbox. assert (X2 : x_box (xstep x1 (XInsert true 1)) = x_box x0) by (cbn [xstep]; rewrite insert_xbox; exact X1).
  split.
  { destruct (Space.s_dix s) as [|[h [|[|?]]] [|]] eqn:Q1; try discriminate. destruct (Space.s_six s) as [|[h' [|?]] [|]] eqn:Q2; try discriminate.
    split; intros i; [rewrite T, Q1|rewrite F, Q2]; split; [intros ->; eexists; left; reflexivity|intros (k & [K|[]]); congruence|intros ->; eexists; left; reflexivity|intros (k & [K|[]]); congruence]. }
  split.
  { intros i I. apply F in I. subst i. assert (K : key_box (xstep x1 (XInsert true 1)) (false, 0%nat) = key_box x1 (false, 0%nat)) by (cbn [xstep]; unfold do_insert at 1; rewrite add_box; reflexivity).
    rewrite K, X2, <- X1. apply (indexed_covers x0 (XInsert false 0) false 0); [exists (fun i => ns_bb (discs_sh i)), (fun _ => @V RNum 0 0), []; cbn [xvalid_all]; auto|auto|split; auto]. }
  split. { intros i I. apply T in I. subst i. apply (indexed_covers x1 (XInsert true 1) true 1); auto; try (split; auto). }
  split. { intros i. split; [lra|]. eexists. reflexivity. }
  split; [intros i; rewrite X2; reflexivity|]. split; auto. split; auto.
  unfold vdist, vmag, vsub, vdot. cbn [vx vy INR]. unR. replace ((1 - 0) * (1 - 0) + (0 - 0) * (0 - 0)) with 1 by ring. rewrite sqrt_1. lra.
Qed.
End Circles.

(** ** Concrete spaces *)
Local Open Scope nat_scope.
Local Existing Instance FNum.
Local Existing Instance FNumOrd.
Definition run0 (k : nat) (con : bool) : list Space.op :=
  map (fun i => Space.OAttach i) (seq 0 k) ++ map (fun i => Space.OAddBody i) (seq 0 k) ++ map (fun i => Space.OAddShape i) (seq 0 k) ++ (if con then [Space.OAddConstraint 0] else []).
Definition start0 : Space.space := Space.space0 (SpaceRuns.tyf [Space.Static]) (fun x => x) (fun _ => Space.Co 1 2 false false).
(* checks of the hypotheses *)
Definition same_members (l m : list nat) : bool := forallb (fun i => existsb (Nat.eqb i) m) l && forallb (fun i => existsb (Nat.eqb i) l) m.
Lemma same_members_ok l m : same_members l m = true -> forall i, In i l <-> In i m.
Proof.
  unfold same_members. rewrite andb_true_iff, !forallb_forall. intros [A B] i. split; intros I; [apply A in I|apply B in I]; apply existsb_exists in I; destruct I as (j & J & E); apply Nat.eqb_eq in E; subst; auto.
Qed.
Definition freshb (x : index) (d : bool) : bool :=
  forallb (fun i => match key_box x (d, i) with Some b => bb_contains b (x_box x i) | None => false end) (x_leaves x d).
Lemma freshb_ok x d : freshb x d = true -> fresh x d.
Proof. unfold freshb, fresh. rewrite forallb_forall. intros H i I. specialize (H i I). destruct (key_box x (d, i)) as [b|]; [eauto|discriminate]. Qed.
Lemma indexes_ok s x : same_members (x_leaves x true) (map snd (Space.s_dix s)) && same_members (x_leaves x false) (map snd (Space.s_six s)) = true -> indexes_space s x.
Proof.
  rewrite andb_true_iff. intros [A B]. assert (G : forall (l : list (nat * nat)) i, In i (map snd l) <-> exists h : nat, In (h, i) l).
  { intros l i. rewrite in_map_iff. split; [intros ([h j] & E & I); cbn in E; subst; eauto|intros (h & I); exists (h, i); auto]. }
  split; intros i; rewrite <- G; apply same_members_ok; auto.
Qed.
Definition inserts (k : nat) : list xop := map (fun i => XInsert (negb (Nat.eqb i 0)) i) (seq 0 k).

(* the ground 0, the boxes 1, 2 and 3 on it, all near each other, 1 and 2 hinged together *)
Definition pile_box (i : nat) : @bb FNum := match i with 0 => fbb 0 0 10 1 | 1 => fbb 1 0.5 2 1.5 | 2 => fbb 1.5 0.5 2.5 1.5 | _ => fbb 1.75 0.75 3 2 end%float.
Definition no_vel (_ : nat) : @vec FNum := fvec 0 0.
Definition pile : index := xrun (index0 pile_box no_vel) (inserts 4).
Lemma pile_good i : good_box (pile_box i) /\ good_vel (no_vel i).
Proof.
  split; [|split; vm_compute; reflexivity]. destruct i as [|[|[|i]]]; (split; [split; vm_compute; reflexivity|]); repeat split; vm_compute; reflexivity.
Qed.
Definition xvalidb (x : index) (o : xop) : bool := match o with XInsert d i => negb (existsb (Nat.eqb i) (x_leaves x d)) | _ => false end.
Fixpoint xvalidb_all (x : index) (h : list xop) : bool := match h with [] => true | o :: h => xvalidb x o && xvalidb_all (xstep x o) h end.
Lemma xvalidb_ok h : forall x, xvalidb_all x h = true -> xvalid_all x h.
Proof.
  induction h as [|o h IH]; intros x; simpl; auto. rewrite andb_true_iff. intros [A B]. split; auto. destruct o; try discriminate. simpl in *. apply negb_true_iff in A.
  intros I. assert (existsb (Nat.eqb i) (x_leaves x d) = true) by (apply existsb_exists; exists i; split; auto; apply Nat.eqb_refl). congruence.
Qed.
Lemma inserts_reached box vel k : (forall i, good_box (box i) /\ good_vel (vel i)) -> xvalidb_all (index0 box vel) (inserts k) = true -> reached (xrun (index0 box vel) (inserts k)).
Proof. intros G V. exists box, vel, (inserts k). split; auto. split; auto. apply xvalidb_ok; auto. Qed.
Lemma pile_example : exists s : Space.space, SpaceSpec.reachable s /\ Space.s_lock s = 0%Z /\ reached pile /\ indexes_space s pile /\ fresh pile false /\ fresh pile true /\
  Permutation [3; 2; 1] (x_leaves pile true) /\
  mentions 1 2 (narrow_pairs s (fun _ => filter_all) pile [3; 2; 1]) = 0 /\ mentions 1 3 (narrow_pairs s (fun _ => filter_all) pile [3; 2; 1]) = 1 /\
  mentions 0 2 (narrow_pairs s (fun _ => filter_all) pile [3; 2; 1]) = 1 /\ length (narrow_pairs s (fun _ => filter_all) pile [3; 2; 1]) = 5 /\
  bb_query (fun _ => filter_all) pile filter_all (fbb 2.25 1 5 5) = [0; 3; 2].
Proof.
  destruct (SpaceRuns.sees_ex (SpaceRuns.runb (run0 4 true) start0) (fun s => (Space.s_lock s =? 0)%Z &&
    (same_members (x_leaves pile true) (map snd (Space.s_dix s)) && same_members (x_leaves pile false) (map snd (Space.s_six s))) &&
    (let l := narrow_pairs s (fun _ => filter_all) pile [3; 2; 1] in (mentions 1 2 l =? 0) && (mentions 1 3 l =? 1) && (mentions 0 2 l =? 1) && (length l =? 5)))) as (s & E & H); [vm_compute; reflexivity|].
  apply andb_true_iff in H. destruct H as [H P]. apply andb_true_iff in H. destruct H as [L Ix]. apply Z.eqb_eq in L. cbv zeta in P. rewrite !andb_true_iff, !Nat.eqb_eq in P. destruct P as [[[P1 P2] P3] P4].
  exists s. split; [eapply SpaceRuns.runb_reachable; exact E|]. split; auto. split; [apply inserts_reached; [apply pile_good|vm_compute; reflexivity]|].
  split; [apply indexes_ok; exact Ix|]. split; [apply freshb_ok; vm_compute; reflexivity|]. split; [apply freshb_ok; vm_compute; reflexivity|].
  split; [replace (x_leaves pile true) with [3; 2; 1] by (vm_compute; reflexivity); reflexivity|]. split; [exact P1|]. split; [exact P2|]. split; [exact P3|]. split; [exact P4|]. vm_compute. reflexivity.
Qed.

(* a query with circle 1 in a space with the circles 1, 2 and the sensor 3 *)
Definition three_sh (i : nat) : @nshape FNum :=
  match i with 0 => made (as_circle 50 50 1) 9 | 1 => made (as_circle 0 0 1) 1 | 2 => made (as_circle 1 0 1) 2 | _ => made (as_circle 0 1 1) 3 end%float.
Definition three_x : index := xrun (index0 (fun i => ns_bb (three_sh i)) no_vel) (inserts 4).
Lemma three_good i : good_box (ns_bb (three_sh i)) /\ good_vel (no_vel i).
Proof.
  split; [|split; vm_compute; reflexivity]. destruct i as [|[|[|i]]]; (split; [split; vm_compute; reflexivity|]); repeat split; vm_compute; reflexivity.
Qed.
Lemma last_sensor : exists (s : Space.space) (sensor : nat -> bool), let r := shape_query ftiny (fun _ => filter_all) sensor three_sh three_x 1 (ns_bb (three_sh 1)) in
  SpaceSpec.reachable s /\ Space.s_lock s = 0%Z /\ reached three_x /\ indexes_space s three_x /\ fresh three_x false /\ fresh three_x true /\
  (forall i, x_box three_x i = ns_bb (three_sh i)) /\
  sensor 1 = false /\ sensor 2 = false /\ In 2 (map fst (fst r)) /\ snd r = false.
Proof.
  destruct (SpaceRuns.sees_ex (SpaceRuns.runb (run0 4 false) start0) (fun s => (Space.s_lock s =? 0)%Z &&
    (same_members (x_leaves three_x true) (map snd (Space.s_dix s)) && same_members (x_leaves three_x false) (map snd (Space.s_six s))))) as (s & E & H); [vm_compute; reflexivity|].
  apply andb_true_iff in H. destruct H as [L Ix]. apply Z.eqb_eq in L.
  assert (V : let r := shape_query ftiny (fun _ => filter_all) (Nat.eqb 3) three_sh three_x 1 (ns_bb (three_sh 1)) in (map fst (fst r), snd r) = ([2; 3], false)) by (vm_compute; reflexivity).
  cbv zeta in V. apply pair_equal_spec in V. destruct V as [V1 V2].
  exists s, (Nat.eqb 3). cbv zeta. split; [eapply SpaceRuns.runb_reachable; exact E|]. split; auto. split; [apply inserts_reached; [apply three_good|vm_compute; reflexivity]|].
  split; [apply indexes_ok; exact Ix|]. split; [apply freshb_ok; vm_compute; reflexivity|]. split; [apply freshb_ok; vm_compute; reflexivity|].
  split; [reflexivity|]. split; auto. split; auto. rewrite V1, V2. split; auto. left; auto.
Qed.
(* the fat box of a fast crate, and a circle far ahead of it, level with its bottom side *)
Definition fast_sh (i : nat) : @nshape FNum :=
  match i with 0 => made (as_circle 50 50 1) 9 | 1 => made (as_poly crate 0) 2 | _ => made (as_circle 5.5 0 0.5) 1 end%float.
Definition fast_vel (_ : nat) : @vec FNum := fvec 100 0.
Definition fast_x : index := xrun (index0 (fun i => ns_bb (fast_sh i)) fast_vel) (inserts 3).
Lemma fast_good i : good_box (ns_bb (fast_sh i)) /\ good_vel (fast_vel i).
Proof.
  split; [|split; vm_compute; reflexivity]. destruct i as [|[|i]]; (split; [split; vm_compute; reflexivity|]); repeat split; vm_compute; reflexivity.
Qed.
Lemma far_hit : exists (s : Space.space), let r := shape_query ftiny (fun _ => filter_all) (fun _ => false) fast_sh fast_x 2 (ns_bb (fast_sh 2)) in
  SpaceSpec.reachable s /\ Space.s_lock s = 0%Z /\ reached fast_x /\ indexes_space s fast_x /\ fresh fast_x false /\ fresh fast_x true /\
  (forall i, x_box fast_x i = ns_bb (fast_sh i)) /\
  In 1 (map fst (fst r)) /\ snd r = true /\ bb_intersects (ns_bb (fast_sh 1)) (ns_bb (fast_sh 2)) = false.
Proof.
  destruct (SpaceRuns.sees_ex (SpaceRuns.runb (run0 3 false) start0) (fun s => (Space.s_lock s =? 0)%Z &&
    (same_members (x_leaves fast_x true) (map snd (Space.s_dix s)) && same_members (x_leaves fast_x false) (map snd (Space.s_six s))))) as (s & E & H); [vm_compute; reflexivity|].
  apply andb_true_iff in H. destruct H as [L Ix]. apply Z.eqb_eq in L.
  assert (V : let r := shape_query ftiny (fun _ => filter_all) (fun _ => false) fast_sh fast_x 2 (ns_bb (fast_sh 2)) in (map fst (fst r), snd r, bb_intersects (ns_bb (fast_sh 1)) (ns_bb (fast_sh 2))) = ([1], true, false)) by (vm_compute; reflexivity).
  cbv zeta in V. apply pair_equal_spec in V. destruct V as [V V3]. apply pair_equal_spec in V. destruct V as [V1 V2].
  exists s. cbv zeta. split; [eapply SpaceRuns.runb_reachable; exact E|]. split; auto. split; [apply inserts_reached; [apply fast_good|vm_compute; reflexivity]|].
  split; [apply indexes_ok; exact Ix|]. split; [apply freshb_ok; vm_compute; reflexivity|]. split; [apply freshb_ok; vm_compute; reflexivity|].
  split; [reflexivity|]. rewrite V1, V2, V3. split; auto. left; auto.
Qed.
