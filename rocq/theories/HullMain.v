(** Proofs for C47: the statements of HullProps.v; examples. *)
From Coq Require Import ZArith Reals List Bool Lia Lra PeanoNat Permutation Floats.
From Verif Require Import Num NumReal NumFloat Vec VecReal BB Polyline PolylineSimple Hull HullSpec HullRefine HullGeom Shapes ShapesSpec ShapesPoly ShapesPolyRay.
Import ListNotations.

Lemma hull_total {Nm : Num} (tol : num) (verts : list vec) : verts <> [] -> exists arr k rest, convex_hull tol verts = Some (arr, k) /\ (1 <= k <= length verts)%nat /\ Permutation verts (firstn k arr ++ rest).
Proof.
  intros N. destruct (loop_indexes verts (length verts)) as [[s f]|] eqn:E; [|destruct verts; [congruence|discriminate]].
  apply loop_range in E as R; [|destruct verts; [congruence|cbn; lia]]. destruct R as (Hs & Hf & Z).
  destruct (Nat.eq_dec s f) as [<-|D].
  - exists verts, 1%nat, (tl verts). unfold convex_hull. rewrite E, Nat.eqb_refl. split; auto. split; [lia|]. destruct verts; [congruence|reflexivity].
  - destruct (hull_ok (Nm := Nm) tol False (fun _ _ => True)) with (verts := verts) (s := s) (f := f) as (S & L & M & HL & HR & arr & K); auto; try tauto.
    cbv zeta in K. destruct K as (P & PS & _ & _ & A1 & A2 & C & Fi). set (a := nth s verts vzero) in *. set (p := nth f verts vzero) in *.
    destruct (arc_in _ _ _ _ _ _ _ A1) as [r1 R1]. destruct (arc_in _ _ _ _ _ _ _ A2) as [r2 R2].
    assert (Per : Permutation verts ((a :: HL ++ p :: HR) ++ r1 ++ r2)).
    { rewrite P, PS, R1, R2. cbn. apply perm_skip. rewrite <- !app_assoc. cbn. rewrite <- Permutation_middle. apply perm_skip. apply Permutation_app_head. rewrite !app_assoc. apply Permutation_app_tail. apply Permutation_app_comm. }
    exists arr, (length (a :: HL ++ p :: HR)), (r1 ++ r2). rewrite Fi. split; auto. split; auto. rewrite (Permutation_length Per), app_length. cbn. lia.
Qed.

Section Real.
Local Open Scope R_scope.
Local Notation rvec := (@vec RNum).
Lemma links_nth a h b : forall i u v, nth_error (a :: h) i = Some u -> nth_error h i = Some v -> In (u, v) (links a h b).
Proof. revert a. induction h as [|w h IH]; intros a [|i] u v U V; cbn in *; try discriminate; [injection U as ->; injection V as ->; now left|right]. eapply IH; eauto. Qed.
Lemma last_step (w a : rvec) h : last (w :: h) a = last h w.
Proof. revert w a. induction h as [|x h IH]; intros w a; auto. change (last (w :: x :: h) a) with (last (x :: h) a). now rewrite !IH. Qed.
Lemma links_last a h b : In (last h a, b) (links a h b).
Proof. revert a. induction h as [|w h IH]; intros a; [now left|]. rewrite last_step. right. apply IH. Qed.
Lemma sides_edges (h : list rvec) e : In e (sides h) -> In e (edges_of h).
Proof.
  destruct e as [u v]. intros H. apply sides_nth in H as (i & V & U). destruct h as [|a h]; [destruct i; discriminate|]. unfold edges_of. rewrite walk_links.
  destruct i as [|i]; cbn [prev] in U.
  - injection V as ->. replace u with (last h v); [apply links_last|]. cbn [length] in U. rewrite Nat.sub_succ, Nat.sub_0_r in U. clear -U. revert v U.
    induction h as [|w h IH]; intros v U; [cbn in *; congruence|]. rewrite last_step. apply IH. exact U.
  - cbn in V. eapply links_nth; eauto.
Qed.
Lemma hull_correct (verts : list rvec) : verts <> [] -> exists h, hull_verts verts = Some h /\ h <> [] /\ (exists rest, Permutation verts (h ++ rest)) /\ NoDup h /\
  (forall a b x, In (a, b) (sides h) -> In x verts -> leftish a b x) /\ (forall x, hull h x <-> hull verts x).
Proof.
  intros N. destruct (hull_real verts N) as (h & E & Ne & [rest P] & D & L & H). exists h. split; auto. split; auto. split; [eauto|]. split; auto. split.
  - intros a b x I J. exact (L (a, b) x (sides_edges _ _ I) J).
  - intros x. split; [apply hull_incl; intros y I; rewrite P; apply in_or_app; auto|apply hull_trans; auto].
Qed.
Lemma strict_convex (h : list rvec) : (forall a b v, In (a, b) (sides h) -> In v h -> v <> a -> v <> b -> 0 < vcross (vsub b a) (vsub v a)) -> NoDup h -> convex h.
Proof.
  intros S N. assert (Ne : forall i j a b, nth_error h i = Some a -> nth_error h j = Some b -> i <> j -> a <> b).
  { intros i j a b A B D E. subst b. apply D. rewrite NoDup_nth_error in N. apply N; [apply nth_error_Some; congruence|congruence]. }
  assert (Edge : forall i j a b c, nth_error h i = Some a -> nth_error h (Datatypes.S i) = Some b -> nth_error h j = Some c -> j <> i -> j <> Datatypes.S i -> 0 < vcross (vsub b a) (vsub c a)).
  { intros i j a b c A B C D1 D2. apply S; eauto using nth_error_In. apply sides_nth. exists (Datatypes.S i). auto. }
  intros i j k a b c IJ JK A B C.
  destruct (nth_error h (Datatypes.S i)) as [e|] eqn:E; [|apply nth_error_None in E; assert (j < length h)%nat by (apply nth_error_Some; congruence); lia].
  remember (k - j - 1)%nat as n eqn:Hn. revert k c JK C Hn. induction n as [|n IH]; intros k c JK C Hn.
  - replace k with (Datatypes.S j) in C by lia. rewrite (orient_cycle a b c). eapply Edge; eauto; lia.
  - destruct (Nat.eq_dec j (Datatypes.S i)) as [->|Nj]; [eapply Edge; eauto; lia|].
    destruct (nth_error h (k - 1)) as [d|] eqn:Dk; [|apply nth_error_None in Dk; assert (k < length h)%nat by (apply nth_error_Some; congruence); lia].
    assert (H1 : 0 < vcross (vsub b a) (vsub d a)) by (eapply IH with (k := (k - 1)%nat); eauto; lia).
    assert (H2 : 0 < vcross (vsub d a) (vsub c a)). { rewrite (orient_cycle a d c). eapply (Edge (k - 1)%nat i); eauto; try lia. replace (Datatypes.S (k - 1)) with k by lia. auto. }
    assert (H3 : 0 < vcross (vsub e a) (vsub b a)) by (eapply Edge; eauto; lia).
    assert (H4 : 0 < vcross (vsub e a) (vsub c a)) by (eapply Edge; eauto; lia).
    assert (H5 : 0 < vcross (vsub e a) (vsub d a)) by (eapply (Edge i (k - 1)%nat); eauto; lia).
    assert (P : (vcross (vsub e a) (vsub d a) * vcross (vsub b a) (vsub c a) = vcross (vsub e a) (vsub b a) * vcross (vsub d a) (vsub c a) + vcross (vsub e a) (vsub c a) * vcross (vsub b a) (vsub d a))%R) by (unV; rring).
    apply (pos_of (vcross (vsub e a) (vsub d a))); auto. rewrite P. apply Rplus_lt_0_compat; apply Rmult_lt_0_compat; auto.
Qed.
Lemma general_position (verts : list rvec) h : hull_verts verts = Some h -> no_three_in_line verts -> convex h.
Proof.
  intros E G. destruct verts as [|v0 vs] eqn:Ev; [discriminate|]. rewrite <- Ev in *. destruct (hull_correct verts) as (h' & E' & Ne & [rest P] & D & L & _); [rewrite Ev; discriminate|]. assert (h' = h) by congruence. subst h'.
  apply strict_convex; auto. intros a b v I Iv Na Nb. assert (Sub : forall x, In x h -> In x verts) by (intros x J; rewrite P; apply in_or_app; auto).
  destruct (side_in h a b I) as [Ia Ib]. pose proof (L a b v I (Sub v Iv)) as Lv. unfold leftish in Lv. destruct (Rle_lt_or_eq_dec _ _ Lv) as [|Z]; auto. exfalso.
  destruct (vec_dec a b) as [Eq|Nab].
  - (* one side from a vertex to itself: a single vertex *)
    apply sides_nth in I as (i & Bi & Ai). rewrite Eq in Ai. assert (prev h i = i). { rewrite NoDup_nth_error in D. apply D; [apply nth_error_Some; congruence|congruence]. }
    destruct i as [|i]; cbn [prev] in *; [|lia]. destruct h as [|x [|y h]]; [destruct Iv| |cbn in H; lia]. destruct Iv as [<-|[]]. cbn in Bi. congruence.
  - apply (G a b v); auto using Sub.
Qed.
End Real.

(** ** Examples *)
Definition tie : list (float * float) := [(0, 0); (4, 0); (2, -1); (1, -1); (3, -1)]%float.
Lemma tie_hull : option_map shown (@hull_verts FNum (points tie)) = Some [(0, 0); (1, -1); (2, -1); (3, -1); (4, 0)]%float.
Proof. vm_compute. reflexivity. Qed.
Lemma mixed_hull : option_map shown (@hull_verts FNum (points [(1, 1); (0, 0); (2, 0); (2, 2); (0, 2); (1, 0); (2, 2); (1, 2); (0.5, 0.75)]%float)) = Some [(0, 0); (2, 0); (2, 2); (0, 2)]%float.
Proof. vm_compute. reflexivity. Qed.
Lemma tie_flat : exists h, @hull_verts FNum (points tie) = Some h /\ shown h = [(0, 0); (1, -1); (2, -1); (3, -1); (4, 0)]%float /\
  (vcross (vsub (nth 2 h vzero) (nth 1 h vzero)) (vsub (nth 3 h vzero) (nth 1 h vzero)) =? n0)%num = true.
Proof.
  pose proof tie_hull as H. destruct (@hull_verts FNum (points tie)) as [h|]; [|discriminate]. exists h. split; auto. apply some_inj in H. split; auto. clear -H.
  destruct h as [|[x0 y0] [|[x1 y1] [|[x2 y2] [|[x3 y3] [|? ?]]]]]; try discriminate. cbn in H. injection H as -> -> -> -> -> -> -> -> _ _ _. vm_compute. reflexivity.
Qed.
