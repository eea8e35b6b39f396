(** Instances of the spatial hash statements and concrete runs. *)
From Coq Require Import ZArith Reals List Bool PeanoNat Floats Permutation Lia.
From Flocq Require Import Core.
From Verif Require Import Num NumReal NumFloat Vec VecReal BB SpaceHash SpaceHashSpec SpaceHashInv SpaceHashOps SpaceHashQuery SpaceHashMain SpaceHashGrid SpaceHashWalk.
Import ListNotations.

Lemma real_found dim cells : (0 < dim)%R -> (0 < cells)%nat -> forall k cs (s : hash) self b, Forall fair cs -> ~ In Reindex cs -> run (Nm := RNum) Ztrunc rfloor dim cells cs (new_hash cells k) = Some s ->
  exists s' out, query (Nm := RNum) Ztrunc dim cells self b s = Some (s', out) /\ NoDup out /\ (forall o, In o out -> boxes_after cs o <> None /\ self <> Some o) /\
  (forall o bx, boxes_after cs o = Some bx -> self <> Some o -> valid_box b -> valid_box bx -> bb_intersects bx b = true -> In o out).
Proof.
  intros D C k cs s self b Fa NR R. destruct (found (Nm := RNum) Ztrunc rfloor dim cells C (fun _ => True) (real_monotone dim D) k cs s self b Fa NR R) as (s' & out & E & N & O & A). exists s', out. split; auto. split; auto. split; auto.
  intros o bx Hb Sf V1 V2. apply (A o bx); auto; repeat split.
Qed.
Lemma real_pairs dim cells : (0 < dim)%R -> (0 < cells)%nat -> forall k cs (s : hash) order boxes, Forall fair cs -> ~ In Reindex cs -> run (Nm := RNum) Ztrunc rfloor dim cells cs (new_hash cells k) = Some s -> (forall l, Permutation l (order l)) ->
  exists s' out, reindex_query (Nm := RNum) Ztrunc dim cells order boxes s = Some (s', out) /\ NoDup out /\
  (forall a b, In (a, b) out -> a <> b /\ boxes_after cs a <> None /\ boxes_after cs b <> None /\ ~ In (b, a) out) /\
  (forall a b, a <> b -> boxes_after cs a <> None -> boxes_after cs b <> None -> valid_box (boxes a) -> valid_box (boxes b) -> bb_intersects (boxes a) (boxes b) = true -> In (a, b) out \/ In (b, a) out).
Proof.
  intros D C k cs s order boxes Fa NR R Pm. destruct (pairs_found (Nm := RNum) Ztrunc rfloor dim cells C (fun _ => True) (real_monotone dim D) k cs s order boxes Fa NR R Pm) as (s' & out & E & N & O & A). exists s', out. split; auto. split; auto. split; auto.
  intros a b Dab Ha Hb V1 V2. apply (A a b); auto; repeat split.
Qed.
Lemma real_run_inv cells dim k cs s : (0 < cells)%nat -> Forall fair cs -> run (Nm := RNum) Ztrunc rfloor dim cells cs (new_hash cells k) = Some s -> inv cells s.
Proof. intros C Fa R. apply (run_inv (Nm := RNum) Ztrunc rfloor dim cells C k cs s Fa R). Qed.
Lemma real_ray dim cells : (0 < dim)%R -> (0 < cells)%nat -> forall k cs (s : hash) f (a b : @vec RNum) te, Forall fair cs -> ~ In Reindex cs -> run (Nm := RNum) Ztrunc rfloor dim cells cs (new_hash cells k) = Some s -> (te <= 1)%R ->
  exists fuel s' out te' vs, segment_query (Nm := RNum) Ztrunc dim cells rfloor fuel f a b te s = Some (s', out, te', vs) /\ NoDup out /\ (forall o, In o out -> boxes_after cs o <> None) /\
  (good_start (vx a / dim) (vx b / dim) -> good_start (vy a / dim) (vy b / dim) ->
   forall o bx t, boxes_after cs o = Some bx -> (0 <= t < te')%R -> ~ corner dim a b t -> (let p := point_at a b t in bL bx <= vx p <= bR bx /\ bB bx <= vy p <= bT bx)%R -> In o out).
Proof.
  intros D C k cs s f a b te Fa NR R T. destruct (ray_ends dim cells C f a b te s (real_run_inv _ _ _ _ _ C Fa R) T) as (fuel & [[[s' out] te'] vs] & E). exists fuel, s', out, te', vs. split; auto.
  destruct (ray_found (Nm := RNum) Ztrunc rfloor dim cells C k cs s fuel f a b te _ Fa NR R E) as (N & O & _). split; auto. split; auto. intros Gx Gy. eapply ray_shapes; eauto.
Qed.

(** ** Concrete runs in float64 *)
Definition Ffloor (x : float) : float := @nofZ FNum (floor (Nm := FNum) Fint x).
Definition fbox (l b r t : float) : @bb FNum := @mkBB FNum l b r t.
Definition flip (l : list nat) : list nat := rev l.
Definition history : list (@call FNum) :=
  [Insert 0 5 (fbox (-0.5) (-0.5) 0.5 0.5); Insert 9 6 (fbox 3 3 4 4); Insert 0 7 (fbox 0.25 0.25 0.75 9); Remove 6; Query None (fbox 0 0 9 9);
   Insert 1 6 (fbox 20 20 21 21); ReindexObject 0 7 (fbox (-7) (-7) (-6) (-6)); Remove 5; Insert 0 8 (fbox 20.5 (-1) 22 20.5)].
Definition asked (cs : list (@call FNum)) (cells : nat) (b : @bb FNum) : option (list nat) :=
  match run (Nm := FNum) Fint Ffloor 2%float cells cs (new_hash cells 2) with Some s => option_map snd (query (Nm := FNum) Fint 2%float cells None b s) | None => None end.
Definition told_pairs (cs : list (@call FNum)) (cells : nat) (boxes : nat -> @bb FNum) : option (list (nat * nat)) :=
  match run (Nm := FNum) Fint Ffloor 2%float cells cs (new_hash cells 2) with Some s => option_map snd (reindex_query (Nm := FNum) Fint 2%float cells flip boxes s) | None => None end.
Lemma fair_history : Forall fair history /\ ~ In Reindex history.
Proof. split; [repeat constructor|]. intros H. repeat (destruct H as [H|H]; [discriminate H|]). contradiction. Qed.
Lemma ran_one : asked history 1 (fbox 20 20 30 30) = Some [6; 7; 8]%nat.
Proof. vm_compute. reflexivity. Qed.
Lemma ran_many : asked history 1000 (fbox 20 20 30 30) = Some [6; 8]%nat.
Proof. vm_compute. reflexivity. Qed.
Lemma ran_pairs : told_pairs history 1000 (fun o => match o with 6 => fbox 20 20 21 21 | 7 => fbox 21 (-1) 30 30 | _ => fbox 20.5 (-1) 22 20.5 end)%nat = Some [(8, 6); (8, 7); (7, 6)]%nat.
Proof. vm_compute. reflexivity. Qed.
Lemma ran_reindex : asked (history ++ [Reindex]) 1000 (fbox 20 20 30 30) = Some [].
Proof. vm_compute. reflexivity. Qed.

Definition cast (cs : list (@call FNum)) (ax ay bx by_ : float) : option (list nat * float * list (Z * Z)) :=
  match run (Nm := FNum) Fint Ffloor 1%float 1000 cs (new_hash 1000 2) with
  | Some s => option_map (fun r => (snd (fst (fst r)), snd (fst r), snd r)) (segment_query (Nm := FNum) Fint 1%float 1000 Ffloor 50 (fun _ => 1%float) (@V FNum ax ay) (@V FNum bx by_) 1%float s)
  | None => None
  end.
Definition three : list (@call FNum) := [Insert 0 1 (fbox 0.25 0.25 0.75 0.75); Insert 0 2 (fbox 2.5 0.5 3.5 1.5); Insert 0 3 (fbox 1 1 1.375 1.375)].
Lemma cast_well : cast three 0.5 0.5 3.75 1.25 = Some ([2; 1]%nat, 1%float, [(0, 0); (1, 0); (2, 0); (2, 1); (3, 1)]%Z).
Proof. vm_compute. reflexivity. Qed.
Lemma cast_edge : cast three 1 0.5 0.25 0.5 = Some ([], 1%float, [(1, 0)]%Z).
Proof. vm_compute. reflexivity. Qed.
Lemma cast_corner : cast three 1.5 0.5 0.5 1.5 = Some ([1]%nat, 1%float, [(1, 0); (0, 0); (0, 1)]%Z).
Proof. vm_compute. reflexivity. Qed.
Lemma edge_missed : exists cs o, boxes_after cs o = Some (fbox 0.25 0.25 0.75 0.75) /\ cast cs 1 0.5 0.25 0.5 = Some ([], 1%float, [(1, 0)]%Z).
Proof. exists three, 1%nat. split; [reflexivity|exact cast_edge]. Qed.
Lemma corner_missed : exists cs o, boxes_after cs o = Some (fbox 1 1 1.375 1.375) /\ cast cs 1.5 0.5 0.5 1.5 = Some ([1]%nat, 1%float, [(1, 0); (0, 0); (0, 1)]%Z) /\ o <> 1%nat.
Proof. exists three, 3%nat. split; [reflexivity|split; [exact cast_corner|discriminate]]. Qed.
Definition counted (cs : list (@call FNum)) : option (list nat * list nat * list Z) := match run (Nm := FNum) Fint Ffloor 2%float 1000 cs (new_hash 1000 2) with Some s => Some (hset s, pool s, map retains (heap s)) | None => None end.
Definition recount : @call FNum := ReindexQuery flip (fun o => match o with 6 => fbox 20 20 21 21 | 7 => fbox 21 (-1) 30 30 | _ => fbox 20.5 (-1) 22 20.5 end)%nat.
Lemma ran_counts : counted history = Some ([4; 2; 3]%nat, [], [4; 5; 5; 2; 25]%Z).
Proof. vm_compute. reflexivity. Qed.
Lemma ran_recounts : counted (history ++ [recount]) = Some ([4; 2; 3]%nat, [0; 1]%nat, [0; 0; 100; 2; 25]%Z).
Proof. vm_compute. reflexivity. Qed.
