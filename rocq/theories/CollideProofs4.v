From Coq Require Import ZArith Bool List Lia.
From Verif Require Import Collide CollideSpec CollideProofs CollideProofs2 CollideProofs3.
Import ListNotations.

(** Deciding [valid] on concrete histories *)
Definition is_startb (o : op) : bool := match o with Start => true | _ => false end.
Definition is_finishb (o : op) : bool := match o with Finish _ => true | _ => false end.
Definition concernsb (u v : shape) (o : op) : bool :=
  match o with
  | TouchPair t => negb (match t_data t with [] => true | _ => false end) && same_pair u v (t_a t) (t_b t)
  | Wake a b => same_pair u v a b
  | _ => false
  end.
Definition ok_opb (pers : nat) (h : list op) (o : op) : bool :=
  match o with
  | Start => negb (existsb is_startb h) || existsb is_finishb (since h)
  | TouchPair t => existsb is_startb h && negb (Nat.eqb (t_a t) (t_b t)) && Nat.leb (length (t_data t)) max_contacts &&
                   negb (existsb (arb_is (t_a t) (t_b t)) (w_asleep (run pers h))) && negb (existsb (concernsb (t_a t) (t_b t)) (since h))
  | Sleep a b => existsb (fun p => same_pair a b (fst p) (snd p)) (w_active (run pers h))
  | Wake a b => true
  | Finish _ => true
  | Remove s => forallb (fun x => negb (Nat.eqb s (a_A x)) && negb (Nat.eqb s (a_B x))) (w_asleep (run pers h))
  end.
Lemma existsb_start h : existsb is_startb h = true -> started h.
Proof. intros H. apply existsb_exists in H. destruct H as (o & I & E). destruct o; try discriminate. exact I. Qed.
Lemma started_existsb h : started h -> existsb is_startb h = true.
Proof. intros H. apply existsb_exists. exists Start. auto. Qed.
Lemma concernsb_spec u v o : concerns u v o -> concernsb u v o = true.
Proof. destruct o; cbn; try contradiction; auto. intros [A ->]. destruct (t_data t); [congruence|reflexivity]. Qed.
Lemma ok_opb_sound pers h o : ok_opb pers h o = true -> ok_op pers h o.
Proof.
  destruct o as [|t|a b|a b|still|s]; cbn [ok_opb ok_op]; auto.
  - intros H S. apply started_existsb in S. rewrite S in H. cbn in H. apply existsb_exists in H. destruct H as (o & I & E).
    destruct o; try discriminate. eauto.
  - rewrite !andb_true_iff, !negb_true_iff. intros [[[[A B] C] D] E]. split; [now apply existsb_start|]. split; [now apply Nat.eqb_neq|].
    split; [now apply Nat.leb_le|]. split; [exact D|]. intros o I K. apply concernsb_spec in K.
    enough (existsb (concernsb (t_a t) (t_b t)) (since h) = true) by congruence. apply existsb_exists. eauto.
  - rewrite forallb_forall. intros H x I. specialize (H x I). rewrite andb_true_iff, !negb_true_iff, !Nat.eqb_neq in H. exact H.
Qed.
Fixpoint validb (pers : nat) (pre h : list op) : bool :=
  match h with [] => true | o :: h => ok_opb pers pre o && validb pers (pre ++ [o]) h end.
Lemma validb_valid pers pre h : valid pers pre -> validb pers pre h = true -> valid pers (pre ++ h).
Proof.
  revert pre. induction h as [|o h IH]; intros pre V H; cbn in H; [now rewrite app_nil_r|].
  apply andb_prop in H. destruct H as [A B]. replace (pre ++ o :: h) with ((pre ++ [o]) ++ h) by now rewrite <- app_assoc.
  apply IH; [|exact B]. apply valid_snoc. split; [exact V|]. now apply ok_opb_sound.
Qed.
Lemma validb_sound pers h : validb pers [] h = true -> valid pers h.
Proof. intros H. apply (validb_valid pers [] h); [|exact H]. intros h1 o h2 E. destruct h1; discriminate. Qed.

(** Witnesses *)
Definition tch (a b : shape) (d : Z) : touch := Touch a b [d] false false false false true false true false.
Definition tch_begin_false (a b : shape) (d : Z) : touch := Touch a b [d] false false false false false false true false.
Definition tch_pre_ignore (a b : shape) (d : Z) : touch := Touch a b [d] false false false false true false true true.
Definition tch_pre_false (a b : shape) (d : Z) : touch := Touch a b [d] false false false false true false false false.
Definition tch_sensor (a b : shape) (d : Z) : touch := Touch a b [d] true false false false true false true false.
Definition nostill : shape -> bool := fun _ => false.

(** CollisionPersistence 0: the arbiter is dropped at the end of the step in which it was made, so every step begins. *)
Definition h_zero : list op := [Start; TouchPair (tch 0 1 7); Finish nostill; Start; TouchPair (tch 1 0 8); Finish nostill].
Lemma zero_persistence_refuted : exists h u v, valid 0 h /\ ~ alternates false (kinds u v (w_trace (run 0 h))).
Proof.
  exists h_zero, 0, 1. split; [apply validb_sound; vm_compute; reflexivity|]. vm_compute. intuition discriminate.
Qed.

(** Shapes 0 and 1 touch in step 1, separate in step 2 and are asleep from step 3 on; shapes 2 and 3 touch in step 4. *)
Definition h_stale : list op :=
  [Start; TouchPair (tch 0 1 7); Finish nostill; Start; Finish nostill;
   Start; Finish (fun s => Nat.ltb s 2); Start; TouchPair (tch 2 3 9)].
Lemma stale_contacts_refuted : exists pers h x, 1 <= pers /\ valid pers h /\ In x (w_cache (run pers h)) /\
  contacts_of (run pers h) x <> a_ghost x.
Proof.
  exists 2, h_stale. eexists. split; [lia|]. split; [apply validb_sound; vm_compute; reflexivity|].
  split; [vm_compute; right; left; reflexivity|]. vm_compute. discriminate.
Qed.

(** Example history: two touching steps, a separation, a sleep and a wake-up. *)
Definition h_ex : list op :=
  [Start; TouchPair (tch 0 1 7); TouchPair (tch 2 3 5); Finish nostill;
   Start; TouchPair (tch 1 0 8); TouchPair (tch_pre_false 2 3 5); Sleep 0 1; Finish nostill;
   Start; Wake 1 0; TouchPair (tch 2 3 6); Finish nostill; Start; Finish nostill; Remove 2;
   Start; TouchPair (tch 0 1 9); Finish nostill].
Lemma h_ex_valid : valid 2 h_ex.
Proof. apply validb_sound. vm_compute. reflexivity. Qed.
Lemma no_frozen_all pers h : (forall f, In (Finish f) h -> forall s, f s = false) -> no_stale_frozen pers h.
Proof.
  intros H h1 still h2 E x _ A _. rewrite (H still) in A; [discriminate|]. rewrite E. apply in_or_app. right. now left.
Qed.
Lemma h_ex_no_frozen : no_stale_frozen 2 h_ex.
Proof. apply no_frozen_all. intros f I s. cbn in I. repeat (destruct I as [I|I]; [try discriminate; injection I as <-; reflexivity|]). destruct I. Qed.
