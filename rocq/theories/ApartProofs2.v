(** Parts of a world in any arithmetic, and over the reals with immovable bodies in common (C70). *)
From Coq Require Import ZArith Bool List Arith Lia Reals Lra.
From Verif Require Import Num NumReal Vec VecReal Transform Body BodySpec Solver SolverSpec Joints ApartSpec ApartProofs.
Import ListNotations.

Section Any.
Context {N : Num} {T : Trig N} {E : Elem N}.
Theorem any_apart (P : nat -> bool) is is' : Forall2 (same_given P none) is is' -> forall w w', same_part P none w w' -> closed_joints P none (w_joints w) -> closed_joints P none (w_joints w') ->
  untouched P none is w -> untouched P none is' w' -> same_part P none (fold_left step_with is w) (fold_left step_with is' w').
Proof. intros G w w' Q C C' U U'. apply (part_alone (fun _ : body => False)); auto; try contradiction; intros i I; discriminate. Qed.

(** The part alone is closed. *)
Variables (P S : nat -> bool).
Lemma filter_idem {X} (p : X -> bool) l : filter p (filter p l) = filter p l.
Proof. induction l as [|x l IH]; cbn [filter]; auto. destruct (p x) eqn:B; cbn [filter]; rewrite ?B, ?IH; auto. Qed.
Lemma alone_given ips : Forall (fun ip => Forall pair_ok (snd ip)) ips -> Forall2 (same_given P S) (map (fun ip => tested (fst ip) (snd ip)) ips) (map (fun ip => tested_alone P S (fst ip) (snd ip)) ips).
Proof.
  intros F. induction F as [|[i ps] ips OK F IH]; cbn [map fst snd] in *; constructor; auto. constructor; cbn [tested tested_alone i_n i_slop i_bias i_g i_damping i_dt i_prev i_dyn i_arbs]; auto.
  - now rewrite filter_idem.
  - intros H H' l l' Q FL C C'. apply (phase_part P S ps (filter (inside P S) ps)); auto; [|now rewrite filter_idem]. apply Forall_forall. intros p I. apply filter_In in I as [I _]. revert p I. now apply Forall_forall.
Qed.
Lemma alone_part w : same_part P S w (alone P w).
Proof. constructor; cbn [alone w_heap w_arbs w_joints]; [now intros ? ?|now rewrite filter_idem..]. Qed.
Lemma alone_joints w : closed_joints P S (w_joints w) -> closed_joints P S (w_joints (alone P w)).
Proof. intros C ck I. apply filter_In in I as [I _]. now apply C. Qed.
Lemma phase_closed ps H l : Forall pair_ok ps -> closed_arbs P S (phase (filter (inside P S) ps) H l).
Proof.
  intros OK s I _. unfold phase in I. apply in_flat_map in I as (p & Ip & Is). apply filter_In in Ip as [Ip In0]. destruct (pr_test p _ _ _) as [s'|] eqn:E0; [|destruct Is]. destruct Is as [<-|[]].
  destruct (proj1 (Forall_forall _ _) OK p Ip _ _ _ _ E0) as [-> ->]. unfold inside in In0. apply andb_true_iff in In0 as [In0 ?]. now apply andb_true_iff in In0 as [_ ?].
Qed.
Lemma alone_untouched ips : Forall (fun ip => Forall pair_ok (snd ip)) ips -> forall w, closed_arbs P S (w_arbs w) -> untouched P S (map (fun ip => tested_alone P S (fst ip) (snd ip)) ips) w.
Proof.
  intros F. induction F as [|[i ps] ips OK F IH]; intros w C k; [now destruct k|]. destruct k as [|k]; [exact C|]. cbn [map firstn fold_left fst snd] in *. apply IH. clear IH.
  unfold step_with. match goal with |- closed_arbs _ _ (w_arbs (full_step ?n ?s ?b ?g ?d ?dt ?p ?dy ?ar w)) => destruct (step_ends n s b g d dt p dy ar w) as [E1 E2] end.
  exact (closed_ends P S s_a s_b _ _ E1 E2 (phase_closed ps _ _ OK)).
Qed.
Theorem any_alone' (frozen : body -> Prop) (FK : forall b r j, frozen b -> kick b r j = b) (FB : forall b r j, frozen b -> kick_bias b r j = b)
  (FM : forall b j, frozen b -> set_w b (b_w b - j * b_iinv b)%num = b) (FP : forall b j, frozen b -> set_w b (b_w b + j * b_iinv b)%num = b)
  (FG : forall b j r, frozen b -> set_w b (b_w b - j * b_iinv b * r)%num = b)
  (FX : forall b dt, frozen b -> frozen (update_position b dt)) (FV : forall b g d dt, frozen b -> frozen (update_velocity b g d dt)) (ips : list (given * list pair)) w :
  Forall (fun ip => Forall pair_ok (snd ip)) ips -> (forall i, S i = true -> frozen (w_heap w i)) -> closed_joints P S (w_joints w) -> untouched P S (map (fun ip => tested (fst ip) (snd ip)) ips) w ->
  same_part P S (fold_left step_with (map (fun ip => tested (fst ip) (snd ip)) ips) w) (fold_left step_with (map (fun ip => tested_alone P S (fst ip) (snd ip)) ips) (alone P w)).
Proof.
  intros OK C CJ U. apply (part_alone frozen); auto.
  - now apply alone_given.
  - apply alone_part.
  - now apply alone_joints.
  - apply alone_untouched; [exact OK|]. intros s I. apply filter_In in I as [I _]. apply (U 0 s I).
Qed.
End Any.
Theorem any_alone {N : Num} {T : Trig N} {E : Elem N} (P : nat -> bool) (ips : list (given * list pair)) w :
  Forall (fun ip => Forall pair_ok (snd ip)) ips -> closed_joints P none (w_joints w) -> untouched P none (map (fun ip => tested (fst ip) (snd ip)) ips) w ->
  same_part P none (fold_left step_with (map (fun ip => tested (fst ip) (snd ip)) ips) w) (fold_left step_with (map (fun ip => tested_alone P none (fst ip) (snd ip)) ips) (alone P w)).
Proof. intros OK CJ U. apply (any_alone' P none (fun _ : body => False)); auto; try contradiction; intros i I; discriminate. Qed.

(** ** Immovable bodies over the reals *)
Local Open Scope R_scope.
Definition immovable (b : Rbody) : Prop := b_minv b = 0 /\ b_iinv b = 0.
Lemma im_kick (b : Rbody) r j : immovable b -> kick b r j = b.
Proof. intros [A B]. unfold kick, set_vel_fields. destruct b. cbn in *. subst. destruct b_vel. cbn. unR. f_equal; [ring|f_equal; ring]. Qed.
Lemma im_bias (b : Rbody) r j : immovable b -> kick_bias b r j = b.
Proof. intros [A B]. unfold kick_bias, set_bias_fields. destruct b. cbn in *. subst. destruct b_vbias. cbn. unR. f_equal; [f_equal; ring|ring]. Qed.
Lemma im_w (b : Rbody) (x : R) : x = b_w b -> set_w b x = b.
Proof. intros ->. unfold set_w, set_vel_fields. now destruct b. Qed.
Lemma im_pos (b : Rbody) dt : immovable b -> immovable (update_position b dt).
Proof. exact (fun X => X). Qed.
Lemma im_vel (b : Rbody) g d dt : immovable b -> immovable (update_velocity b g d dt).
Proof. unfold update_velocity. destruct (b_type b); exact (fun X => X). Qed.
Theorem real_apart (P S : nat -> bool) is is' : Forall2 (same_given P S) is is' -> forall w w' : Rworld, same_part P S w w' -> (forall i, S i = true -> b_minv (w_heap w i) = 0 /\ b_iinv (w_heap w i) = 0) ->
  closed_joints P S (w_joints w) -> closed_joints P S (w_joints w') -> untouched P S is w -> untouched P S is' w' -> same_part P S (fold_left step_with is w) (fold_left step_with is' w').
Proof.
  intros G w w' Q I C C' U U'. apply (part_alone immovable); auto; try apply im_kick; try apply im_bias; try apply im_pos; try apply im_vel; try (intros b j [_ Z] || intros b j r [_ Z]; apply im_w; rewrite Z; unR; ring).
  intros i Si. unfold immovable. rewrite <- (sp_bodies _ _ _ _ Q i); [now apply I|]. unfold seen. now rewrite Si, orb_true_r.
Qed.
Theorem real_alone (P S : nat -> bool) (ips : list (given * list pair)) (w : Rworld) :
  Forall (fun ip => Forall pair_ok (snd ip)) ips -> (forall i, S i = true -> b_minv (w_heap w i) = 0 /\ b_iinv (w_heap w i) = 0) -> closed_joints P S (w_joints w) -> untouched P S (map (fun ip => tested (fst ip) (snd ip)) ips) w ->
  same_part P S (fold_left step_with (map (fun ip => tested (fst ip) (snd ip)) ips) w) (fold_left step_with (map (fun ip => tested_alone P S (fst ip) (snd ip)) ips) (alone P w)).
Proof.
  intros OK I CJ U. apply (any_alone' P S immovable); auto; try apply im_kick; try apply im_bias; try apply im_pos; try apply im_vel; intros b j [_ Z] || intros b j r [_ Z]; apply im_w; rewrite Z; unR; ring.
Qed.
