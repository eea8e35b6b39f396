(** Concrete worlds for C61. *)
From Coq Require Import ZArith Bool Reals List Lra Lia Floats.
From Verif Require Import Num NumReal Vec VecReal BB Transform Body BodySpec BodyProofs Solver SolverSpec Joints JointsSpec JointsProofs.
Import ListNotations.

(** ** A pivot, a pin, a spring and a touching contact between two bodies *)
Local Open Scope R_scope.
Definition rest_heap : Rheap := fun i => match i with O => history 1 1 [] | _ => history 2 3 [OpSetPosition (@V RNum 3 0); OpSetAngle 1] end.
Definition rest_cstr : Rcstr := Cstr 0 1 5 (1/2) 7.
Definition rest_joints : list Rjoint :=
  [(rest_cstr, JPivot (new_pivot rest_heap 0 1 (@V RNum 1 1))); (rest_cstr, JPin (new_pin rest_heap 0 1 (@V RNum 0 1) (@V RNum 1 0)));
   (rest_cstr, JSpring (new_spring (N := RNum) (@V RNum 0 1) (@V RNum 1 0) (apart (rest_heap 0%nat) (rest_heap 1%nat) (@V RNum 0 1) (@V RNum 1 0)) 4 2))].
Definition rest_arb : Rsarb := SArb 0 1 (1/2) (1/2) vzero (@V RNum 1 0) false true false [Contact (@V RNum 1 0) (@V RNum (-2) 0) 0 0 0 0 0 0 0 5%Z].
Definition rest_step : stepdata := StepData 10 (1/10) (1/2) (9/10) (1/60) 0 [rest_arb].
Definition rest_world : Rworld := World rest_heap [] rest_joints.
Lemma rest_lived i : exists m j ops, rest_heap i = history m j ops.
Proof. destruct i; cbn [rest_heap]; eauto. Qed.
(** The fields of a body left alone by SetPosition and SetAngle. *)
Definition same_motion (b c : Rbody) : Prop :=
  b_vel b = b_vel c /\ b_w b = b_w c /\ b_force b = b_force c /\ b_torque b = b_torque c /\ b_vbias b = b_vbias c /\ b_wbias b = b_wbias c /\ b_minv b = b_minv c /\ b_iinv b = b_iinv c /\ b_cog b = b_cog c.
Lemma activate_motion (b : Rbody) : same_motion (activate b) b.
Proof. unfold activate. destruct (btype_eqb _ _); repeat split. Qed.
Lemma activate_frame (b : Rbody) : b_pos (activate b) = b_pos b /\ b_tf (activate b) = b_tf b /\ b_angle (activate b) = b_angle b.
Proof. unfold activate. destruct (btype_eqb _ _); repeat split. Qed.
Lemma set_angle_motion (b : Rbody) (a : R) : same_motion (set_angle b a) b /\ b_pos (set_angle b a) = b_pos b /\ b_angle (set_angle b a) = a.
Proof. pose proof (activate_motion b). pose proof (activate_frame b) as (X & _). unfold set_angle, set_transform. split; [exact H|]. split; [exact X|reflexivity]. Qed.
Lemma set_position_motion (b : Rbody) p : b_cog b = vzero -> same_motion (set_position b p) b /\ b_pos (set_position b p) = p.
Proof.
  intros Z. pose proof (activate_motion b) as M. unfold set_position, set_transform. split; [exact M|]. cbn [set_tf_field set_pos_field b_pos].
  destruct M as (_ & _ & _ & _ & _ & _ & _ & _ & ->). rewrite Z. destruct p. unfold tf_apply_vector. unV. cbn. unR. f_equal; ring.
Qed.
Lemma fresh_body (m i : R) : still (new_body m i) /\ b_minv (new_body m i) = 1 / m /\ b_iinv (new_body m i) = 1 / i /\ b_cog (new_body m i) = vzero /\ b_pos (new_body m i) = vzero.
Proof.
  unfold new_body. set (b0 := Body _ _ _ _ _ _ _ _ _ _ _ _ _ _ _). destruct (set_angle_motion (set_moment (set_mass b0 m) i) 0) as ((A & B & C & D & E & F & G & I & J) & K & _).
  unfold still. change (@n0 RNum) with 0. rewrite A, B, C, D, E, F, G, I, J, K. unfold set_moment, set_mass.
  set (b1 := set_mass_fields (activate b0) m _ _ _). destruct (activate_motion b1) as (A1 & B1 & C1 & D1 & E1 & F1 & G1 & I1 & J1). destruct (activate_frame b1) as (K1 & _).
  cbn [set_mass_fields b_vel b_w b_force b_torque b_vbias b_wbias b_minv b_iinv b_cog b_pos]. rewrite A1, B1, C1, D1, E1, F1, G1, J1, K1.
  unfold b1. cbn [set_mass_fields b_vel b_w b_force b_torque b_vbias b_wbias b_minv b_iinv b_cog b_pos].
  destruct (activate_motion b0) as (A2 & B2 & C2 & D2 & E2 & F2 & G2 & I2 & J2). destruct (activate_frame b0) as (K2 & _). rewrite A2, B2, C2, D2, E2, F2, J2, K2. repeat split.
Qed.
Lemma rest_fields i : still (rest_heap i) /\ b_minv (rest_heap i) = (match i with O => 1 / 1 | _ => 1 / 2 end) /\ b_iinv (rest_heap i) = (match i with O => 1 / 1 | _ => 1 / 3 end) /\
  b_pos (rest_heap i) = @V RNum (match i with O => 0 | _ => 3 end) 0.
Proof.
  destruct i; cbn [rest_heap]; unfold history; cbn [fold_left bstep].
  - destruct (fresh_body 1 1) as (A & B & C & D & E). auto.
  - destruct (fresh_body 2 3) as (A & B & C & D & E). set (b := new_body (N := RNum) 2 3) in *. destruct (set_position_motion b (@V RNum 3 0) D) as [M P]. destruct (set_angle_motion (set_position b (@V RNum 3 0)) 1) as (M' & P' & _).
    revert M M'. unfold same_motion, still in *. intros (M1 & M2 & M3 & M4 & M5 & M6 & M7 & M8 & M9) (K1 & K2 & K3 & K4 & K5 & K6 & K7 & K8 & K9).
    rewrite K1, K2, K3, K4, K5, K6, K7, K8, P', P, M1, M2, M3, M4, M5, M6, M7, M8. auto.
Qed.
Lemma rest_good c k : In (c, k) (w_joints rest_world) -> satisfied (w_heap rest_world) c k /\ solvable (w_heap rest_world) c k.
Proof.
  destruct (rest_fields 0%nat) as (_ & A & B & _). destruct (rest_fields 1%nat) as (_ & A' & B' & _). cbn beta iota in *.
  assert (S : 0 <= b_iinv (rest_heap 0%nat) /\ 0 <= b_iinv (rest_heap 1%nat) /\ 0 < b_minv (rest_heap 0%nat) + b_minv (rest_heap 1%nat)) by (rewrite A, B, A', B'; lra).
  destruct (all_made rest_heap rest_cstr rest_lived) as (PV & PN & _ & _ & _ & _ & _ & _ & _ & SP & _).
  assert (L : 0 <= c_maxforce rest_cstr /\ 0 <= c_maxbias rest_cstr) by (cbn; lra). destruct L as [L1 L2].
  cbn [rest_world w_joints w_heap rest_joints In]. intros [X|[X|[X|[]]]]; apply pair_equal_spec in X as [<- <-]; (split; [|split; [exact L1|split; [exact L2|exact S]]]).
  - exact (PV _).
  - exact (PN _ _).
  - exact (SP _ _ _ _).
Qed.
Lemma rest_calm : 0 < sd_dt rest_step /\ forall s, In s (sd_arbs rest_step) -> quiet (sd_slop rest_step) (w_heap rest_world) s.
Proof.
  cbn [rest_step sd_dt sd_arbs sd_slop w_heap rest_world In]. split; [lra|]. intros s [<-|[]].
  destruct (rest_fields 0%nat) as (_ & A & B & P). destruct (rest_fields 1%nat) as (_ & A' & B' & P'). cbn beta iota in *.
  unfold quiet, rest_arb. cbn [s_svr s_a s_b s_n s_contacts In]. rewrite A, B, A', B', P, P'. repeat split; try lra; destruct H as [<-|[]]; cbn; lra.
Qed.
(** A world of two bodies with a pivot, a pin, a spring and a touching contact meets the hypotheses; a hundred steps change nothing. *)
Example rest_hundred : w_heap (fold_left (do_step [0; 1]%nat) (repeat rest_step 100) rest_world) = rest_heap /\
  forall c k, In (c, k) (w_joints (fold_left (do_step [0; 1]%nat) (repeat rest_step 100) rest_world)) -> joint_impulse k = 0.
Proof.
  destruct (at_rest [0; 1]%nat (repeat rest_step 100) rest_world) as (A & _ & B & _).
  - exact rest_lived.
  - intros i. apply rest_fields.
  - exact rest_good.
  - intros d I. apply repeat_spec in I. subst. exact rest_calm.
  - split; [exact A|]. intros c k I. apply (B _ _ I). discriminate.
Qed.

(** ** Two immovable bodies *)
Local Close Scope R_scope.
Local Open Scope float_scope.
Definition stone : @body FNum :=
  Body (N := FNum) FMaxFloat 0 FMaxFloat 0 0 0 0 (V (N := FNum) 0 0) (V (N := FNum) 0 0) (V (N := FNum) 0 0) (V (N := FNum) 0 0) (tf_identity (N := FNum)) FMaxFloat (V (N := FNum) 0 0) 0.
Definition stones : @heap FNum := fun _ => stone.
Definition stone_cstr : @cstr FNum := Cstr (N := FNum) 0%nat 1%nat FMaxFloat 0.5 FMaxFloat.
Definition stone_pivot : @pivot FNum :=
  let p := new_pivot stones 0%nat 1%nat (V (N := FNum) 1 0) in
  let r1 := anchor_arm (stones 0%nat) (pv_anchA p) in let r2 := anchor_arm (stones 1%nat) (pv_anchB p) in
  Pivot (pv_anchA p) (pv_anchB p) r1 r2 (ktensor (stones 0%nat) (stones 1%nat) r1 r2) (pv_j p) (V (N := FNum) 0 0).
Definition stone_pin : @pin FNum :=
  let p := new_pin (fun i => set_pos_field (set_tf_field stone (Tf (N := FNum) 1 0 0 1 (if Nat.eqb i 0 then 0 else 3) 0)) (V (N := FNum) (if Nat.eqb i 0 then 0 else 3) 0)) 0%nat 1%nat (V (N := FNum) 0 0) (V (N := FNum) 0 0) in
  Pin (pn_anchA p) (pn_anchB p) (pn_dist p) (V (N := FNum) 0 0) (V (N := FNum) 0 0) (V (N := FNum) 1 0) (ndiv (Num := FNum) 1 (kscalar stone stone (V (N := FNum) 0 0) (V (N := FNum) 0 0) (V (N := FNum) 1 0))) (pn_j p) 0.
(** A pivot between two static bodies at rest, its anchors at the same world point: one iteration makes their velocities NaN. *)
Lemma stones_nan : let H := stones in let a := H 0%nat in let b := H 1%nat in let p := stone_pivot in
  b_type a = Static /\ b_type b = Static /\ b_vel a = vzero /\ b_vel b = vzero /\ local_to_world a (pv_anchA p) = local_to_world b (pv_anchB p) /\
  pv_r1 p = anchor_arm a (pv_anchA p) /\ pv_r2 p = anchor_arm b (pv_anchB p) /\ pv_k p = ktensor a b (pv_r1 p) (pv_r2 p) /\ pv_bias p = vzero /\ pv_j p = vzero /\
  let H' := fst (pivot_apply H stone_cstr (0.015625 : @num FNum) p) in
  PrimFloat.is_nan (vx (b_vel (H' 0%nat))) = true /\ PrimFloat.is_nan (b_w (H' 0%nat)) = true /\ PrimFloat.is_nan (vx (b_vel (H' 1%nat))) = true.
Proof. cbv zeta. repeat split. Qed.
(** A pin between them, its bodies at rest and its distance right, reports an impulse of MaxFloat64 dt. *)
Lemma stones_pin : let H := stones in let p := stone_pin in b_vel (H 0%nat) = vzero /\ b_vel (H 1%nat) = vzero /\ pn_nmass p = ndiv (Num := FNum) 1 (kscalar (H 0%nat) (H 1%nat) (pn_r1 p) (pn_r2 p) (pn_n p)) /\
  pn_bias p = (0 : @num FNum) /\ pn_j p = (0 : @num FNum) /\
  joint_impulse (JPin (snd (pin_apply H stone_cstr (0.015625 : @num FNum) p))) = nmul (Num := FNum) FMaxFloat (0.015625 : @num FNum).
Proof. cbv zeta. repeat split. Qed.
