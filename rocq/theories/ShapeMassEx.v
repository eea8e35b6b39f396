(** Concrete bodies with shapes for C60. *)
From Coq Require Import ZArith Bool Reals List Lra Lia Floats.
From Verif Require Import Num NumReal Vec VecReal BB Transform Body BodySpec BodyProofs Mass ShapeMass ShapeMassSpec ShapeMassProofs.
Import ListNotations.

(** ** A body with two discs: mass 4 at (2,0) *)
Definition disc (x : R) : Rgeom := GCircle (@V RNum x 0%R) 1%R.
Local Open Scope R_scope.
Lemma accumulate_dynamic (b : Rbody) l : b_type b = Dynamic -> b_mass (accumulate b l) <> RMaxFloat -> b_type (accumulate b l) = Dynamic.
Proof.
  intros D. unfold accumulate. rewrite D. cbn [btype_eqb negb]. set (b0 := set_cog_field _ _). pose proof (accum_fold_other l b0) as K. cbn zeta in K. set (c := fold_left accum_step l b0) in *.
  destruct K as (_ & _ & K & _). set (d := set_mass_fields c _ _ _ _).
  assert (I : neqb (b_idle d) ninf = false).
  { unfold d. cbn [set_mass_fields b_idle]. rewrite K. unfold b0. cbn [set_mass_fields set_cog_field b_idle]. unfold b_type in D. destruct (neqb (b_idle b) ninf); [discriminate|reflexivity]. }
  unfold set_position, set_transform, b_type. cbn [set_tf_field set_pos_field b_idle b_mass].
  assert (Z : @neqb RNum n0 ninf = false) by exact Reqb_inf_0.
  unfold activate, b_type. rewrite I. destruct (neqb (b_mass d) ninf) eqn:M.
  - cbn [btype_eqb]. intros X. exfalso. apply X. revert M. change (Reqb (b_mass d) RMaxFloat = true -> b_mass d = RMaxFloat). destruct (Reqb_spec (b_mass d) RMaxFloat); auto. discriminate.
  - cbn [btype_eqb set_idle_field b_idle b_mass]. rewrite Z, M. reflexivity.
Qed.
Lemma activate_dynamic (b : Rbody) : b_type b = Dynamic -> b_type (activate b) = Dynamic.
Proof.
  intros D. unfold activate. rewrite D. cbn [btype_eqb]. unfold b_type in *. cbn [set_idle_field b_idle b_mass].
  destruct (neqb (b_idle b) ninf); [discriminate|]. replace (@neqb RNum n0 ninf) with false by (symmetry; exact Reqb_inf_0). exact D.
Qed.
Lemma small_mass (z : Z) : (Z.abs z <= 1000)%Z -> IZR z <> RMaxFloat.
Proof. intros H E. pose proof (Reqb_inf_small z H) as X. rewrite E in X. revert X. destruct (Reqb_spec RMaxFloat RMaxFloat); auto. discriminate. Qed.
Example pair_of_discs : exists s, lived 1 1 s /\ b_type (mb_body s) = Dynamic /\ mb_list s = [0; 1]%nat /\ total_mass (infos s) = 4 /\
  b_mass (mb_body s) = 4 /\ vx (b_cog (mb_body s)) = 2 /\ vy (b_cog (mb_body s)) = 0 /\ b_moi (mb_body s) = 18.
Proof.
  set (s0 := MBody (new_body (N := RNum) 1 1) [] (fun _ => no_shape) 0). assert (L0 : lived 1 1 s0) by constructor.
  assert (D0 : b_type (mb_body s0) = Dynamic) by (apply new_body_dynamic; apply (small_mass 1); cbn; lia).
  destruct (mstep s0 (MNew (disc 0))) as [s1|] eqn:E1; [|discriminate]. assert (L1 : lived 1 1 s1) by (exact (lived_step 1 1 s0 (MNew (disc 0)) _ L0 I E1)).
  assert (N0 : Rltb 0 0 = false) by (rcases; auto; lra).
  cbn [mstep] in E1. unfold make, mass_info, disc, geom_mass in E1. injection E1 as E1.
  assert (B1 : mb_body s1 = mb_body s0 /\ mb_list s1 = [0%nat] /\ mb_next s1 = 1%nat /\ mb_shape s1 0%nat = MShape (disc 0) (@MassInfo RNum 0 (sm_i (circle_mass_info (N := RNum) 1 (@V RNum 0 0))) (sm_area (circle_mass_info (N := RNum) 1 (@V RNum 0 0))) (@V RNum 0 0))).
  { subst s1. unfold attach_shape. match goal with |- context [if ?c then _ else _] => replace c with false by (symmetry; exact N0) end. auto. }
  clear E1. destruct B1 as (B1 & T1 & X1 & S1). rewrite <- B1 in D0. clear L0 B1 s0.
  destruct (mstep s1 (MNew (disc 4))) as [s2|] eqn:E2; [|discriminate]. assert (L2 : lived 1 1 s2) by (exact (lived_step 1 1 s1 (MNew (disc 4)) _ L1 I E2)).
  cbn [mstep] in E2. unfold make, mass_info, disc, geom_mass in E2. injection E2 as E2. rewrite X1 in E2.
  assert (B2 : mb_body s2 = mb_body s1 /\ mb_list s2 = [0; 1]%nat /\ mb_next s2 = 2%nat /\ mb_shape s2 0%nat = mb_shape s1 0%nat /\
               mb_shape s2 1%nat = MShape (disc 4) (@MassInfo RNum 0 (sm_i (circle_mass_info (N := RNum) 1 (@V RNum 4 0))) (sm_area (circle_mass_info (N := RNum) 1 (@V RNum 4 0))) (@V RNum 4 0))).
  { subst s2. unfold attach_shape. match goal with |- context [if ?c then _ else _] => replace c with false by (symmetry; exact N0) end. cbn [mb_body mb_list mb_next mb_shape Nat.eqb]. rewrite T1. auto. }
  clear E2. destruct B2 as (B2 & T2 & X2 & S2 & S2'). rewrite <- B2 in D0. rewrite S1 in S2. clear L1 B2 T1 X1 S1 s1.
  set (s3 := shape_set_mass s2 0 (2 : R)). set (s4 := shape_set_mass s3 1 (2 : R)).
  assert (VM : forall (s : Rmbody) k, (k < mb_next s)%nat -> mvalid s (MMass k 2)) by (intros s k K; split; [exact K|lra]).
  assert (L3 : lived 1 1 s3) by (apply (lived_step 1 1 s2 (MMass 0 2)); [exact L2|apply VM; lia|reflexivity]).
  assert (L4 : lived 1 1 s4) by (apply (lived_step 1 1 s3 (MMass 1 2)); [exact L3|apply VM; change (1 < mb_next s2)%nat; lia|reflexivity]).
  assert (I3 : infos s3 = [@MassInfo RNum 2 (sm_i (circle_mass_info (N := RNum) 1 (@V RNum 0 0))) (sm_area (circle_mass_info (N := RNum) 1 (@V RNum 0 0))) (@V RNum 0 0);
                           @MassInfo RNum 0 (sm_i (circle_mass_info (N := RNum) 1 (@V RNum 4 0))) (sm_area (circle_mass_info (N := RNum) 1 (@V RNum 4 0))) (@V RNum 4 0)]).
  { unfold s3, infos, shape_set_mass, accumulated, put, on_body. cbn [mb_list mb_shape]. rewrite T2. cbn [map Nat.eqb]. rewrite S2, S2'. reflexivity. }
  assert (I4 : infos s4 = [@MassInfo RNum 2 (sm_i (circle_mass_info (N := RNum) 1 (@V RNum 0 0))) (sm_area (circle_mass_info (N := RNum) 1 (@V RNum 0 0))) (@V RNum 0 0);
                           @MassInfo RNum 2 (sm_i (circle_mass_info (N := RNum) 1 (@V RNum 4 0))) (sm_area (circle_mass_info (N := RNum) 1 (@V RNum 4 0))) (@V RNum 4 0)]).
  { unfold s4, s3, infos, shape_set_mass, accumulated, put, on_body. cbn [mb_list mb_shape]. rewrite T2. cbn [map Nat.eqb]. rewrite S2, S2'. reflexivity. }
  assert (M3 : total_mass (infos s3) = 2) by (rewrite I3; unfold total_mass; rewrite !Rsum_cons; cbn; lra).
  assert (M4 : total_mass (infos s4) = 4) by (rewrite I4; unfold total_mass; rewrite !Rsum_cons; cbn; lra).
  assert (P : forall m i s, lived m i s -> Forall (fun x : Rinfo => 0 <= mi_m x) (infos s)) by (intros m i s L; apply infos_pos, (ok_pos s (lived_ok m i s L))).
  assert (D3 : b_type (mb_body s3) = Dynamic).
  { unfold s3, shape_set_mass, accumulated at 1. cbn [mb_body put on_body]. apply accumulate_dynamic; [apply activate_dynamic, D0|].
    change (b_mass (accumulate (activate (mb_body s2)) (infos s3)) <> RMaxFloat).
    destruct (accumulate_mass (activate (mb_body s2)) (infos s3)) as (A & _); [apply activate_dynamic, D0|apply (P 1 1), L3|rewrite M3; lra|]. rewrite A, M3. apply (small_mass 2). cbn; lia. }
  assert (D4 : b_type (mb_body s4) = Dynamic).
  { unfold s4, shape_set_mass, accumulated at 1. cbn [mb_body put on_body]. apply accumulate_dynamic; [apply activate_dynamic, D3|].
    change (b_mass (accumulate (activate (mb_body s3)) (infos s4)) <> RMaxFloat).
    destruct (accumulate_mass (activate (mb_body s3)) (infos s4)) as (A & _); [apply activate_dynamic, D3|apply (P 1 1), L4|rewrite M4; lra|]. rewrite A, M4. apply (small_mass 4). cbn; lia. }
  exists s4. split; [exact L4|]. split; [exact D4|]. split; [exact T2|]. split; [exact M4|].
  destruct (mass_matches 1 1 s4 L4 D4) as (A & B & C & D & _); [rewrite M4; lra|]. rewrite M4 in A, B, C.
  assert (FX : first_x (infos s4) = 8) by (rewrite I4; unfold first_x; rewrite !Rsum_cons; cbn; lra).
  assert (FY : first_y (infos s4) = 0) by (rewrite I4; unfold first_y; rewrite !Rsum_cons; cbn; lra).
  rewrite FX in B. rewrite FY in C. assert (B' : vx (b_cog (mb_body s4)) = 2) by (rewrite B; lra). assert (C' : vy (b_cog (mb_body s4)) = 0) by (rewrite C; lra).
  split; [exact A|]. split; [exact B'|]. split; [exact C'|]. rewrite D, I4. unfold moment_about. rewrite !Rsum_cons, B', C'.
  unfold circle_mass_info, moment_for_circle. cbn [mi_m mi_i mi_cog vx vy sm_i]. unfold vmagsq, vzero. cbn [vx vy]. unR. cbn. lra.
Qed.

(** ** Witnesses in float64 *)
Section Floats.
Context (T : Trig FNum).
Local Open Scope float_scope.
Notation fv x y := (@V FNum (x : float) (y : float)).

Definition fnew (m i : float) : @mbody FNum := MBody (new_body (N := FNum) m i) [] (fun _ => MShape (GCircle (@V FNum 0 0) 0) (@MassInfo FNum 0 0 0 (@V FNum 0 0))) 0.
Definition fsquare (h : float) : list (@vec FNum) := [fv h (-h)%float; fv h h; fv (-h)%float h; fv (-h)%float (-h)%float].
(* SetVerts with vertices twice as far out *)
Definition stretched : option (@mbody FNum) :=
  match make (fnew 1 1) (@GPoly FNum 4 (fsquare 1) 0) with
  | Some s => set_verts (shape_set_mass (N := FNum) (attach_shape s 0) 0 6) 0 4 (fsquare 2)
  | None => None
  end.
Lemma stretched_stale : exists s k, stretched = Some s /\ geom_mass (ms_geom (mb_shape s 0)) = Some k /\
  (sm_area k = 16 /\ shape_area s 0 = 4) /\ b_mass (mb_body s) = 6 /\ b_moi (mb_body s) = 4 /\ (6 * sm_i k)%float = 16.
Proof.
  assert (H : match stretched with
    | Some s => match geom_mass (ms_geom (mb_shape s 0)) with Some k => Some (sm_area k, shape_area s 0, b_mass (mb_body s), b_moi (mb_body s), (6 * sm_i k)%float) | None => None end
    | None => None end = Some (16, 4, 6, 4, 16)) by (vm_compute; reflexivity).
  destruct stretched as [s|]; [|discriminate]. exists s. destruct (geom_mass (ms_geom (mb_shape s 0))) as [k|]; [|discriminate]. exists k. injection H as -> -> -> -> ->. auto 8.
Qed.
(* a body made with mass 5 gets a disc without mass: SetMass(0) *)
Definition emptied : option (@mbody FNum) :=
  match make (fnew 5 7) (@GCircle FNum (@V FNum 0 0) 1) with
  | Some s => Some (shape_set_mass (N := FNum) (attach_shape s 0) 0 0)
  | None => None
  end.
Lemma emptied_massless : exists s, emptied = Some s /\ b_type (mb_body s) = Dynamic /\ b_mass (mb_body s) = 0 /\ b_minv (mb_body s) = infinity /\ b_iinv (mb_body s) = infinity.
Proof.
  assert (H : match emptied with Some s => Some (b_type (mb_body s), b_mass (mb_body s), b_minv (mb_body s), b_iinv (mb_body s)) | None => None end = Some (Dynamic, 0, infinity, infinity)) by (vm_compute; reflexivity).
  destruct emptied as [s|]; [|discriminate]. exists s. injection H as -> -> -> ->. auto.
Qed.
(* SetType(Static), SetType(Dynamic) *)
Definition there_and_back : @mbody FNum := set_type (set_type (fnew 5 7) Static) Dynamic.
Lemma type_loses_mass : b_type (mb_body (fnew 5 7)) = Dynamic /\ b_mass (mb_body (fnew 5 7)) = 5 /\
  b_type (mb_body there_and_back) = Dynamic /\ b_mass (mb_body there_and_back) = 0 /\ b_minv (mb_body there_and_back) = infinity.
Proof.
  assert (H : (b_type (mb_body (fnew 5 7)), b_mass (mb_body (fnew 5 7)), b_type (mb_body there_and_back), b_mass (mb_body there_and_back), b_minv (mb_body there_and_back)) = (Dynamic, 5, Dynamic, 0, infinity)) by (vm_compute; reflexivity).
  rewrite !pair_equal_spec in H. tauto.
Qed.
End Floats.
Lemma type_there_and_back : forall T : Trig FNum, exists s : @mbody FNum, b_type (mb_body s) = Dynamic /\ b_mass (mb_body s) = 5%float /\
  let t := set_type (set_type s Static) Dynamic in b_type (mb_body t) = Dynamic /\ b_mass (mb_body t) = 0%float /\ b_minv (mb_body t) = infinity.
Proof. intros T. exists (@fnew T 5 7). destruct (type_loses_mass T) as (A & B & C). split; [exact A|]. split; [exact B|exact C]. Qed.
