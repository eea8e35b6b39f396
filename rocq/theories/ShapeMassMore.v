(** What the getters and setters of a shape do to each other (shape.go:90-121, circle.go:53-61, segment.go:115-147). *)
From Coq Require Import ZArith Bool Reals List Lra Lia.
From Verif Require Import Num NumReal Vec VecReal BB Transform Body BodySpec BodyProofs Mass ShapeMass ShapeMassSpec ShapeMassProofs.
Import ListNotations.
Local Open Scope R_scope.

Lemma moments_sum (m i : R) (s : Rmbody) : lived m i s -> b_type (mb_body s) = Dynamic -> 0 < total_mass (infos s) ->
  b_moi (mb_body s) = Rsum (fun k => shape_moment s k + shape_mass s k *
     (let d := vsub (shape_cog s k) (b_cog (mb_body s)) in vdot d d)) (mb_list s).
Proof.
  intros L D P. destruct (mass_matches m i s L D P) as (_ & _ & _ & M & _). rewrite M. unfold moment_about, infos.
  generalize (b_cog (mb_body s)). intros c. clear. induction (mb_list s) as [|k l IH]; [reflexivity|]. exact (f_equal (Rplus _) IH).
Qed.
Lemma set_geom_gets (s t : Rmbody) i g : set_geom s i g = Some t ->
  ms_geom (mb_shape t i) = g /\ shape_mass t i = shape_mass s i /\ (forall k, k <> i -> mb_shape t k = mb_shape s k) /\ mb_list t = mb_list s.
Proof.
  unfold set_geom. cbv zeta. destruct (mass_info _ _) as [k|] eqn:E; [|discriminate].
  assert (Mk : mi_m k = mi_m (ms_info (mb_shape s i))).
  { unfold mass_info in E. destruct (geom_mass g); [|discriminate]. injection E as <-. reflexivity. }
  intros H. injection H as <-.
  match goal with |- context [if ?b then accumulated ?u else ?v] => set (q := b); set (w := u) end.
  assert (W : mb_shape (if q then accumulated w else w) = mb_shape w) by (destruct q; reflexivity).
  assert (Wl : mb_list (if q then accumulated w else w) = mb_list s) by (destruct q; reflexivity).
  unfold shape_mass. rewrite W, Wl. unfold w, put. cbn [mb_shape]. rewrite Nat.eqb_refl. cbn [ms_geom ms_info]. split; [reflexivity|]. split; [exact Mk|]. split; [|reflexivity].
  intros j J. destruct (Nat.eqb_spec j i); [contradiction|reflexivity].
Qed.
Lemma setters_get (s t : Rmbody) (i : nat) :
  (forall r, set_radius s i r = Some t ->
     ((exists c r0, ms_geom (mb_shape s i) = GCircle c r0 /\ ms_geom (mb_shape t i) = GCircle c r) \/
      (exists a b r0, ms_geom (mb_shape s i) = GSegment a b r0 /\ ms_geom (mb_shape t i) = GSegment a b r)) /\
     shape_mass t i = shape_mass s i /\ (forall k, k <> i -> mb_shape t k = mb_shape s k) /\ mb_list t = mb_list s) /\
  (forall a b, set_endpoints s i a b = Some t ->
     (exists a0 b0 r, ms_geom (mb_shape s i) = GSegment a0 b0 r /\ ms_geom (mb_shape t i) = GSegment a b r) /\
     shape_mass t i = shape_mass s i /\ (forall k, k <> i -> mb_shape t k = mb_shape s k) /\ mb_list t = mb_list s) /\
  (forall n l, set_verts_raw s i n l = Some t ->
     (exists n0 l0 r, ms_geom (mb_shape s i) = GPoly n0 l0 r /\ ms_geom (mb_shape t i) = GPoly n l r) /\
     shape_mass t i = shape_mass s i /\ (forall k, k <> i -> mb_shape t k = mb_shape s k) /\ mb_list t = mb_list s).
Proof.
  split; [|split].
  - intros r. unfold set_radius. destruct (ms_geom (mb_shape s i)) as [c r0|a b r0|] eqn:G; [| |discriminate]; intros E; destruct (set_geom_gets _ _ _ _ E) as (A & B); split; auto.
    + left. exists c, r0. auto.
    + right. exists a, b, r0. auto.
  - intros a b. unfold set_endpoints. destruct (ms_geom (mb_shape s i)) as [|a0 b0 r0|] eqn:G; [discriminate| |discriminate]; intros E; destruct (set_geom_gets _ _ _ _ E) as (A & B); split; auto.
    exists a0, b0, r0. auto.
  - intros n l. unfold set_verts_raw. destruct (ms_geom (mb_shape s i)) as [| |n0 l0 r0] eqn:G; [discriminate|discriminate|]; intros E; destruct (set_geom_gets _ _ _ _ E) as (A & B); split; auto.
    exists n0, l0, r0. auto.
Qed.
