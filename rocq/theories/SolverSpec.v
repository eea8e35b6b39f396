(** Observables used to state the solver properties. *)
From Coq Require Import ZArith Bool Reals List.
From Verif Require Import Num NumReal Vec BB Transform Body BodySpec Solver.
Import ListNotations.
Local Open Scope R_scope.

Notation Rheap := (@heap RNum).
Notation Rworld := (@world RNum).
Notation Rsarb := (@sarb RNum).
Notation Rjoint := (@sjoint RNum).
Notation Rcontact := (@contact RNum).
Notation Rcstr := (@cstr RNum).

(** Total linear momentum of the bodies in [L]. *)
Definition px (L : list nat) (H : Rheap) : R := Rsum (fun i => b_mass (H i) * vx (b_vel (H i))) L.
Definition py (L : list nat) (H : Rheap) : R := Rsum (fun i => b_mass (H i) * vy (b_vel (H i))) L.
(** The same for the bias velocities used to correct positions. *)
Definition bpx (L : list nat) (H : Rheap) : R := Rsum (fun i => b_mass (H i) * vx (b_vbias (H i))) L.
Definition bpy (L : list nat) (H : Rheap) : R := Rsum (fun i => b_mass (H i) * vy (b_vbias (H i))) L.
(** Total angular momentum about the world origin. *)
Definition angmom (L : list nat) (H : Rheap) : R :=
  Rsum (fun i => b_moi (H i) * b_w (H i) +
                 b_mass (H i) * (vx (b_pos (H i)) * vy (b_vel (H i)) - vy (b_pos (H i)) * vx (b_vel (H i)))) L.
(** Gravity and user forces acting on the bodies of [L]. *)
Definition force_x (L : list nat) (g : @vec RNum) (H : Rheap) : R := Rsum (fun i => b_mass (H i) * vx g + vx (b_force (H i))) L.
Definition force_y (L : list nat) (g : @vec RNum) (H : Rheap) : R := Rsum (fun i => b_mass (H i) * vy g + vy (b_force (H i))) L.

(** Every body of [L] has a mass whose stored inverse is its inverse. *)
Definition movable (L : list nat) (H : Rheap) : Prop := forall i, In i L -> b_mass (H i) * b_minv (H i) = 1.
Definition rotatable (L : list nat) (H : Rheap) : Prop := forall i, In i L -> b_moi (H i) * b_iinv (H i) = 1.
(** Everything the world's arbiters and joints touch is in [L]. *)
Definition closed (L : list nat) (w : Rworld) : Prop :=
  (forall s, In s (w_arbs w) -> In (s_a s) L /\ In (s_b s) L) /\
  (forall c k, In (c, k) (w_joints w) -> In (c_a c) L /\ In (c_b c) L).

(** Joints acting by equal and opposite torques. *)
Definition rotary (k : @jclass RNum) : Prop :=
  match k with JMotor _ | JRLimit _ | JRatchet _ | JRSpring _ => True | _ => False end.
(** Joints acting along the line between the two anchors. *)
Definition is_central (k : @jclass RNum) : Prop :=
  match k with JPin _ | JSlide _ | JSpring _ => True | _ => False end.
(** [n] calls of ApplyImpulse. *)
Fixpoint joint_iter (n : nat) (c : Rcstr) (dt : R) (st : Rheap * @jclass RNum) : Rheap * @jclass RNum :=
  match n with O => st | S n => joint_iter n c dt (joint_apply (fst st) c dt (snd st)) end.
(** A full step of one joint: PreStep, cached impulse, n iterations. *)
Definition joint_step (n : nat) (c : Rcstr) (dt dtcoef : R) (H : Rheap) (k : @jclass RNum) : Rheap :=
  let '(H, k) := joint_prestep H c dt k in
  fst (joint_iter n c dt (joint_cached H c dtcoef k, k)).

(** A joint that ApplyImpulse does not skip: a slide joint outside its range, a rotary limit or ratchet with a
    non-zero correction velocity, and every other joint. *)
Definition joint_active (k : @jclass RNum) : Prop :=
  match k with
  | JSlide p => veqb (sl_n p) vzero = false
  | JRLimit p => neqb (rl_bias p) n0 = false
  | JRatchet p => neqb (ra_bias p) n0 = false
  | _ => True
  end.
(** The impulse reported for the step is within the limit (springs have none). *)
Definition within (c : Rcstr) (dt : R) (k : @jclass RNum) : Prop :=
  match k with
  | JSpring _ | JRSpring _ => True
  | _ => joint_impulse k <= c_maxforce c * dt
  end.
Definition ratchet_ok (k : @jclass RNum) : Prop := match k with JRatchet p => ra_ratchet p <> 0 | _ => True end.
Definition no_spring (k : @jclass RNum) : Prop := match k with JSpring _ | JRSpring _ => False | _ => True end.
