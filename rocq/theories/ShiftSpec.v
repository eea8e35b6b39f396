(** Observables of C71: the same world seen from another origin, or by an observer in uniform motion. *)
From Coq Require Import ZArith Bool List Arith Reals.
From Verif Require Import Num NumReal Vec BB Transform Body BodySpec Solver SolverSpec Joints JointsSpec ApartSpec.
Import ListNotations.
Local Open Scope R_scope.

(** A body whose position is shifted by x and whose velocity by u. *)
Definition shift_body (x u : Rvec) (b : Rbody) : Rbody :=
  let t := b_tf b in
  set_vel_fields (set_tf_field (set_pos_field b (vadd (b_pos b) x)) (@Tf RNum (ta t) (tb t) (tc t) (td t) (ttx t + vx x) (tty t + vy x))) (vadd (b_vel b) u) (b_w b).
(** Two worlds that differ by such a shift of the bodies in B; contacts and joints are the same. *)
Definition shifted (B : nat -> bool) (x u : Rvec) (H H' : Rheap) : Prop := forall i, B i = true -> H' i = shift_body x u (H i).
Record shifted_world (B : nat -> bool) (x u : Rvec) (w w' : Rworld) : Prop := {
  sw_bodies : shifted B x u (w_heap w) (w_heap w'); sw_arbs : w_arbs w' = w_arbs w; sw_joints : w_joints w' = w_joints w }.
(** A collision phase whose arbiters, which hold contact points relative to the bodies, do not depend on the origin. *)
Definition origin_free (B : nat -> bool) (f : Rheap -> list Rsarb -> list Rsarb) : Prop := forall x u H H' l, shifted B x u H H' -> f H' l = f H l.
(** The time of some steps. *)
Definition total_time (is : list (@given RNum)) : R := fold_right (fun i t => i_dt i + t) 0 is.
(** The transform of the body keeps lengths; the normal of a groove has length 1 (groove_joint.go:19-29). *)
Definition rigid (b : Rbody) : Prop := forall p, vmag (tf_apply_vector (b_tf b) p) = vmag p.
Definition unit_groove (k : @jclass RNum) : Prop := match k with JGroove p => vmag (gv_gn p) = 1 | _ => True end.
