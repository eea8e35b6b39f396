(** How the properties of persistent contacts are stated. *)
From Coq Require Import ZArith NArith Bool List Reals.
From Verif Require Import Num NumReal Vec Transform Body Solver Narrow.
Import ListNotations.
Local Open Scope R_scope.

(** The same contact, arbiter or narrow-phase result with the two shapes in the other order. *)
Definition mirror_contact {N : Num} (c : contact) : contact :=
  Contact (k_r2 c) (k_r1 c) (k_nmass c) (k_tmass c) (k_bounce c) (k_jn c) (k_jt c) (k_jbias c) (k_bias c) (k_hash c).
Definition mirror {N : Num} (sw : bool) (s : sarb) : sarb :=
  SArb (s_b s) (s_a s) (s_e s) (s_u s) (vneg (s_svr s)) (vneg (s_n s)) sw (s_first s) (s_cached s) (map mirror_contact (s_contacts s)).
Definition flip {N : Num} (i : ninfo) : ninfo :=
  NInfo (vneg (nf_n i)) (map (fun c => NContact (nc_p2 c) (nc_p1 c) (nc_hash c)) (nf_arr i)) (nf_id i).
(** The same arbiter, up to the order of its shapes. *)
Definition same_pair {N : Num} (s t : sarb) : Prop := t = s \/ exists sw, t = mirror sw s.

(** What one arbiter alone does to the bodies in a step: the cached impulse and k iterations. *)
Fixpoint arb_iterate {N : Num} (k : nat) (p : heap * sarb) : heap * sarb :=
  match k with O => p | S k => arb_iterate k (arb_apply (fst p) (snd p)) end.
Definition arb_alone {N : Num} (k : nat) (dtcoef : num) (H : heap) (s : sarb) : heap * sarb := arb_iterate k (arb_cached dtcoef H s, s).
Definition rsum (l : list R) : R := fold_right Rplus 0 l.
