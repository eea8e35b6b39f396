(** Contacts that persist from step to step.  Models the numeric half of Arbiter.Update (/repo/arbiter.go:186-226, 250-255);
    the handler half (227-249) is in Dispatch.v, the lists of arbiters in Collide.v.

    Simplifications: an arbiter in the state Invalidated has left cachedArbiters and is not updated, so that [s_cached]
    here is ArbiterStateCached; [sw] is the flag computed by the handler half.  The slice arb.Contacts does not overlap
    info.arr (C24).  A Contact in the buffer keeps what an older contact left in the fields PushContact does not
    set (everything.go:125-134): [mem]. *)
From Coq Require Import ZArith NArith Bool List.
From Verif Require Import Num Vec Transform Body Solver Narrow.
Import ListNotations.
Local Open Scope num_scope.

Section Persist.
Context {N : Num}.

(* shape.go:34-35: the fields of a shape read by Update *)
Record material := Material { mt_e : num; mt_u : num; mt_sv : vec }.
(* arbiter.go:208-212 *)
Definition with_impulses (c o : contact) : contact :=
  Contact (k_r1 c) (k_r2 c) (k_nmass c) (k_tmass c) (k_bounce c) (k_jn o) (k_jt o) (k_jbias c) (k_bias c) (k_hash c).
(* arbiter.go:204-214: the inner loop over the old contacts *)
Definition carry (c o : contact) : contact := if Z.eqb (k_hash c) (k_hash o) then with_impulses c o else c.
(* arbiter.go:198-214: the body of the outer loop *)
Definition update_contact (pa pb : vec) (old : list contact) (m : contact) (c : ncontact) : contact :=
  fold_left carry old
    (Contact (vsub (nc_p1 c) pa) (vsub (nc_p2 c) pb) (k_nmass m) (k_tmass m) (k_bounce m) n0 n0 (k_jbias m) (k_bias m) (Z.of_N (nc_hash c))).
(* arbiter.go:197-215; [mem i] is what info.arr[i] held before *)
Fixpoint update_contacts (pa pb : vec) (old : list contact) (mem : nat -> contact) (l : list ncontact) : list contact :=
  match l with
  | [] => []
  | c :: l => update_contact pa pb old (mem 0%nat) c :: update_contacts pa pb old (fun i => mem (S i)) l
  end.
(* arbiter.go:224-225 *)
Definition surface_velocity (a b : material) (n : vec) : vec :=
  let v := vsub (mt_sv b) (mt_sv a) in vsub v (vscale n (vdot v n)).
(* arbiter.go:186-255 Update; a, b: the bodies of info.a, info.b *)
Definition update (H : heap) (a b : nat) (ma mb : material) (sw : bool) (mem : nat -> contact) (i : ninfo) (s : sarb) : sarb :=
  SArb a b (mt_e ma * mt_e mb) (mt_u ma * mt_u mb) (surface_velocity ma mb (nf_n i)) (nf_n i) sw
    (s_first s || s_cached s) false
    (update_contacts (b_pos (H a)) (b_pos (H b)) (s_contacts s) mem (nf_arr i)).
End Persist.
