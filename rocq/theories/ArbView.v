(** Arbiters as Body.EachArbiter shows them.  Models the flag EachArbiter sets around the callback (/repo/body.go:583-588) and
    Arbiter.Bodies.  The list EachArbiter walks is ThreadList.v (C27); the other accessors are in Solver.v.

    Simplification: the callback only reads the arbiter. *)
From Coq Require Import ZArith Bool List.
From Verif Require Import Num Vec Transform Body Solver.
Import ListNotations.

Section ArbView.
Context {N : Num}.

(* body.go:583: arb.swapped = body == arb.bodyB, during the callback; 586 puts the flag back *)
Definition seen_by (i : nat) (s : sarb) : sarb :=
  SArb (s_a s) (s_b s) (s_e s) (s_u s) (s_svr s) (s_n s) (Nat.eqb i (s_b s)) (s_first s) (s_cached s) (s_contacts s).
(* arbiter.go:429-442 Shapes and Bodies: the bodies of the two shapes (arb.bodyA is arb.shapeA.Body, arbiter.go:192-195) *)
Definition arb_bodies (s : sarb) : nat * nat := if s_swapped s then (s_b s, s_a s) else (s_a s, s_b s).
(* body.go:578-590: what f sees, for the arbiters [l] of the space, when EachArbiter is called on body i *)
Definition each_view (i : nat) (l : list sarb) : list sarb :=
  map (seen_by i) (List.filter (fun s => Nat.eqb i (s_a s) || Nat.eqb i (s_b s)) l).
End ArbView.
