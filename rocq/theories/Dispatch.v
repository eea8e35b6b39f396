(** Choice and order of collision callbacks.
    Models the handler part of Arbiter.Update (/repo/arbiter.go:227-249), CallWildcard* (269-320), the two built-in
    handlers (356-403), Shapes (429-435), AddWildcardCollisionHandler (/repo/space.go:777-802), on top of Filter.v. *)
From stdpp Require Import base list numbers.
From Verif Require Import HashSet Filter.
Local Open Scope N_scope.

(* arbiter.go:10 *)
Definition wildcard : N := allones.
(* arbiter.go:356-374 CollisionHandlerDoNothing, CollisionHandlerDefault; identities 0 and 1 are reserved for them *)
Definition do_nothing : handler := Handler wildcard wildcard 0.
Definition default_handler : handler := Handler wildcard wildcard 1.

Inductive what := WBegin | WPreSolve | WPostSolve | WSeparate.
(* what a handler's callback field holds: AlwaysCollide / DoNothing (376-382), one of the Default* functions (384-403), or
   a user function with a fixed result that does not itself call the wildcard callbacks *)
Inductive func := FAlways | FDefault | FUser (r : bool).
(* the callback fields of every handler *)
Definition func_of (prog : N -> what -> func) (h : handler) (w : what) : func :=
  if hid h =? 0 then FAlways else if hid h =? 1 then FDefault else prog (hid h) w.

(* arbiter.go:16-31 fields shapeA, shapeB, swapped, handler, handlerA, handlerB; shapes are words *)
Record darb := DArb { d_a : N; d_b : N; d_swapped : bool; d_main : handler; d_hA : handler; d_hB : handler }.
(* arbiter.go:429-435 Shapes *)
Definition shapes_of (d : darb) : N * N := if d_swapped d then (d_b d, d_a d) else (d_a d, d_b d).
Definition flip (d : darb) : darb := DArb (d_a d) (d_b d) (negb (d_swapped d)) (d_main d) (d_hA d) (d_hB d).

(* space.go:67-68: the registered handlers, defaultHandler and usesWildcards *)
Record hspace := HSpace { hs_set : hset handler; hs_wild : bool }.
(* space.go:797-802 UseWildcardDefaultHandler: the default handler of the space *)
Definition hs_default (s : hspace) : handler := if hs_wild s then default_handler else do_nothing.

(* arbiter.go:227-249 Update, handler part; [ty] gives the CollisionType of a shape, [oldA], [oldB] the previous
   handlerA and handlerB.  None = the hash set panicked (never, HashSetProps). *)
Definition update_handlers (s : hspace) (ty : N -> N) (a b : N) (oldA oldB : handler) : option darb :=
  let typeA := ty a in
  let typeB := ty b in
  h ← lookup_handler (hs_set s) typeA typeB (hs_default s);
  let swapped := negb (typeA =? htypeA h) && negb (htypeA h =? wildcard) in
  if negb (hid h =? hid (hs_default s)) || hs_wild s then
    if swapped then
      hA ← lookup_handler (hs_set s) typeB wildcard do_nothing;
      hB ← lookup_handler (hs_set s) typeA wildcard do_nothing;
      Some (DArb a b swapped h hA hB)
    else
      hA ← lookup_handler (hs_set s) typeA wildcard do_nothing;
      hB ← lookup_handler (hs_set s) typeB wildcard do_nothing;
      Some (DArb a b swapped h hA hB)
  else Some (DArb a b swapped h oldA oldB).

(* one call of a user callback, with the result of Shapes() inside it *)
Record call := Call { c_handler : N; c_what : what; c_first : N; c_second : N }.
(* arbiter.go:269-320, 376-403: calling field [w] of handler [h]; None = recursion deeper than the fuel *)
Fixpoint invoke (fuel : nat) (prog : N -> what -> func) (w : what) (h : handler) (d : darb) : option (list call * bool) :=
  match func_of prog h w with
  | FAlways => Some ([], true)
  | FUser r => Some ([Call (hid h) w (fst (shapes_of d)) (snd (shapes_of d))], r)
  | FDefault =>
    match fuel with
    | O => None
    | S fuel =>
      '(c1, r1) ← invoke fuel prog w (d_hA d) d;
      match w, r1 with
      | WBegin, false | WPreSolve, false => Some (c1, false)
      | _, _ =>
        '(c2, r2) ← invoke fuel prog w (d_hB d) (flip d);
        Some (c1 ++ c2, r2)
      end
    end
  end.
Definition dispatch (fuel : nat) (prog : N -> what -> func) (w : what) (d : darb) : option (list call * bool) :=
  invoke fuel prog w (d_main d) d.
