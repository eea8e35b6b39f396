(** C21, C53: dispatch of collision callbacks. *)
From stdpp Require Import base list numbers.
From Verif Require Import HashSet Filter Dispatch DispatchSpec DispatchProofs.
Local Open Scope N_scope.

(** The handler used for a pair is the first one registered for its unordered pair of types, else the default;
    Shapes() lists first the shape of the handler's TypeA; handlerA and handlerB are the wildcard handlers of the
    first and second listed shape. *)
Theorem C21_right_handler : forall s0 regs s wild ty a b oA oB,
  new_hset = Some s0 -> register s0 regs = Some s -> (forall h, h ∈ regs -> 2 <= hid h) -> ty a ≠ wildcard -> ty b ≠ wildcard ->
  exists d, update_handlers (HSpace s wild) ty a b oA oB = Some d /\
    d_main d = chosen regs (ty a) (ty b) (if wild then default_handler else do_nothing) /\
    (shapes_of d = (a, b) \/ shapes_of d = (b, a)) /\
    (d_main d ∈ regs -> ty (fst (shapes_of d)) = htypeA (d_main d) /\ ty (snd (shapes_of d)) = htypeB (d_main d)) /\
    (d_main d ∉ regs -> shapes_of d = (a, b)) /\
    (wild = true \/ d_main d ∈ regs ->
       d_hA d = chosen regs (ty (fst (shapes_of d))) wildcard do_nothing /\
       d_hB d = chosen regs (ty (snd (shapes_of d))) wildcard do_nothing).
Proof. exact dispatch_ok. Qed.
Print Assumptions C21_right_handler.
Example C21_right_handler_ex : exists s0 s d, new_hset = Some s0 /\
  register s0 [Handler 1 2 10; Handler 2 wildcard 11; Handler 2 1 12] = Some s /\
  update_handlers (HSpace s true) (fun x => x) 2 1 do_nothing do_nothing = Some d /\
  d_main d = Handler 1 2 10 /\ shapes_of d = (1, 2) /\ d_hA d = do_nothing /\ d_hB d = Handler 2 wildcard 11.
Proof. do 3 eexists. repeat split; vm_compute; reflexivity. Qed.

(** A user callback of that handler is called once, with the shapes in that order, and its result is the result. *)
Theorem C21_user_callback : forall fuel prog w d r, func_of prog (d_main d) w = FUser r ->
  dispatch fuel prog w d = Some ([Call (hid (d_main d)) w (fst (shapes_of d)) (snd (shapes_of d))], r).
Proof. exact dispatch_user. Qed.
Print Assumptions C21_user_callback.
Example C21_user_callback_ex :
  dispatch 0 (fun _ _ => FUser false) WBegin (DArb 7 8 true (Handler 1 2 10) do_nothing do_nothing) = Some ([Call 10 WBegin 8 7], false).
Proof. reflexivity. Qed.

(** The default callbacks call the first shape's wildcard callback with the shapes in order, then the second shape's
    with them exchanged, so each sees the shape of its own type first; a false begin or preSolve stops there. *)
Theorem C21_wildcard_order : forall fuel prog w d, func_of prog (d_main d) w = FDefault ->
  func_of prog (d_hA d) w ≠ FDefault -> func_of prog (d_hB d) w ≠ FDefault ->
  let x := fst (shapes_of d) in let y := snd (shapes_of d) in
  dispatch (S fuel) prog w d =
  Some (wild_calls prog w (d_hA d) x y ++ (if may_refuse w && negb (wild_result prog w (d_hA d)) then [] else wild_calls prog w (d_hB d) y x),
        if may_refuse w && negb (wild_result prog w (d_hA d)) then false else wild_result prog w (d_hB d)).
Proof. exact dispatch_default. Qed.
Print Assumptions C21_wildcard_order.
Example C21_wildcard_order_ex :
  let d := DArb 7 8 true default_handler (Handler 1 wildcard 10) (Handler 2 wildcard 11) in
  dispatch 1 (fun _ _ => FUser true) WBegin d = Some ([Call 10 WBegin 8 7; Call 11 WBegin 7 8], true) /\
  dispatch 1 (fun _ _ => FUser false) WBegin d = Some ([Call 10 WBegin 8 7], false) /\
  dispatch 1 (fun _ _ => FUser false) WSeparate d = Some ([Call 10 WSeparate 8 7; Call 11 WSeparate 7 8], false).
Proof. repeat split. Qed.

(** Registering a pair of types again, in either order, returns the existing handler and changes nothing. *)
Theorem C21_reregister : forall s0 regs s a b id, new_hset = Some s0 -> register s0 regs = Some s ->
  (exists h, h ∈ regs /\ for_types a b h = true) -> add_handler s a b id = Some (s, chosen regs a b (Handler a b id)).
Proof. exact reregister. Qed.
Print Assumptions C21_reregister.
Example C21_reregister_ex : exists s0 s, new_hset = Some s0 /\ register s0 [Handler 1 2 10; Handler 3 4 11] = Some s /\
  add_handler s 4 3 12 = Some (s, Handler 3 4 11).
Proof. do 2 eexists. repeat split; vm_compute; reflexivity. Qed.

(** A handler registered for (t, wildcard) with AddCollisionHandler calls itself for ever. *)
Theorem C53_dispatch_terminates_refuted : exists regs s0 s d,
  new_hset = Some s0 /\ register s0 regs = Some s /\ (forall h, h ∈ regs -> 2 <= hid h) /\
  update_handlers (HSpace s true) (fun _ => 5) 10 11 do_nothing do_nothing = Some d /\ forall fuel w, dispatch fuel rec_prog w d = None.
Proof. exact wildcard_recursion. Qed.
Print Assumptions C53_dispatch_terminates_refuted.

(** With wildcard handlers made by AddWildcardCollisionHandler one level of calls is enough. *)
Theorem C53_dispatch_terminates : forall fuel prog w d,
  func_of prog (d_hA d) w ≠ FDefault -> func_of prog (d_hB d) w ≠ FDefault -> dispatch (S fuel) prog w d ≠ None.
Proof. exact dispatch_terminates. Qed.
Print Assumptions C53_dispatch_terminates.
Example C53_dispatch_terminates_ex :
  dispatch 1 (fun _ _ => FDefault) WBegin (DArb 7 8 true (Handler 1 2 10) do_nothing do_nothing) = Some ([], true).
Proof. reflexivity. Qed.
