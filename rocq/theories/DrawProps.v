(** C66: drawing.  [local_covers s]: the points of a shape in the coordinates of its body, [painted]: the points a call fills. *)
From Coq Require Import ZArith NArith Reals List Bool Arith Floats.
From Verif Require Import Num NumReal NumFloat Vec Transform Body BodySpec Shapes ShapesSpec Solver BB Draw DrawSpec DrawProofs DrawEx.
From Verif Require Space SpaceSpec.
Import ListNotations.
Local Open Scope R_scope.

(* every shape of the space is drawn once, whether or not its body sleeps; the constraints and contacts of awake bodies once each *)
Theorem C66_space : forall (colour : Type) (N : Num) (d : drawer colour) (H : @heap N) shp jnt arb (s : @Space.space N), SpaceSpec.reachable s -> Space.s_lock s = 0%Z ->
  exists xs cs, draw_space d H shp jnt arb s =
      map (fun i => draw_shape d (b_angle (H (Space.sh_body (Space.s_shape s i)))) i (shp i)) xs ++
      flat_map (fun c => draw_constraint d H (fst (jnt c)) (snd (jnt c))) cs ++ flat_map (fun x => draw_arbiter d H (arb x)) (Space.s_arbs s) /\
    NoDup xs /\ (forall x, In x xs <-> Space.contains_shape s x = true) /\
    NoDup cs /\ (forall c, In c cs <-> Space.contains_constraint s c = true /\ Space.is_sleeping s (Space.co_a (Space.s_con s c)) = false /\ Space.is_sleeping s (Space.co_b (Space.s_con s c)) = false).
Proof. exact (fun colour N => @space_drawn colour N). Qed.
Print Assumptions C66_space.
(* a shape whose data was computed for the present frame of its body fills exactly its points, in the colours the drawer gives for it;
   a circle's radius line points along the body's x axis *)
Theorem C66_shape : forall (colour : Type) (d : drawer colour) (m i : R) (ops : list bop) (j : nat) (s s' : @shape RNum) (box : @bb RNum),
  let b := history m i ops in shape_cache s (b_tf b) = (s', box) ->
  let c := draw_shape d (b_angle b) j s' in
  (forall q, painted c (local_to_world b q) <-> local_covers s q) /\ colours c = (Some (dr_outline d), dr_shape d j) /\
  (forall p an r o f, c = DCircle p an r o f -> vsub (local_to_world b (BB.rvec 1 0)) (local_to_world b (BB.rvec 0 0)) = BB.rvec (cos an) (sin an)).
Proof. exact (fun colour => @draw_shape_ok colour). Qed.
Print Assumptions C66_shape.
(* joints: dots at the anchors and lines between them; a spring is a zigzag of 14 lines from anchor to anchor, nowhere further than 6 from
   the straight line; joints about angles only are not drawn *)
Theorem C66_joint : forall (colour : Type) (d : drawer colour) (H : @heap RNum) (c : @cstr RNum) (k : @jclass RNum), let l := draw_constraint d H c k in
  (forall x, In x l -> colours x = (None, dr_constraint d)) /\
  match ends_of H c k with
  | None => l = []
  | Some (a, b) =>
      match k with
      | JPivot _ => dots l = [a; b] /\ lines l = []
      | JGroove p => dots l = [local_to_world (H (c_b c)) (gv_anchB p)] /\ lines l = [(a, b)]
      | JSpring _ => dots l = [a; b] /\ (a <> b -> leads a (lines l) b /\ length (lines l) = 14%nat /\ forall e, In e (lines l) -> close_to a b 6 (fst e) /\ close_to a b 6 (snd e))
      | _ => dots l = [a; b] /\ lines l = [(a, b)]
      end
  end.
Proof. exact (fun colour => @joint_drawn colour). Qed.
Print Assumptions C66_joint.
(* contacts: one line for each point of the ContactPointSet, from PointA to PointB and two units beyond them along the normal *)
Theorem C66_contacts : forall (colour : Type) (d : drawer colour) (H : @heap RNum) (s : @sarb RNum), s_cached s = false ->
  let set := contact_point_set H s in let n := cp_normal set in
  Forall2 (fun e pt => exists x y, e = DSegment x y (dr_point d) /\
      ((x, y) = (vsub (fst (fst pt)) (vscale n 2), vadd (snd (fst pt)) (vscale n 2)) \/ (y, x) = (vsub (fst (fst pt)) (vscale n 2), vadd (snd (fst pt)) (vscale n 2))))
    (draw_arbiter d H s) (cp_points set).
Proof. exact (fun colour => @contacts_drawn colour). Qed.
Print Assumptions C66_contacts.
Example C66_witness : exists s : @Space.space FNum, SpaceSpec.reachable s /\ draw_space mute fh fsh fjn farb s =
    [DCircle (fvec 4 4) 0%float 1%float 10%nat 2%nat; DCircle (fvec 1 0) 0%float 1%float 10%nat 1%nat; DCircle (fvec 0 0) 0%float 1%float 10%nat 3%nat; DCircle (fvec 0 0) 0%float 1%float 10%nat 0%nat;
     @DDot FNum nat 5%float (fvec 1 0) 20%nat; @DDot FNum nat 5%float (fvec 4 4) 20%nat; DSegment (fvec 1 0) (fvec 4 4) 20%nat;
     DSegment (fvec 1 (-3)) (fvec 0 2) 30%nat; DSegment (fvec 1 (-3)) (fvec 0 2) 30%nat].
Proof. exact awake_drawn. Qed.
(* the drawer's flags are never asked for: everything is drawn, whatever they are *)
Theorem C66_flags_ignored : forall (colour : Type) (N : Num) (d : drawer colour) (f : BinNums.N) (H : @heap N) shp jnt arb s,
  draw_space (Drawer f (dr_outline d) (dr_shape d) (dr_constraint d) (dr_point d)) H shp jnt arb s = draw_space d H shp jnt arb s.
Proof. exact (fun colour N => @flags_no_matter colour N). Qed.
Print Assumptions C66_flags_ignored.
Theorem C66_flags_refuted : exists s : @Space.space FNum, SpaceSpec.reachable s /\ dr_flags mute = 0%N /\ draw_space mute fh fsh fjn farb s =
    [DCircle (fvec 0 0) 0%float 1%float 10%nat 3%nat; DCircle (fvec 4 4) 0%float 1%float 10%nat 2%nat; DCircle (fvec 1 0) 0%float 1%float 10%nat 1%nat; DCircle (fvec 0 0) 0%float 1%float 10%nat 0%nat].
Proof. exact flags_ignored. Qed.
Print Assumptions C66_flags_refuted.
(* joints and contacts of sleeping bodies disappear from the picture *)
Theorem C66_sleeping_refuted : exists s : @Space.space FNum, SpaceSpec.reachable s /\ Space.s_lock s = 0%Z /\ Space.contains_constraint s 0 = true /\ Space.is_sleeping s 1 = true /\
  Space.b_arbs (Space.s_body s 1) = [0%nat] /\ dots (draw_space mute fh fsh fjn farb s) = [] /\ lines (draw_space mute fh fsh fjn farb s) = [].
Proof. exact sleeping_left_out. Qed.
Print Assumptions C66_sleeping_refuted.
Theorem C66_short_spring_refuted : exists (H : @heap FNum) (c : @cstr FNum) (p : @spring FNum),
  local_to_world (H (c_a c)) (sp_anchA p) = local_to_world (H (c_b c)) (sp_anchB p) /\ length (lines (draw_constraint mute H c (JSpring p))) = 14%nat /\
  forallb (fun e : @vec FNum * @vec FNum => PrimFloat.is_nan (vx (fst e)) && PrimFloat.is_nan (vy (snd e))) (lines (draw_constraint mute H c (JSpring p))) = true.
Proof. exact (ex_intro _ fh (ex_intro _ (@Cstr FNum 0%nat 3%nat 1%float 1%float 1%float) (ex_intro _ fspring short_spring))). Qed.
Print Assumptions C66_short_spring_refuted.
(* a shape is drawn where it was when its box was last computed *)
Theorem C66_moved_refuted : exists (ops : list bop) (s s' : @shape RNum) (box : @bb RNum) (q : @vec RNum), let b := history 1 1 ops in let b' := set_position b (BB.rvec 5 0) in
  shape_cache s (b_tf b) = (s', box) /\ local_covers s q /\ ~ painted (draw_shape mute (b_angle b') 0 s') (local_to_world b' q).
Proof. exact stale_drawn. Qed.
Print Assumptions C66_moved_refuted.
