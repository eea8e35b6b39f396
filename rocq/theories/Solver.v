(** Contact and joint solver.  Models /repo/arbiter.go:105-184, 322-354, 405-528,
    /repo/everything.go:88-97, 198-206, 244-313, the ten joint files, and the solver half of
    Space.Step (/repo/space.go:577-632).

    Bodies live in a heap [heap] indexed by ids, so that two pointers to one body alias as in
    the source.  Simplifications: an arbiter carries exactly the contacts Contacts[:count];
    the spring callbacks SpringForceFunc / SpringTorqueFunc are pure functions of the distance
    or relative angle; the PreSolve / PostSolve callbacks of constraints and the post-solve
    collision callbacks are not part of this file. *)
From Coq Require Import ZArith Bool Reals List.
From Verif Require Import Num Vec BB Transform Body.
Import ListNotations.
Local Open Scope num_scope.

(** math.Pow, math.Exp, math.Floor (used at everything.go:304, damped_spring.go:64,
    ratchet_joint.go:42).  Theorems quantify over every implementation. *)
Class Elem (N : Num) := { npow : num -> num -> num; nexp : num -> num; nfloor : num -> num }.
(* the ideal functions; Pow(0, y) = 0 for y > 0 *)
#[global] Instance RElem : Elem RNum := {|
  npow := fun b x => if Reqb b 0 then (if Reqb x 0 then 1%R else 0%R) else Rpower b x;
  nexp := exp;
  nfloor := fun x => IZR (Int_part x) |}.

Section Solver.
Context {N : Num}.

(* pointers to bodies *)
Definition heap := nat -> body.
Definition upd (H : heap) (i : nat) (b : body) : heap := fun k => if Nat.eqb k i then b else H k.

(* everything.go:200-202 Mat2x2 *)
Record mat2 := Mat2 { m_a : num; m_b : num; m_c : num; m_d : num }.
(* everything.go:204-206 Transform *)
Definition mat2_transform (m : mat2) (v : vec) : vec :=
  V (vx v * m_a m + vy v * m_b m) (vx v * m_c m + vy v * m_d m).

(* everything.go:244-247 kScalarBody *)
Definition kscalar_body (b : body) (r n : vec) : num :=
  let rcn := vcross r n in b_minv b + b_iinv b * rcn * rcn.
(* everything.go:253-255 kScalar *)
Definition kscalar (a b : body) (r1 r2 n : vec) : num := kscalar_body a r1 n + kscalar_body b r2 n.
(* arbiter.go:352-354 relativeVelocity *)
Definition relative_velocity (a b : body) (r1 r2 : vec) : vec :=
  vsub (vadd (vscale (vperp r2) (b_w b)) (b_vel b)) (vadd (vscale (vperp r1) (b_w a)) (b_vel a)).
(* everything.go:257-259 normalRelativeVelocity *)
Definition normal_relative_velocity (a b : body) (r1 r2 n : vec) : num := vdot (relative_velocity a b r1 r2) n.
(* everything.go:261-301 kTensor *)
Definition ktensor (a b : body) (r1 r2 : vec) : mat2 :=
  let msum := b_minv a + b_minv b in
  let aii := b_iinv a in
  let r1xsq := vx r1 * vx r1 * aii in
  let r1ysq := vy r1 * vy r1 * aii in
  let r1nxy := - vx r1 * vy r1 * aii in
  let bii := b_iinv b in
  let r2xsq := vx r2 * vx r2 * bii in
  let r2ysq := vy r2 * vy r2 * bii in
  let r2nxy := - vx r2 * vy r2 * bii in
  let k11 := msum + r1ysq + r2ysq in
  let k12 := n0 + r1nxy + r2nxy in
  let k21 := n0 + r1nxy + r2nxy in
  let k22 := msum + r1xsq + r2xsq in
  let det := k11 * k22 - k12 * k21 in
  let detinv := n1 / det in
  Mat2 (k22 * detinv) (- k12 * detinv) (- k21 * detinv) (k11 * detinv).
(* arbiter.go:323-325 and, with a negated impulse, 327-331: one half of applyImpulses *)
Definition kick (b : body) (r j : vec) : body :=
  set_vel_fields b (V (vx (b_vel b) + vx j * b_minv b) (vy (b_vel b) + vy j * b_minv b))
                   (b_w b + b_iinv b * (vx r * vy j - vy r * vx j)).
(* arbiter.go:322-332 applyImpulses *)
Definition apply_impulses (H : heap) (a b : nat) (r1 r2 j : vec) : heap :=
  let H := upd H b (kick (H b) r2 j) in
  upd H a (kick (H a) r1 (V (- vx j) (- vy j))).
(* arbiter.go:341-343 and 345-349 *)
Definition kick_bias (b : body) (r j : vec) : body :=
  set_bias_fields b (V (vx (b_vbias b) + vx j * b_minv b) (vy (b_vbias b) + vy j * b_minv b))
                    (b_wbias b + b_iinv b * (vx r * vy j - vy r * vx j)).
(* arbiter.go:340-350 applyBiasImpulses *)
Definition apply_bias_impulses (H : heap) (a b : nat) (r1 r2 j : vec) : heap :=
  let H := upd H b (kick_bias (H b) r2 j) in
  upd H a (kick_bias (H a) r1 (V (- vx j) (- vy j))).
(* assignment to Body.w, as in  a.w -= ...  (gear_joint.go:44, simple_motor.go:34, ...) *)
Definition set_w (b : body) (w : num) : body := set_vel_fields b (b_vel b) w.
(* a.w -= ja * a.momentOfInertiaInverse; b.w += jb * b.momentOfInertiaInverse
   (simple_motor.go:34-35, rotary_limit_joint.go:49-50, ratchet_joint.go:61-62,
   damped_rotary_spring.go:43-44) *)
Definition apply_torque (H : heap) (a b : nat) (j : num) : heap :=
  let H := upd H a (set_w (H a) (b_w (H a) - j * b_iinv (H a))) in
  upd H b (set_w (H b) (b_w (H b) + j * b_iinv (H b))).

(** ** Contacts *)
(* everything.go:88-97 Contact *)
Record contact := Contact {
  k_r1 : vec; k_r2 : vec; k_nmass : num; k_tmass : num; k_bounce : num;
  k_jn : num; k_jt : num; k_jbias : num; k_bias : num; k_hash : Z }.
(* arbiter.go:16-31 Arbiter, the fields used by the solver; [s_first] is
   state == ArbiterStateFirstCollision, [s_cached] is state >= ArbiterStateCached *)
Record sarb := SArb {
  s_a : nat; s_b : nat; s_e : num; s_u : num; s_svr : vec; s_n : vec;
  s_swapped : bool; s_first : bool; s_cached : bool; s_contacts : list contact }.
Definition with_contacts (s : sarb) (cs : list contact) : sarb :=
  SArb (s_a s) (s_b s) (s_e s) (s_u s) (s_svr s) (s_n s) (s_swapped s) (s_first s) (s_cached s) cs.

(* arbiter.go:170-183: body of the PreStep loop *)
Definition contact_prestep (H : heap) (s : sarb) (dt slop bias : num) (c : contact) : contact :=
  let a := H (s_a s) in
  let b := H (s_b s) in
  let n := s_n s in
  let delta := vsub (b_pos b) (b_pos a) in
  let nmass := n1 / kscalar a b (k_r1 c) (k_r2 c) n in
  let tmass := n1 / kscalar a b (k_r1 c) (k_r2 c) (vperp n) in
  let dist := vdot (vadd (vsub (k_r2 c) (k_r1 c)) delta) n in
  let cbias := - bias * nmin n0 (dist + slop) / dt in
  let bounce := normal_relative_velocity a b (k_r1 c) (k_r2 c) n * s_e s in
  Contact (k_r1 c) (k_r2 c) nmass tmass bounce (k_jn c) (k_jt c) n0 cbias (k_hash c).
(* arbiter.go:163-184 PreStep *)
Definition arb_prestep (H : heap) (dt slop bias : num) (s : sarb) : sarb :=
  with_contacts s (map (contact_prestep H s dt slop bias) (s_contacts s)).
(* arbiter.go:110-114: body of the ApplyCachedImpulse loop *)
Definition contact_cached (s : sarb) (dtcoef : num) (H : heap) (c : contact) : heap :=
  let j := vrotate (s_n s) (V (k_jn c) (k_jt c)) in
  apply_impulses H (s_a s) (s_b s) (k_r1 c) (k_r2 c) (vscale j dtcoef).
(* arbiter.go:105-115 ApplyCachedImpulse *)
Definition arb_cached (dtcoef : num) (H : heap) (s : sarb) : heap :=
  if s_first s then H else fold_left (contact_cached s dtcoef) (s_contacts s) H.
(* arbiter.go:124-156: body of the ApplyImpulse loop *)
Definition contact_apply (H : heap) (s : sarb) (c : contact) : heap * contact :=
  let a := H (s_a s) in
  let b := H (s_b s) in
  let n := s_n s in
  let r1 := k_r1 c in
  let r2 := k_r2 c in
  let vb1 := vadd (b_vbias a) (vscale (vperp r1) (b_wbias a)) in
  let vb2 := vadd (b_vbias b) (vscale (vperp r2) (b_wbias b)) in
  let vr := vadd (relative_velocity a b r1 r2) (s_svr s) in
  let vbn := vdot (vsub vb2 vb1) n in
  let vrn := vdot vr n in
  let vrt := vdot vr (vperp n) in
  let jbn := (k_bias c - vbn) * k_nmass c in
  let jbias := nmax (k_jbias c + jbn) n0 in
  let jn := - (k_bounce c + vrn) * k_nmass c in
  let jnacc := nmax (k_jn c + jn) n0 in
  let jtmax := s_u s * jnacc in
  let jt := - vrt * k_tmass c in
  let jtacc := nclamp (k_jt c + jt) (- jtmax) jtmax in
  let H := apply_bias_impulses H (s_a s) (s_b s) r1 r2 (vscale n (jbias - k_jbias c)) in
  let H := apply_impulses H (s_a s) (s_b s) r1 r2 (vrotate n (V (jnacc - k_jn c) (jtacc - k_jt c))) in
  (H, Contact r1 r2 (k_nmass c) (k_tmass c) (k_bounce c) jnacc jtacc jbias (k_bias c) (k_hash c)).
(* arbiter.go:124: the loop *)
Fixpoint contacts_apply (H : heap) (s : sarb) (cs : list contact) : heap * list contact :=
  match cs with
  | [] => (H, [])
  | c :: cs =>
    let '(H, c) := contact_apply H s c in
    let '(H, cs) := contacts_apply H s cs in
    (H, c :: cs)
  end.
(* arbiter.go:117-157 ApplyImpulse *)
Definition arb_apply (H : heap) (s : sarb) : heap * sarb :=
  let '(H, cs) := contacts_apply H s (s_contacts s) in (H, with_contacts s cs).

(* arbiter.go:420-425 Count *)
Definition arb_count (s : sarb) : nat := if s_cached s then 0%nat else length (s_contacts s).
(* arbiter.go:405-418 TotalImpulse *)
Definition total_impulse (s : sarb) : vec :=
  let sum := fold_left (fun sum c => vadd sum (vrotate (s_n s) (V (k_jn c) (k_jt c))))
                       (firstn (arb_count s) (s_contacts s)) vzero in
  if s_swapped s then sum else vneg sum.
(* arbiter.go:444-450 Normal *)
Definition arb_normal (s : sarb) : vec := if s_swapped s then vscale (s_n s) (- n1) else s_n s.
(* arbiter.go:453-467 ContactPointSet; Points[:Count] as a list of (PointA, PointB, Distance) *)
Record cpset := CPSet { cp_normal : vec; cp_points : list (vec * vec * num) }.
(* arbiter.go:470-499 ContactPointSet *)
Definition contact_point_set (H : heap) (s : sarb) : cpset :=
  let n := s_n s in
  CPSet (if s_swapped s then vneg n else n)
    (map (fun c =>
       let p1 := vadd (b_pos (H (s_a s))) (k_r1 c) in
       let p2 := vadd (b_pos (H (s_b s))) (k_r2 c) in
       let d := vdot (vsub p2 p1) n in
       if s_swapped s then (p2, p1, d) else (p1, p2, d))
     (firstn (arb_count s) (s_contacts s))).
(* arbiter.go:515-527: body of the SetContactPointSet loop *)
Definition set_contact_point (H : heap) (s : sarb) (c : contact) (p : vec * vec * num) : contact :=
  let '(p1, p2, _) := p in
  let pa := b_pos (H (s_a s)) in
  let pb := b_pos (H (s_b s)) in
  let '(r1, r2) := if s_swapped s then (vsub p2 pa, vsub p1 pb) else (vsub p1 pa, vsub p2 pb) in
  Contact r1 r2 (k_nmass c) (k_tmass c) (k_bounce c) (k_jn c) (k_jt c) (k_jbias c) (k_bias c) (k_hash c).
(* arbiter.go:504-528 SetContactPointSet; None is log.Fatalln (process exit) *)
Definition set_contact_point_set (H : heap) (s : sarb) (set : cpset) : option sarb :=
  if Nat.eqb (length (cp_points set)) (length (s_contacts s)) then
    let n := if s_swapped s then vneg (cp_normal set) else cp_normal set in
    let s := SArb (s_a s) (s_b s) (s_e s) (s_u s) (s_svr s) n (s_swapped s) (s_first s) (s_cached s) (s_contacts s) in
    Some (with_contacts s (map (fun cp => set_contact_point H s (fst cp) (snd cp))
                               (combine (s_contacts s) (cp_points set))))
  else None.

(** ** Joints *)
Context {E : Elem N}.
(* everything.go:303-305 biasCoef *)
Definition bias_coef (errorbias dt : num) : num := n1 - npow errorbias dt.

(* constraint.go:12-31 Constraint, solver fields *)
Record cstr := Cstr { c_a : nat; c_b : nat; c_maxforce : num; c_errorbias : num; c_maxbias : num }.
(* constraint.go:33-48 NewConstraint *)
Definition new_cstr (a b : nat) : cstr :=
  Cstr a b ninf (npow (n1 - nlit 1 10) (nofZ 60)) ninf.

(* pivot_joint.go:5-13 *)
Record pivot := Pivot { pv_anchA : vec; pv_anchB : vec; pv_r1 : vec; pv_r2 : vec; pv_k : mat2; pv_j : vec; pv_bias : vec }.
(* pin_joint.go:9-16 *)
Record pin := Pin { pn_anchA : vec; pn_anchB : vec; pn_dist : num; pn_r1 : vec; pn_r2 : vec; pn_n : vec;
  pn_nmass : num; pn_j : num; pn_bias : num }.
(* slide_joint.go:9-19 *)
Record slide := Slide { sl_anchA : vec; sl_anchB : vec; sl_min : num; sl_max : num; sl_r1 : vec; sl_r2 : vec; sl_n : vec;
  sl_nmass : num; sl_j : num; sl_bias : num }.
(* groove_joint.go:5-17 *)
Record groove := Groove { gv_gn : vec; gv_ga : vec; gv_gb : vec; gv_anchB : vec; gv_tn : vec; gv_clamp : num;
  gv_r1 : vec; gv_r2 : vec; gv_k : mat2; gv_j : vec; gv_bias : vec }.
(* gear_joint.go:6-13 *)
Record gear := Gear { ge_phase : num; ge_ratio : num; ge_ratioinv : num; ge_isum : num; ge_bias : num; ge_j : num }.
(* simple_motor.go:6-11 *)
Record motor := Motor { mo_rate : num; mo_isum : num; mo_j : num }.
(* rotary_limit_joint.go:6-11 *)
Record rlimit := RLimit { rl_min : num; rl_max : num; rl_isum : num; rl_bias : num; rl_j : num }.
(* ratchet_joint.go:6-11 *)
Record ratchet := Ratchet { ra_angle : num; ra_phase : num; ra_ratchet : num; ra_isum : num; ra_bias : num; ra_j : num }.
(* damped_spring.go:11-25 *)
Record spring := Spring { sp_anchA : vec; sp_anchB : vec; sp_damping : num; sp_force : num -> num;
  sp_target : num; sp_vcoef : num; sp_r1 : vec; sp_r2 : vec; sp_nmass : num; sp_n : vec; sp_j : num }.
(* damped_rotary_spring.go:6-13 *)
Record rspring := RSpring { rs_damping : num; rs_torque : num -> num; rs_target : num; rs_wcoef : num;
  rs_isum : num; rs_j : num }.

(* damped_spring.go:98-100 DefaultSpringForce *)
Definition default_spring_force (rest stiffness dist : num) : num := (rest - dist) * stiffness.
(* damped_rotary_spring.go:15-17 defaultSpringTorque *)
Definition default_spring_torque (rest stiffness ang : num) : num := (ang - rest) * stiffness.

(* r = transform.ApplyVector(anchor - centerOfGravity), pivot_joint.go:49 and the other joints *)
Definition anchor_arm (b : body) (anchor : vec) : vec := tf_apply_vector (b_tf b) (vsub anchor (b_cog b)).

(* pivot_joint.go:45-58 *)
Definition pivot_prestep (H : heap) (c : cstr) (dt : num) (p : pivot) : pivot :=
  let a := H (c_a c) in let b := H (c_b c) in
  let r1 := anchor_arm a (pv_anchA p) in
  let r2 := anchor_arm b (pv_anchB p) in
  let delta := vsub (vadd (b_pos b) r2) (vadd (b_pos a) r1) in
  Pivot (pv_anchA p) (pv_anchB p) r1 r2 (ktensor a b r1 r2) (pv_j p)
        (vclampmag (vscale delta (- bias_coef (c_errorbias c) dt / dt)) (c_maxbias c)).
(* pivot_joint.go:60-62 *)
Definition pivot_cached (H : heap) (c : cstr) (dtcoef : num) (p : pivot) : heap :=
  apply_impulses H (c_a c) (c_b c) (pv_r1 p) (pv_r2 p) (vscale (pv_j p) dtcoef).
(* pivot_joint.go:64-81 *)
Definition pivot_apply (H : heap) (c : cstr) (dt : num) (p : pivot) : heap * pivot :=
  let vr := relative_velocity (H (c_a c)) (H (c_b c)) (pv_r1 p) (pv_r2 p) in
  let j := mat2_transform (pv_k p) (vsub (pv_bias p) vr) in
  let jacc := vclampmag (vadd (pv_j p) j) (c_maxforce c * dt) in
  (apply_impulses H (c_a c) (c_b c) (pv_r1 p) (pv_r2 p) (vsub jacc (pv_j p)),
   Pivot (pv_anchA p) (pv_anchB p) (pv_r1 p) (pv_r2 p) (pv_k p) jacc (pv_bias p)).

(* pin_joint.go:46-65 *)
Definition pin_prestep (H : heap) (c : cstr) (dt : num) (p : pin) : pin :=
  let a := H (c_a c) in let b := H (c_b c) in
  let r1 := anchor_arm a (pn_anchA p) in
  let r2 := anchor_arm b (pn_anchB p) in
  let delta := vadd (b_pos b) (vsub r2 (vadd (b_pos a) r1)) in
  let dist := vmag delta in
  let n := if negb (dist =? n0) then vscale delta (n1 / dist) else vscale delta (n1 / ninf) in
  Pin (pn_anchA p) (pn_anchB p) (pn_dist p) r1 r2 n (n1 / kscalar a b r1 r2 n) (pn_j p)
      (nclamp (- bias_coef (c_errorbias c) dt * (dist - pn_dist p) / dt) (- c_maxbias c) (c_maxbias c)).
(* pin_joint.go:67-70 *)
Definition pin_cached (H : heap) (c : cstr) (dtcoef : num) (p : pin) : heap :=
  apply_impulses H (c_a c) (c_b c) (pn_r1 p) (pn_r2 p) (vscale (pn_n p) (pn_j p * dtcoef)).
(* pin_joint.go:72-87 *)
Definition pin_apply (H : heap) (c : cstr) (dt : num) (p : pin) : heap * pin :=
  let vrn := normal_relative_velocity (H (c_a c)) (H (c_b c)) (pn_r1 p) (pn_r2 p) (pn_n p) in
  let jmax := c_maxforce c * dt in
  let j := (pn_bias p - vrn) * pn_nmass p in
  let jacc := nclamp (pn_j p + j) (- jmax) jmax in
  (apply_impulses H (c_a c) (c_b c) (pn_r1 p) (pn_r2 p) (vscale (pn_n p) (jacc - pn_j p)),
   Pin (pn_anchA p) (pn_anchB p) (pn_dist p) (pn_r1 p) (pn_r2 p) (pn_n p) (pn_nmass p) jacc (pn_bias p)).

(* slide_joint.go:33-60 *)
Definition slide_prestep (H : heap) (c : cstr) (dt : num) (p : slide) : slide :=
  let a := H (c_a c) in let b := H (c_b c) in
  let r1 := anchor_arm a (sl_anchA p) in
  let r2 := anchor_arm b (sl_anchB p) in
  let delta := vsub (vadd (b_pos b) r2) (vadd (b_pos a) r1) in
  let dist := vmag delta in
  let '(pdist, n, j) :=
    if sl_max p <? dist then (dist - sl_max p, vunit delta, sl_j p)
    else if dist <? sl_min p then (sl_min p - dist, vneg (vunit delta), sl_j p)
    else (n0, vzero, n0) in
  Slide (sl_anchA p) (sl_anchB p) (sl_min p) (sl_max p) r1 r2 n (n1 / kscalar a b r1 r2 n) j
      (nclamp (- bias_coef (c_errorbias c) dt * pdist / dt) (- c_maxbias c) (c_maxbias c)).
(* slide_joint.go:62-68 *)
Definition slide_cached (H : heap) (c : cstr) (dtcoef : num) (p : slide) : heap :=
  apply_impulses H (c_a c) (c_b c) (sl_r1 p) (sl_r2 p) (vscale (sl_n p) (sl_j p * dtcoef)).
(* slide_joint.go:70-90 *)
Definition slide_apply (H : heap) (c : cstr) (dt : num) (p : slide) : heap * slide :=
  if veqb (sl_n p) vzero then (H, p) else
  let vrn := vdot (relative_velocity (H (c_a c)) (H (c_b c)) (sl_r1 p) (sl_r2 p)) (sl_n p) in
  let j := (sl_bias p - vrn) * sl_nmass p in
  let jacc := nclamp (sl_j p + j) (- c_maxforce c * dt) n0 in
  (apply_impulses H (c_a c) (c_b c) (sl_r1 p) (sl_r2 p) (vscale (sl_n p) (jacc - sl_j p)),
   Slide (sl_anchA p) (sl_anchB p) (sl_min p) (sl_max p) (sl_r1 p) (sl_r2 p) (sl_n p) (sl_nmass p) jacc (sl_bias p)).

(* groove_joint.go:31-61 *)
Definition groove_prestep (H : heap) (c : cstr) (dt : num) (p : groove) : groove :=
  let a := H (c_a c) in let b := H (c_b c) in
  let ta := tf_apply (b_tf a) (gv_ga p) in
  let tb := tf_apply (b_tf a) (gv_gb p) in
  let n := tf_apply_vector (b_tf a) (gv_gn p) in
  let d := vdot ta n in
  let r2 := anchor_arm b (gv_anchB p) in
  let td := vcross (vadd (b_pos b) r2) n in
  let '(cl, r1) :=
    if td <=? vcross ta n then (n1, vsub ta (b_pos a))
    else if vcross tb n <=? td then (- n1, vsub tb (b_pos a))
    else (n0, vsub (vadd (vscale (vperp n) (- td)) (vscale n d)) (b_pos a)) in
  let delta := vsub (vadd (b_pos b) r2) (vadd (b_pos a) r1) in
  Groove (gv_gn p) (gv_ga p) (gv_gb p) (gv_anchB p) n cl r1 r2 (ktensor a b r1 r2) (gv_j p)
         (vclampmag (vscale delta (- bias_coef (c_errorbias c) dt / dt)) (c_maxbias c)).
(* groove_joint.go:63-68 *)
Definition groove_cached (H : heap) (c : cstr) (dtcoef : num) (p : groove) : heap :=
  apply_impulses H (c_a c) (c_b c) (gv_r1 p) (gv_r2 p) (vscale (gv_j p) dtcoef).
(* groove_joint.go:70-79 grooveConstrain *)
Definition groove_constrain (c : cstr) (p : groove) (j : vec) (dt : num) : vec :=
  let n := gv_tn p in
  let jc := if n0 <? gv_clamp p * vcross j n then j else vproject j n in
  vclampmag jc (c_maxforce c * dt).
(* groove_joint.go:81-96 *)
Definition groove_apply (H : heap) (c : cstr) (dt : num) (p : groove) : heap * groove :=
  let vr := relative_velocity (H (c_a c)) (H (c_b c)) (gv_r1 p) (gv_r2 p) in
  let j := mat2_transform (gv_k p) (vsub (gv_bias p) vr) in
  let jacc := groove_constrain c p (vadd (gv_j p) j) dt in
  (apply_impulses H (c_a c) (c_b c) (gv_r1 p) (gv_r2 p) (vsub jacc (gv_j p)),
   Groove (gv_gn p) (gv_ga p) (gv_gb p) (gv_anchB p) (gv_tn p) (gv_clamp p) (gv_r1 p) (gv_r2 p) (gv_k p) jacc (gv_bias p)).

(* gear_joint.go:43-45, 63-65: unequal torques on the two bodies *)
Definition apply_gear (H : heap) (a b : nat) (j ratioinv : num) : heap :=
  let H := upd H a (set_w (H a) (b_w (H a) - j * b_iinv (H a) * ratioinv)) in
  upd H b (set_w (H b) (b_w (H b) + j * b_iinv (H b))).
(* gear_joint.go:15-25 NewGearJoint *)
Definition new_gear (phase ratio : num) : gear := Gear phase ratio (n1 / ratio) n0 n0 n0.
(* gear_joint.go:27-37 *)
Definition gear_prestep (H : heap) (c : cstr) (dt : num) (p : gear) : gear :=
  let a := H (c_a c) in let b := H (c_b c) in
  Gear (ge_phase p) (ge_ratio p) (ge_ratioinv p)
    (n1 / (b_iinv a * ge_ratioinv p + ge_ratio p * b_iinv b))
    (nclamp (- bias_coef (c_errorbias c) dt * (b_angle b * ge_ratio p - b_angle a - ge_phase p) / dt) (- c_maxbias c) (c_maxbias c))
    (ge_j p).
(* gear_joint.go:39-46 *)
Definition gear_cached (H : heap) (c : cstr) (dtcoef : num) (p : gear) : heap :=
  apply_gear H (c_a c) (c_b c) (ge_j p * dtcoef) (ge_ratioinv p).
(* gear_joint.go:48-66 *)
Definition gear_apply (H : heap) (c : cstr) (dt : num) (p : gear) : heap * gear :=
  let wr := b_w (H (c_b c)) * ge_ratio p - b_w (H (c_a c)) in
  let jmax := c_maxforce c * dt in
  let j := (ge_bias p - wr) * ge_isum p in
  let jacc := nclamp (ge_j p + j) (- jmax) jmax in
  (apply_gear H (c_a c) (c_b c) (jacc - ge_j p) (ge_ratioinv p),
   Gear (ge_phase p) (ge_ratio p) (ge_ratioinv p) (ge_isum p) (ge_bias p) jacc).

(* simple_motor.go:21-27 *)
Definition motor_prestep (H : heap) (c : cstr) (dt : num) (p : motor) : motor :=
  Motor (mo_rate p) (n1 / (b_iinv (H (c_a c)) + b_iinv (H (c_b c)))) (mo_j p).
(* simple_motor.go:29-36 *)
Definition motor_cached (H : heap) (c : cstr) (dtcoef : num) (p : motor) : heap :=
  apply_torque H (c_a c) (c_b c) (mo_j p * dtcoef).
(* simple_motor.go:38-53 *)
Definition motor_apply (H : heap) (c : cstr) (dt : num) (p : motor) : heap * motor :=
  let wr := b_w (H (c_b c)) - b_w (H (c_a c)) + mo_rate p in
  let jmax := c_maxforce c * dt in
  let j := - wr * mo_isum p in
  let jacc := nclamp (mo_j p + j) (- jmax) jmax in
  (apply_torque H (c_a c) (c_b c) (jacc - mo_j p), Motor (mo_rate p) (mo_isum p) jacc).

(* rotary_limit_joint.go:22-42 *)
Definition rlimit_prestep (H : heap) (c : cstr) (dt : num) (p : rlimit) : rlimit :=
  let a := H (c_a c) in let b := H (c_b c) in
  let dist := b_angle b - b_angle a in
  let pdist := if rl_max p <? dist then rl_max p - dist
               else if dist <? rl_min p then rl_min p - dist else n0 in
  let bias := nclamp (- bias_coef (c_errorbias c) dt * pdist / dt) (- c_maxbias c) (c_maxbias c) in
  RLimit (rl_min p) (rl_max p) (n1 / (b_iinv a + b_iinv b)) bias (if bias =? n0 then n0 else rl_j p).
(* rotary_limit_joint.go:44-51 *)
Definition rlimit_cached (H : heap) (c : cstr) (dtcoef : num) (p : rlimit) : heap :=
  apply_torque H (c_a c) (c_b c) (rl_j p * dtcoef).
(* rotary_limit_joint.go:53-76 *)
Definition rlimit_apply (H : heap) (c : cstr) (dt : num) (p : rlimit) : heap * rlimit :=
  if rl_bias p =? n0 then (H, p) else
  let wr := b_w (H (c_b c)) - b_w (H (c_a c)) in
  let jmax := c_maxforce c * dt in
  let j := - (rl_bias p + wr) * rl_isum p in
  let jacc := if rl_bias p <? n0 then nclamp (rl_j p + j) n0 jmax else nclamp (rl_j p + j) (- jmax) n0 in
  (apply_torque H (c_a c) (c_b c) (jacc - rl_j p), RLimit (rl_min p) (rl_max p) (rl_isum p) (rl_bias p) jacc).

(* ratchet_joint.go:28-54 *)
Definition ratchet_prestep (H : heap) (c : cstr) (dt : num) (p : ratchet) : ratchet :=
  let a := H (c_a c) in let b := H (c_b c) in
  let delta := b_angle b - b_angle a in
  let diff := ra_angle p - delta in
  let '(pdist, angle) :=
    if n0 <? diff * ra_ratchet p then (diff, ra_angle p)
    else (n0, nfloor ((delta - ra_phase p) / ra_ratchet p) * ra_ratchet p + ra_phase p) in
  let bias := nclamp (- bias_coef (c_errorbias c) dt * pdist / dt) (- c_maxbias c) (c_maxbias c) in
  Ratchet angle (ra_phase p) (ra_ratchet p) (n1 / (b_iinv a + b_iinv b)) bias (if bias =? n0 then n0 else ra_j p).
(* ratchet_joint.go:56-63 *)
Definition ratchet_cached (H : heap) (c : cstr) (dtcoef : num) (p : ratchet) : heap :=
  apply_torque H (c_a c) (c_b c) (ra_j p * dtcoef).
(* ratchet_joint.go:65-85 *)
Definition ratchet_apply (H : heap) (c : cstr) (dt : num) (p : ratchet) : heap * ratchet :=
  if ra_bias p =? n0 then (H, p) else
  let wr := b_w (H (c_b c)) - b_w (H (c_a c)) in
  let jmax := c_maxforce c * dt in
  let j := - (ra_bias p + wr) * ra_isum p in
  let jacc := nclamp ((ra_j p + j) * ra_ratchet p) n0 (jmax * nabs (ra_ratchet p)) / ra_ratchet p in
  (apply_torque H (c_a c) (c_b c) (jacc - ra_j p),
   Ratchet (ra_angle p) (ra_phase p) (ra_ratchet p) (ra_isum p) (ra_bias p) jacc).

(* damped_spring.go:41-70; applies the spring impulse itself *)
Definition spring_prestep (H : heap) (c : cstr) (dt : num) (p : spring) : heap * spring :=
  let a := H (c_a c) in let b := H (c_b c) in
  let r1 := anchor_arm a (sp_anchA p) in
  let r2 := anchor_arm b (sp_anchB p) in
  let delta := vsub (vadd (b_pos b) r2) (vadd (b_pos a) r1) in
  let dist := vmag delta in
  let n := if negb (dist =? n0) then vscale delta (n1 / dist) else vscale delta (n1 / ninf) in
  let k := kscalar a b r1 r2 n in
  let j := sp_force p dist * dt in
  (apply_impulses H (c_a c) (c_b c) r1 r2 (vscale n j),
   Spring (sp_anchA p) (sp_anchB p) (sp_damping p) (sp_force p) n0 (n1 - nexp (- sp_damping p * dt * k)) r1 r2 (n1 / k) n j).
(* damped_spring.go:76-92 *)
Definition spring_apply (H : heap) (c : cstr) (dt : num) (p : spring) : heap * spring :=
  let vrn := normal_relative_velocity (H (c_a c)) (H (c_b c)) (sp_r1 p) (sp_r2 p) (sp_n p) in
  let vdamp := (sp_target p - vrn) * sp_vcoef p in
  let jdamp := vdamp * sp_nmass p in
  (apply_impulses H (c_a c) (c_b c) (sp_r1 p) (sp_r2 p) (vscale (sp_n p) jdamp),
   Spring (sp_anchA p) (sp_anchB p) (sp_damping p) (sp_force p) (vrn + vdamp) (sp_vcoef p) (sp_r1 p) (sp_r2 p) (sp_nmass p) (sp_n p)
          (sp_j p + jdamp)).

(* damped_rotary_spring.go:61-64 *)
Definition apply_damp (H : heap) (a b : nat) (j : num) : heap :=
  let H := upd H a (set_w (H a) (b_w (H a) + j * b_iinv (H a))) in
  upd H b (set_w (H b) (b_w (H b) - j * b_iinv (H b))).
(* damped_rotary_spring.go:30-45; applies the spring torque itself *)
Definition rspring_prestep (H : heap) (c : cstr) (dt : num) (p : rspring) : heap * rspring :=
  let a := H (c_a c) in let b := H (c_b c) in
  let moment := b_iinv a + b_iinv b in
  let j := rs_torque p (b_angle a - b_angle b) * dt in
  (apply_torque H (c_a c) (c_b c) j,
   RSpring (rs_damping p) (rs_torque p) n0 (n1 - nexp (- rs_damping p * dt * moment)) (n1 / moment) j).
(* damped_rotary_spring.go:51-65 *)
Definition rspring_apply (H : heap) (c : cstr) (dt : num) (p : rspring) : heap * rspring :=
  let wrn := b_w (H (c_a c)) - b_w (H (c_b c)) in
  let wdamp := (rs_target p - wrn) * rs_wcoef p in
  let jdamp := wdamp * rs_isum p in
  (apply_damp H (c_a c) (c_b c) jdamp,
   RSpring (rs_damping p) (rs_torque p) (wrn + wdamp) (rs_wcoef p) (rs_isum p) (rs_j p + jdamp)).

(* constraint.go:8 Constrainer: the ten implementations *)
Inductive jclass :=
  | JPivot (p : pivot) | JPin (p : pin) | JSlide (p : slide) | JGroove (p : groove) | JGear (p : gear)
  | JMotor (p : motor) | JRLimit (p : rlimit) | JRatchet (p : ratchet) | JSpring (p : spring) | JRSpring (p : rspring).
(* constraint.Class.PreStep(dt) *)
Definition joint_prestep (H : heap) (c : cstr) (dt : num) (k : jclass) : heap * jclass :=
  match k with
  | JPivot p => (H, JPivot (pivot_prestep H c dt p))
  | JPin p => (H, JPin (pin_prestep H c dt p))
  | JSlide p => (H, JSlide (slide_prestep H c dt p))
  | JGroove p => (H, JGroove (groove_prestep H c dt p))
  | JGear p => (H, JGear (gear_prestep H c dt p))
  | JMotor p => (H, JMotor (motor_prestep H c dt p))
  | JRLimit p => (H, JRLimit (rlimit_prestep H c dt p))
  | JRatchet p => (H, JRatchet (ratchet_prestep H c dt p))
  | JSpring p => let '(H, p) := spring_prestep H c dt p in (H, JSpring p)
  | JRSpring p => let '(H, p) := rspring_prestep H c dt p in (H, JRSpring p)
  end.
(* constraint.Class.ApplyCachedImpulse(dtCoef); empty for the springs
   (damped_spring.go:72-74, damped_rotary_spring.go:47-49) *)
Definition joint_cached (H : heap) (c : cstr) (dtcoef : num) (k : jclass) : heap :=
  match k with
  | JPivot p => pivot_cached H c dtcoef p
  | JPin p => pin_cached H c dtcoef p
  | JSlide p => slide_cached H c dtcoef p
  | JGroove p => groove_cached H c dtcoef p
  | JGear p => gear_cached H c dtcoef p
  | JMotor p => motor_cached H c dtcoef p
  | JRLimit p => rlimit_cached H c dtcoef p
  | JRatchet p => ratchet_cached H c dtcoef p
  | JSpring _ | JRSpring _ => H
  end.
(* constraint.Class.ApplyImpulse(dt) *)
Definition joint_apply (H : heap) (c : cstr) (dt : num) (k : jclass) : heap * jclass :=
  match k with
  | JPivot p => let '(H, p) := pivot_apply H c dt p in (H, JPivot p)
  | JPin p => let '(H, p) := pin_apply H c dt p in (H, JPin p)
  | JSlide p => let '(H, p) := slide_apply H c dt p in (H, JSlide p)
  | JGroove p => let '(H, p) := groove_apply H c dt p in (H, JGroove p)
  | JGear p => let '(H, p) := gear_apply H c dt p in (H, JGear p)
  | JMotor p => let '(H, p) := motor_apply H c dt p in (H, JMotor p)
  | JRLimit p => let '(H, p) := rlimit_apply H c dt p in (H, JRLimit p)
  | JRatchet p => let '(H, p) := ratchet_apply H c dt p in (H, JRatchet p)
  | JSpring p => let '(H, p) := spring_apply H c dt p in (H, JSpring p)
  | JRSpring p => let '(H, p) := rspring_apply H c dt p in (H, JRSpring p)
  end.
(* GetImpulse of each class (pivot_joint.go:83, pin_joint.go:89, slide_joint.go:92, groove_joint.go:98,
   gear_joint.go:68, simple_motor.go:55, rotary_limit_joint.go:78, ratchet_joint.go:87,
   damped_spring.go:94, damped_rotary_spring.go:67) *)
Definition joint_impulse (k : jclass) : num :=
  match k with
  | JPivot p => vmag (pv_j p) | JPin p => nabs (pn_j p) | JSlide p => nabs (sl_j p) | JGroove p => vmag (gv_j p)
  | JGear p => nabs (ge_j p) | JMotor p => nabs (mo_j p) | JRLimit p => nabs (rl_j p) | JRatchet p => nabs (ra_j p)
  | JSpring p => sp_j p | JRSpring p => rs_j p
  end.

(** ** The solver half of Space.Step *)
Definition sjoint := (cstr * jclass)%type.
Record world := World { w_heap : heap; w_arbs : list sarb; w_joints : list sjoint }.

(* space.go:588-595 constraint PreStep loop *)
Fixpoint joints_prestep (H : heap) (dt : num) (l : list sjoint) : heap * list sjoint :=
  match l with
  | [] => (H, [])
  | (c, k) :: l =>
    let '(H, k) := joint_prestep H c dt k in
    let '(H, l) := joints_prestep H dt l in (H, (c, k) :: l)
  end.
(* space.go:583-595 *)
Definition prestep_all (slop bias dt : num) (w : world) : world :=
  let arbs := map (arb_prestep (w_heap w) dt slop bias) (w_arbs w) in
  let '(H, js) := joints_prestep (w_heap w) dt (w_joints w) in
  World H arbs js.
(* space.go:597-602 velocity integration of the dynamic bodies [dyn] *)
Definition integrate_all (g : vec) (damping dt : num) (dyn : list nat) (w : world) : world :=
  World (fold_left (fun H i => upd H i (update_velocity (H i) g damping dt)) dyn (w_heap w)) (w_arbs w) (w_joints w).
(* space.go:604-616 cached impulses *)
Definition cached_all (dtcoef : num) (w : world) : world :=
  let H := fold_left (arb_cached dtcoef) (w_arbs w) (w_heap w) in
  World (fold_left (fun H cj => joint_cached H (fst cj) dtcoef (snd cj)) (w_joints w) H) (w_arbs w) (w_joints w).
(* space.go:621-623 *)
Fixpoint arbs_apply (H : heap) (l : list sarb) : heap * list sarb :=
  match l with
  | [] => (H, [])
  | s :: l =>
    let '(H, s) := arb_apply H s in
    let '(H, l) := arbs_apply H l in (H, s :: l)
  end.
(* space.go:625-627 *)
Fixpoint joints_apply (H : heap) (dt : num) (l : list sjoint) : heap * list sjoint :=
  match l with
  | [] => (H, [])
  | (c, k) :: l =>
    let '(H, k) := joint_apply H c dt k in
    let '(H, l) := joints_apply H dt l in (H, (c, k) :: l)
  end.
(* space.go:620-628: one solver iteration *)
Definition iteration (dt : num) (w : world) : world :=
  let '(H, arbs) := arbs_apply (w_heap w) (w_arbs w) in
  let '(H, js) := joints_apply H dt (w_joints w) in
  World H arbs js.
(* space.go:619-628 *)
Fixpoint iterations (n : nat) (dt : num) (w : world) : world :=
  match n with O => w | S n => iterations n dt (iteration dt w) end.
(* space.go:580-628 *)
Definition solve (n : nat) (slop bias : num) (g : vec) (damping dt prevdt : num) (dyn : list nat) (w : world) : world :=
  let dtcoef := if negb (prevdt =? n0) then dt / prevdt else n0 in
  iterations n dt (cached_all dtcoef (integrate_all g damping dt dyn (prestep_all slop bias dt w))).
End Solver.
Arguments heap : clear implicits. Arguments heap {N}.
Arguments contact : clear implicits. Arguments contact {N}.
Arguments sarb : clear implicits. Arguments sarb {N}.
Arguments jclass : clear implicits. Arguments jclass {N}.
Arguments cstr : clear implicits. Arguments cstr {N}.
Arguments sjoint : clear implicits. Arguments sjoint {N}.
Arguments world : clear implicits. Arguments world {N}.
Arguments cpset : clear implicits. Arguments cpset {N}.
