(** Polylines: C48, C49 (polyline.go). *)
From Coq Require Import ZArith Reals List Bool Floats Permutation.
From Verif Require Import Num NumReal NumFloat Vec MarchSpec MarchMain Polyline PolylineSpec PolylineMain PolylineSimple.
Import ListNotations.

(** The lines hold exactly the segments fed, whatever the order and the joins: for any arithmetic up to Vec2.Equal of the points ... *)
Theorem C48_segments : forall (Nm : Num) (ss : list (vec * vec)),
  Forall (fun l => 2 <= length l)%nat (collect_all ss) /\
  exists ss', Forall2 same_segment ss' ss /\ Permutation (flat_map pairs (collect_all ss)) ss'.
Proof. exact @collected. Qed.
Print Assumptions C48_segments.
(** ... and over the reals, where equal points are the same, exactly. *)
Theorem C48_segments_exact : forall ss : list (@vec RNum * @vec RNum), Permutation (flat_map pairs (collect_all ss)) ss.
Proof. exact collected_exact. Qed.
Print Assumptions C48_segments_exact.
(** Nothing is left open that could be joined: when no point starts or ends two segments, each line is closed or ends where no segment goes on. *)
Theorem C48_joined : forall (ss : list (@vec FNum * @vec FNum)) l, (forall p, starts p ss <= 1)%nat -> (forall p, ends p ss <= 1)%nat -> In l (collect_all ss) ->
  veqb (first_of l) (last_of l) = true \/ (ends (first_of l) ss = 0%nat /\ starts (last_of l) ss = 0%nat).
Proof. exact (loose_ends per_float). Qed.
Print Assumptions C48_joined.
Example C48_square : map (map coordinates) (collect_all (Nm := FNum) square_segments) = [[(0, 0); (1, 0); (1, 1); (0, 1); (-0, 0)]]%float.
Proof. exact square_collected. Qed.

(** ** Simplification *)
(** SimplifyVertexes of an open line drops inner vertices only, whatever the arithmetic ... *)
Theorem C49_vertexes_partial : forall (Nm : Num) (c : num) l r, is_closed l = false -> simplify_vertexes c l = Some r ->
  thinned r l /\ first_of r = first_of l /\ last_of r = last_of l.
Proof. exact @vertexes_open. Qed.
Print Assumptions C49_vertexes_partial.
(** ... exactly those where the line from the last vertex kept goes on straight enough (c = cos tol); and of a closed line the same, except that the first vertex may be replaced by the last but one. *)
Theorem C49_vertexes_exact : forall (Nm : Num) (c : num) v0 v1 rest r, simplify_vertexes c (v0 :: v1 :: rest) = Some r ->
  exists k, kept (fun y z v => (cosine y z v <=? - c)%num) v0 (v1 :: rest) k /\
    (r = v0 :: k \/ (is_closed (v0 :: v1 :: rest) = true /\ r = last (removelast (v0 :: k)) v0 :: k /\ (cosine (last (removelast (v0 :: k)) v0) v0 (hd v0 k) <? - c)%num = true)).
Proof. exact @vertexes_kept. Qed.
Print Assumptions C49_vertexes_exact.
(** So a closed line need not stay closed: the last vertex is not dropped. *)
Theorem C49_closed_refuted : exists l : list (@vec FNum), is_closed l = true /\ exists r, @simplify_vertexes FNum cos_tol0 l = Some r /\ is_closed r = false /\
  shown r = [(0, 0); (2, 0); (2, 2); (0, 2); (0, 0); (1, 0)]%float.
Proof. exact (ex_intro _ tile vertexes_unclosed). Qed.
Print Assumptions C49_closed_refuted.
(** It panics for fewer than two vertices, and only then. *)
Theorem C49_vertexes_total : forall (Nm : Num) (c : num) l, (2 <= length l)%nat <-> exists r, simplify_vertexes c l = Some r.
Proof. exact @vertexes_total. Qed.
Print Assumptions C49_vertexes_total.

(** SimplifyCurves of an open line, when it returns: the positions kept run from the first to the last, and every vertex left out is within tol of the line through
    the two kept vertices around it. *)
Theorem C49_curves_open_partial : forall (tol : R) (l r : list (@vec RNum)), (0 < tol)%R -> is_closed l = false -> (2 <= length l)%nat -> simplify_curves tol l = Some r ->
  exists ks, route (fun a b => forall i, (a < i < b)%nat -> near_line (nth a l vzero) (nth b l vzero) (nth i l vzero) tol) 0 ks (length l - 1) /\
    r = map (fun k => nth k l vzero) (0 :: ks ++ [length l - 1])%nat.
Proof. exact curves_open. Qed.
Print Assumptions C49_curves_open_partial.
(** Of a closed line: going once round from some vertex s to itself; between kept vertices closer than tol/2 nothing is promised. *)
Theorem C49_curves_closed_partial : forall (tol : R) (l r : list (@vec RNum)), (0 < tol)%R -> is_closed l = true -> simplify_curves tol l = Some r ->
  (exists v, r = [v; v; v]) \/
  exists s m ks1 ks2, let n := (length l - 1)%nat in
    let ok a b := (vdist (vert l n a) (vert l n b) < tol / 2)%R \/ forall i, (a < i < b)%nat -> near_line (vert l n a) (vert l n b) (vert l n i) tol in
    (s < n)%nat /\ route ok s ks1 m /\ route ok m ks2 (s + n)%nat /\ r = map (vert l n) (s :: ks1 ++ m :: ks2 ++ [s + n])%nat.
Proof. exact curves_closed. Qed.
Print Assumptions C49_curves_closed_partial.
(** It does return when no two vertices are closer than tol/2 (any arithmetic) ... *)
Theorem C49_curves_total_partial : forall (Nm : Num) (tol : num) l, (tol <? n0)%num = false -> l <> [] ->
  let n := if is_closed l then (length l - 1)%nat else length l in
  (forall i j, (i < n)%nat -> (j < n)%nat -> i <> j -> visnear (nth i l vzero) (nth j l vzero) (tol / n2)%num = false) ->
  exists r, simplify_curves tol l = Some r.
Proof. exact @curves_total. Qed.
Print Assumptions C49_curves_total_partial.
(** ... but panics on, for example, three vertices whose ends are close. *)
Theorem C49_panic_refuted : exists l : list (@vec FNum), length l = 3%nat /\ @simplify_curves FNum 1%float l = None.
Proof. exact curves_panic. Qed.
Print Assumptions C49_panic_refuted.
Theorem C49_single_refuted : exists l : list (@vec FNum), length l = 1%nat /\ option_map shown (@simplify_curves FNum 1%float l) = Some [(1, 2); (1, 2)]%float.
Proof. exact single_doubled. Qed.
Print Assumptions C49_single_refuted.
Example C49_wave : option_map shown (@simplify_curves FNum 0.5%float wave) = Some [(0, 0); (1, 0.25); (2, 4); (3, 3.875); (4, 0)]%float /\
  option_map shown (@simplify_curves FNum 1.5%float wave) = Some [(0, 0); (2, 4); (4, 0)]%float /\
  option_map shown (@simplify_vertexes FNum cos_tol0 (points [(0, 0); (1, 0); (2, 0.03125); (3, 0); (3, 2)]%float)) = Some [(0, 0); (3, 0); (3, 2)]%float.
Proof. exact wave_simplified. Qed.
