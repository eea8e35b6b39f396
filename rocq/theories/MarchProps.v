(** Marching squares: C50 (march.go). *)
From Coq Require Import ZArith Reals List Bool Floats.
From Verif Require Import Num NumReal NumFloat Vec BB March MarchSpec MarchMain MarchGeom Polyline PolylineSpec PolylineMain MarchLines.
Import ListNotations.

(** Soft contours: as many segments start as end at every point that is not a crossing of the sampled boundary.  In float64 bit for bit
    (counting by Vec2.Equal), for every sample function (NaN included), box, threshold and grid. *)
Theorem C50_balanced_soft_float : forall (sample : @vec FNum -> float) bb t xs ys ss p, @march_soft FNum sample bb t xs ys = Some ss ->
  (forall e, edge_ok xs ys e -> crossed sample bb t xs ys e = true -> veqb p (vertex true sample bb t xs ys e) = true -> ~ on_border xs ys e) ->
  starts p ss = ends p ss.
Proof. exact (fun sample bb t xs ys ss p M => balanced per_float true sample bb t xs ys ss M p). Qed.
Print Assumptions C50_balanced_soft_float.
Theorem C50_balanced_soft : forall (sample : @vec RNum -> R) bb t xs ys ss p, @march_soft RNum sample bb t xs ys = Some ss ->
  (forall e, edge_ok xs ys e -> crossed sample bb t xs ys e = true -> veqb p (vertex true sample bb t xs ys e) = true -> ~ on_border xs ys e) ->
  starts p ss = ends p ss.
Proof. exact (fun sample bb t xs ys ss p M => balanced per_real true sample bb t xs ys ss M p). Qed.
Print Assumptions C50_balanced_soft.
(** Hard contours, likewise. *)
Theorem C50_balanced_hard_float : forall (sample : @vec FNum -> float) bb t xs ys ss p, @march_hard FNum sample bb t xs ys = Some ss ->
  (forall e, edge_ok xs ys e -> crossed sample bb t xs ys e = true -> veqb p (vertex false sample bb t xs ys e) = true -> ~ on_border xs ys e) ->
  starts p ss = ends p ss.
Proof. exact (fun sample bb t xs ys ss p M => balanced per_float false sample bb t xs ys ss M p). Qed.
Print Assumptions C50_balanced_hard_float.
Theorem C50_balanced_hard : forall (sample : @vec RNum -> R) bb t xs ys ss p, @march_hard RNum sample bb t xs ys = Some ss ->
  (forall e, edge_ok xs ys e -> crossed sample bb t xs ys e = true -> veqb p (vertex false sample bb t xs ys e) = true -> ~ on_border xs ys e) ->
  starts p ss = ends p ss.
Proof. exact (fun sample bb t xs ys ss p M => balanced per_real false sample bb t xs ys ss M p). Qed.
Print Assumptions C50_balanced_hard.

(** The crossing p of an interior edge, if no other crossed edge shares it (and, hard, it is no cell middle): one segment starts there and one ends. *)
Theorem C50_once_soft_float : forall (sample : @vec FNum -> float) bb t xs ys ss e p, @march_soft FNum sample bb t xs ys = Some ss ->
  (forall e e', edge_ok xs ys e -> edge_ok xs ys e' -> crossed sample bb t xs ys e = true -> crossed sample bb t xs ys e' = true ->
     veqb p (vertex true sample bb t xs ys e) = true -> veqb p (vertex true sample bb t xs ys e') = true -> e' = e) ->
  edge_ok xs ys e -> crossed sample bb t xs ys e = true -> veqb p (vertex true sample bb t xs ys e) = true -> ~ on_border xs ys e ->
  starts p ss = 1%nat /\ ends p ss = 1%nat.
Proof. exact (fun sample bb t xs ys ss e p M only => once per_float true sample bb t xs ys ss M p (fun h => False_ind _ (diff_true_false h)) only e). Qed.
Print Assumptions C50_once_soft_float.
Theorem C50_once_soft : forall (sample : @vec RNum -> R) bb t xs ys ss e p, @march_soft RNum sample bb t xs ys = Some ss ->
  (forall e e', edge_ok xs ys e -> edge_ok xs ys e' -> crossed sample bb t xs ys e = true -> crossed sample bb t xs ys e' = true ->
     veqb p (vertex true sample bb t xs ys e) = true -> veqb p (vertex true sample bb t xs ys e') = true -> e' = e) ->
  edge_ok xs ys e -> crossed sample bb t xs ys e = true -> veqb p (vertex true sample bb t xs ys e) = true -> ~ on_border xs ys e ->
  starts p ss = 1%nat /\ ends p ss = 1%nat.
Proof. exact (fun sample bb t xs ys ss e p M only => once per_real true sample bb t xs ys ss M p (fun h => False_ind _ (diff_true_false h)) only e). Qed.
Print Assumptions C50_once_soft.
Theorem C50_once_hard_float : forall (sample : @vec FNum -> float) bb t xs ys ss e p, @march_hard FNum sample bb t xs ys = Some ss ->
  (forall i j, (S i < xs)%nat -> (S j < ys)%nat -> veqb p (middle bb xs ys i j) = false) ->
  (forall e e', edge_ok xs ys e -> edge_ok xs ys e' -> crossed sample bb t xs ys e = true -> crossed sample bb t xs ys e' = true ->
     veqb p (vertex false sample bb t xs ys e) = true -> veqb p (vertex false sample bb t xs ys e') = true -> e' = e) ->
  edge_ok xs ys e -> crossed sample bb t xs ys e = true -> veqb p (vertex false sample bb t xs ys e) = true -> ~ on_border xs ys e ->
  starts p ss = 1%nat /\ ends p ss = 1%nat.
Proof. exact (fun sample bb t xs ys ss e p M off only => once per_float false sample bb t xs ys ss M p (fun _ => off) only e). Qed.
Print Assumptions C50_once_hard_float.

(** Every segment end is the crossing of some crossed edge, whatever the arithmetic. *)
Theorem C50_ends_soft : forall (Nm : Num) (sample : vec -> num) bb t xs ys ss s, march_soft sample bb t xs ys = Some ss -> In s ss ->
  (exists e, edge_ok xs ys e /\ crossed sample bb t xs ys e = true /\ fst s = vertex true sample bb t xs ys e) /\
  (exists e, edge_ok xs ys e /\ crossed sample bb t xs ys e = true /\ snd s = vertex true sample bb t xs ys e).
Proof. exact @soft_ends. Qed.
Print Assumptions C50_ends_soft.
(** The crossing is where linear interpolation between the two samples gives the threshold ... *)
Theorem C50_interpolated : forall x0 x1 s0 s1 t : R, xorb (Rltb t s0) (Rltb t s1) = true ->
  exists u, (0 <= u <= 1)%R /\ @midlerp RNum x0 x1 s0 s1 t = (x0 * (1 - u) + x1 * u)%R /\ (s0 * (1 - u) + s1 * u = t)%R.
Proof. exact interpolated. Qed.
Print Assumptions C50_interpolated.
(** ... and each segment of a cell has the inside of the shape to its left: both its ends lie on an edge between a corner above the threshold,
    on the left of the segment, and one at most at the threshold, on its right. *)
Theorem C50_sides_soft : forall (t a b c d x0 x1 y0 y1 : R), (x0 <= x1)%R -> (y0 <= y1)%R ->
  forall s, In s (@soft RNum t a b c d x0 x1 y0 y1) ->
  guided t a b c d x0 x1 y0 y1 (fst s) (snd s) (fst s) /\ guided t a b c d x0 x1 y0 y1 (fst s) (snd s) (snd s).
Proof. exact soft_sides. Qed.
Print Assumptions C50_sides_soft.

(** So, fed to PolyLineCollectSegment, the contours of a generic grid are closed or run from boundary to boundary. *)
Theorem C50_contours_float : forall (sample : @vec FNum -> float) bb t xs ys ss l, generic sample bb t xs ys -> @march_soft FNum sample bb t xs ys = Some ss -> In l (collect_all ss) ->
  veqb (first_of l) (last_of l) = true \/
  ((exists e, edge_ok xs ys e /\ crossed sample bb t xs ys e = true /\ on_border xs ys e /\ same (first_of l) (vertex true sample bb t xs ys e)) /\
   (exists e, edge_ok xs ys e /\ crossed sample bb t xs ys e = true /\ on_border xs ys e /\ same (last_of l) (vertex true sample bb t xs ys e))).
Proof. exact (contours per_float). Qed.
Print Assumptions C50_contours_float.
Theorem C50_contours : forall (sample : @vec RNum -> R) bb t xs ys ss l, generic sample bb t xs ys -> @march_soft RNum sample bb t xs ys = Some ss -> In l (collect_all ss) ->
  veqb (first_of l) (last_of l) = true \/
  ((exists e, edge_ok xs ys e /\ crossed sample bb t xs ys e = true /\ on_border xs ys e /\ same (first_of l) (vertex true sample bb t xs ys e)) /\
   (exists e, edge_ok xs ys e /\ crossed sample bb t xs ys e = true /\ on_border xs ys e /\ same (last_of l) (vertex true sample bb t xs ys e))).
Proof. exact (contours per_real). Qed.
Print Assumptions C50_contours.
Example C50_disc : map closed_b (run_disc disc_bb) = [true] /\ map (@length _) (run_disc disc_bb) = [9%nat] /\ map closed_b (run_disc half_bb) = [false].
Proof. exact disc_run. Qed.
Example C50_generic : @generic FNum disc half_bb 0%float 4 4.
Proof. exact disc_generic. Qed.
(** MarchCells needs a column: with none, and more than one row, it panics. *)
Theorem C50_panic_refuted : exists xs ys, forall (sample : @vec FNum -> float) bb t, @march_soft FNum sample bb t xs ys = None.
Proof. exact march_no_column. Qed.
Print Assumptions C50_panic_refuted.
