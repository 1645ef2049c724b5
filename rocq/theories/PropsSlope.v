(** C134: overlaying polygons with sides of any slope on a grid. *)

From Coq Require Import List ZArith QArith Bool.
From Verif Require Import Base Float Geometry Contours Sweep Compute StdRef SpecShape SpecOrder SpecCompute SpecTidy SpecOverlay ShapeSamples OverlaySamples SpecCross SlopeSamples SpecGrid SpecSlope.
Import ListNotations.
Local Open Scope Z_scope.

(** C134. Overlaying polygons whose sides start, end and cross in points of a grid and are at
    most 21 of its steps long each way gives the same as overlaying them with the points where
    they cross as corners. *)
Theorem C134_cut : forall std g R D ms polys polys' fuel fuel' op, std_laws std -> sorts std -> slope_cut g R D ms ->
  Forall2 (fun p z => has_points (fst p) z) polys (plain ms) -> Forall2 (fun p z => has_points (fst p) z) polys' (marked ms) ->
  map snd polys = map snd polys' -> (3 * length (edges (marked ms)) <= fuel)%nat -> (2 * length (edges (marked ms)) <= fuel')%nat ->
  compute std fuel polys op = compute std fuel' polys' op.
Proof. exact slope_overlay. Qed.
Print Assumptions C134_cut.

(** On a grid of at most 128 units the overlay comes to an end without a panic, its corners are
    whole numbers, and the contours made of given sets of polygons together go once round each
    place that is kept and is inside exactly such a set of the polygons, and not at all round any
    other place. *)
Theorem C134_covers : forall std g R D ms polys fuel op, std_laws std -> sorts std -> slope_cut g R D ms -> g <= 7 -> Z.of_nat (length (edges (marked ms))) <= 200000 ->
  Forall2 (fun p z => has_points (fst p) z) polys (plain ms) -> covered (map snd polys) (marked ms) -> (3 * length (edges (marked ms)) <= fuel)%nat ->
  exists r rz, compute std fuel polys op = Ok r /\ has_corners r rz /\ forall (P : list bool -> bool) x y,
  let lines := map snd (filter (fun cl => P (c_from (fst cl))) (combine r rz)) in
  (kept_at (map snd polys) (plain ms) x y /\ P (place_of (plain ms) x y) = true -> windings x y lines = 1)
  /\ (~ (kept_at (map snd polys) (plain ms) x y /\ P (place_of (plain ms) x y) = true) -> windings x y lines = 0).
Proof. exact slope_covers. Qed.
Print Assumptions C134_covers.

(** All that C125, C126, C127 and C132 say of crossing polygons holds of these. *)
Theorem C134_crossable : forall g R D ms polys, slope_cut g R D ms -> g <= 7 -> Z.of_nat (length (edges (marked ms))) <= 200000 ->
  Forall2 (fun p z => has_points (fst p) z) polys (plain ms) -> covered (map snd polys) (marked ms) -> crossable polys ms.
Proof. exact slope_crossable. Qed.
Print Assumptions C134_crossable.

(** The polygons with upright sides of C129 are among these. *)
Theorem C134_upright : forall g ms, grid_cut g ms -> slope_cut g 1000 1 ms.
Proof. exact upright_slope. Qed.
Print Assumptions C134_upright.

(** A room, an octagonal tower over its corner and a triangular pit on a grid of 64 units: level,
    upright, diagonal sides and some twice as steep, four points where they cross, one of them of
    a diagonal and a steep side, 22 parts. *)
Example C134_hypotheses : slope_cut 6 499 5 tower_marks /\ Forall2 (fun p z => has_points (fst p) z) tower (plain tower_marks) /\ covered (map snd tower) (marked tower_marks)
  /\ length (edges (plain tower_marks)) = 15%nat /\ length (edges (marked tower_marks)) = 22%nat
  /\ compute std_ref 66 tower Union = Ok (sample_contours tower 66) /\ has_corners (sample_contours tower 66) tower_lines
  /\ contours_shown (sample_contours tower 66) = [([], [true; false; false], true); ([], [true; true; false], true); ([], [false; true; false], true)].
Proof.
  split; [exact tower_cut|]. split; [exact (proj1 tower_points)|]. split; [exact tower_covered|]. split; [vm_compute; reflexivity|]. split; [vm_compute; reflexivity|].
  split; [exact (proj1 tower_result)|]. split; [exact (proj2 tower_result)|]. vm_compute. reflexivity.
Qed.
