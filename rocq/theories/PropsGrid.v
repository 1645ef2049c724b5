(** C129, C130: overlaying polygons with upright sides on a grid. *)

From Coq Require Import List ZArith QArith Bool.
From Verif Require Import Base Float Geometry Contours Sweep Compute StdRef SpecShape SpecOrder SpecCompute SpecTidy SpecOverlay ShapeSamples OverlaySamples SpecCross GridSamples GridLimit SpecGrid.
Import ListNotations.
Local Open Scope Z_scope.

(** C129. Overlaying polygons whose sides are horizontal and vertical and at most 21 steps of a
    grid long gives the same as overlaying them with the points where they cross as corners. *)
Theorem C129_cut : forall std g ms polys polys' fuel fuel' op, std_laws std -> sorts std -> grid_cut g ms ->
  Forall2 (fun p z => has_points (fst p) z) polys (plain ms) -> Forall2 (fun p z => has_points (fst p) z) polys' (marked ms) ->
  map snd polys = map snd polys' -> (3 * length (edges (marked ms)) <= fuel)%nat -> (2 * length (edges (marked ms)) <= fuel')%nat ->
  compute std fuel polys op = compute std fuel' polys' op.
Proof. exact grid_overlay. Qed.
Print Assumptions C129_cut.

(** On a grid of at most 128 units the overlay comes to an end without a panic, its corners are
    whole numbers, and the contours made of given sets of polygons together go once round each
    place that is kept and is inside exactly such a set of the polygons, and not at all round any
    other place. *)
Theorem C129_covers : forall std g ms polys fuel op, std_laws std -> sorts std -> grid_cut g ms -> g <= 7 -> Z.of_nat (length (edges (marked ms))) <= 200000 ->
  Forall2 (fun p z => has_points (fst p) z) polys (plain ms) -> covered (map snd polys) (marked ms) -> (3 * length (edges (marked ms)) <= fuel)%nat ->
  exists r rz, compute std fuel polys op = Ok r /\ has_corners r rz /\ forall (P : list bool -> bool) x y,
  let lines := map snd (filter (fun cl => P (c_from (fst cl))) (combine r rz)) in
  (kept_at (map snd polys) (plain ms) x y /\ P (place_of (plain ms) x y) = true -> windings x y lines = 1)
  /\ (~ (kept_at (map snd polys) (plain ms) x y /\ P (place_of (plain ms) x y) = true) -> windings x y lines = 0).
Proof. exact grid_covers. Qed.
Print Assumptions C129_covers.

(** All that C125, C126 and C127 say of crossing polygons holds of these. *)
Theorem C129_crossable : forall g ms polys, grid_cut g ms -> g <= 7 -> Z.of_nat (length (edges (marked ms))) <= 200000 ->
  Forall2 (fun p z => has_points (fst p) z) polys (plain ms) -> covered (map snd polys) (marked ms) -> crossable polys ms.
Proof. exact grid_crossable. Qed.
Print Assumptions C129_crossable.

(** Three rooms on a grid of 64 units, the last of them a pit: twelve sides, six points where
    they cross, 24 parts. *)
Example C129_hypotheses : grid_cut 6 room_marks /\ Forall2 (fun p z => has_points (fst p) z) rooms (plain room_marks) /\ covered (map snd rooms) (marked room_marks)
  /\ length (edges (plain room_marks)) = 12%nat /\ length (edges (marked room_marks)) = 24%nat
  /\ compute std_ref 72 rooms Union = Ok (sample_contours rooms 72) /\ has_corners (sample_contours rooms 72) room_lines
  /\ contours_shown (sample_contours rooms 72) = [([], [true; false; false], true); ([], [true; true; false], true); ([], [false; true; false], true)].
Proof.
  split; [exact rooms_cut|]. split; [exact (proj1 rooms_points)|]. split; [exact rooms_covered|]. split; [vm_compute; reflexivity|]. split; [vm_compute; reflexivity|].
  split; [exact (proj1 rooms_result)|]. split; [exact (proj2 rooms_result)|]. vm_compute. reflexivity.
Qed.

(** C130. The overlay of two axis-parallel rectangles with whole-numbered corners can have a
    corner that is no whole number: the side of 22 units is crossed at 15, which is computed as
    the largest double below 15, and only what is just above a whole number is rounded to it. *)
Theorem C130_refuted : exists a b n, int_rectangle a /\ int_rectangle b
  /\ forall std fuel op, std_laws std -> sorts std -> (n <= fuel)%nat ->
     exists r c p, compute std fuel [([a], Normal); ([b], Normal)] op = Ok r /\ In c r /\ In p (c_points c) /\ forall v, ~ at_z p v.
Proof. exact rectangles_fraction. Qed.
Print Assumptions C130_refuted.

(** The square from (0, 0) to (22, 22), and the rectangle from (-5, 15) to (5, 30): a corner
    of the result lies between the heights 14 and 15, below 15. *)
Example C130_sample : exists r, compute std_ref 100 [([rct 0 0 22 22], Normal); ([rct (-5) 15 10 15], Normal)] Union = Ok r
  /\ existsb (fun c => existsb (fun p => f64_lt (py p) (f64_of_Z 15) && negb (f64_lt (py p) (f64_of_Z 14))) (c_points c)) r = true.
Proof. exists (sample_contours [([rct 0 0 22 22], Normal); ([rct (-5) 15 10 15], Normal)] 100). split; vm_compute; reflexivity. Qed.
