(** C137: overlaying polygons on a grid whose sides cross in its points. *)

From Coq Require Import List ZArith QArith Bool.
From Verif Require Import Base Float Geometry Contours Sweep Compute StdRef SpecShape SpecOrder SpecCompute SpecTidy SpecOverlay ShapeSamples OverlaySamples SpecCross SpecGrid SpecSlope SpecParts MeshSamples SpecMesh.
Import ListNotations.
Local Open Scope Z_scope.

(** C137. Polygons on a grid of at most 128 units, whose sides cross only in points of the grid,
    are overlaid without a panic. The corners of the result are whole numbers, and the contours
    made of given sets of polygons together go once round each place that is kept and is inside
    exactly such a set of the polygons, and not at all round any other place. *)
Theorem C137_covers : forall std g R D zs polys fuel op, std_laws std -> sorts std -> mesh g R D zs -> g <= 7 -> Z.of_nat (length (edges zs)) <= 9000 ->
  Forall2 (fun p z => has_points (fst p) z) polys zs -> ~ In RemoveEdges (map snd polys) -> (63 * length (edges zs) <= fuel)%nat ->
  exists r rz, compute std fuel polys op = Ok r /\ has_corners r rz /\ forall (P : list bool -> bool) x y,
  let lines := map snd (filter (fun cl => P (c_from (fst cl))) (combine r rz)) in
  (kept_at (map snd polys) zs x y /\ P (place_of zs x y) = true -> windings x y lines = 1)
  /\ (~ (kept_at (map snd polys) zs x y /\ P (place_of zs x y) = true) -> windings x y lines = 0).
Proof. exact mesh_covers. Qed.
Print Assumptions C137_covers.

(** The points where the sides cross can be found, and with them all that C125, C126, C127,
    C132 and C136 say of crossing polygons holds of these. *)
Theorem C137_crossable : forall g R D zs polys, mesh g R D zs -> g <= 7 -> Z.of_nat (length (edges zs)) <= 9000 ->
  Forall2 (fun p z => has_points (fst p) z) polys zs -> ~ In RemoveEdges (map snd polys) ->
  exists ms, plain ms = zs /\ crossable polys ms /\ (length (edges (marked ms)) <= 21 * length (edges zs))%nat.
Proof. exact mesh_crossable. Qed.
Print Assumptions C137_crossable.

(** Each polygon that goes round no place twice is divided into contours that have, together,
    its area. *)
Theorem C137_areas : forall std g R D zs polys fuel op, std_laws std -> sorts std -> mesh g R D zs -> g <= 7 -> Z.of_nat (length (edges zs)) <= 9000 ->
  Forall2 (fun p z => has_points (fst p) z) polys zs -> ~ In RemoveEdges (map snd polys) -> ~ In RemoveInterior (map snd polys) -> (63 * length (edges zs) <= fuel)%nat ->
  exists r rz, compute std fuel polys op = Ok r /\ has_corners r rz
  /\ (forall i z d, nth_error zs i = Some z -> once_round d z -> total_area (made_of i r rz) = d * total_area z)
  /\ ((forall z, In z zs -> once_round 1 z) -> counted_area r rz = total_area (concat zs)).
Proof. exact mesh_areas. Qed.
Print Assumptions C137_areas.

(** Two diamonds that cross in two points, and a triangle that shares a side with the second,
    on a grid of 64 units: four contours, of 24, 8, 24 and 8 square steps. *)
Example C137_hypotheses : mesh 6 790 2 diamonds /\ Forall2 (fun p z => has_points (fst p) z) diamonds_input diamonds
  /\ map snd diamonds_input = diamond_modes /\ length (edges diamonds) = 11%nat
  /\ compute std_ref 693 diamonds_input Union = Ok (sample_contours diamonds_input 693) /\ has_corners (sample_contours diamonds_input 693) diamond_lines
  /\ contours_shown (sample_contours diamonds_input 693)
     = [([], [true; false; false], true); ([], [true; true; false], true); ([], [false; true; false], true); ([], [false; false; true], true)]
  /\ map (fun a => a / (2 * 64 * 64)) (map shoelace diamond_lines) = [24; 8; 24; 8]
  /\ map (fun i => total_area (made_of i (sample_contours diamonds_input 693) diamond_lines) / (2 * 64 * 64)) [0%nat; 1%nat; 2%nat] = [32; 32; 8].
Proof.
  split; [exact diamonds_mesh|]. split; [exact (proj1 diamonds_points)|]. split; [exact (proj2 diamonds_points)|]. split; [vm_compute; reflexivity|].
  split; [exact (proj1 diamonds_result)|]. split; [exact (proj2 diamonds_result)|]. split; [vm_compute; reflexivity|]. split; vm_compute; reflexivity.
Qed.
