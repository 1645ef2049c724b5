(** C140: overlaying polygons elsewhere. *)

From Coq Require Import List ZArith Lia.
From Verif Require Import Base Contours Sweep Compute StdRef SpecShape SpecOrder SpecCompute SpecTidy SpecOverlay OverlaySamples CrossSamples MeshSamples MoveFacts MeshMove MoveSamples SpecCross SpecGrid SpecSlope SpecMesh SpecMove.
Import ListNotations.
Local Open Scope Z_scope.

(** C140. Overlaying tidy polygons moved elsewhere gives the contours that overlaying them where
    they were gives, moved as far, in the same order, with the same holes and neighbours, and
    made of the same polygons, as long as they are tidy and compact in both places. *)
Theorem C140_tidy : forall std std' fuel fuel' polys polys' op op' zs d,
  std_laws std -> sorts std -> overlayable polys zs -> (2 * length (edges zs) <= fuel)%nat ->
  std_laws std' -> sorts std' -> overlayable polys' (moved d zs) -> (2 * length (edges (moved d zs)) <= fuel')%nat ->
  map snd polys' = map snd polys ->
  forall r r' rz rz', compute std fuel polys op = Ok r -> compute std' fuel' polys' op' = Ok r' -> has_corners r rz -> has_corners r' rz' ->
  rz' = moved_lines d rz /\ forall i c c', nth_error r i = Some c -> nth_error r' i = Some c' ->
    c_holes c' = c_holes c /\ c_external c' = c_external c /\ c_neighbors c' = c_neighbors c /\ c_from c' = c_from c.
Proof. exact move_free. Qed.
Print Assumptions C140_tidy.

(** The same of polygons whose sides cross in points of a grid, moved by steps of the grid, as
    long as they stay near enough to the origin. *)
Theorem C140_crossing : forall std std' fuel fuel' g R D a b zs polys polys' op op', std_laws std -> sorts std -> std_laws std' -> sorts std' ->
  let d := (2 ^ g * a, 2 ^ g * b) in
  mesh g R D zs -> g <= 7 -> Z.of_nat (length (edges zs)) <= 9000 ->
  (forall e, In e (edges (moved d zs)) -> slope_point g R (e_left e) /\ slope_point g R (e_right e)) ->
  Forall2 (fun p z => has_points (fst p) z) polys zs -> Forall2 (fun p z => has_points (fst p) z) polys' (moved d zs) ->
  ~ In RemoveEdges (map snd polys) -> map snd polys' = map snd polys ->
  (63 * length (edges zs) <= fuel)%nat -> (63 * length (edges zs) <= fuel')%nat ->
  exists r r' rz, compute std fuel polys op = Ok r /\ compute std' fuel' polys' op' = Ok r' /\ has_corners r rz /\ has_corners r' (moved_lines d rz)
  /\ forall i c c', nth_error r i = Some c -> nth_error r' i = Some c' ->
    c_holes c' = c_holes c /\ c_external c' = c_external c /\ c_neighbors c' = c_neighbors c /\ c_from c' = c_from c.
Proof. exact mesh_move. Qed.
Print Assumptions C140_crossing.

(** The islands of C117 moved by 1003 across and 517 down, and the diamonds of C137 moved by 700
    steps of their grid across and 500 down. *)
Example C140_hypotheses : overlayable islands islands_z /\ overlayable far_islands (moved (1003, -517) islands_z) /\ map snd far_islands = map snd islands
  /\ has_corners (sample_contours islands 56) islands_lines /\ has_corners (sample_contours far_islands 56) (moved_lines (1003, -517) islands_lines)
  /\ contours_shown (sample_contours far_islands 56) = contours_shown (sample_contours islands 56)
  /\ mesh 6 790 2 diamonds /\ (forall e, In e (edges (moved far diamonds)) -> slope_point 6 790 (e_left e) /\ slope_point 6 790 (e_right e))
  /\ Forall2 (fun p z => has_points (fst p) z) far_diamonds (moved far diamonds) /\ map snd far_diamonds = map snd diamonds_input
  /\ has_corners (sample_contours far_diamonds 693) (moved_lines (44800, -32000) diamond_lines)
  /\ contours_shown (sample_contours far_diamonds 693)
     = [([], [true; false; false], true); ([], [true; true; false], true); ([], [false; true; false], true); ([], [false; false; true], true)].
Proof.
  split; [exact islands_compact|]. split; [exact far_islands_overlayable|]. split; [reflexivity|]. split; [exact (proj2 islands_result)|]. split; [exact (proj2 far_islands_result)|]. split; [vm_compute; reflexivity|].
  split; [exact diamonds_mesh|]. split; [exact far_diamonds_grid|]. split; [exact (proj1 far_diamonds_points)|]. split; [reflexivity|]. split; [exact far_diamonds_result|]. vm_compute. reflexivity.
Qed.
