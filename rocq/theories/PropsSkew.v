(** C142: overlaying polygons stretched and skewed. *)

From Coq Require Import List ZArith Lia.
From Verif Require Import Base Contours Sweep Compute StdRef SpecShape SpecOrder SpecCompute SpecTidy SpecOverlay OverlaySamples FollowSamples CrossSamples MeshSamples SkewFacts MeshSkew SkewSamples SpecCross SpecGrid SpecSlope SpecMesh SpecSkew.
Import ListNotations.
Local Open Scope Z_scope.

(** C142. Overlaying tidy polygons stretched, skewed and moved, so that what is vertical stays
    vertical and nothing is mirrored, gives the contours that overlaying them as they were gives,
    stretched, skewed and moved alike, in the same order, with the same holes and neighbours, and
    made of the same polygons, as long as they are tidy and compact before and after. *)
Theorem C142_skewed : forall std std' fuel fuel' polys polys' op op' zs k,
  std_laws std -> sorts std -> overlayable polys zs -> (2 * length (edges zs) <= fuel)%nat ->
  std_laws std' -> sorts std' -> overlayable polys' (skewed k zs) -> (2 * length (edges (skewed k zs)) <= fuel')%nat ->
  upright k -> map snd polys' = map snd polys ->
  forall r r' rz rz', compute std fuel polys op = Ok r -> compute std' fuel' polys' op' = Ok r' -> has_corners r rz -> has_corners r' rz' ->
  rz' = skewed_lines k rz /\ forall i c c', nth_error r i = Some c -> nth_error r' i = Some c' ->
    c_holes c' = c_holes c /\ c_external c' = c_external c /\ c_neighbors c' = c_neighbors c /\ c_from c' = c_from c.
Proof. exact skew_free. Qed.
Print Assumptions C142_skewed.

(** The same of polygons whose sides cross in points of a grid, made larger by a power of two,
    lifted by whole steps for each step across, and moved. *)
Theorem C142_crossing : forall std std' fuel fuel' g R D R' D' j c d zs polys polys' op op', std_laws std -> sorts std -> std_laws std' -> sorts std' ->
  let k := mk_skew (2 ^ j) (2 ^ j) (2 ^ j * c) d in
  mesh g R D zs -> 0 <= j -> mesh (g + j) R' D' (skewed k zs) -> g + j <= 7 -> Z.of_nat (length (edges zs)) <= 9000 ->
  Forall2 (fun p z => has_points (fst p) z) polys zs -> Forall2 (fun p z => has_points (fst p) z) polys' (skewed k zs) ->
  ~ In RemoveEdges (map snd polys) -> map snd polys' = map snd polys ->
  (63 * length (edges zs) <= fuel)%nat -> (63 * length (edges zs) <= fuel')%nat ->
  exists r r' rz, compute std fuel polys op = Ok r /\ compute std' fuel' polys' op' = Ok r' /\ has_corners r rz /\ has_corners r' (skewed_lines k rz)
  /\ forall i c c', nth_error r i = Some c -> nth_error r' i = Some c' ->
    c_holes c' = c_holes c /\ c_external c' = c_external c /\ c_neighbors c' = c_neighbors c /\ c_from c' = c_from c.
Proof. exact mesh_skew. Qed.
Print Assumptions C142_crossing.

(** The islands of C117, twice as wide, three times as high, one unit higher for each across, and
    moved; and the diamonds of C137, twice as large, lifted by as much as they are across, and moved. *)
Example C142_hypotheses : overlayable islands islands_z /\ overlayable slant_islands (skewed slant islands_z) /\ upright slant /\ map snd slant_islands = map snd islands
  /\ compute std_ref 56 islands Union = Ok (sample_contours islands 56) /\ compute std_ref 56 slant_islands Union = Ok (sample_contours slant_islands 56)
  /\ has_corners (sample_contours islands 56) islands_lines /\ has_corners (sample_contours slant_islands 56) (skewed_lines slant islands_lines)
  /\ contours_shown (sample_contours slant_islands 56) = contours_shown (sample_contours islands 56) /\ length (edges (skewed slant islands_z)) = 24%nat
  /\ mesh 6 790 2 diamonds /\ mesh (6 + 1) 490 5 (skewed lean diamonds) /\ lean = mk_skew (2 ^ 1) (2 ^ 1) (2 ^ 1 * 1) (384, -640)
  /\ Forall2 (fun p z => has_points (fst p) z) diamonds_input diamonds /\ Forall2 (fun p z => has_points (fst p) z) lean_diamonds (skewed lean diamonds) /\ map snd lean_diamonds = map snd diamonds_input
  /\ compute std_ref 693 lean_diamonds Union = Ok (sample_contours lean_diamonds 693) /\ has_corners (sample_contours lean_diamonds 693) (skewed_lines lean diamond_lines)
  /\ contours_shown (sample_contours lean_diamonds 693) = contours_shown (sample_contours diamonds_input 693).
Proof.
  split; [exact islands_compact|]. split; [exact slant_islands_overlayable|]. split; [split; reflexivity|]. split; [reflexivity|]. split; [exact (proj1 islands_result)|]. split; [exact (proj1 slant_islands_result)|].
  split; [exact (proj2 islands_result)|]. split; [exact (proj2 slant_islands_result)|]. split; [vm_compute; reflexivity|]. split; [vm_compute; reflexivity|].
  split; [exact diamonds_mesh|]. split; [exact lean_diamonds_mesh|]. split; [reflexivity|]. split; [exact (proj1 diamonds_points)|]. split; [exact (proj1 lean_diamonds_points)|]. split; [reflexivity|].
  split; [exact (proj1 lean_diamonds_result)|]. split; [exact (proj2 lean_diamonds_result)|]. vm_compute. reflexivity.
Qed.
