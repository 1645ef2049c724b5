(** C121: overlaying the regions of an overlay. *)

From Coq Require Import List ZArith QArith.
From Verif Require Import Base Contours Sweep Compute StdRef SpecShape SpecOrder SpecCompute SpecTidy SpecOverlay ShapeSamples TidySamples OverlaySamples.
From Verif Require Import SpecAgain AgainSide AgainOver AgainSamples.
Import ListNotations.
Local Open Scope Z_scope.

(** C121. Overlaying the regions of an overlay, each as a polygon of its own, gives the same
    contours in the same order, with the same holes and neighbours. Each contour is now made of
    the polygons whose region it belongs to, which is only one. *)
Theorem C121_again : forall std std' fuel fuel' polys polys' op op' zs zs',
  std_laws std -> sorts std -> overlayable polys zs -> (2 * length (edges zs) <= fuel)%nat -> roomy zs ->
  forall r rz outs, compute std fuel polys op = Ok r -> has_corners r rz -> regions_are r rz outs zs' ->
  std_laws std' -> sorts std' -> Forall2 (fun p z => has_corners (fst p) z) polys' zs' -> (2 * length (edges zs') <= fuel')%nat ->
  covered (map snd polys') zs' -> ~ In RemoveInterior (map snd polys') ->
  exists r', compute std' fuel' polys' op' = Ok r' /\ has_corners r' rz /\ forall j c c', nth_error r j = Some c -> nth_error r' j = Some c' ->
    c_holes c' = c_holes c /\ c_external c' = c_external c /\ c_neighbors c' = c_neighbors c
    /\ forall k i, nth_error outs k = Some i -> nth_error (c_from c') k = Some true <-> in_region r i j.
Proof. exact overlay_again. Qed.
Print Assumptions C121_again.

(** What makes this so: each contour has its region on its left, and something else on its right. *)
Theorem C121_beside : forall std fuel polys op zs, std_laws std -> sorts std -> overlayable polys zs -> (2 * length (edges zs) <= fuel)%nat ->
  forall r rz, compute std fuel polys op = Ok r -> has_corners r rz -> forall i js j l e x y, outer r i -> region_of r i js -> In j js -> nth_error rz j = Some l ->
  In e (edges zs) -> inside_edge e x y ->
  (In (e_left e, e_right e) (sides l) -> goes_round rz js x y = 0) /\ (In (e_right e, e_left e) (sides l) -> goes_round rz js x y = 1).
Proof. exact overlay_beside. Qed.
Print Assumptions C121_beside.

(** The rectangle beside the square, the square with its holes, which are now listed before it,
    and the island. *)
Example C121_hypotheses : overlayable islands islands_z /\ (2 * length (edges islands_z) = 48)%nat /\ roomy islands_z
  /\ compute std_ref 56 islands Union = Ok (sample_contours islands 56) /\ has_corners (sample_contours islands 56) islands_lines
  /\ regions_are (sample_contours islands 56) islands_lines [4; 0; 2]%nat again_z
  /\ Forall2 (fun p z => has_corners (fst p) z) again again_z /\ (2 * length (edges again_z) = 48)%nat
  /\ covered (map snd again) again_z /\ ~ In RemoveInterior (map snd again)
  /\ contours_shown (sample_contours islands 56) =
       [([1%nat], [true; false], true); ([3%nat], [true; false], false); ([], [true; false], true); ([], [true; false], false);
        ([], [false; true], true)]
  /\ contours_shown (sample_contours again 56) =
       [([1%nat], [false; true; false], true); ([3%nat], [false; true; false], false); ([], [false; false; true], true); ([], [false; true; false], false);
        ([], [true; false; false], true)].
Proof.
  split; [exact islands_compact|]. split; [reflexivity|]. split; [exact islands_roomy|]. split; [exact (proj1 islands_result)|]. split; [exact (proj2 islands_result)|].
  split; [exact again_regions|]. split; [exact again_corners|]. split; [reflexivity|]. split; [apply plain_covered; cbn; intuition discriminate|]. split; [cbn; intuition discriminate|].
  split; vm_compute; reflexivity.
Qed.
