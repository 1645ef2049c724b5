(** C132: the holes of crossing polygons, and overlaying their regions again. *)

From Coq Require Import List ZArith QArith Lqa.
From Verif Require Import Base Contours Sweep Compute StdRef SpecShape SpecOrder SpecIntersect SpecCompute SpecTidy SpecOverlay OverlaySamples CrossAgain CrossHoles SpecAgain SpecParent SpecCross.
Import ListNotations.
Local Open Scope Z_scope.

(** C132. In the overlay of polygons whose sides cross, the holes listed with a contour are
    exactly those clockwise contours that have it straight below: looking down from the side with
    which the hole comes back to its first corner, close to that corner, one first sees a
    side of the contour, with no side of the polygons as they were given in between. *)
Theorem C132_parent : forall std fuel polys op ms, std_laws std -> sorts std -> crossable polys ms -> (3 * length (edges (marked ms)) <= fuel)%nat ->
  forall r rz, compute std fuel polys op = Ok r -> has_corners r rz -> forall i c l h ch lh,
  nth_error r i = Some c -> nth_error rz i = Some l -> nth_error r h = Some ch -> nth_error rz h = Some lh ->
  In h (c_holes c) <-> c_external ch = false /\ lies_above (plain ms) lh l.
Proof. exact cross_parents. Qed.
Print Assumptions C132_parent.

(** Overlaying the regions of such an overlay, each as a polygon of its own, gives the same
    contours in the same order, with the same holes and neighbours. Each contour is now made of
    the one polygon whose region it belongs to. *)
Theorem C132_again : forall std fuel polys op ms, std_laws std -> sorts std -> crossable polys ms -> (3 * length (edges (marked ms)) <= fuel)%nat ->
  forall r rz, compute std fuel polys op = Ok r -> has_corners r rz -> forall std' fuel' polys' op' zs' outs, roomy (marked ms) -> regions_are r rz outs zs' ->
  std_laws std' -> sorts std' -> Forall2 (fun p z => has_corners (fst p) z) polys' zs' -> (2 * length (edges zs') <= fuel')%nat ->
  covered (map snd polys') zs' -> ~ In RemoveInterior (map snd polys') ->
  exists r', compute std' fuel' polys' op' = Ok r' /\ has_corners r' rz /\ forall j c c', nth_error r j = Some c -> nth_error r' j = Some c' ->
    c_holes c' = c_holes c /\ c_external c' = c_external c /\ c_neighbors c' = c_neighbors c
    /\ forall k i, nth_error outs k = Some i -> nth_error (c_from c') k = Some true <-> in_region r i j.
Proof. exact cross_again. Qed.
Print Assumptions C132_again.

(** A square, two squares that cross and are cut out of it, and one across its corner. *)
Example C132_hypotheses : crossable holed holed_marks /\ (3 * length (edges (marked holed_marks)) = 72)%nat
  /\ compute std_ref 72 holed Union = Ok (sample_contours holed 72) /\ has_corners (sample_contours holed 72) holed_lines
  /\ roomy (marked holed_marks) /\ regions_are (sample_contours holed 72) holed_lines [3; 0; 2]%nat holed_regions
  /\ Forall2 (fun p z => has_corners (fst p) z) holed_again holed_regions /\ (2 * length (edges holed_regions) = 48)%nat
  /\ contours_shown (sample_contours holed 72) =
       [([1%nat], [true; false; false; false], true); ([], [true; false; false; false], false); ([], [true; false; false; true], true); ([], [false; false; false; true], true)]
  /\ contours_shown (sample_contours holed_again 48) =
       [([1%nat], [false; true; false], true); ([], [false; true; false], false); ([], [false; false; true], true); ([], [true; false; false], true)].
Proof.
  split; [exact holed_crossable|]. split; [vm_compute; reflexivity|]. split; [exact (proj1 holed_result)|]. split; [exact (proj2 holed_result)|]. split; [exact holed_roomy|].
  split; [exact holed_outs|]. split; [exact holed_again_corners|]. split; [vm_compute; reflexivity|]. split; vm_compute; reflexivity.
Qed.
(** The hole begins in (4, 4), with the lower side of the square below it. *)
Example C132_sight : lies_above (plain holed_marks) (nth 1 holed_lines []) (nth 0 holed_lines []).
Proof.
  split; [reflexivity|]. exists (0, 0), (20, 0). split; [now left|]. split; [reflexivity|]. exists 10%Q. split; [reflexivity|].
  intros x X1 X2. exists 4%Q, 0%Q. cbn in X1. unfold inject_Z in X1.
  split; [exists ((x - 4) * (1 # 6))%Q; cbn; unfold inject_Z; repeat split; lra|]. split; [exists (x * (1 # 20))%Q; cbn; unfold inject_Z; repeat split; lra|].
  split; [lra|]. intros e y He (t & T1 & T2 & T3 & T4) (Y1 & Y2). vm_compute in He.
  repeat (destruct He as [<-|He]; [cbn in T3, T4; unfold inject_Z in T3, T4; lra|]). contradiction.
Qed.
