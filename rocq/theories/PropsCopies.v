(** C144: polygons given more than once. *)

From Coq Require Import List ZArith Lia.
From Verif Require Import Base Contours Sweep Compute StdRef SpecShape SpecOrder SpecCompute SpecTidy SpecOverlay OverlaySamples FollowSamples CrossSamples CopyFacts CopySamples SpecCopies.
Import ListNotations.
Local Open Scope Z_scope.

(** C144. Giving tidy polygons more than once, in any order, gives the contours that giving each
    once gives, with the same holes and neighbours, and each copy is named as one a contour is
    made of where the polygon it is a copy of is. Copies remove what is inside as their originals
    do; whether they have their edges removed, while later ones cover those, makes no difference. *)
Theorem C144_copies : forall std std' fuel fuel' polys polys' op op' zs zs' src,
  std_laws std -> sorts std -> overlayable polys zs -> (2 * length (edges zs) <= fuel)%nat ->
  std_laws std' -> sorts std' -> overlayable polys' zs' -> (2 * length (edges zs') <= fuel')%nat ->
  copies src zs zs' -> (forall i, (i < length polys')%nat -> nth_error (map snd polys') i = Some RemoveInterior <-> nth_error (map snd polys) (src i) = Some RemoveInterior) ->
  forall r r' rz rz', compute std fuel polys op = Ok r -> compute std' fuel' polys' op' = Ok r' -> has_corners r rz -> has_corners r' rz' ->
  rz' = rz /\ forall i c c', nth_error r i = Some c -> nth_error r' i = Some c' ->
    c_holes c' = c_holes c /\ c_external c' = c_external c /\ c_neighbors c' = c_neighbors c
    /\ forall k, (k < length polys')%nat -> nth_error (c_from c') k = nth_error (c_from c) (src k).
Proof. exact copies_free. Qed.
Print Assumptions C144_copies.

(** The islands of C117, the first three times, the second twice, two with their edges removed. *)
Example C144_hypotheses : overlayable islands islands_z /\ overlayable crowd crowd_z /\ copies islet islands_z crowd_z
  /\ (forall i, (i < length crowd)%nat -> nth_error (map snd crowd) i = Some RemoveInterior <-> nth_error (map snd islands) (islet i) = Some RemoveInterior)
  /\ (2 * length (edges crowd_z) <= 200)%nat
  /\ compute std_ref 56 islands Union = Ok (sample_contours islands 56) /\ compute std_ref 200 crowd Union = Ok (sample_contours crowd 200)
  /\ has_corners (sample_contours islands 56) islands_lines /\ has_corners (sample_contours crowd 200) islands_lines
  /\ map c_holes (sample_contours crowd 200) = map c_holes (sample_contours islands 56)
  /\ map c_from (sample_contours crowd 200) = map (fun c => map (fun i => nth (islet i) (c_from c) false) (seq 0 5)) (sample_contours islands 56)
  /\ map c_from (sample_contours islands 56) <> map (fun _ => [true; true]) (sample_contours islands 56).
Proof.
  split; [exact islands_compact|]. split; [exact crowd_overlayable|]. split; [exact crowd_copies|]. split; [exact crowd_modes|]. split; [apply Nat.leb_le; vm_compute; reflexivity|].
  split; [exact (proj1 islands_result)|]. split; [exact (proj1 crowd_result)|]. split; [exact (proj2 islands_result)|]. split; [exact (proj2 crowd_result)|]. split; [vm_compute; reflexivity|]. split; [vm_compute; reflexivity|]. vm_compute. discriminate.
Qed.
