(** C117-C119: how the contours of an overlay follow the sides that are kept, that they do
    not depend on how the polygons are written down, and the order of the lists of holes. *)

From Coq Require Import List ZArith QArith Sorted.
From Verif Require Import Base Contours Sweep Compute StdRef SpecShape SpecOrder SpecCompute SpecTidy SpecOverlay SpecFollow ShapeSamples TidySamples OverlaySamples
  FollowSamples HoleOrder FollowFacts.
Import ListNotations.
Local Open Scope Z_scope.

(** C117. Each contour of an overlay of tidy polygons starts in its leftmost corner, the
    lowest of those, and passes it only once. In every other corner it turns as far left
    as the kept sides allow, never back. The contours are listed by where they start. *)
Theorem C117_turns : forall std fuel polys op zs, std_laws std -> sorts std -> overlayable polys zs -> (2 * length (edges zs) <= fuel)%nat ->
  forall r rz, compute std fuel polys op = Ok r -> has_corners r rz -> well_followed rz.
Proof. exact overlay_followed. Qed.
Print Assumptions C117_turns.

(** There is only one list of lines that does so along the kept sides. *)
Theorem C117_determined : forall std fuel polys op zs, std_laws std -> sorts std -> overlayable polys zs -> (2 * length (edges zs) <= fuel)%nat ->
  forall r rz, compute std fuel polys op = Ok r -> has_corners r rz -> forall ls, well_followed ls ->
  (forall a b, In (a, b) (flat_map sides ls) <-> exists e, In e (edges zs) /\ kept_sides (map snd polys) zs e a b) -> rz = ls.
Proof. exact overlay_determined. Qed.
Print Assumptions C117_determined.

(** C118. Overlaying the same polygons in another order, with contours that start elsewhere,
    go round the other way or are put together differently, gives the same contours in the
    same order, with the same holes and neighbours, and made of the same polygons. *)
Theorem C118_order_free : forall std std' fuel fuel' polys polys' op op' zs zs' sigma,
  std_laws std -> sorts std -> overlayable polys zs -> (2 * length (edges zs) <= fuel)%nat ->
  std_laws std' -> sorts std' -> overlayable polys' zs' -> (2 * length (edges zs') <= fuel')%nat ->
  same_polygons sigma zs zs' ->
  (forall i, (i < length polys)%nat -> nth_error (map snd polys') (sigma i) = nth_error (map snd polys) i) ->
  forall r r' rz rz', compute std fuel polys op = Ok r -> compute std' fuel' polys' op' = Ok r' -> has_corners r rz -> has_corners r' rz' ->
  rz' = rz /\ forall i c c', nth_error r i = Some c -> nth_error r' i = Some c' ->
    c_holes c' = c_holes c /\ c_external c' = c_external c /\ c_neighbors c' = c_neighbors c
    /\ forall k, (k < length polys)%nat -> nth_error (c_from c') (sigma k) = nth_error (c_from c) k.
Proof. exact order_free. Qed.
Print Assumptions C118_order_free.

(** C119. Whatever the polygons, every list of holes in the result is in ascending order. *)
Theorem C119_ascending : forall std fuel polys op r c, compute std fuel polys op = Ok r -> In c r -> StronglySorted lt (c_holes c).
Proof. exact holes_ascend. Qed.
Print Assumptions C119_ascending.

(** A square with three holes, of which the first two touch in a corner, an island and a
    rectangle beside the square. The second contour passes the corner (12, 8) where the holes
    touch twice: coming from (8, 12) it turns left to (16, 12) rather than right to (8, 4). *)
Example C117_hypotheses : overlayable islands islands_z /\ (2 * length (edges islands_z) = 48)%nat
  /\ compute std_ref 56 islands Union = Ok (sample_contours islands 56) /\ has_corners (sample_contours islands 56) islands_lines
  /\ nth_error islands_lines 1 = Some [(4, 8); (8, 12); (12, 8); (16, 12); (20, 8); (16, 4); (12, 8); (8, 4)].
Proof.
  split; [exact islands_compact|]. split; [reflexivity|]. split; [exact (proj1 islands_result)|]. split; [exact (proj2 islands_result)|reflexivity].
Qed.
(** The same in the other order, with the two holes that touch as one contour. *)
Example C118_hypotheses : overlayable turned turned_z /\ (2 * length (edges turned_z) = 48)%nat /\ same_polygons swapped islands_z turned_z
  /\ (forall i, (i < length islands)%nat -> nth_error (map snd turned) (swapped i) = nth_error (map snd islands) i)
  /\ compute std_ref 56 turned Union = Ok (sample_contours turned 56) /\ has_corners (sample_contours turned 56) islands_lines
  /\ contours_shown (sample_contours islands 56) =
       [([1%nat], [true; false], true); ([3%nat], [true; false], false); ([], [true; false], true); ([], [true; false], false);
        ([], [false; true], true)]
  /\ contours_shown (sample_contours turned 56) =
       [([1%nat], [false; true], true); ([3%nat], [false; true], false); ([], [false; true], true); ([], [false; true], false);
        ([], [true; false], true)].
Proof.
  split; [exact turned_overlayable|]. split; [reflexivity|]. split; [exact turned_same|]. split; [exact turned_modes|].
  split; [exact (proj1 turned_result)|]. split; [exact (proj2 turned_result)|]. split; vm_compute; reflexivity.
Qed.
(** A rectangle with two holes. *)
Example C119_hypotheses : exists r, compute std_ref 100 holed Union = Ok r /\ map c_holes r = [[1; 2]; []; []]%nat.
Proof. eexists. split; vm_compute; reflexivity. Qed.
