(** C145: polygons put together. *)

From Coq Require Import List ZArith Lia.
From Verif Require Import Base Contours Sweep Compute StdRef SpecShape SpecOrder SpecCompute SpecTidy SpecOverlay OverlaySamples FollowSamples CrossSamples MoveSamples BesideSamples JoinFacts JoinSamples SpecMove SpecJoin.
Import ListNotations.
Local Open Scope Z_scope.

(** C145. Giving tidy polygons that do not overlap as one polygon gives the contours that giving
    them separately gives, with the same holes and neighbours, and the polygon is named as one a
    contour is made of where one of those put together is. What removes interiors is only put
    together with what does. *)
Theorem C145_joined : forall std std' fuel fuel' polys polys' op op' zs zs' into,
  std_laws std -> sorts std -> overlayable polys zs -> (2 * length (edges zs) <= fuel)%nat ->
  std_laws std' -> sorts std' -> overlayable polys' zs' -> (2 * length (edges zs') <= fuel')%nat ->
  joined into zs zs' -> (forall i, (i < length polys)%nat -> nth_error (map snd polys') (into i) = Some RemoveInterior <-> nth_error (map snd polys) i = Some RemoveInterior) ->
  forall r r' rz rz', compute std fuel polys op = Ok r -> compute std' fuel' polys' op' = Ok r' -> has_corners r rz -> has_corners r' rz' ->
  rz' = rz /\ forall i c c', nth_error r i = Some c -> nth_error r' i = Some c' ->
    c_holes c' = c_holes c /\ c_external c' = c_external c /\ c_neighbors c' = c_neighbors c
    /\ forall k, (k < length polys')%nat -> nth_error (c_from c') k = Some true <-> exists j, (j < length polys)%nat /\ into j = k /\ nth_error (c_from c) j = Some true.
Proof. exact joined_free. Qed.
Print Assumptions C145_joined.

(** The islands of C117 and the same moved, the first of each put together. *)
Example C145_hypotheses : overlayable both_islands both_islands_z /\ overlayable pair_input pair_z /\ joined into_pair both_islands_z pair_z
  /\ (forall i, (i < length both_islands)%nat -> nth_error (map snd pair_input) (into_pair i) = Some RemoveInterior <-> nth_error (map snd both_islands) i = Some RemoveInterior)
  /\ (2 * length (edges pair_z) <= 112)%nat
  /\ compute std_ref 112 both_islands Union = Ok (sample_contours both_islands 112) /\ compute std_ref 112 pair_input Union = Ok (sample_contours pair_input 112)
  /\ has_corners (sample_contours both_islands 112) (islands_lines ++ moved_lines (1003, -517) islands_lines) /\ has_corners (sample_contours pair_input 112) (islands_lines ++ moved_lines (1003, -517) islands_lines)
  /\ map c_holes (sample_contours pair_input 112) = map c_holes (sample_contours both_islands 112)
  /\ map c_from (sample_contours pair_input 112) = map (fun c => [nth 0 (c_from c) false || nth 2 (c_from c) false; nth 1 (c_from c) false; nth 3 (c_from c) false]%bool) (sample_contours both_islands 112).
Proof.
  split; [exact both_islands_overlayable|]. split; [exact pair_overlayable|]. split; [exact pair_joined|]. split; [exact pair_modes|]. split; [apply PeanoNat.Nat.leb_le; vm_compute; reflexivity|].
  split; [exact (proj1 both_islands_result)|]. split; [exact (proj1 pair_result)|]. split; [exact (proj2 both_islands_result)|]. split; [exact (proj2 pair_result)|]. split; vm_compute; reflexivity.
Qed.
