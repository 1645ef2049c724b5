(** C133: overlaying rectangles in another order. *)

From Coq Require Import List ZArith Permutation Lia.
From Verif Require Import Base Contours Sweep Compute StdRef SpecShape SpecCompute SpecTidy SpecOverlay OverlaySamples CrossSamples SpecCross RectSamples RectsOrder ReorderSamples SpecRects SpecReorder.
Import ListNotations.
Local Open Scope Z_scope.

(** C133. Overlaying polygons made of rectangles on a grid, at most 21 steps long and high and
    no two with a side on the same line, gives the same contours in the same order, with the
    same holes and neighbours, whatever order the polygons and the rectangles in each of them
    are given in, and whichever standard library sorts them. The contours are made of the
    same polygons. *)
Theorem C133_reordered : forall std std' fuel fuel' g rss rss' polys polys' op op' sigma, std_laws std -> sorts std -> std_laws std' -> sorts std' ->
  spread_out g rss -> reordered sigma rss rss' ->
  Forall2 (fun p l => has_points (fst p) (map rect_corners l)) polys rss -> Forall2 (fun p l => has_points (fst p) (map rect_corners l)) polys' rss' ->
  ~ In RemoveEdges (map snd polys) -> (forall i, (i < length polys)%nat -> nth_error (map snd polys') (sigma i) = nth_error (map snd polys) i) ->
  (252 * length (concat rss) <= fuel)%nat -> (252 * length (concat rss) <= fuel')%nat ->
  exists r r' rz, compute std fuel polys op = Ok r /\ compute std' fuel' polys' op' = Ok r' /\ has_corners r rz /\ has_corners r' rz
  /\ forall i c c', nth_error r i = Some c -> nth_error r' i = Some c' ->
    c_holes c' = c_holes c /\ c_external c' = c_external c /\ c_neighbors c' = c_neighbors c
    /\ forall k, (k < length polys)%nat -> nth_error (c_from c') (sigma k) = nth_error (c_from c) k.
Proof. exact rects_order. Qed.
Print Assumptions C133_reordered.

(** The pit first, then the room with its pillar before it, then the second room. *)
Example C133_hypotheses : spread_out 6 sample_rects /\ reordered rotated sample_rects turned_rects
  /\ Forall2 (fun p l => has_points (fst p) (map rect_corners l)) rect_input sample_rects
  /\ Forall2 (fun p l => has_points (fst p) (map rect_corners l)) turned_input turned_rects
  /\ (forall i, (i < length rect_input)%nat -> nth_error (map snd turned_input) (rotated i) = nth_error (map snd rect_input) i)
  /\ contours_shown (sample_contours rect_input 1008) =
       [([], [true; false; false], true); ([], [false; true; false], true); ([], [true; true; false], true); ([], [true; false; false], true); ([], [false; true; false], true)]
  /\ contours_shown (sample_contours turned_input 1008) =
       [([], [false; true; false], true); ([], [false; false; true], true); ([], [false; true; true], true); ([], [false; true; false], true); ([], [false; false; true], true)].
Proof.
  split; [exact sample_spread|]. split.
  { split; [reflexivity|]. change (length sample_rects) with 3%nat. split; [intros [|[|[|i]]] H; cbn; lia|]. split; [intros [|[|[|i]]] [|[|[|j]]] H K; cbn; lia|].
    intros [|[|[|i]]] H; [apply perm_swap|apply Permutation_refl|apply Permutation_refl|lia]. }
  split; [exact (proj1 sample_input)|]. split; [repeat constructor|]. split; [intros [|[|[|i]]] H; try reflexivity; cbn in H; lia|].
  split; vm_compute; reflexivity.
Qed.
