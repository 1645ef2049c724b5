(** C139: overlaying polygons whose sides cross on a grid in another order. *)

From Coq Require Import List ZArith Lia.
From Verif Require Import Base Contours Sweep Compute StdRef SpecShape SpecOrder SpecCompute SpecTidy SpecOverlay SpecFollow OverlaySamples CrossSamples MeshSamples MeshOrder SpecCross SpecMesh.
Import ListNotations.
Local Open Scope Z_scope.

(** C139. Overlaying polygons on a grid of at most 128 units, whose sides cross only in points
    of the grid, gives the same contours in the same order, with the same holes and neighbours,
    whatever order the polygons and the lines in each of them are given in, whichever corner
    and way round each line starts, and whichever standard library sorts them. The contours
    are made of the same polygons. *)
Theorem C139_order_free : forall std std' fuel fuel' g R D zs zs' polys polys' op op' sigma, std_laws std -> sorts std -> std_laws std' -> sorts std' ->
  mesh g R D zs -> g <= 7 -> Z.of_nat (length (edges zs)) <= 9000 -> same_polygons sigma zs zs' -> (forall s, In s (flat_map sides (concat zs')) -> fst s <> snd s) ->
  Forall2 (fun p z => has_points (fst p) z) polys zs -> Forall2 (fun p z => has_points (fst p) z) polys' zs' ->
  ~ In RemoveEdges (map snd polys) -> (forall i, (i < length polys)%nat -> nth_error (map snd polys') (sigma i) = nth_error (map snd polys) i) ->
  (63 * length (edges zs) <= fuel)%nat -> (63 * length (edges zs) <= fuel')%nat ->
  exists r r' rz, compute std fuel polys op = Ok r /\ compute std' fuel' polys' op' = Ok r' /\ has_corners r rz /\ has_corners r' rz
  /\ forall i c c', nth_error r i = Some c -> nth_error r' i = Some c' ->
    c_holes c' = c_holes c /\ c_external c' = c_external c /\ c_neighbors c' = c_neighbors c
    /\ forall k, (k < length polys)%nat -> nth_error (c_from c') (sigma k) = nth_error (c_from c) k.
Proof. exact mesh_order. Qed.
Print Assumptions C139_order_free.

(** The triangle first, then the first diamond from another corner, then the second the other
    way round. *)
Example C139_hypotheses : mesh 6 790 2 diamonds /\ same_polygons rotated diamonds turned_diamonds /\ (forall s, In s (flat_map sides (concat turned_diamonds)) -> fst s <> snd s)
  /\ Forall2 (fun p z => has_points (fst p) z) diamonds_input diamonds /\ Forall2 (fun p z => has_points (fst p) z) turned_diamonds_input turned_diamonds
  /\ (forall i, (i < length diamonds_input)%nat -> nth_error (map snd turned_diamonds_input) (rotated i) = nth_error (map snd diamonds_input) i)
  /\ length (edges diamonds) = 11%nat
  /\ contours_shown (sample_contours diamonds_input 693)
     = [([], [true; false; false], true); ([], [true; true; false], true); ([], [false; true; false], true); ([], [false; false; true], true)]
  /\ contours_shown (sample_contours turned_diamonds_input 693)
     = [([], [false; true; false], true); ([], [false; true; true], true); ([], [false; false; true], true); ([], [true; false; false], true)]
  /\ has_corners (sample_contours diamonds_input 693) diamond_lines /\ has_corners (sample_contours turned_diamonds_input 693) diamond_lines.
Proof.
  split; [exact diamonds_mesh|]. split; [exact turned_diamonds_same|]. split; [exact turned_diamonds_long|]. split; [exact (proj1 diamonds_points)|]. split; [exact (proj1 turned_diamonds_points)|].
  split; [intros [|[|[|i]]] H; try reflexivity; cbn in H; lia|]. split; [vm_compute; reflexivity|]. split; [vm_compute; reflexivity|]. split; [vm_compute; reflexivity|].
  split; [exact (proj2 diamonds_result)|exact turned_diamonds_result].
Qed.
