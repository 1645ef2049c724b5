(** C143: overlaying polygons beside each other. *)

From Coq Require Import List ZArith Lia.
From Verif Require Import Base Contours Sweep Compute StdRef SpecShape SpecOrder SpecCompute SpecTidy SpecOverlay OverlaySamples FollowSamples CrossSamples MeshSamples MoveSamples BesideFacts MeshBeside BesideSamples SpecCross SpecGrid SpecSlope SpecMesh SpecMove SpecBeside.
Import ListNotations.
Local Open Scope Z_scope.

(** C143. Tidy polygons that lie entirely to the right of others do not disturb them: the contours
    of all together are those of the first alone followed by those of the others alone. They have
    the same holes, numbered on for the others, and the same neighbours among their own, none
    among the others, and are made of the same polygons. *)
Theorem C143_beside : forall std std1 std2 fuel fuel1 fuel2 polys ps qs op op1 op2 zs ws,
  std_laws std -> sorts std -> overlayable polys (zs ++ ws) -> (2 * length (edges (zs ++ ws)) <= fuel)%nat ->
  std_laws std1 -> sorts std1 -> overlayable ps zs -> (2 * length (edges zs) <= fuel1)%nat ->
  std_laws std2 -> sorts std2 -> overlayable qs ws -> (2 * length (edges ws) <= fuel2)%nat ->
  beside zs ws -> map snd polys = map snd ps ++ map snd qs ->
  forall r r1 r2 rz rz1 rz2, compute std fuel polys op = Ok r -> has_corners r rz ->
  compute std1 fuel1 ps op1 = Ok r1 -> has_corners r1 rz1 -> compute std2 fuel2 qs op2 = Ok r2 -> has_corners r2 rz2 ->
  rz = rz1 ++ rz2
  /\ (forall i c c', nth_error r1 i = Some c -> nth_error r i = Some c' ->
       c_external c' = c_external c /\ c_holes c' = c_holes c /\ c_neighbors c' = c_neighbors c ++ repeat false (length r2) /\ c_from c' = c_from c ++ repeat false (length qs))
  /\ (forall i c c', nth_error r2 i = Some c -> nth_error r (length r1 + i) = Some c' ->
       c_external c' = c_external c /\ c_holes c' = map (Nat.add (length r1)) (c_holes c) /\ c_neighbors c' = repeat false (length r1) ++ c_neighbors c /\ c_from c' = repeat false (length ps) ++ c_from c).
Proof. exact beside_free. Qed.
Print Assumptions C143_beside.

(** The same of polygons whose sides cross in points of a grid. *)
Theorem C143_crossing : forall std std1 std2 fuel fuel1 fuel2 g R D zs ws polys ps qs op op1 op2, std_laws std -> sorts std -> std_laws std1 -> sorts std1 -> std_laws std2 -> sorts std2 ->
  mesh g R D (zs ++ ws) -> g <= 7 -> Z.of_nat (length (edges (zs ++ ws))) <= 9000 -> beside zs ws ->
  Forall2 (fun p z => has_points (fst p) z) polys (zs ++ ws) -> Forall2 (fun p z => has_points (fst p) z) ps zs -> Forall2 (fun p z => has_points (fst p) z) qs ws ->
  ~ In RemoveEdges (map snd polys) -> map snd polys = map snd ps ++ map snd qs ->
  (63 * length (edges (zs ++ ws)) <= fuel)%nat -> (63 * length (edges zs) <= fuel1)%nat -> (63 * length (edges ws) <= fuel2)%nat ->
  exists r r1 r2 rz1 rz2, compute std fuel polys op = Ok r /\ compute std1 fuel1 ps op1 = Ok r1 /\ compute std2 fuel2 qs op2 = Ok r2
  /\ has_corners r1 rz1 /\ has_corners r2 rz2 /\ has_corners r (rz1 ++ rz2)
  /\ (forall i c c', nth_error r1 i = Some c -> nth_error r i = Some c' ->
       c_external c' = c_external c /\ c_holes c' = c_holes c /\ c_neighbors c' = c_neighbors c ++ repeat false (length r2) /\ c_from c' = c_from c ++ repeat false (length qs))
  /\ (forall i c c', nth_error r2 i = Some c -> nth_error r (length r1 + i) = Some c' ->
       c_external c' = c_external c /\ c_holes c' = map (Nat.add (length r1)) (c_holes c) /\ c_neighbors c' = repeat false (length r1) ++ c_neighbors c /\ c_from c' = repeat false (length ps) ++ c_from c).
Proof. exact mesh_beside. Qed.
Print Assumptions C143_crossing.

(** The islands of C117, and the same islands moved by 1003 across and 517 down; and the diamonds
    of C137, and the same diamonds moved by 700 steps of their grid across and 500 down. *)
Example C143_hypotheses : overlayable both_islands (islands_z ++ moved (1003, -517) islands_z) /\ overlayable islands islands_z /\ overlayable far_islands (moved (1003, -517) islands_z)
  /\ beside islands_z (moved (1003, -517) islands_z) /\ map snd both_islands = map snd islands ++ map snd far_islands
  /\ compute std_ref 112 both_islands Union = Ok (sample_contours both_islands 112) /\ has_corners (sample_contours both_islands 112) (islands_lines ++ moved_lines (1003, -517) islands_lines)
  /\ compute std_ref 56 islands Union = Ok (sample_contours islands 56) /\ compute std_ref 56 far_islands Union = Ok (sample_contours far_islands 56)
  /\ map c_holes (sample_contours both_islands 112) = map c_holes (sample_contours islands 56) ++ map (fun c => map (Nat.add (length islands_lines)) (c_holes c)) (sample_contours far_islands 56)
  /\ concat (map c_holes (sample_contours islands 56)) <> []
  /\ mesh 6 790 2 (diamonds ++ moved far diamonds) /\ beside diamonds (moved far diamonds)
  /\ Forall2 (fun p z => has_points (fst p) z) both_diamonds (diamonds ++ moved far diamonds) /\ Forall2 (fun p z => has_points (fst p) z) diamonds_input diamonds /\ Forall2 (fun p z => has_points (fst p) z) far_diamonds (moved far diamonds)
  /\ map snd both_diamonds = map snd diamonds_input ++ map snd far_diamonds
  /\ compute std_ref 1386 both_diamonds Union = Ok (sample_contours both_diamonds 1386) /\ has_corners (sample_contours both_diamonds 1386) (diamond_lines ++ moved_lines far diamond_lines)
  /\ map c_from (sample_contours both_diamonds 1386) = map (fun c => c_from c ++ [false; false; false]) (sample_contours diamonds_input 693) ++ map (fun c => [false; false; false] ++ c_from c) (sample_contours far_diamonds 693).
Proof.
  split; [exact both_islands_overlayable|]. split; [exact islands_compact|]. split; [exact far_islands_overlayable|]. split; [exact islands_beside|]. split; [reflexivity|].
  split; [exact (proj1 both_islands_result)|]. split; [exact (proj2 both_islands_result)|]. split; [exact (proj1 islands_result)|]. split; [exact (proj1 far_islands_result)|]. split; [vm_compute; reflexivity|]. split; [vm_compute; discriminate|].
  split; [exact both_diamonds_mesh|]. split; [exact diamonds_beside|]. split; [exact both_diamonds_points|]. split; [exact (proj1 diamonds_points)|]. split; [exact (proj1 far_diamonds_points)|]. split; [reflexivity|].
  split; [exact (proj1 both_diamonds_result)|]. split; [exact (proj2 both_diamonds_result)|]. vm_compute. reflexivity.
Qed.
