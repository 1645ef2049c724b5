(** C138: overlaying the sectors of a map whose lines cross. *)

From Coq Require Import List ZArith QArith.
From Verif Require Import Base ParseMap MapModel SectorPolys Contours Sweep Compute StdRef SpecMapModel SpecSector SpecShape SpecOrder SpecCompute SpecIntersect SpecTidy SpecOverlay SpecCross SpecRooms
  TurnSamples OverlaySamples CrossMapSamples CrossRooms SpecMesh SpecCrossMap.
Import ListNotations.
Local Open Scope Z_scope.

(** C138. Taking the outlines of every sector of a map as one polygon each, and overlaying
    those, comes to an end without a panic also if lines of the map cross in points of a grid.
    Every place in a sector is in exactly one region of the result; a place in a region is in a
    sector, and the region is made of the sectors that the place is in, several where they
    overlap. The contours run along border lines only, never twice along the same way; two are
    neighbours exactly if they run along the two sides of the same part of a line. *)
Theorem C138_rooms : forall std fuel g R D m place op, std_laws std -> sorts std -> crossing_map g R D m place -> (126 * length (g_lines m) <= fuel)%nat ->
  exists outs r rz, Forall2 (fun k o => map_sector_to_polygons m (Z.of_nat k) = Ok o) (seq 0 (length (g_sectors m))) outs
    /\ compute std fuel (map sector_polygon outs) op = Ok r /\ has_corners r rz
    /\ (forall x y, (exists s, is_sector m s /\ in_sector m place s x y) ->
          exists i, outer r i /\ (exists js, region_of r i js /\ goes_round rz js x y = 1)
            /\ forall k js, outer r k -> region_of r k js -> goes_round rz js x y = 1 -> k = i)
    /\ (forall x y i c js, outer r i -> nth_error r i = Some c -> region_of r i js -> goes_round rz js x y = 1 ->
          (exists s, is_sector m s /\ in_sector m place s x y)
          /\ forall s, is_sector m s -> (nth_error (c_from c) (Z.to_nat s) = Some true <-> in_sector m place s x y))
    /\ NoDup (flat_map sides rz)
    /\ (forall a b x y, In (a, b) (flat_map sides rz) -> on_segment a b x y -> exists p l, border_line m p l /\ on_line place l x y)
    /\ (forall i j ci li lj, nth_error r i = Some ci -> nth_error rz i = Some li -> nth_error rz j = Some lj ->
          nth_error (c_neighbors ci) j = Some true <-> exists a b, In (a, b) (sides li) /\ In (b, a) (sides lj)).
Proof. exact crossing_rooms. Qed.
Print Assumptions C138_rooms.

(** In a map that was loaded the vertices are where such a map has them. *)
Theorem C138_loaded : forall b m, from_bare b = Ok m -> forall h p, item_at (g_vertices m) h p -> exists v, item_at (m_vertices b) h v /\ p = int_point (vx v, vy v).
Proof. exact loaded_vertices. Qed.
Print Assumptions C138_loaded.

(** Two rooms in the shape of diamonds that overlap, and a third beside the second: the result
    has one region where they overlap, made of both. *)
Example C138_hypotheses : from_bare stacked_map = Ok stacked /\ crossing_map 6 790 2 stacked (corner stacked_corners) /\ length (g_lines stacked) = 10%nat
  /\ crosses_on 6 (mk_edge 0 (0, -256) (256, 0)) (mk_edge 0 (0, 0) (256, -256))
  /\ map (map_sector_to_polygons stacked) [0; 1; 2] = map Ok stacked_outlines
  /\ compute std_ref 1260 (map sector_polygon stacked_outlines) Union = Ok stacked_rooms /\ has_corners stacked_rooms stacked_lines
  /\ contours_shown stacked_rooms = [([], [true; false; false], true); ([], [true; true; false], true); ([], [false; true; false], true); ([], [false; false; true], true)]
  /\ map c_neighbors stacked_rooms = [[false; true; false; false]; [true; false; true; false]; [false; true; false; true]; [false; false; true; false]].
Proof.
  split; [apply stacked_drawn|]. split; [apply stacked_drawn|]. split; [reflexivity|]. split; [exact stacked_cross|]. split; [vm_compute; reflexivity|].
  split; [apply stacked_result|]. split; [apply stacked_result|]. split; vm_compute; reflexivity.
Qed.
