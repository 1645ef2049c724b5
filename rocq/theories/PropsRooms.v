(** C111: overlaying the sectors of a map. *)

From Coq Require Import List ZArith QArith.
From Verif Require Import Base MapModel SectorPolys Contours Sweep Compute StdRef Samples SpecMapModel SpecSector SpecShape SpecOrder SpecCompute SpecTidy SpecOverlay SpecRooms
  TurnSamples OverlaySamples RoomSamples RoomFacts3.
Import ListNotations.
Local Open Scope Z_scope.

(** C111. Taking the outlines of every sector of a well drawn map as one polygon each, and
    overlaying those, comes to an end without a panic. Every place in a sector is in exactly
    one region of the result; a place in a region is in a sector, and the region is made of
    the sectors that the place is in. The contours run once along each side of a border line
    that has a sector there, and along nothing else; two are neighbours exactly if they run
    along the two sides of a line. *)
Theorem C111_rooms : forall std fuel m place op, std_laws std -> sorts std -> well_drawn m place -> (4 * length (g_lines m) <= fuel)%nat ->
  exists outs r rz, Forall2 (fun k o => map_sector_to_polygons m (Z.of_nat k) = Ok o) (seq 0 (length (g_sectors m))) outs
    /\ compute std fuel (map sector_polygon outs) op = Ok r /\ has_corners r rz
    /\ (forall x y, (exists s, is_sector m s /\ in_sector m place s x y) ->
          exists i, outer r i /\ (exists js, region_of r i js /\ goes_round rz js x y = 1)
            /\ forall k js, outer r k -> region_of r k js -> goes_round rz js x y = 1 -> k = i)
    /\ (forall x y i c js, outer r i -> nth_error r i = Some c -> region_of r i js -> goes_round rz js x y = 1 ->
          (exists s, is_sector m s /\ in_sector m place s x y)
          /\ forall s, is_sector m s -> (nth_error (c_from c) (Z.to_nat s) = Some true <-> in_sector m place s x y))
    /\ NoDup (flat_map sides rz) /\ (forall a b, In (a, b) (flat_map sides rz) <-> room_side m place a b)
    /\ (forall i j ci li lj, nth_error r i = Some ci -> nth_error rz i = Some li -> nth_error rz j = Some lj ->
          nth_error (c_neighbors ci) j = Some true <-> exists a b, In (a, b) (sides li) /\ In (b, a) (sides lj)).
Proof. exact sector_rooms. Qed.
Print Assumptions C111_rooms.

(** A square room around a triangular pillar, with a stray line inside the room: the result
    is the square with a triangular hole, and the triangle. *)
Example C111_hypotheses : from_bare pillar_map = Ok pillar /\ well_drawn pillar (corner pillar_corners) /\ length (g_lines pillar) = 8%nat
  /\ map (map_sector_to_polygons pillar) [0; 1] = map Ok pillar_outlines
  /\ compute std_ref 32 (map sector_polygon pillar_outlines) Union = Ok pillar_rooms /\ has_corners pillar_rooms pillar_lines
  /\ contours_shown pillar_rooms = [([2%nat], [true; false], true); ([], [false; true], true); ([], [true; false], false)]
  /\ map c_neighbors pillar_rooms = [[false; false; false]; [false; false; true]; [false; true; false]].
Proof.
  split; [apply pillar_drawn|]. split; [apply pillar_drawn|]. split; [reflexivity|]. split; [vm_compute; reflexivity|].
  split; [apply pillar_result|]. split; [apply pillar_result|]. split; vm_compute; reflexivity.
Qed.
