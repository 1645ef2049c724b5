(** C112, C113: what the chart of a map fills. *)

From Coq Require Import String List ZArith QArith.
From Verif Require Import Base Float ParseMap MapModel Chart SpecSector SpecRooms SpecOverlay SpecFill TurnSamples RoomSamples FillSamples FillPathFacts.
Import ListNotations.
Local Open Scope Z_scope.

(** C112. In the chart of a well drawn map the paths of the sectors come last, one for each,
    in order. The path of a sector goes round a place an odd number of times exactly if the
    place is in the sector; so every place of the sector is filled. If the border lines of
    the sector follow each other, all with the sector on the right or all with the sector on
    the left, nothing else is filled. *)
Theorem C112_fill : forall m place d, well_drawn m place -> map_as_svg m = Ok d ->
  exists before ss, d_shapes d = before ++ ss /\ length ss = length (g_sectors m)
    /\ forall k s, nth_error ss k = Some s ->
       exists path tag light cs zs, s = SPath path tag light cs /\ runs_through path zs
         /\ (forall x y, in_sector m place (Z.of_nat k) x y <-> Z.odd (windings x y zs) = true)
         /\ (forall x y, in_sector m place (Z.of_nat k) x y -> painted zs x y)
         /\ (one_hand m place (Z.of_nat k) -> head_to_tail m (Z.of_nat k) -> forall x y, painted zs x y -> in_sector m place (Z.of_nat k) x y).
Proof. exact chart_fill. Qed.
Print Assumptions C112_fill.

(** A room in a secret room, with its lines facing outwards: the path of the secret room
    goes once round the places of the secret room and not round those of the other. *)
Example C112_hypotheses : from_bare island_map = Ok island /\ well_drawn island (corner secret_corners) /\ map_as_svg island = Ok island_chart
  /\ nth_error (d_shapes island_chart) 8 = Some (SPath island_path None (Some 160) ["sector"; "secret"]%string)
  /\ runs_through island_path island_lines /\ one_hand island (corner secret_corners) 0 /\ head_to_tail island 0
  /\ windings (1 # 1) (1 # 1) island_lines = -1 /\ in_sector island (corner secret_corners) 0 (1 # 1) (1 # 1)
  /\ windings (96 # 1) (100 # 1) island_lines = 0 /\ ~ in_sector island (corner secret_corners) 0 (96 # 1) (100 # 1).
Proof.
  split; [apply island_drawn|]. split; [apply island_drawn|]. split; [vm_compute; reflexivity|]. split; [reflexivity|].
  split; [exact island_through|]. split; [apply island_hands|]. split; [apply island_hands|]. split; [vm_compute; reflexivity|].
  split; [apply insideb_ok; vm_compute; reflexivity|]. split; [vm_compute; reflexivity|]. rewrite <- insideb_ok. vm_compute. discriminate.
Qed.

(** C113 (refuted): the path of a sector fills only places of the sector. If a room in a
    secret room has its lines facing inwards, its outline runs round the same way as that of
    the secret room, and the room is filled as secret too. *)
Theorem C113_only_the_sector_refuted : exists b m place d before ss path tag light cs zs x y,
  from_bare b = Ok m /\ well_drawn m place /\ map_as_svg m = Ok d /\ d_shapes d = before ++ ss /\ length ss = length (g_sectors m)
  /\ nth_error ss 0 = Some (SPath path tag light cs) /\ In "secret"%string cs /\ runs_through path zs
  /\ painted zs x y /\ ~ in_sector m place 0 x y /\ in_sector m place 1 x y.
Proof. exact fill_spills. Qed.
Print Assumptions C113_only_the_sector_refuted.
