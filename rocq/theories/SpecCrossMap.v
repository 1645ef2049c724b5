(** Specification vocabulary for maps whose lines cross in points of a grid. *)

From Coq Require Import List ZArith QArith Bool.
From Verif Require Import Base Float MapModel SectorPolys SpecMapModel SpecSector SpecShape SpecOrder SpecIntersect SpecTurn SpecTidy SpecCross SpecGrid SpecSlope SpecRooms SpecMesh.
Import ListNotations.
Local Open Scope Z_scope.

(** The line lies between two sectors. *)
Definition between_sectors (m : gmap) (l : line) : Prop :=
  exists s t, s <> t /\ is_sector m s /\ is_sector m t /\ m_borders m s l /\ m_borders m t l.

(** The border lines form closed borders as in well drawn maps, but two of them may cross, in a
    point of the grid, if neither lies between two sectors. They start and end on the grid and
    are at most 21 of its steps long across and up; the direction of a line is [p] across and
    [q] up, without a common factor. *)
Record crossing_map (g R D : Z) (m : gmap) (place : handle -> Z * Z) : Prop := mk_crossing_map {
  cm_size : 0 <= g <= 7;
  cm_wide : 0 <= R <= 1000;
  cm_bound : R * R * D <= 1248751;
  cm_few : Z.of_nat (length (g_lines m)) <= 4500;
  cm_borders : forall s, is_sector m s -> m_indices_exist m s /\ short_border m s place /\ closed_border m s;
  cm_vertices : forall h p, item_at (g_vertices m) h p -> p = int_point (place h);
  cm_places : forall p l q k v w, border_line m p l -> border_line m q k -> v = ln_start l \/ v = ln_end l -> w = ln_start k \/ w = ln_end k ->
    place v = place w -> v = w;
  cm_grid : forall i l e, border_line m i l -> In e (line_as_edge place 0 l) ->
    slope_point g R (e_left e) /\ slope_point g R (e_right e) /\ within_reach g [e_left e; e_right e]
    /\ exists p q n, Z.gcd p q = 1 /\ p * p + q * q <= D /\ vsub (e_right e) (e_left e) = (n * (2 ^ g * p), n * (2 ^ g * q));
  cm_pairs : forall p l q k e f, border_line m p l -> border_line m q k -> p <> q -> In e (line_as_edge place 0 l) -> In f (line_as_edge place 0 k) ->
    only_ends e f \/ (crosses_on g e f /\ ~ between_sectors m l /\ ~ between_sectors m k) }.

(** The place is on the border line. *)
Definition on_line (place : handle -> Z * Z) (l : line) (x y : Q) : Prop := on_segment (place (ln_start l)) (place (ln_end l)) x y.
