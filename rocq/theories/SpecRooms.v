(** Specification vocabulary for overlaying the sectors of a map. *)

From Coq Require Import List ZArith QArith Bool.
From Verif Require Import Base Float MapModel SectorPolys Contours Compute SpecMapModel SpecSector SpecShape SpecOrder SpecIntersect SpecTurn SpecTidy.
Import ListNotations.
Local Open Scope Z_scope.

Section Rooms.
  (** A map, and where its vertices are. *)
  Variables (m : gmap) (place : handle -> Z * Z).

  Definition is_sector (s : Z) : Prop := has_item (g_sectors m) s.

  (** An even number of border lines of the sector meets at each vertex. *)
  Definition closed_border (s : Z) : Prop :=
    forall v, exists ps, NoDup ps /\ (forall p, In p ps <-> exists w, m_joins m s p v w) /\ Nat.even (length ps) = true.

  (** The line as an edge. *)
  Definition line_as_edge (i : nat) (l : line) : list edge := left_to_right i (place (ln_start l), place (ln_end l)).

  Definition border_line (p : nat) (l : line) : Prop :=
    nth_error (g_lines m) p = Some l /\ exists s, is_sector s /\ m_borders m s l.

  (** The border lines are at most 4000 long in each direction, form closed borders, and
      meet only in common vertices; [intersect_segments] can tell, and areas are exact. *)
  Definition well_drawn : Prop :=
    (forall s, is_sector s -> m_indices_exist m s /\ short_border m s place /\ closed_border s)
    /\ (forall p l q k v w, border_line p l -> border_line q k -> v = ln_start l \/ v = ln_end l -> w = ln_start k \/ w = ln_end k ->
          place v = place w -> v = w)
    /\ (forall p l q k e f, border_line p l -> border_line q k -> p <> q -> In e (line_as_edge 0 l) -> In f (line_as_edge 0 k) -> apart e f)
    /\ exists bound, (forall p l, border_line p l -> within bound (place (ln_start l)) /\ within bound (place (ln_end l)))
       /\ Z.of_nat (length (g_lines m)) * (4 * (bound * bound)) < 2 ^ 53.

  Definition line_below (l : line) (x y : Q) : Prop := exists e, In e (line_as_edge 0 l) /\ passes_below e x y = true.

  (** An odd number of border lines of the sector is below the point. *)
  Definition in_sector (s : Z) (x y : Q) : Prop :=
    exists ps, NoDup ps
      /\ (forall p, In p ps <-> exists l, nth_error (g_lines m) p = Some l /\ m_borders m s l /\ line_below l x y)
      /\ Nat.odd (length ps) = true.

  (** Just above the point (x, y) of the border line [l] is in the sector; to the left of
      it, if the line is vertical. *)
  Definition in_sector_above (s : Z) (l : line) (x y : Q) : Prop :=
    (m_borders m s l /\ ~ in_sector s x y) \/ (~ m_borders m s l /\ in_sector s x y).

  (** A side from [a] to [b] along a border line that has some sector on its left. *)
  Definition room_side (a b : Z * Z) : Prop :=
    exists p l e x y, border_line p l /\ In e (line_as_edge 0 l) /\ inside_edge e x y
      /\ ((a = e_left e /\ b = e_right e /\ exists s, is_sector s /\ in_sector_above s l x y)
          \/ (a = e_right e /\ b = e_left e /\ exists s, is_sector s /\ in_sector s x y)).
End Rooms.

(** All outlines of a sector as one polygon, nothing of which is to be removed. *)
Definition sector_polygon (outlines : list (list point)) : polygon * polygon_mode :=
  (map (set_points contour_new) outlines, Normal).
