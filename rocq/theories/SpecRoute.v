(** Specification vocabulary for the route command. *)

From Coq Require Import List ZArith Bool Arith QArith.
From Verif Require Import Base Float MapModel Contours Route.
Import ListNotations.
Local Open Scope Z_scope.

(** The sector with handle [s]. *)
Definition sector_at (m : gmap) (s : handle) (sec : sector) : Prop :=
  0 <= s /\ nth_error (g_sectors m) (Z.to_nat s) = Some sec.

(** Side number [o], if any, faces sector [s]. *)
Definition side_faces (m : gmap) (o : option handle) (s : handle) : Prop :=
  exists h sd, o = Some h /\ 0 <= h /\ nth_error (g_sides m) (Z.to_nat h) = Some sd /\ si_sector sd = s.

(** Contour [c] comes from reference [r]. *)
Definition comes_from (refs : list polygon_ref) (c : contour) (r : polygon_ref) : Prop :=
  exists p, nth_error (c_from c) p = Some true /\ nth_error refs p = Some r.

(** A player in contour [c] stands in sector [s], or near a line of it. *)
Definition in_sector (m : gmap) (refs : list polygon_ref) (c : contour) (s : handle) : Prop :=
  comes_from refs c (RSector s)
  \/ exists l, comes_from refs c (RLine l) /\ (side_faces m (ln_front l) s \/ side_faces m (ln_back l) s).

(** The tags of a contour; 13 is disregarded on purpose. *)
Definition has_tag (m : gmap) (refs : list polygon_ref) (c : contour) (t : Z) : Prop :=
  t <> 0 /\ t <> 13 /\ exists s sec, in_sector m refs c s /\ sector_at m s sec /\ ms_tag sec = t.

(** The height of the highest floor of a contour. *)
Definition stands_at (m : gmap) (refs : list polygon_ref) (c : contour) (z : Z) : Prop :=
  (exists s sec, in_sector m refs c s /\ sector_at m s sec /\ ms_floor sec = z)
  /\ forall s sec, in_sector m refs c s -> sector_at m s sec -> ms_floor sec <= z.

(** A line flagged as blocking keeps players out of the contour. *)
Definition is_blocked (refs : list polygon_ref) (c : contour) : Prop :=
  exists l, comes_from refs c (RLine l) /\ Z.testbit (ln_flags l) 0 = true.

(** A player can step from one contour to the other without any sector moving. *)
Definition steps_into (m : gmap) (refs : list polygon_ref) (c c' : contour) : Prop :=
  (forall t, has_tag m refs c t <-> has_tag m refs c' t) /\ ~ is_blocked refs c'
  /\ exists z z', stands_at m refs c z /\ stands_at m refs c' z' /\ Z.abs (z - z') <= 24.

(** Contour [j] borders on contour [i] or on one of its holes. *)
Definition borders (result : polygon) (i j : nat) : Prop :=
  exists c, nth_error result i = Some c
    /\ (nth_error (c_neighbors c) j = Some true
        \/ exists h hc, In h (c_holes c) /\ nth_error result h = Some hc /\ nth_error (c_neighbors hc) j = Some true).

(** The same, and one can step over. *)
Definition walkable (m : gmap) (refs : list polygon_ref) (result : polygon) (i j : nat) : Prop :=
  borders result i j /\ exists c c', nth_error result i = Some c /\ nth_error result j = Some c' /\ steps_into m refs c c'.

(** Contours reachable from those whose bounding box has the start in it. *)
Inductive reached (result : polygon) (start : point) : nat -> Prop :=
| r_start : forall i c, nth_error result i = Some c -> rect_contains (contour_bbox c) start = true -> reached result start i
| r_border : forall i j, reached result start i -> borders result i j -> reached result start j.

(** Where the player starts; the origin of the map if nowhere. *)
Definition start_of (m : gmap) (start : point) : Prop :=
  find_player_start m = Some start
  \/ (find_player_start m = None /\ start = mk_point f64_zero f64_zero).

Inductive walk_to (m : gmap) (refs : list polygon_ref) (result : polygon) (i : nat) : nat -> Prop :=
| w_here : walk_to m refs result i i
| w_step : forall j k, walk_to m refs result i j -> walkable m refs result j k -> walk_to m refs result i k.

(** Floor heights of maps are 16-bit numbers. *)
Definition floors_i16 (m : gmap) : Prop := forall sec, In sec (g_sectors m) -> -32768 <= ms_floor sec <= 32767.

(** Every reference leads to sectors of the map. *)
Definition refs_ok (m : gmap) (refs : list polygon_ref) : Prop :=
  forall r, In r refs ->
    match r with
    | RSector h => exists sec, sector_at m h sec
    | RLine l => forall o, o = ln_front l \/ o = ln_back l ->
        o = None \/ exists s sec, side_faces m o s /\ sector_at m s sec
    end.

(** Every side of a line exists and faces a sector of the map. *)
Definition lines_ok (m : gmap) : Prop :=
  forall l o, In l (g_lines m) -> o = ln_front l \/ o = ln_back l ->
    o = None \/ exists s sec, side_faces m o s /\ sector_at m s sec.

(** The contours can be flood-filled: their bit sets have the right sizes, their
    holes exist and each lies in a sector. *)
Definition fillable (refs : list polygon_ref) (result : polygon) : Prop :=
  forall c, In c result ->
    length (c_neighbors c) = length result
    /\ (forall h, In h (c_holes c) -> (h < length result)%nat)
    /\ (length (c_from c) <= length refs)%nat
    /\ exists h, comes_from refs c (RSector h).

(** Sectors are listed before lines. *)
Definition sectors_first (refs : list polygon_ref) : Prop :=
  exists hs ls, refs = map RSector hs ++ map RLine ls.

(** ** The space around a line *)

(** The region bounded by a clockwise convex polygon: the points to the right of, or
    on, every edge. *)
Definition right_of (a b : Z * Z) (x y : Q) : Prop :=
  (inject_Z (fst b - fst a) * (y - inject_Z (snd a)) - inject_Z (snd b - snd a) * (x - inject_Z (fst a)) <= 0)%Q.
Definition edges_of {A} (l : list A) : list (A * A) :=
  match l with [] => [] | a :: l' => combine l (l' ++ [a]) end.
Definition in_convex (zs : list (Z * Z)) (x y : Q) : Prop :=
  forall a b, In (a, b) (edges_of zs) -> right_of a b x y.

(** A square of side [2 r] about (x, y) touches the line from [a] to [b]. *)
Definition touches (r : Q) (a b : Z * Z) (x y : Q) : Prop :=
  exists t, (0 <= t <= 1)%Q
    /\ (- r <= x - (inject_Z (fst a) + t * inject_Z (fst b - fst a)) <= r)%Q
    /\ (- r <= y - (inject_Z (snd a) + t * inject_Z (snd b - snd a)) <= r)%Q.

(** ** Where a point lies *)

(** A ray from [p] to the right crosses the edge. *)
Definition ray_crosses (p : Z * Z) (e : (Z * Z) * (Z * Z)) : bool :=
  let '((x1, y1), (x2, y2)) := e in
  let side := (x2 - x1) * (snd p - y1) - (y2 - y1) * (fst p - x1) in
  if y1 <=? snd p then (snd p <? y2) && (0 <? side) else (y2 <=? snd p) && (side <? 0).
(** The polygon has the point in it: an odd number of crossings. *)
Definition surrounds (zs : list (Z * Z)) (p : Z * Z) : bool :=
  Nat.odd (length (filter (ray_crosses p) (edges_of zs))).

(** Connected through any number of borders. *)
Inductive connected (result : polygon) (i : nat) : nat -> Prop :=
| cn_here : connected result i i
| cn_to : forall j k, connected result i j -> borders result j k -> connected result i k
| cn_from : forall j k, connected result i j -> borders result k j -> connected result i k.
