(** src/map.rs: the in-memory map. [sector_to_polygons] is in SectorPolys.v. *)

From Coq Require Import String List ZArith Bool.
From Coq Require Import Strings.Byte.
From Verif Require Import Base ParseMap Float.
Import ListNotations.
Local Open Scope Z_scope.

(** src/map.rs 388-418: [Handle<T>] is a usize index; equality compares the
    index. Handles are plain integers here. *)
Definition handle := Z.

(** src/map.rs 422-425. *)
Record thing := mk_thing { th_point : point; th_num : Z }.

(** src/map.rs 437-448. *)
Record line := mk_line {
  ln_index : Z; ln_start : handle; ln_end : handle; ln_flags : Z; ln_special : Z;
  ln_tag : Z; ln_front : option handle; ln_back : option handle }.

(** src/map.rs 538-545. *)
Record sector := mk_msector {
  ms_tag : Z; ms_special : Z; ms_floor : Z; ms_ceil : Z; ms_light : Z }.

(** src/map.rs 569-576. *)
Record side := mk_mside {
  si_id : Z; si_upper : bytes; si_lower : bytes; si_middle : bytes; si_sector : handle }.

(** src/map.rs 584-587: [Vertex]; same shape as a point. *)
Definition vertex := point.

(** src/map.rs 44-59 ([_bbox] is never written after [new] and never read). *)
Record gmap := mk_gmap {
  g_lines : list line; g_sides : list side; g_sectors : list sector;
  g_things : list thing; g_vertices : list vertex }.

(** src/map.rs 62-72. *)
Definition map_new : gmap := mk_gmap [] [] [] [] [].

(** [&mut v[i]] followed by a write: [f] computes the new element. *)
Fixpoint update_nth {A} (i : nat) (f : A -> A) (l : list A) : option (list A) :=
  match l, i with
  | [], _ => None
  | x :: l', O => Some (f x :: l')
  | x :: l', S i' => match update_nth i' f l' with Some r => Some (x :: r) | None => None end
  end.
Definition write_at {A} (l : list A) (i : Z) (f : A -> A) : outcome (list A) :=
  if 0 <=? i then
    match update_nth (Z.to_nat i) f l with
    | Some l' => Ok l'
    | None => Panic PIndex
    end
  else Panic PIndex.

(** src/map.rs 126-135. *)
Definition add_sector (m : gmap) : gmap * handle :=
  let '(mk_gmap ln sd sc th vt) := m in
  (mk_gmap ln sd (sc ++ [mk_msector 0 0 0 0 0]) th vt, zlen (sc ++ [mk_msector 0 0 0 0 0]) - 1).
(** src/map.rs 136-145. *)
Definition add_side (m : gmap) (s : handle) : gmap * handle :=
  let '(mk_gmap ln sd sc th vt) := m in
  let sd' := sd ++ [mk_mside 0 [] [] [] s] in
  (mk_gmap ln sd' sc th vt, zlen sd' - 1).
(** src/map.rs 146-150. *)
Definition add_vertex (m : gmap) (x y : f64) : gmap :=
  let '(mk_gmap ln sd sc th vt) := m in mk_gmap ln sd sc th (vt ++ [mk_point x y]).
(** src/map.rs 151-164. *)
Definition add_line (m : gmap) (s e : handle) : gmap * handle :=
  let '(mk_gmap ln sd sc th vt) := m in
  let ix := zlen ln in
  (mk_gmap (ln ++ [mk_line ix s e 0 0 0 None None]) sd sc th vt, ix).

(** src/map.rs 75-83. *)
Definition from_bare_sector (m : gmap) (b : bare_sector) : outcome gmap :=
  let '(m, h) := add_sector m in
  let* sc := write_at (g_sectors m) h (fun _ =>
    mk_msector (as_u32 (sc_tag b)) (as_u32 (sc_type b)) (sc_floor b) (sc_ceil b) (as_u8 (sc_light b))) in
  Ok (mk_gmap (g_lines m) (g_sides m) sc (g_things m) (g_vertices m)).
(** src/map.rs 84-86. *)
Definition from_bare_vertex (m : gmap) (v : bare_vertex) : outcome gmap :=
  Ok (add_vertex m (f64_of_Z (vx v)) (f64_of_Z (vy v))).
(** src/map.rs 87-93. *)
Definition from_bare_side (m : gmap) (b : bare_side) : outcome gmap :=
  let '(m, h) := add_side m (as_usize (sd_sector b)) in
  let* sd := write_at (g_sides m) h (fun s =>
    mk_mside (si_id s) (sd_upper b) (sd_lower b) (sd_middle b) (si_sector s)) in
  Ok (mk_gmap (g_lines m) sd (g_sectors m) (g_things m) (g_vertices m)).
(** src/map.rs 94-108. *)
Definition from_bare_line (m : gmap) (b : doom_line) : outcome gmap :=
  let '(m, h) := add_line m (as_usize (dl_v0 b)) (as_usize (dl_v1 b)) in
  let* ln := write_at (g_lines m) h (fun l =>
    mk_line (ln_index l) (ln_start l) (ln_end l)
      (as_u32 (dl_flags b)) (as_usize (dl_special b)) (as_u32 (dl_tag b))
      (if negb (dl_front b =? -1) then Some (as_usize (dl_front b)) else ln_front l)
      (if negb (dl_back b =? -1) then Some (as_usize (dl_back b)) else ln_back l)) in
  Ok (mk_gmap ln (g_sides m) (g_sectors m) (g_things m) (g_vertices m)).
(** src/map.rs 109-114. *)
Definition from_bare_thing (m : gmap) (b : doom_thing) : outcome gmap :=
  Ok (mk_gmap (g_lines m) (g_sides m) (g_sectors m)
        (g_things m ++ [mk_thing (mk_point (f64_of_Z (dt_x b)) (f64_of_Z (dt_y b))) (as_u32 (dt_num b))])
        (g_vertices m)).
(** src/map.rs 73-117: [Map::from_bare]. *)
Definition from_bare (b : doom_map) : outcome gmap :=
  let* m := ofold from_bare_sector (m_sectors b) map_new in
  let* m := ofold from_bare_vertex (m_vertices b) m in
  let* m := ofold from_bare_side (m_sides b) m in
  let* m := ofold from_bare_line (m_lines b) m in
  ofold from_bare_thing (m_things b) m.

(** src/map.rs 178-188: lookups by handle. *)
Definition map_vertex (m : gmap) (h : handle) : outcome vertex := index (g_vertices m) h.
Definition map_side (m : gmap) (h : handle) : outcome side := index (g_sides m) h.
Definition map_sector (m : gmap) (h : handle) : outcome sector := index (g_sectors m) h.

(** src/map.rs 190-194: [Map::bbox]. *)
Definition map_bbox (m : gmap) : rect := from_points (map (fun v => mk_point (px v) (py v)) (g_vertices m)).

(** src/map.rs 196-200: [find_player_start]. *)
Definition find_player_start (m : gmap) : option point :=
  option_map th_point (find (fun t => th_num t =? 1) (g_things m)).

(** src/map.rs 463-481: predicates of a line. *)
Definition has_special (l : line) : bool := negb (ln_special l =? 0).
Definition blocks_player (l : line) : bool := negb (Z.land (ln_flags l) 1 =? 0).
Definition is_some {A} (o : option A) : bool := match o with Some _ => true | None => false end.
Definition is_one_sided (l : line) : bool := negb (Bool.eqb (is_some (ln_front l)) (is_some (ln_back l))).
Definition is_two_sided (l : line) : bool := is_some (ln_front l) && is_some (ln_back l).

(** src/map.rs 484-502: [BoundLine]. *)
Definition bound_start (m : gmap) (l : line) : outcome vertex := map_vertex m (ln_start l).
Definition bound_end (m : gmap) (l : line) : outcome vertex := map_vertex m (ln_end l).
Definition bound_front (m : gmap) (l : line) : outcome (option side) := oopt (map_side m) (ln_front l).
Definition bound_back (m : gmap) (l : line) : outcome (option side) := oopt (map_side m) (ln_back l).
