(** src/parse/map.rs: binary map lumps, their writers, and map parsing. *)

From Coq Require Import String List ZArith Bool.
From Coq Require Import Strings.Byte.
From Verif Require Import Base Nom ParseWad ArchiveWad.
Import ListNotations.
Local Open Scope Z_scope.

(** src/parse/map.rs 32-40. *)
Record doom_thing := mk_dthing {
  dt_x : Z; dt_y : Z; dt_angle : Z; dt_num : Z; dt_flags : Z }.

(** src/parse/map.rs 42-51: [BareDoomThing::write_to]. *)
Definition write_doom_thing (t : doom_thing) : bytes :=
  put16 (dt_x t) ++ put16 (dt_y t) ++ put16 (dt_angle t)
  ++ put16 (dt_num t) ++ put16 (dt_flags t).

(** src/parse/map.rs 53-60. *)
Definition p_doom_thing : parser doom_thing :=
  do x <- le_i16;;
  do y <- le_i16;;
  do angle <- le_i16;;
  do num <- le_i16;;
  do flags <- le_u16;;
  pret (mk_dthing x y angle num flags).
Definition doom_things_lump : parser (list doom_thing) := many0 (complete p_doom_thing).

(** src/parse/map.rs 29: [hexen_args] ([count_fixed!] of five bytes). *)
Definition hexen_args : parser (list Z) :=
  do a <- le_u8;;
  do b <- le_u8;;
  do c <- le_u8;;
  do d <- le_u8;;
  do e <- le_u8;;
  pret [a; b; c; d; e].

(** src/parse/map.rs 63-75. *)
Record hexen_thing := mk_hthing {
  ht_tid : Z; ht_x : Z; ht_y : Z; ht_z : Z; ht_angle : Z; ht_num : Z;
  ht_flags : Z; ht_special : Z; ht_args : list Z }.

(** src/parse/map.rs 77-98. *)
Definition p_hexen_thing : parser hexen_thing :=
  do tid <- le_i16;;
  do x <- le_i16;;
  do y <- le_i16;;
  do z <- le_i16;;
  do angle <- le_i16;;
  do num <- le_i16;;
  do flags <- le_u16;;
  do special <- le_u8;;
  do args <- hexen_args;;
  pret (mk_hthing tid x y z angle num flags special args).
Definition hexen_things_lump : parser (list hexen_thing) := many0 (complete p_hexen_thing).

(** src/parse/map.rs 126-135. *)
Record doom_line := mk_dline {
  dl_v0 : Z; dl_v1 : Z; dl_flags : Z; dl_special : Z; dl_tag : Z;
  dl_front : Z; dl_back : Z }.

(** src/parse/map.rs 137-148: [BareDoomLine::write_to]. *)
Definition write_doom_line (l : doom_line) : bytes :=
  put16 (dl_v0 l) ++ put16 (dl_v1 l) ++ put16 (dl_flags l) ++ put16 (dl_special l)
  ++ put16 (dl_tag l) ++ put16 (dl_front l) ++ put16 (dl_back l).

(** src/parse/map.rs 150-159. *)
Definition p_doom_line : parser doom_line :=
  do v0 <- le_i16;;
  do v1 <- le_i16;;
  do flags <- le_i16;;
  do special <- le_i16;;
  do tag <- le_i16;;
  do front <- le_i16;;
  do back <- le_i16;;
  pret (mk_dline v0 v1 flags special tag front back).
Definition doom_linedefs_lump : parser (list doom_line) := many0 (complete p_doom_line).

(** src/parse/map.rs 163-172. *)
Record hexen_line := mk_hline {
  hl_v0 : Z; hl_v1 : Z; hl_flags : Z; hl_special : Z; hl_args : list Z;
  hl_front : Z; hl_back : Z }.

(** src/parse/map.rs 174-191. *)
Definition p_hexen_line : parser hexen_line :=
  do v0 <- le_i16;;
  do v1 <- le_i16;;
  do flags <- le_i16;;
  do special <- le_u8;;
  do args <- hexen_args;;
  do front <- le_i16;;
  do back <- le_i16;;
  pret (mk_hline v0 v1 flags special args front back).
Definition hexen_linedefs_lump : parser (list hexen_line) := many0 (complete p_hexen_line).

(** src/parse/map.rs 229-236. *)
Record bare_side := mk_side {
  sd_x : Z; sd_y : Z; sd_upper : bytes; sd_lower : bytes; sd_middle : bytes;
  sd_sector : Z }.

(** src/parse/map.rs 238-257: [BareSide::write_to]. *)
Definition write_side (s : bare_side) : bytes :=
  put16 (sd_x s) ++ put16 (sd_y s) ++ put_name (sd_upper s) ++ put_name (sd_lower s)
  ++ put_name (sd_middle s) ++ put16 (sd_sector s).

(** src/parse/map.rs 259-274. *)
Definition p_side : parser bare_side :=
  do x <- le_i16;;
  do y <- le_i16;;
  do upper <- fixed_length_ascii 8;;
  do lower <- fixed_length_ascii 8;;
  do middle <- fixed_length_ascii 8;;
  do sector <- le_i16;;
  pret (mk_side x y upper lower middle sector).
Definition sidedefs_lump : parser (list bare_side) := many0 (complete p_side).

(** src/parse/map.rs 278-281. *)
Record bare_vertex := mk_vertex { vx : Z; vy : Z }.

(** src/parse/map.rs 283-289: [BareVertex::write_to]. *)
Definition write_vertex (v : bare_vertex) : bytes := put16 (vx v) ++ put16 (vy v).

(** src/parse/map.rs 291-295. *)
Definition p_vertex : parser bare_vertex :=
  do x <- le_i16;;
  do y <- le_i16;;
  pret (mk_vertex x y).
Definition vertexes_lump : parser (list bare_vertex) := many0 (complete p_vertex).

(** src/parse/map.rs 300-308. *)
Record bare_sector := mk_sector {
  sc_floor : Z; sc_ceil : Z; sc_floor_tex : bytes; sc_ceil_tex : bytes;
  sc_light : Z; sc_type : Z; sc_tag : Z }.

(** src/parse/map.rs 310-327: [BareSector::write_to]. *)
Definition write_sector (s : bare_sector) : bytes :=
  put16 (sc_floor s) ++ put16 (sc_ceil s) ++ put_name (sc_floor_tex s)
  ++ put_name (sc_ceil_tex s) ++ put16 (sc_light s) ++ put16 (sc_type s)
  ++ put16 (sc_tag s).

(** src/parse/map.rs 329-346. *)
Definition p_sector : parser bare_sector :=
  do floor <- le_i16;;
  do ceil <- le_i16;;
  do floor_tex <- fixed_length_ascii 8;;
  do ceil_tex <- fixed_length_ascii 8;;
  do light <- le_i16;;
  do type_ <- le_i16;;
  do tag <- le_i16;;
  pret (mk_sector floor ceil floor_tex ceil_tex light type_ tag).
Definition sectors_lump : parser (list bare_sector) := many0 (complete p_sector).

(** src/parse/map.rs 350-356: [BareBinaryMap]. *)
Record binary_map (L T : Type) := mk_bmap {
  m_vertices : list bare_vertex;
  m_sectors : list bare_sector;
  m_sides : list bare_side;
  m_lines : list L;
  m_things : list T }.
Arguments mk_bmap {L T} _ _ _ _ _.
Arguments m_vertices {L T} _.
Arguments m_sectors {L T} _.
Arguments m_sides {L T} _.
Arguments m_lines {L T} _.
Arguments m_things {L T} _.

(** src/parse/map.rs 362-374. *)
Definition doom_map := binary_map doom_line doom_thing.
Definition hexen_map := binary_map hexen_line hexen_thing.
Inductive bare_map := BMDoom (m : doom_map) | BMHexen (m : hexen_map).

(** [range.xxx_index.ok_or(MissingMapLump(..))?]. *)
Definition require {A} (o : option A) (lump : string) : outcome A :=
  match o with
  | Some a => Ok a
  | None => Err (MissingMapLump lump)
  end.

(** src/parse/map.rs 378-426: [parse_doom_map]. *)
Definition parse_doom_map (w : bare_wad) (r : map_block) : outcome bare_map :=
  let* vi := require (vertexes_index r) "VERTEXES" in
  let* buf := entry_slice w vi in
  let* vertices := nom_to_result "VERTEXES lump" buf (vertexes_lump buf) in
  let* si := require (sectors_index r) "SECTORS" in
  let* buf := entry_slice w si in
  let* sectors := nom_to_result "SECTORS lump" buf (sectors_lump buf) in
  let* di := require (sidedefs_index r) "SIDEDEFS" in
  let* buf := entry_slice w di in
  let* sides := nom_to_result "SIDEDEFS lump" buf (sidedefs_lump buf) in
  if format_eqb (b_format r) Doom then
    let* li := require (linedefs_index r) "LINEDEFS" in
    let* buf := entry_slice w li in
    let* lines := nom_to_result "LINEDEFS lump" buf (doom_linedefs_lump buf) in
    let* ti := require (things_index r) "THINGS" in
    let* buf := entry_slice w ti in
    let* things := nom_to_result "THINGS lump" buf (doom_things_lump buf) in
    Ok (BMDoom (mk_bmap vertices sectors sides lines things))
  else
    let* li := require (linedefs_index r) "LINEDEFS" in
    let* buf := entry_slice w li in
    let* lines := nom_to_result "LINEDEFS lump" buf (hexen_linedefs_lump buf) in
    let* ti := require (things_index r) "THINGS" in
    let* buf := entry_slice w ti in
    let* things := nom_to_result "THINGS lump" buf (hexen_things_lump buf) in
    Ok (BMHexen (mk_bmap vertices sectors sides lines things)).

(** src/parse/map.rs 427-468: [parse_doom_map_from_archive]. *)
Definition parse_doom_map_from_archive (b : arch_map) : outcome bare_map :=
  let* e := require (a_vertexes b) "VERTEXES" in
  let* vertices := nom_to_result "VERTEXES lump" (en_data e) (vertexes_lump (en_data e)) in
  let* e := require (a_sectors b) "SECTORS" in
  let* sectors := nom_to_result "SECTORS lump" (en_data e) (sectors_lump (en_data e)) in
  let* e := require (a_sidedefs b) "SIDEDEFS" in
  let* sides := nom_to_result "SIDEDEFS lump" (en_data e) (sidedefs_lump (en_data e)) in
  if format_eqb (a_format b) Doom then
    let* e := require (a_linedefs b) "LINEDEFS" in
    let* lines := nom_to_result "LINEDEFS lump" (en_data e) (doom_linedefs_lump (en_data e)) in
    let* e := require (a_things b) "THINGS" in
    let* things := nom_to_result "THINGS lump" (en_data e) (doom_things_lump (en_data e)) in
    Ok (BMDoom (mk_bmap vertices sectors sides lines things))
  else
    let* e := require (a_linedefs b) "LINEDEFS" in
    let* lines := nom_to_result "LINEDEFS lump" (en_data e) (hexen_linedefs_lump (en_data e)) in
    let* e := require (a_things b) "THINGS" in
    let* things := nom_to_result "THINGS lump" (en_data e) (hexen_things_lump (en_data e)) in
    Ok (BMHexen (mk_bmap vertices sectors sides lines things)).
