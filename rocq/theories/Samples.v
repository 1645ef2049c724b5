(** Concrete inputs used by the examples beside the theorems. *)

From Coq Require Import String List ZArith Bool.
From Coq Require Import Strings.Byte.
From Verif Require Import Base SpecBytes ParseWad SpecWad ArchiveWad ParseMap SpecFlip.
Import ListNotations.
Local Open Scope Z_scope.

(** A PWAD with two lumps, "A" (3 bytes) and "FLOOR4_8" (empty). *)
Definition small_dir : list dir_entry :=
  [mk_entry 12 3 (bs "A"); mk_entry 15 0 (bs "FLOOR4_8")].
Definition small_body : bytes := [x01; x02; x03].
Definition small_buf : bytes := Eval vm_compute in encode_wad PWAD small_body small_dir.
Definition small_wad : bare_wad := mk_wad small_buf (mk_header PWAD 2 15) small_dir.

(** The same with a control character in the first name. *)
Definition bad_name_buf : bytes := Eval vm_compute in
  encode_wad PWAD small_body [mk_entry 12 3 [x07]].

(** A directory that claims more entries than the buffer has. *)
Definition cut_dir_buf : bytes := Eval vm_compute in firstn 40 small_buf.

(** A one-record side, sector, thing, line, vertex. *)
Definition sample_side : bare_side := mk_side (-1) 7 (bs "-") (bs "STARTAN2") (bs "") 0.
Definition sample_sector : bare_sector := mk_sector 0 128 (bs "FLOOR4_8") (bs "CEIL3_5") 160 9 (-32768).
Definition sample_thing : doom_thing := mk_dthing (-32768) 32767 90 1 65535.
Definition sample_line : doom_line := mk_dline 0 1 1 0 0 0 (-1).
Definition sample_vertex : bare_vertex := mk_vertex (-64) 64.

(** A TEXTUREx lump with two textures; a lump whose offset is past the end; one
    whose offset is negative. *)
Definition tex_record (nm : bytes) (w h : Z) : bytes :=
  put_name nm ++ put32 0 ++ put16 w ++ put16 h ++ put32 0 ++ put16 0.
Definition tex_buf : bytes := Eval vm_compute in
  put32 2 ++ put32 34 ++ put32 12 ++ tex_record (bs "BRICK1") 64 128 ++ tex_record (bs "STEPTOP") 128 16.
Definition tex_far_buf : bytes := Eval vm_compute in put32 1 ++ put32 9.
Definition tex_neg_buf : bytes := Eval vm_compute in put32 1 ++ put32 (-1).

(** A SECTORS lump whose second record has a control character in a name. *)
Definition bad_sectors_buf : bytes := Eval vm_compute in
  write_sector sample_sector
  ++ write_sector (mk_sector 0 0 [x41; x01] (bs "B") 0 0 0)
  ++ write_sector sample_sector.

(** A WAD from a list of lumps. *)
Definition wad_of (t : wad_type) (lumps : list (bytes * bytes)) : bare_wad :=
  match parse_wad (encode_wad t (concat (map snd lumps)) (lay_out 12 lumps)) with
  | Ok w => w
  | _ => small_wad
  end.

(** A square room: four vertices, four one-sided lines, one sector, a player
    start. *)
Definition room_vertices : list bare_vertex :=
  [mk_vertex 0 0; mk_vertex 64 0; mk_vertex 64 64; mk_vertex 0 64].
Definition room_sides : list bare_side := repeat (mk_side 0 0 (bs "-") (bs "-") (bs "BRICK1") 0) 4.
Definition room_lines : list doom_line :=
  [mk_dline 0 1 1 0 0 0 (-1); mk_dline 1 2 1 0 0 1 (-1); mk_dline 2 3 1 0 0 2 (-1); mk_dline 3 0 1 0 0 3 (-1)].
Definition room_things : list doom_thing := [mk_dthing 32 32 90 1 7].
Definition room_lumps : list (bytes * bytes) :=
  [(bs "THINGS", flat_map write_doom_thing room_things);
   (bs "LINEDEFS", flat_map write_doom_line room_lines);
   (bs "SIDEDEFS", flat_map write_side room_sides);
   (bs "VERTEXES", flat_map write_vertex room_vertices);
   (bs "SECTORS", write_sector sample_sector)].
Definition room_map : doom_map := mk_bmap room_vertices [sample_sector] room_sides room_lines room_things.

Definition music : list (bytes * bytes) := [(bs "D_RUNNIN", [x4d; x55; x53])].
Definition flats : list (bytes * bytes) :=
  [(bs "F_START", []); (bs "FLAT1", [x01; x02]); (bs "F_END", []); (bs "D_RUNNIN", [x00])].
Definition marker_lump (s : String.string) : list (bytes * bytes) := [(bs s, [])].

(** Music, a Doom map, a Hexen map with a REJECT lump, flats. *)
Definition full_wad : bare_wad := Eval vm_compute in
  wad_of IWAD (music ++ marker_lump "MAP01" ++ room_lumps ++ marker_lump "E1M2" ++ room_lumps
               ++ [(bs "REJECT", [x00]); (bs "BEHAVIOR", [])] ++ flats).
(** A map whose lumps end with the directory before SECTORS. *)
Definition cut_map_wad : bare_wad := Eval vm_compute in
  wad_of PWAD (marker_lump "MAP01" ++ firstn 3 room_lumps).
(** A broken map in the middle: LINEDEFS missing. *)
Definition broken_map_wad : bare_wad := Eval vm_compute in
  wad_of PWAD (music ++ marker_lump "MAP01" ++ [(bs "THINGS", []); (bs "SIDEDEFS", [])] ++ flats).
(** A UDMF map. *)
Definition udmf_wad : bare_wad := Eval vm_compute in
  wad_of PWAD (music ++ marker_lump "MAP01" ++ [(bs "TEXTMAP", []); (bs "ENDMAP", [])] ++ flats).
(** A WAD that parses although its only lump lies outside the buffer. *)
Definition far_lump_wad : bare_wad := Eval vm_compute in
  match parse_wad (encode_wad PWAD [] [mk_entry 1000 4 (bs "FAR")]) with
  | Ok w => w | _ => small_wad end.
(** A map whose VERTEXES lump lies outside the buffer. *)
Definition far_vertexes_wad : bare_wad := Eval vm_compute in
  match parse_wad (encode_wad PWAD [] [mk_entry 12 0 (bs "MAP01"); mk_entry 12 0 (bs "THINGS");
    mk_entry 12 0 (bs "LINEDEFS"); mk_entry 12 0 (bs "SIDEDEFS"); mk_entry 12 4000 (bs "VERTEXES");
    mk_entry 12 0 (bs "SECTORS")]) with
  | Ok w => w | _ => small_wad end.

(** A room with a thing at y = -32768, which has no negation. *)
Definition min_wad : bare_wad := Eval vm_compute in
  wad_of PWAD (marker_lump "MAP01"
    ++ [(bs "THINGS", write_doom_thing (mk_dthing 0 (-32768) 0 1 7))] ++ tl room_lumps).
(** The square room flipped. *)
Definition flipped_room : doom_map :=
  mk_bmap [mk_vertex 0 0; mk_vertex 64 0; mk_vertex 64 (-64); mk_vertex 0 (-64)] [sample_sector] room_sides
    [mk_dline 1 0 1 0 0 0 (-1); mk_dline 2 1 1 0 0 1 (-1); mk_dline 3 2 1 0 0 2 (-1); mk_dline 0 3 1 0 0 3 (-1)]
    [mk_dthing 32 (-32) (-90) 1 7].

(** A square room (sector 0) around a triangular pillar (sector 1), with a stray
    line inside the room. *)
Definition pillar_map : doom_map :=
  let sd n := mk_side 0 0 (bs "-") (bs "-") (bs "BRICK1") n in
  mk_bmap
    [mk_vertex 0 0; mk_vertex 256 0; mk_vertex 256 256; mk_vertex 0 256;
     mk_vertex 64 64; mk_vertex 128 64; mk_vertex 64 128]
    [sample_sector; sample_sector]
    [sd 0; sd 0; sd 0; sd 0; sd 0; sd 0; sd 0; sd 1; sd 1; sd 1; sd 0; sd 0]
    [mk_dline 0 1 1 0 0 0 (-1); mk_dline 1 2 1 0 0 1 (-1); mk_dline 3 2 1 0 0 2 (-1); mk_dline 3 0 1 0 0 3 (-1);
     mk_dline 4 5 4 0 0 7 4; mk_dline 5 6 4 0 0 5 8; mk_dline 6 4 4 0 0 6 9; mk_dline 0 4 4 0 0 10 11]
    [].

(** Two rooms with different floors and ceilings: a two-sided line, a one-sided
    line and a line without sides. *)
Definition step_map : doom_map :=
  mk_bmap [mk_vertex 0 0; mk_vertex 30 40]
    [mk_sector 0 128 (bs "FLAT1") (bs "CEIL1_1") 160 0 0; mk_sector 24 200 (bs "FLAT1") (bs "CEIL1_1") 160 0 0]
    [mk_side 0 0 (bs "UPF") (bs "LOWF") (bs "-") 0; mk_side 0 0 (bs "UPB") (bs "LOWB") (bs "GRATE") 1]
    [mk_dline 0 1 4 0 0 0 1; mk_dline 1 0 1 0 0 1 (-1); mk_dline 0 1 0 0 0 (-1) (-1)] [].
