(** programs/src/idchoppers.rs 512-603: the flip command. *)

From Coq Require Import String List ZArith Bool.
From Coq Require Import Strings.Byte.
From Verif Require Import Base Nom ParseWad ArchiveWad ParseMap.
Import ListNotations.
Local Open Scope Z_scope.

(** The loop state: [buffer], [directory]; [filepos] always equals
    [buffer.len()] at the points where it is read as a lump start, but is kept
    as the separate variable it is in the code (515). *)
Record flip_state := mk_flip {
  fl_buffer : bytes;
  fl_directory : list dir_entry;
  fl_filepos : Z }.

(** 531-536 and the four similar blocks: append an entry describing what was
    written since [filepos], then advance [filepos]. *)
Definition finish_lump (nm : bytes) (s : flip_state) : flip_state :=
  let '(mk_flip buf dir fp) := s in
  mk_flip buf
    (dir ++ [mk_entry (wrap_u32 (fp + 12)) (wrap_u32 (zlen buf - fp)) nm])
    (zlen buf).

Definition append_bytes (b : bytes) (s : flip_state) : flip_state :=
  let '(mk_flip buf dir fp) := s in mk_flip (buf ++ b) dir fp.

(** 526-530: one thing. *)
Definition flip_thing (mode : build) (t : doom_thing) : outcome doom_thing :=
  let* y := neg_i16 mode (dt_y t) in
  let* angle := neg_i16 mode (dt_angle t) in
  Ok (mk_dthing (dt_x t) y angle (dt_num t) (dt_flags t)).

(** 539-540: one line. *)
Definition flip_line (l : doom_line) : doom_line :=
  mk_dline (dl_v1 l) (dl_v0 l) (dl_flags l) (dl_special l) (dl_tag l)
           (dl_front l) (dl_back l).

(** 562-563: one vertex. *)
Definition flip_vertex (mode : build) (v : bare_vertex) : outcome bare_vertex :=
  let* y := neg_i16 mode (vy v) in
  Ok (mk_vertex (vx v) y).

(** 518-585: the body for one Doom-format map with marker name [nm]. *)
Definition flip_map (mode : build) (nm : bytes) (m : doom_map) (s : flip_state)
  : outcome flip_state :=
  let s := mk_flip (fl_buffer s)
             (fl_directory s ++ [mk_entry (wrap_u32 (fl_filepos s + 12)) 0 nm])
             (fl_filepos s) in
  let* things := omap (flip_thing mode) (m_things m) in
  let s := finish_lump (bs "THINGS") (append_bytes (flat_map write_doom_thing things) s) in
  let lines := map flip_line (m_lines m) in
  let s := finish_lump (bs "LINEDEFS") (append_bytes (flat_map write_doom_line lines) s) in
  let s := finish_lump (bs "SIDEDEFS") (append_bytes (flat_map write_side (m_sides m)) s) in
  let* vertices := omap (flip_vertex mode) (m_vertices m) in
  let s := finish_lump (bs "VERTEXES") (append_bytes (flat_map write_vertex vertices) s) in
  let s := finish_lump (bs "SECTORS") (append_bytes (flat_map write_sector (m_sectors m)) s) in
  Ok s.

(** 516-586: one map range; Hexen maps are skipped. *)
Definition flip_range (mode : build) (w : bare_wad) (s : flip_state) (r : map_block)
  : outcome flip_state :=
  let* bm := parse_doom_map w r in
  match bm with
  | BMDoom m =>
      let* e := index_nat (directory w) (marker_index r) in
      flip_map mode (name e) m s
  | BMHexen _ => Ok s
  end.

(** 593-600: one directory entry in the output file. *)
Definition write_dir_entry (e : dir_entry) : bytes :=
  put32 (filepos e) ++ put32 (size e) ++ put_name (name e).

(** 512-603: [do_flip]; the result is the content of flipped.wad. File I/O is
    assumed to succeed and [write] to write everything. *)
Definition do_flip (mode : build) (w : bare_wad) : outcome bytes :=
  let* s := ofold (flip_range mode w) (iter_maps w) (mk_flip [] [] 0) in
  Ok (bs "PWAD"
      ++ put32 (wrap_u32 (zlen (fl_directory s)))
      ++ put32 (wrap_u32 (12 + zlen (fl_buffer s)))
      ++ fl_buffer s
      ++ flat_map write_dir_entry (fl_directory s)).
