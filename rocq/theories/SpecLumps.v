(** Specification of the binary map lumps, by byte offsets. *)

From Coq Require Import List ZArith.
From Coq Require Import Strings.Byte.
From Verif Require Import SpecBytes ParseMap ParseTexturex.
Import ListNotations.
Local Open Scope Z_scope.

(** Record layouts: [xxx_at buf off r] says the record at offset [off] is
    [r]. *)
Definition doom_thing_at (buf : list byte) (o : nat) (t : doom_thing) : Prop :=
  t = mk_dthing (i16_at buf o) (i16_at buf (o + 2)) (i16_at buf (o + 4))
                (i16_at buf (o + 6)) (u16_at buf (o + 8)).
Definition hexen_thing_at (buf : list byte) (o : nat) (t : hexen_thing) : Prop :=
  t = mk_hthing (i16_at buf o) (i16_at buf (o + 2)) (i16_at buf (o + 4)) (i16_at buf (o + 6))
                (i16_at buf (o + 8)) (i16_at buf (o + 10)) (u16_at buf (o + 12))
                (u8_at buf (o + 14))
                [u8_at buf (o + 15); u8_at buf (o + 16); u8_at buf (o + 17);
                 u8_at buf (o + 18); u8_at buf (o + 19)].
Definition doom_line_at (buf : list byte) (o : nat) (l : doom_line) : Prop :=
  l = mk_dline (i16_at buf o) (i16_at buf (o + 2)) (i16_at buf (o + 4)) (i16_at buf (o + 6))
               (i16_at buf (o + 8)) (i16_at buf (o + 10)) (i16_at buf (o + 12)).
Definition hexen_line_at (buf : list byte) (o : nat) (l : hexen_line) : Prop :=
  l = mk_hline (i16_at buf o) (i16_at buf (o + 2)) (i16_at buf (o + 4)) (u8_at buf (o + 6))
               [u8_at buf (o + 7); u8_at buf (o + 8); u8_at buf (o + 9);
                u8_at buf (o + 10); u8_at buf (o + 11)]
               (i16_at buf (o + 12)) (i16_at buf (o + 14)).
Definition vertex_at (buf : list byte) (o : nat) (v : bare_vertex) : Prop :=
  v = mk_vertex (i16_at buf o) (i16_at buf (o + 2)).
Definition side_at (buf : list byte) (o : nat) (s : bare_side) : Prop :=
  sd_x s = i16_at buf o
  /\ sd_y s = i16_at buf (o + 2)
  /\ name_field (sub buf (o + 4) 8) (sd_upper s)
  /\ name_field (sub buf (o + 12) 8) (sd_lower s)
  /\ name_field (sub buf (o + 20) 8) (sd_middle s)
  /\ sd_sector s = i16_at buf (o + 28).
Definition sector_at (buf : list byte) (o : nat) (s : bare_sector) : Prop :=
  sc_floor s = i16_at buf o
  /\ sc_ceil s = i16_at buf (o + 2)
  /\ name_field (sub buf (o + 4) 8) (sc_floor_tex s)
  /\ name_field (sub buf (o + 12) 8) (sc_ceil_tex s)
  /\ sc_light s = i16_at buf (o + 20)
  /\ sc_type s = i16_at buf (o + 22)
  /\ sc_tag s = i16_at buf (o + 24).
Definition tex_at (buf : list byte) (o : nat) (t : tex_entry) : Prop :=
  name_field (sub buf o 8) (tx_name t)
  /\ tx_width t = i16_at buf (o + 12)
  /\ tx_height t = i16_at buf (o + 14).

(** [rs] are the records of size [n] at the start of [buf], up to (and not
    including) the first place where there is no complete valid record. *)
Definition decodes {A} (n : nat) (rec : list byte -> nat -> A -> Prop)
    (buf : list byte) (rs : list A) : Prop :=
  (forall k r, nth_error rs k = Some r ->
     ((k + 1) * n <= length buf)%nat /\ rec buf (k * n)%nat r)
  /\ (((length rs + 1) * n <= length buf)%nat -> forall r, ~ rec buf (length rs * n)%nat r).

(** In-range records: values that fit their fields. *)
Definition is_i16 (z : Z) : Prop := - 2 ^ 15 <= z < 2 ^ 15.
Definition is_u16 (z : Z) : Prop := 0 <= z < 2 ^ 16.
Definition thing_valid (t : doom_thing) : Prop :=
  is_i16 (dt_x t) /\ is_i16 (dt_y t) /\ is_i16 (dt_angle t) /\ is_i16 (dt_num t) /\ is_u16 (dt_flags t).
Definition line_valid (l : doom_line) : Prop :=
  is_i16 (dl_v0 l) /\ is_i16 (dl_v1 l) /\ is_i16 (dl_flags l) /\ is_i16 (dl_special l)
  /\ is_i16 (dl_tag l) /\ is_i16 (dl_front l) /\ is_i16 (dl_back l).
Definition vertex_valid (v : bare_vertex) : Prop := is_i16 (vx v) /\ is_i16 (vy v).
Definition side_valid (s : bare_side) : Prop :=
  is_i16 (sd_x s) /\ is_i16 (sd_y s) /\ short_name (sd_upper s) /\ short_name (sd_lower s)
  /\ short_name (sd_middle s) /\ is_i16 (sd_sector s).
Definition sector_valid (s : bare_sector) : Prop :=
  is_i16 (sc_floor s) /\ is_i16 (sc_ceil s) /\ short_name (sc_floor_tex s)
  /\ short_name (sc_ceil_tex s) /\ is_i16 (sc_light s) /\ is_i16 (sc_type s) /\ is_i16 (sc_tag s).

(** A whole map of in-range records. *)
Definition map_valid (m : doom_map) : Prop :=
  Forall thing_valid (m_things m) /\ Forall line_valid (m_lines m) /\ Forall side_valid (m_sides m)
  /\ Forall vertex_valid (m_vertices m) /\ Forall sector_valid (m_sectors m).

(** [g] is the name field [f] with everything after the NUL zeroed. *)
Definition name_canon (f g : list byte) : Prop := exists nm, name_field f nm /\ g = padded nm.

(** The 30 bytes [o] are the side record [b] up to bytes after the names' NULs;
    same for the 26 bytes of a sector. *)
Definition side_canon (b o : list byte) : Prop :=
  sub o 0 4 = sub b 0 4
  /\ name_canon (sub b 4 8) (sub o 4 8)
  /\ name_canon (sub b 12 8) (sub o 12 8)
  /\ name_canon (sub b 20 8) (sub o 20 8)
  /\ sub o 28 2 = sub b 28 2.
Definition sector_canon (b o : list byte) : Prop :=
  sub o 0 4 = sub b 0 4
  /\ name_canon (sub b 4 8) (sub o 4 8)
  /\ name_canon (sub b 12 8) (sub o 12 8)
  /\ sub o 20 6 = sub b 20 6.
