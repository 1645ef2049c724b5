(** Specification of reading one map. *)

From Coq Require Import String List ZArith.
From Coq Require Import Strings.Byte.
From Verif Require Import SpecBytes ParseWad ArchiveWad ParseMap SpecLumps SpecArchive.
Import ListNotations.

(** [d] is the data of the map's lump [f]. *)
Definition lump_data (w : bare_wad) (b : map_block) (f : lump) (d : list byte) : Prop :=
  exists k e, lump_index f b = Some k /\ nth_error (directory w) k = Some e
    /\ entry_data (buffer w) e d.

(** The five lumps that make up a map, in the order they are read. *)
Definition reading_order : list lump := [VERTEXES; SECTORS; SIDEDEFS; LINEDEFS; THINGS].

(** [f] is the first lump that cannot be read. *)
Definition first_unreadable_lump (w : bare_wad) (b : map_block) (f : lump) : Prop :=
  (exists pre post, reading_order = pre ++ f :: post
     /\ forall g, In g pre -> exists d, lump_data w b g d)
  /\ forall d, ~ lump_data w b f d.

(** [bm] is the decoding of the map's lumps. *)
Definition map_decoded (w : bare_wad) (b : map_block) (bm : bare_map) : Prop :=
  exists dv ds dd dl dt,
    lump_data w b VERTEXES dv /\ lump_data w b SECTORS ds /\ lump_data w b SIDEDEFS dd
    /\ lump_data w b LINEDEFS dl /\ lump_data w b THINGS dt
    /\ match bm with
       | BMDoom m =>
           b_format b = Doom
           /\ decodes 4 vertex_at dv (m_vertices m) /\ decodes 26 sector_at ds (m_sectors m)
           /\ decodes 30 side_at dd (m_sides m) /\ decodes 14 doom_line_at dl (m_lines m)
           /\ decodes 10 doom_thing_at dt (m_things m)
       | BMHexen m =>
           b_format b <> Doom
           /\ decodes 4 vertex_at dv (m_vertices m) /\ decodes 26 sector_at ds (m_sectors m)
           /\ decodes 30 side_at dd (m_sides m) /\ decodes 16 hexen_line_at dl (m_lines m)
           /\ decodes 20 hexen_thing_at dt (m_things m)
       end.
