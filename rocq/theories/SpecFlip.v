(** Specification of the flip command. *)

From Coq Require Import String List ZArith.
From Coq Require Import Strings.Byte.
From Verif Require Import Base SpecBytes ParseWad ArchiveWad ParseMap SpecLumps SpecArchive.
Import ListNotations.
Local Open Scope Z_scope.

(** The directory of lumps (name, data) written one after the other from
    position [pos]. *)
Fixpoint lay_out (pos : Z) (lumps : list (list byte * list byte)) : list dir_entry :=
  match lumps with
  | [] => []
  | (nm, d) :: rest =>
      mk_entry pos (Z.of_nat (length d)) nm :: lay_out (pos + Z.of_nat (length d)) rest
  end.

(** [ms] are the Doom-format maps among the blocks [rs], in order, with the
    names of their markers; all blocks can be read. *)
Inductive doom_maps_of (w : bare_wad) : list map_block -> list (list byte * doom_map) -> Prop :=
| dmo_nil : doom_maps_of w [] []
| dmo_doom : forall r rs m e ms,
    parse_doom_map w r = Ok (BMDoom m) -> nth_error (directory w) (marker_index r) = Some e ->
    doom_maps_of w rs ms -> doom_maps_of w (r :: rs) ((name e, m) :: ms)
| dmo_hexen : forall r rs m ms,
    parse_doom_map w r = Ok (BMHexen m) -> doom_maps_of w rs ms -> doom_maps_of w (r :: rs) ms.

(** Reading every map of the WAD gives [ms]. *)
Definition reads_as (w : bare_wad) (ms : list (list byte * doom_map)) : Prop :=
  doom_maps_of w (iter_maps w) ms.

(** [b] is the 16-bit negation of [a] (so -32768 for -32768). *)
Definition negated (a b : Z) : Prop := is_i16 b /\ (a + b) mod 2 ^ 16 = 0.

Definition flipped_thing (a b : doom_thing) : Prop :=
  dt_x b = dt_x a /\ negated (dt_y a) (dt_y b) /\ negated (dt_angle a) (dt_angle b)
  /\ dt_num b = dt_num a /\ dt_flags b = dt_flags a.
Definition flipped_line (a b : doom_line) : Prop :=
  dl_v0 b = dl_v1 a /\ dl_v1 b = dl_v0 a /\ dl_flags b = dl_flags a /\ dl_special b = dl_special a
  /\ dl_tag b = dl_tag a /\ dl_front b = dl_front a /\ dl_back b = dl_back a.
Definition flipped_vertex (a b : bare_vertex) : Prop := vx b = vx a /\ negated (vy a) (vy b).
Definition flipped_map (a b : doom_map) : Prop :=
  Forall2 flipped_thing (m_things a) (m_things b)
  /\ Forall2 flipped_line (m_lines a) (m_lines b)
  /\ m_sides b = m_sides a
  /\ Forall2 flipped_vertex (m_vertices a) (m_vertices b)
  /\ m_sectors b = m_sectors a.
Definition flipped_named (a b : list byte * doom_map) : Prop :=
  fst b = fst a /\ flipped_map (snd a) (snd b).

(** A value that has no 16-bit negation. *)
Definition has_minimum (m : doom_map) : Prop :=
  (exists t, In t (m_things m) /\ (dt_y t = - 2 ^ 15 \/ dt_angle t = - 2 ^ 15))
  \/ exists v, In v (m_vertices m) /\ vy v = - 2 ^ 15.

(** The names of the entries written for one map. *)
Definition map_entry_names (nm : list byte) : list (list byte) :=
  [nm; lump_name THINGS; lump_name LINEDEFS; lump_name SIDEDEFS; lump_name VERTEXES; lump_name SECTORS].

(** The block [r] can be flipped. *)
Definition can_flip (mode : build) (w : bare_wad) (r : map_block) : Prop :=
  exists bm, parse_doom_map w r = Ok bm
    /\ forall m, bm = BMDoom m -> mode = Checked -> ~ has_minimum m.

(** [r] is the first block that cannot be flipped. *)
Definition first_unflippable (mode : build) (w : bare_wad) (r : map_block) : Prop :=
  (exists pre post, iter_maps w = pre ++ r :: post /\ forall q, In q pre -> can_flip mode w q)
  /\ ~ can_flip mode w r.
