(** Properties of the binary lumps: C05, C20-C23, C26, C27. *)

From Coq Require Import String List ZArith.
From Coq Require Import Strings.Byte.
From Verif Require Import Base Nom SpecBytes ParseMap ParseTexturex SpecLumps SpecTexturex
  LumpFacts LumpFacts2 TexturexFacts Samples PropsLumpsAux.
Import ListNotations.
Local Open Scope Z_scope.

(** C05 (texture names). *)
Theorem C05_side_names : forall buf rest rs s, sidedefs_lump buf = Done rest rs -> In s rs ->
  short_name (sd_upper s) /\ short_name (sd_lower s) /\ short_name (sd_middle s).
Proof. exact sides_names_short. Qed.
Print Assumptions C05_side_names.

Theorem C05_sector_names : forall buf rest rs s, sectors_lump buf = Done rest rs -> In s rs ->
  short_name (sc_floor_tex s) /\ short_name (sc_ceil_tex s).
Proof. exact sectors_names_short. Qed.
Print Assumptions C05_sector_names.

Theorem C05_texture_names : forall buf ts t, parse_texturex_names buf = Ok ts ->
  Z.of_nat (length buf) < 2 ^ 63 -> In t ts -> short_name (tx_name t).
Proof. exact parse_texturex_names_short. Qed.
Print Assumptions C05_texture_names.

(** C20. Fixed-size records: parsing never fails and yields every complete
    record. *)
Theorem C20_vertexes : forall buf, exists rest rs, vertexes_lump buf = Done rest rs
  /\ length rs = (length buf / 4)%nat
  /\ forall k r, nth_error rs k = Some r -> vertex_at buf (k * 4) r.
Proof. exact vertexes_fixed. Qed.
Print Assumptions C20_vertexes.

Theorem C20_doom_lines : forall buf, exists rest rs, doom_linedefs_lump buf = Done rest rs
  /\ length rs = (length buf / 14)%nat
  /\ forall k r, nth_error rs k = Some r -> doom_line_at buf (k * 14) r.
Proof. exact doom_lines_fixed. Qed.
Print Assumptions C20_doom_lines.

Theorem C20_hexen_lines : forall buf, exists rest rs, hexen_linedefs_lump buf = Done rest rs
  /\ length rs = (length buf / 16)%nat
  /\ forall k r, nth_error rs k = Some r -> hexen_line_at buf (k * 16) r.
Proof. exact hexen_lines_fixed. Qed.
Print Assumptions C20_hexen_lines.

Theorem C20_doom_things : forall buf, exists rest rs, doom_things_lump buf = Done rest rs
  /\ length rs = (length buf / 10)%nat
  /\ forall k r, nth_error rs k = Some r -> doom_thing_at buf (k * 10) r.
Proof. exact doom_things_fixed. Qed.
Print Assumptions C20_doom_things.

Theorem C20_hexen_things : forall buf, exists rest rs, hexen_things_lump buf = Done rest rs
  /\ length rs = (length buf / 20)%nat
  /\ forall k r, nth_error rs k = Some r -> hexen_thing_at buf (k * 20) r.
Proof. exact hexen_things_fixed. Qed.
Print Assumptions C20_hexen_things.

Example C20_example :
  vertexes_lump [x01; x00; xff; xff; x00; x80; x05; x00; x77]
  = Done [x77] [mk_vertex 1 (-1); mk_vertex (-32768) 5].
Proof. vm_compute. reflexivity. Qed.

(** C21. *)
Theorem C21_sidedefs : forall buf, exists rest rs,
  sidedefs_lump buf = Done rest rs /\ decodes 30 side_at buf rs.
Proof. exact sides_decode. Qed.
Print Assumptions C21_sidedefs.

Theorem C21_sectors : forall buf, exists rest rs,
  sectors_lump buf = Done rest rs /\ decodes 26 sector_at buf rs.
Proof. exact sectors_decode. Qed.
Print Assumptions C21_sectors.

Example C21_example : exists rest, sectors_lump bad_sectors_buf = Done rest [sample_sector].
Proof. eexists. vm_compute. reflexivity. Qed.

(** C22. *)
Theorem C22_write_parse_things : forall rs, Forall thing_valid rs ->
  doom_things_lump (flat_map write_doom_thing rs) = Done [] rs.
Proof. exact doom_things_write. Qed.
Print Assumptions C22_write_parse_things.

Theorem C22_write_parse_lines : forall rs, Forall line_valid rs ->
  doom_linedefs_lump (flat_map write_doom_line rs) = Done [] rs.
Proof. exact doom_lines_write. Qed.
Print Assumptions C22_write_parse_lines.

Theorem C22_write_parse_vertexes : forall rs, Forall vertex_valid rs ->
  vertexes_lump (flat_map write_vertex rs) = Done [] rs.
Proof. exact vertexes_write. Qed.
Print Assumptions C22_write_parse_vertexes.

Theorem C22_write_parse_sides : forall rs, Forall side_valid rs ->
  sidedefs_lump (flat_map write_side rs) = Done [] rs.
Proof. exact sides_write. Qed.
Print Assumptions C22_write_parse_sides.

Theorem C22_write_parse_sectors : forall rs, Forall sector_valid rs ->
  sectors_lump (flat_map write_sector rs) = Done [] rs.
Proof. exact sectors_write. Qed.
Print Assumptions C22_write_parse_sectors.

Example C22_example :
  thing_valid sample_thing /\ line_valid sample_line /\ vertex_valid sample_vertex
  /\ side_valid sample_side /\ sector_valid sample_sector.
Proof. exact samples_valid. Qed.

(** C23. *)
Theorem C23_parse_write_things : forall buf rest rs, doom_things_lump buf = Done rest rs ->
  flat_map write_doom_thing rs = firstn (length buf / 10 * 10) buf.
Proof. exact doom_things_rewrite. Qed.
Print Assumptions C23_parse_write_things.

Theorem C23_parse_write_lines : forall buf rest rs, doom_linedefs_lump buf = Done rest rs ->
  flat_map write_doom_line rs = firstn (length buf / 14 * 14) buf.
Proof. exact doom_lines_rewrite. Qed.
Print Assumptions C23_parse_write_lines.

Theorem C23_parse_write_vertexes : forall buf rest rs, vertexes_lump buf = Done rest rs ->
  flat_map write_vertex rs = firstn (length buf / 4 * 4) buf.
Proof. exact vertexes_rewrite. Qed.
Print Assumptions C23_parse_write_vertexes.

Theorem C23_parse_write_sides : forall buf rest rs, sidedefs_lump buf = Done rest rs ->
  length (flat_map write_side rs) = (length rs * 30)%nat
  /\ forall k, (k < length rs)%nat ->
     side_canon (sub buf (k * 30) 30) (sub (flat_map write_side rs) (k * 30) 30).
Proof. exact sides_rewrite. Qed.
Print Assumptions C23_parse_write_sides.

Theorem C23_parse_write_sectors : forall buf rest rs, sectors_lump buf = Done rest rs ->
  length (flat_map write_sector rs) = (length rs * 26)%nat
  /\ forall k, (k < length rs)%nat ->
     sector_canon (sub buf (k * 26) 26) (sub (flat_map write_sector rs) (k * 26) 26).
Proof. exact sectors_rewrite. Qed.
Print Assumptions C23_parse_write_sectors.

Example C23_example : exists rest rs,
  sidedefs_lump (write_side sample_side ++ [x01]) = Done rest rs /\ length rs = 1%nat.
Proof. do 2 eexists. vm_compute. split; reflexivity. Qed.

(** C26. *)
Theorem C26_texturex_exact : forall buf ts, Z.of_nat (length buf) < 2 ^ 63 ->
  parse_texturex_names buf = Ok ts <->
  tex_header buf /\ length ts = tex_count buf
  /\ forall k t, nth_error ts k = Some t ->
       0 <= tex_offset buf k /\ tex_offset buf k + 22 <= Z.of_nat (length buf)
       /\ tex_at buf (Z.to_nat (tex_offset buf k)) t.
Proof. exact parse_texturex_ok_iff. Qed.
Print Assumptions C26_texturex_exact.

Theorem C26_negative_offset : forall buf i v, Z.of_nat (length buf) < 2 ^ 63 ->
  parse_texturex_names buf = Err (NegativeOffset "TEXTUREx" i v) <->
  tex_header buf /\ first_unreadable buf i /\ tex_offset buf i = v /\ v < 0.
Proof. exact parse_texturex_negative. Qed.
Print Assumptions C26_negative_offset.

Example C26_example :
  parse_texturex_names tex_buf = Ok [mk_tex (bs "STEPTOP") 128 16; mk_tex (bs "BRICK1") 64 128]
  /\ parse_texturex_names tex_neg_buf = Err (NegativeOffset "TEXTUREx" 0 (-1)).
Proof. vm_compute. auto. Qed.

(** C27: an offset past the end panics. *)
Theorem C27_no_panic_refuted : exists buf p, parse_texturex_names buf = Panic p.
Proof. exists tex_far_buf, PSlice. vm_compute. reflexivity. Qed.
Print Assumptions C27_no_panic_refuted.

(** When exactly it panics. *)
Theorem C27_panics_iff : forall buf p, Z.of_nat (length buf) < 2 ^ 63 ->
  parse_texturex_names buf = Panic p <->
  p = PSlice /\ tex_header buf
  /\ exists i, first_unreadable buf i /\ Z.of_nat (length buf) < tex_offset buf i.
Proof. exact parse_texturex_panic. Qed.
Print Assumptions C27_panics_iff.
