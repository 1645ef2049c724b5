(** WADs for the examples of the info command. *)

From Coq Require Import String List ZArith.
From Coq Require Import Strings.Byte.
From Verif Require Import Base ParseWad SpecBytes SpecWad SpecLumps Samples.
Import ListNotations.
Local Open Scope Z_scope.

(** A TEXTUREx lump with a new texture, given twice, and a stock texture. *)
Definition textures (own : String.string) : bytes :=
  put32 3 ++ put32 16 ++ put32 38 ++ put32 16 ++ tex_record (bs own) 64 128 ++ tex_record (bs "BRICK1") 64 64.

(** Music, a Doom map, a Hexen map, flats and textures. *)
Definition info_wad : bare_wad := Eval vm_compute in
  wad_of IWAD (music ++ marker_lump "MAP01" ++ room_lumps ++ marker_lump "E1M2" ++ room_lumps
               ++ [(bs "REJECT", [x00]); (bs "BEHAVIOR", [])] ++ flats ++ [(bs "TEXTURE2", textures "MYWALL")]).
(** Both texture lumps. *)
Definition two_textures_wad : bare_wad := Eval vm_compute in
  wad_of PWAD [(bs "TEXTURE1", textures "MYWALL"); (bs "TEXTURE2", textures "MYDOOR")].
(** TEXTURE2 is outside the file, after an incomplete map. *)
Definition far_texture_wad : bare_wad := Eval vm_compute in
  match parse_wad (encode_wad PWAD (textures "MYWALL") [mk_entry 12 60 (bs "TEXTURE1"); mk_entry 12 0 (bs "MAP01"); mk_entry 12 0 (bs "THINGS");
    mk_entry 12 0 (bs "F_START"); mk_entry 12 2 (bs "FLAT1"); mk_entry 12 0 (bs "F_END"); mk_entry 1000 4 (bs "TEXTURE2")]) with
  | Ok w => w | _ => small_wad end.
