(** src/parse/texturex.rs. *)

From Coq Require Import String List ZArith Bool.
From Coq Require Import Strings.Byte.
From Verif Require Import Base Nom.
Import ListNotations.
Local Open Scope Z_scope.

(** src/parse/texturex.rs 10-14. *)
Record tex_entry := mk_tex { tx_name : bytes; tx_width : Z; tx_height : Z }.

(** src/parse/texturex.rs 16-20; [numtextures as usize] sign-extends. *)
Definition texturex_lump_header : parser (list Z) :=
  do n <- le_i32;;
  do offsets <- count nom_verbose le_i32 (as_usize n);;
  pret offsets.

(** src/parse/texturex.rs 22-36. *)
Definition texturex_lump_entry : parser tex_entry :=
  do nm <- fixed_length_ascii 8;;
  do _ <- le_i32;;
  do width <- le_i16;;
  do height <- le_i16;;
  do _ <- le_i32;;
  do _ <- le_i16;;
  pret (mk_tex nm width height).

(** src/parse/texturex.rs 41-47: one loop iteration. *)
Definition read_texture (buf : bytes) (io : nat * Z) : outcome tex_entry :=
  let '(i, offset) := io in
  if offset <? 0 then Err (NegativeOffset "TEXTUREx" i offset)
  else
    let* from := slice_from buf offset in
    nom_to_result "TEXTUREx" buf (texturex_lump_entry from).

(** src/parse/texturex.rs 38-49: [parse_texturex_names]. *)
Definition parse_texturex_names (buf : bytes) : outcome (list tex_entry) :=
  let* offsets := nom_to_result "TEXTUREx header" buf (texturex_lump_header buf) in
  omap (read_texture buf) (enumerate offsets).
