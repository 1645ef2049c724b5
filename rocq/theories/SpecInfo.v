(** Specification vocabulary for the info command. *)

From Coq Require Import String List ZArith Sorted Permutation.
From Coq Require Import Strings.Byte.
From Verif Require Import SpecBytes Base ParseWad ArchiveWad ParseMap ParseTexturex SpecMapName SpecArchive SpecLumps SpecMap Universe Info.
Import ListNotations.
Local Open Scope Z_scope.

Definition info_header (w : bare_wad) : list text :=
  [TType (identification (header w)); THeader (identification (header w)) (numlumps (header w)) (infotableofs (header w))].

(** What is printed about an item. *)
Inductive item_lines (w : bare_wad) : wad_item -> list text -> Prop :=
| il_doom : forall b m, map_decoded w b (BMDoom m) -> item_lines w (WMap b) [TBlank; TMap (b_name b) Doom]
| il_hexen : forall b m, map_decoded w b (BMHexen m) -> item_lines w (WMap b) [TMap (b_name b) Hexen]
| il_start : forall i e, item_lines w (WStart i e) []
| il_end : forall i e, item_lines w (WEnd i e) []
| il_entry : forall i e, item_lines w (WEntry i e) [TLump (name e)].

(** The entries between F_START and F_END, in order. *)
Definition flats_at (w : bare_wad) (ks : list nat) : Prop :=
  StronglySorted lt ks /\ forall k, In k ks <-> inside (directory w) (bs "F_START") (bs "F_END") k.
Definition flat_line (w : bare_wad) (k : nat) (t : text) : Prop :=
  exists e, nth_error (directory w) k = Some e /\ in_bounds (buffer w) e /\ t = TName (name e).

(** The first lump with that name is outside the file. *)
Definition lump_outside (w : bare_wad) (nm : list byte) : Prop :=
  exists k e, first_named (directory w) nm k /\ nth_error (directory w) k = Some e /\ ~ in_bounds (buffer w) e.
(** [d] is the data of the first lump with that name. *)
Definition lump_is (w : bare_wad) (nm d : list byte) : Prop :=
  exists k e, first_named (directory w) nm k /\ nth_error (directory w) k = Some e /\ entry_data (buffer w) e d.
Definition no_lump (w : bare_wad) (nm : list byte) : Prop := forall k, ~ named (directory w) k nm.

Definition textures_inside (w : bare_wad) : Prop :=
  ~ lump_outside w (bs "TEXTURE1") /\ ~ lump_outside w (bs "TEXTURE2").
(** TEXTURE1, or if there is none TEXTURE2. *)
Definition texture_lump (w : bare_wad) (d : list byte) : Prop :=
  lump_is w (bs "TEXTURE1") d \/ (no_lump w (bs "TEXTURE1") /\ lump_is w (bs "TEXTURE2") d).

(** The names of [ts] that Doom 2 does not have, each once, in any order. *)
Definition new_textures (ts : list tex_entry) (nms : list (list byte)) : Prop :=
  NoDup nms /\ forall nm, In nm nms <-> ((exists t, In t ts /\ tx_name t = nm) /\ ~ In nm DOOM2_TEXTURES).

(** What the command prints and how it ends. *)
Inductive info_run (w : bare_wad) : list text -> outcome unit -> Prop :=
| ir_outside : forall x, In x (iter w) -> ~ item_in_bounds w x -> info_run w (info_header w) (Panic PSlice)
| ir_missing : forall xs b ys ls f, (forall x, In x (iter w) -> item_in_bounds w x) ->
    iter w = xs ++ WMap b :: ys -> Forall2 (item_lines w) xs ls -> first_unreadable_lump w b f ->
    info_run w (info_header w ++ concat ls) (Err (MissingMapLump (lump_string f)))
| ir_flat : forall ls ks k ks' e fs, (forall x, In x (iter w) -> item_in_bounds w x) ->
    Forall2 (item_lines w) (iter w) ls -> flats_at w (ks ++ k :: ks') -> Forall2 (flat_line w) ks fs ->
    nth_error (directory w) k = Some e -> ~ in_bounds (buffer w) e ->
    info_run w (info_header w ++ concat ls ++ fs) (Panic PSlice)
| ir_texture_outside : forall ls ks fs, (forall x, In x (iter w) -> item_in_bounds w x) ->
    Forall2 (item_lines w) (iter w) ls -> flats_at w ks -> Forall2 (flat_line w) ks fs ->
    ~ textures_inside w -> info_run w (info_header w ++ concat ls ++ fs ++ [TRule]) (Panic PSlice)
| ir_texture_error : forall ls ks fs d e, (forall x, In x (iter w) -> item_in_bounds w x) ->
    Forall2 (item_lines w) (iter w) ls -> flats_at w ks -> Forall2 (flat_line w) ks fs ->
    textures_inside w -> texture_lump w d -> parse_texturex_names d = Err e ->
    info_run w (info_header w ++ concat ls ++ fs ++ [TRule]) (Err e)
| ir_texture_panic : forall ls ks fs d p, (forall x, In x (iter w) -> item_in_bounds w x) ->
    Forall2 (item_lines w) (iter w) ls -> flats_at w ks -> Forall2 (flat_line w) ks fs ->
    textures_inside w -> texture_lump w d -> parse_texturex_names d = Panic p ->
    info_run w (info_header w ++ concat ls ++ fs ++ [TRule]) (Panic p)
| ir_done : forall ls ks fs ts nms, (forall x, In x (iter w) -> item_in_bounds w x) ->
    Forall2 (item_lines w) (iter w) ls -> flats_at w ks -> Forall2 (flat_line w) ks fs ->
    textures_inside w ->
    ((exists d, texture_lump w d /\ parse_texturex_names d = Ok ts)
     \/ (no_lump w (bs "TEXTURE1") /\ no_lump w (bs "TEXTURE2") /\ ts = [])) ->
    new_textures ts nms ->
    info_run w (info_header w ++ concat ls ++ fs ++ TRule :: map TName nms) (Ok tt).

(** Every texture of the WAD that Doom 2 does not have is listed. *)
Definition lists_new (w : bare_wad) (o : list text) : Prop :=
  forall nm d ts t, nm = bs "TEXTURE1" \/ nm = bs "TEXTURE2" -> lump_is w nm d -> parse_texturex_names d = Ok ts ->
    In t ts -> ~ In (tx_name t) DOOM2_TEXTURES -> In (TName (tx_name t)) o.
