(** src/parse/wad.rs and src/parse/mod.rs: WAD header and directory, map
    names. *)

From Coq Require Import String List ZArith Bool.
From Coq Require Import Strings.Byte.
From Verif Require Import Base Nom.
Import ListNotations.
Local Open Scope Z_scope.

(** src/archive/wad.rs 12-17: [WADType]. *)
Inductive wad_type := IWAD | PWAD.

(** src/archive/wad.rs 284-288: [BareWADHeader]. *)
Record wad_header := mk_header {
  identification : wad_type;
  numlumps : Z;
  infotableofs : Z
}.

(** src/archive/wad.rs 291-295: [BareWADDirectoryEntry]. *)
Record dir_entry := mk_entry {
  filepos : Z;
  size : Z;
  name : bytes
}.

(** src/archive/wad.rs 176-180: [BareWAD]. *)
Record bare_wad := mk_wad {
  buffer : bytes;
  header : wad_header;
  directory : list dir_entry
}.

(** src/parse/wad.rs 10-11. *)
Definition iwad_tag : parser wad_type := pvalue IWAD (tag (bs "IWAD")).
Definition pwad_tag : parser wad_type := pvalue PWAD (tag (bs "PWAD")).

(** src/parse/wad.rs 13-20: [wad_header]; [verbose] is nom's feature flag. *)
Definition p_wad_header (verbose : bool) : parser wad_header :=
  do ident <- return_error verbose (KCustom 1) (alt2 iwad_tag pwad_tag);;
  do n <- le_u32;;
  do ofs <- le_u32;;
  pret (mk_header ident n ofs).

(** src/parse/wad.rs 23-28: [wad_entry] ([dbg_dmp!] only prints). *)
Definition p_wad_entry : parser dir_entry :=
  do fp <- le_u32;;
  do sz <- le_u32;;
  do nm <- fixed_length_ascii 8;;
  pret (mk_entry fp sz nm).

(** src/parse/wad.rs 40-46: the [for _ in 0..lumpct] loop; [try_parse!] returns
    a failing result at once. *)
Fixpoint p_entries (n : nat) (i : bytes) : iresult (list dir_entry) :=
  match n with
  | O => Done i []
  | S n' =>
      match p_wad_entry i with
      | Done r e =>
          match p_entries n' r with
          | Done r' es => Done r' (e :: es)
          | x => x
          end
      | Incomplete m => Incomplete m
      | NError c => NError c
      | NFailure c => NFailure c
      end
  end.

(** src/parse/wad.rs 30-47: [wad_directory]. The products and sums are below
    2^37, so they cannot overflow a 64-bit usize. *)
Definition p_wad_directory (buf : bytes) (h : wad_header)
  : outcome (iresult (list dir_entry)) :=
  let lumpct := numlumps h in
  let offset := infotableofs h in
  let tablelen := lumpct * 16 in
  if zlen buf <? offset + tablelen then Ok (Incomplete tablelen)
  else
    let* from := slice_from buf offset in
    Ok (p_entries (Z.to_nat lumpct) from).

(** src/parse/wad.rs 59-65: [parse_wad]. *)
Definition parse_wad_with (verbose : bool) (buf : bytes) : outcome bare_wad :=
  let* h := nom_to_result "wad header" buf (p_wad_header verbose buf) in
  let* r := p_wad_directory buf h in
  let* entries := nom_to_result "wad index" buf r in
  Ok (mk_wad buf h entries).
Definition parse_wad (buf : bytes) : outcome bare_wad := parse_wad_with nom_verbose buf.

(** ** Map names (src/parse/mod.rs 18-43) *)

(** src/map.rs 17-22: [MapName]. *)
Inductive map_name := ExMy (x y : Z) | MAPxx (x : Z).

Definition is_digit (z : Z) : bool := (48 <=? z) && (z <=? 57).

(** src/parse/mod.rs 18-25. *)
Definition exmy_map_name : parser map_name :=
  do _ <- tag (bs "E");;
  do e <- verify le_u8 is_digit;;
  do _ <- tag (bs "M");;
  do m <- verify le_u8 is_digit;;
  do _ <- naive_eof;;
  pret (ExMy (e - 48) (m - 48)).

(** [str::from_utf8] on exactly two bytes: both ASCII, or one two-byte
    sequence. *)
Definition utf8_2 (s : bytes) : option bytes :=
  match s with
  | [a; b] =>
      if ((zb a <? 128) && (zb b <? 128))
         || ((194 <=? zb a) && (zb a <=? 223) && (128 <=? zb b) && (zb b <=? 191))
      then Some s else None
  | _ => None
  end.

(** [u8::from_str] (core::num::from_str_radix, radix 10, unsigned): one leading
    '+' is accepted; the rest must be non-empty digits; overflow fails. *)
Fixpoint dec_digits (s : bytes) (acc : Z) : option Z :=
  match s with
  | [] => Some acc
  | b :: s' =>
      if is_digit (zb b) then
        let acc' := acc * 10 + (zb b - 48) in
        if acc' <=? 255 then dec_digits s' acc' else None
      else None
  end.
Definition u8_from_str (s : bytes) : option Z :=
  let digits := match s with b :: s' => if zb b =? 43 then s' else s | [] => s end in
  match digits with
  | [] => None
  | _ => dec_digits digits 0
  end.

(** src/parse/mod.rs 27-41. *)
Definition mapxx_map_name : parser map_name :=
  do _ <- tag (bs "MAP");;
  do xx <- verify (map_res (map_res (take 2) utf8_2) u8_from_str)
             (fun v => (1 <=? v) && (v <=? 32));;
  do _ <- naive_eof;;
  pret (MAPxx xx).

(** src/parse/mod.rs 43. *)
Definition vanilla_map_name : parser map_name := alt2 exmy_map_name mapxx_map_name.

(** The only use of the result: [if let Ok((_, n)) = vanilla_map_name(..)]
    (src/archive/wad.rs 344). *)
Definition map_name_of (s : bytes) : option map_name :=
  match vanilla_map_name s with
  | Done _ n => Some n
  | _ => None
  end.

(** Decimal printing of a u8 ([{}]). *)
Definition show_u8 (z : Z) : bytes :=
  if z <? 10 then [bz (48 + z)]
  else if z <? 100 then [bz (48 + z / 10); bz (48 + z mod 10)]
  else [bz (48 + z / 100); bz (48 + z / 10 mod 10); bz (48 + z mod 10)].
(** [{:02}]. *)
Definition show_u8_02 (z : Z) : bytes :=
  if z <? 10 then [bz 48; bz (48 + z)] else show_u8 z.

(** src/map.rs 24-31: [Display for MapName]. *)
Definition show_map_name (n : map_name) : bytes :=
  match n with
  | ExMy x y => bs "E" ++ show_u8 x ++ bs "M" ++ show_u8 y
  | MAPxx x => bs "MAP" ++ show_u8_02 x
  end.
