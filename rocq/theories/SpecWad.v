(** Specification of the WAD container, by byte offsets. *)

From Coq Require Import String List ZArith.
From Coq Require Import Strings.Byte.
From Verif Require Import SpecBytes ParseWad.
Import ListNotations.
Local Open Scope Z_scope.

Definition magic (t : wad_type) : list byte :=
  match t with
  | IWAD => [x49; x57; x41; x44]
  | PWAD => [x50; x57; x41; x44]
  end.

(** A directory entry at offset [off]: position, size, name. *)
Definition entry_at (buf : list byte) (off : nat) (e : dir_entry) : Prop :=
  filepos e = u32_at buf off
  /\ size e = u32_at buf (off + 4)
  /\ name_field (sub buf (off + 8) 8) (name e).

(** The buffer starts with a complete header of type [t]. *)
Definition has_header (buf : list byte) (t : wad_type) : Prop :=
  (12 <= length buf)%nat /\ sub buf 0 4 = magic t.

(** The directory the header describes lies inside the buffer. *)
Definition directory_inside (buf : list byte) : Prop :=
  u32_at buf 8 + 16 * u32_at buf 4 <= Z.of_nat (length buf).

(** Offset of directory entry [k]. *)
Definition entry_offset (buf : list byte) (k : nat) : nat :=
  (Z.to_nat (u32_at buf 8) + 16 * k)%nat.

(** [w] is the decoding of [buf]. *)
Definition wad_layout (buf : list byte) (w : bare_wad) : Prop :=
  buffer w = buf
  /\ has_header buf (identification (header w))
  /\ numlumps (header w) = u32_at buf 4
  /\ infotableofs (header w) = u32_at buf 8
  /\ directory_inside buf
  /\ Z.of_nat (length (directory w)) = u32_at buf 4
  /\ forall k e, nth_error (directory w) k = Some e -> entry_at buf (entry_offset buf k) e.

(** The buffer ends inside the header: what there is of the magic is right. *)
Definition header_cut_short (buf : list byte) : Prop :=
  (length buf < 12)%nat /\ exists t, sub buf 0 4 = sub (magic t) 0 (length buf).

(** The buffer's first bytes contradict both magics. *)
Definition wrong_magic (buf : list byte) : Prop :=
  forall t, sub buf 0 4 <> sub (magic t) 0 (length buf).

(** Some directory entry inside the buffer has no proper name. *)
Definition bad_directory_name (buf : list byte) : Prop :=
  exists k, Z.of_nat k < u32_at buf 4 /\ forall e, ~ entry_at buf (entry_offset buf k) e.

(** Writing a WAD: header, body, directory. *)
Definition encode_entry (e : dir_entry) : list byte :=
  le_bytes 4 (filepos e) ++ le_bytes 4 (size e) ++ padded (name e).
Definition encode_wad (t : wad_type) (body : list byte) (dir : list dir_entry) : list byte :=
  magic t
  ++ le_bytes 4 (Z.of_nat (length dir))
  ++ le_bytes 4 (12 + Z.of_nat (length body))
  ++ body
  ++ concat (map encode_entry dir).

(** An entry that can be written: 32-bit numbers, at most 8 printable
    characters. *)
Definition entry_encodable (e : dir_entry) : Prop :=
  0 <= filepos e < 2 ^ 32 /\ 0 <= size e < 2 ^ 32 /\ short_name (name e).
