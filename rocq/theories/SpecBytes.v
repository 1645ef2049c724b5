(** Specification vocabulary: fields at offsets of a byte buffer. Independent of
    the parsers. *)

From Coq Require Import List ZArith Bool.
From Coq Require Import Strings.Byte.
Import ListNotations.
Local Open Scope Z_scope.

(** The value (0..255) of a byte. *)
Definition byte_val (b : byte) : Z := Z.of_N (Byte.to_N b).

(** The byte at offset [i] (only meaningful inside the buffer). *)
Definition u8_at (l : list byte) (i : nat) : Z := byte_val (nth i l x00).

(** Unsigned little-endian fields. *)
Definition u16_at (l : list byte) (i : nat) : Z :=
  u8_at l i + 2 ^ 8 * u8_at l (i + 1).
Definition u32_at (l : list byte) (i : nat) : Z :=
  u8_at l i + 2 ^ 8 * u8_at l (i + 1) + 2 ^ 16 * u8_at l (i + 2) + 2 ^ 24 * u8_at l (i + 3).

(** Two's complement little-endian fields. *)
Definition i16_at (l : list byte) (i : nat) : Z :=
  let u := u16_at l i in if u <? 2 ^ 15 then u else u - 2 ^ 16.
Definition i32_at (l : list byte) (i : nat) : Z :=
  let u := u32_at l i in if u <? 2 ^ 31 then u else u - 2 ^ 32.

(** The [n] bytes at offset [i]. *)
Definition sub (l : list byte) (i n : nat) : list byte := firstn n (skipn i l).

Definition printable (b : byte) : Prop := 32 <= byte_val b <= 126.

(** A fixed-width name field holds name [nm]: the printable characters before
    the first NUL, or the whole field if it has no NUL. *)
Definition name_field (field nm : list byte) : Prop :=
  exists tail,
    field = nm ++ tail
    /\ Forall printable nm
    /\ (tail = [] \/ exists t, tail = x00 :: t).

(** A name that fits a field of 8 characters. *)
Definition short_name (nm : list byte) : Prop :=
  (length nm <= 8)%nat /\ Forall printable nm.

(** Little-endian encoding of the low [8 * n] bits of [z]. *)
Definition byte_of_val (z : Z) : byte :=
  match Byte.of_N (Z.to_N z) with Some b => b | None => x00 end.
Fixpoint le_bytes (n : nat) (z : Z) : list byte :=
  match n with
  | O => []
  | S n' => byte_of_val (z mod 2 ^ 8) :: le_bytes n' (z / 2 ^ 8)
  end.

(** A name padded with NULs to 8 characters. *)
Definition padded (nm : list byte) : list byte := nm ++ repeat x00 (8 - length nm).
