(** Specification of the TEXTUREx lump, by byte offsets. *)

From Coq Require Import List ZArith.
From Coq Require Import Strings.Byte.
From Verif Require Import SpecBytes ParseTexturex SpecLumps.
Import ListNotations.
Local Open Scope Z_scope.

(** The count and the offset table are complete. *)
Definition tex_header (buf : list byte) : Prop :=
  4 <= Z.of_nat (length buf) /\ 0 <= i32_at buf 0
  /\ 4 + 4 * i32_at buf 0 <= Z.of_nat (length buf).

Definition tex_count (buf : list byte) : nat := Z.to_nat (i32_at buf 0).
Definition tex_offset (buf : list byte) (k : nat) : Z := i32_at buf (4 + 4 * k).

(** A texture record can be read at offset [o]. *)
Definition tex_readable (buf : list byte) (o : Z) : Prop :=
  0 <= o /\ o + 22 <= Z.of_nat (length buf) /\ exists t, tex_at buf (Z.to_nat o) t.

(** Texture [i] is the first one that cannot be read. *)
Definition first_unreadable (buf : list byte) (i : nat) : Prop :=
  (i < tex_count buf)%nat
  /\ (forall j, (j < i)%nat -> tex_readable buf (tex_offset buf j))
  /\ ~ tex_readable buf (tex_offset buf i).

(** The 8 bytes at offset [o] exist and are no name. *)
Definition tex_bad_name (buf : list byte) (o : Z) : Prop :=
  o + 8 <= Z.of_nat (length buf) /\ forall nm, ~ name_field (sub buf (Z.to_nat o) 8) nm.
