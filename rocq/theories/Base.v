(** Shared vocabulary of the model: bytes, machine integers, outcomes.

    Everything in this file is a computable definition; proofs are in
    [BaseFacts.v]. *)

From Coq Require Import String List ZArith Bool.
From Coq Require Import Strings.Byte.
Import ListNotations.
Local Open Scope Z_scope.

(** ** Bytes and strings *)

(** A Rust [&[u8]], [Vec<u8>], [&str] or [String] (the latter two as their
    UTF-8 bytes). *)
Definition bytes := list byte.

(** A Rust string/byte-string literal. *)
Definition bs (s : string) : bytes := String.list_byte_of_string s.

(** [u8 as i64]-style widening. *)
Definition zb (b : byte) : Z := Z.of_N (Byte.to_N b).

(** [as u8]: keep the low 8 bits. *)
Definition bz (z : Z) : byte :=
  match Byte.of_N (Z.to_N (z mod 256)) with
  | Some b => b
  | None => x00
  end.

Fixpoint bytes_eqb (a b : bytes) : bool :=
  match a, b with
  | [], [] => true
  | x :: a', y :: b' => Byte.eqb x y && bytes_eqb a' b'
  | _, _ => false
  end.

(** Number of elements as an integer ([len()] as usize). *)
Definition zlen {A} (l : list A) : Z := Z.of_nat (length l).

(** ** Machine integers *)

(** Overflow behaviour of [+ - *] and unary [-]: debug builds panic, release
    builds wrap. *)
Inductive build := Checked | Wrapping.

(** [as i16] / wrapping i16 arithmetic. *)
Definition wrap_i16 (z : Z) : Z := (z + 32768) mod 65536 - 32768.
(** [as u32]. *)
Definition wrap_u32 (z : Z) : Z := z mod 4294967296.
(** [as i32]. *)
Definition wrap_i32 (z : Z) : Z := (z + 2147483648) mod 4294967296 - 2147483648.
(** [as usize] (64-bit), in particular the sign-extending [i16 as usize]. *)
Definition as_usize (z : Z) : Z := z mod 18446744073709551616.
(** [i16 as u32] (sign-extending). *)
Definition as_u32 (z : Z) : Z := z mod 4294967296.
(** [as u8] kept as an integer. *)
Definition as_u8 (z : Z) : Z := z mod 256.

Definition in_i16 (z : Z) : bool := (-32768 <=? z) && (z <=? 32767).
Definition in_u16 (z : Z) : bool := (0 <=? z) && (z <? 65536).
Definition in_u32 (z : Z) : bool := (0 <=? z) && (z <? 4294967296).

(** ** Outcomes *)

(** Why a Rust computation aborted. *)
Inductive panic :=
| PSlice        (* slice range out of bounds *)
| PIndex        (* index out of bounds *)
| POverflow     (* arithmetic overflow in a checked build *)
| PUnwrap       (* unwrap of None/Err *)
| PAssert       (* assertion or explicit panic! *)
| PFuel.        (* not a Rust panic: the model ran out of fuel *)

(** src/errors.rs 7-34: [ErrorKind]. [Io] and the error-chain plumbing are not
    modelled (no modelled function performs I/O). *)
Inductive error :=
| ParseError
| TruncatedData (whence : string)
| InvalidMagic
| MissingMapLump (lump : string)
| NegativeOffset (lump : string) (index : nat) (value : Z).

Inductive outcome (A : Type) :=
| Ok (a : A)
| Err (e : error)
| Panic (p : panic).
Arguments Ok {A} _.
Arguments Err {A} _.
Arguments Panic {A} _.

(** Rust's [?] and panic propagation. *)
Definition obind {A B} (m : outcome A) (k : A -> outcome B) : outcome B :=
  match m with
  | Ok a => k a
  | Err e => Err e
  | Panic p => Panic p
  end.
Notation "'let*' x := m 'in' k" := (obind m (fun x => k))
  (at level 200, x pattern, m at level 100, k at level 200).

(** A loop that pushes one computed element per input element. *)
Fixpoint omap {A B} (f : A -> outcome B) (l : list A) : outcome (list B) :=
  match l with
  | [] => Ok []
  | x :: l' => let* y := f x in let* ys := omap f l' in Ok (y :: ys)
  end.

(** A loop with mutable state. *)
Fixpoint ofold {A S} (f : S -> A -> outcome S) (l : list A) (s : S) : outcome S :=
  match l with
  | [] => Ok s
  | x :: l' => let* s' := f s x in ofold f l' s'
  end.

(** [Option::map] with a closure that may panic. *)
Definition oopt {A B} (f : A -> outcome B) (o : option A) : outcome (option B) :=
  match o with
  | None => Ok None
  | Some a => let* b := f a in Ok (Some b)
  end.

(** Rust slicing [&l[s..e]] with usize bounds. *)
Definition slice {A} (l : list A) (s e : Z) : outcome (list A) :=
  if (s <=? e) && (e <=? zlen l)
  then Ok (firstn (Z.to_nat (e - s)) (skipn (Z.to_nat s) l))
  else Panic PSlice.

(** Rust slicing [&l[s..]]. *)
Definition slice_from {A} (l : list A) (s : Z) : outcome (list A) :=
  if s <=? zlen l
  then Ok (skipn (Z.to_nat s) l)
  else Panic PSlice.

(** Rust indexing [l[i]] with a usize index. *)
Definition index {A} (l : list A) (i : Z) : outcome A :=
  if (0 <=? i) && (i <? zlen l)
  then match nth_error l (Z.to_nat i) with
       | Some a => Ok a
       | None => Panic PIndex
       end
  else Panic PIndex.

(** Rust indexing with an index that is a small natural number. *)
Definition index_nat {A} (l : list A) (i : nat) : outcome A :=
  match nth_error l i with
  | Some a => Ok a
  | None => Panic PIndex
  end.

(** Unary minus on i16 (debug: -(-32768) panics; release: it wraps). *)
Definition neg_i16 (mode : build) (z : Z) : outcome Z :=
  if z =? -32768
  then match mode with Checked => Panic POverflow | Wrapping => Ok z end
  else Ok (- z).

(** ** Little-endian fields *)

Definition u16_of (b0 b1 : byte) : Z := zb b0 + 256 * zb b1.
Definition i16_of (b0 b1 : byte) : Z := wrap_i16 (u16_of b0 b1).
Definition u32_of (b0 b1 b2 b3 : byte) : Z :=
  zb b0 + 256 * zb b1 + 65536 * zb b2 + 16777216 * zb b3.
Definition i32_of (b0 b1 b2 b3 : byte) : Z := wrap_i32 (u32_of b0 b1 b2 b3).

(** byteorder's [write_i16/write_u16/write_u32::<LittleEndian>]. *)
Definition put16 (z : Z) : bytes := [bz z; bz (z / 256)].
Definition put32 (z : Z) : bytes :=
  [bz z; bz (z / 256); bz (z / 65536); bz (z / 16777216)].

(** [enumerate()] *)
Fixpoint enumerate_from {A} (i : nat) (l : list A) : list (nat * A) :=
  match l with
  | [] => []
  | x :: l' => (i, x) :: enumerate_from (S i) l'
  end.
Definition enumerate {A} (l : list A) : list (nat * A) := enumerate_from 0 l.

(** [writer.write(name); for _ in name.len()..8 { writer.write(&[0]) }]
    (src/parse/map.rs 242-245 and similar): longer names are not truncated. *)
Definition put_name (name : bytes) : bytes :=
  name ++ repeat x00 (8 - length name).
