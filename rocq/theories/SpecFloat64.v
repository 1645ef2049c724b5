(** Specification vocabulary for doubles: exact values. *)

From Coq Require Import ZArith.
From Coq Require Import Floats.SpecFloat.
Local Open Scope Z_scope.

(** A double is well formed: its mantissa and exponent are the canonical ones
    of the binary64 format. *)
Definition is_f64 (f : spec_float) : Prop := valid_binary 53 1024 f = true.

(** The exact value of [f] is the integer [z]. *)
Definition int_valued (f : spec_float) (z : Z) : Prop :=
  match f with
  | S754_zero _ => z = 0
  | S754_finite s m e =>
      let sm := if s then - Z.pos m else Z.pos m in
      if 0 <=? e then z = sm * 2 ^ e else sm = z * 2 ^ (- e)
  | _ => False
  end.
