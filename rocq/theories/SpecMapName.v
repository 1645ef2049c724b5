(** Specification of map marker names. *)

From Coq Require Import List ZArith.
From Coq Require Import Strings.Byte.
From Verif Require Import SpecBytes ParseWad.
Import ListNotations.
Local Open Scope Z_scope.

(** Byte [b] is the ASCII digit with value [d]. *)
Definition digit (b : byte) (d : Z) : Prop := 0 <= d <= 9 /\ byte_val b = 48 + d.

(** The names accepted as map markers, and what they denote. The bytes are
    'E', 'M', "MAP" and '+'. *)
Inductive denotes : list byte -> map_name -> Prop :=
| D_exmy : forall b x c y, digit b x -> digit c y -> denotes [x45; b; x4d; c] (ExMy x y)
| D_mapxx : forall b t c u, digit b t -> digit c u -> 1 <= 10 * t + u <= 32 ->
    denotes [x4d; x41; x50; b; c] (MAPxx (10 * t + u))
| D_mapplus : forall c u, digit c u -> 1 <= u ->
    denotes [x4d; x41; x50; x2b; c] (MAPxx u).

(** Map names that have a marker. *)
Definition valid_map_name (n : map_name) : Prop :=
  match n with
  | ExMy x y => 0 <= x <= 9 /\ 0 <= y <= 9
  | MAPxx x => 1 <= x <= 32
  end.

(** [s] is the number [z] in decimal, without leading zeros. *)
Inductive decimal : list byte -> Z -> Prop :=
| decimal_one : forall b d, digit b d -> decimal [b] d
| decimal_more : forall s n b d, decimal s n -> 1 <= n -> digit b d -> decimal (s ++ [b]) (10 * n + d).

(** The values of a [u8]. *)
Definition u8_value (z : Z) : Prop := 0 <= z <= 255.
Definition u8_name (n : map_name) : Prop := match n with ExMy x y => u8_value x /\ u8_value y | MAPxx x => u8_value x end.
