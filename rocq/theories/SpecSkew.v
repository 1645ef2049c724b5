(** Specification vocabulary for polygons stretched, skewed and moved. *)

From Coq Require Import List ZArith.
From Verif Require Import SpecTidy.
Import ListNotations.
Local Open Scope Z_scope.

(** Stretching by [k_across] across and [k_up] upwards, lifting by [k_skew] for each unit across,
    and moving by [k_by]. *)
Record skew := mk_skew { k_across : Z; k_up : Z; k_skew : Z; k_by : Z * Z }.
(** Neither direction is flattened or mirrored. *)
Definition upright (k : skew) : Prop := 0 < k_across k /\ 0 < k_up k.
Definition skewed_point (k : skew) (v : Z * Z) : Z * Z :=
  (k_across k * fst v + fst (k_by k), k_up k * snd v + k_skew k * fst v + snd (k_by k)).
(** Lines, and the lines of several polygons. *)
Definition skewed_lines (k : skew) (z : corners) : corners := map (map (skewed_point k)) z.
Definition skewed (k : skew) (zs : list corners) : list corners := map (skewed_lines k) zs.
