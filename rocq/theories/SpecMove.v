(** Specification vocabulary for polygons moved elsewhere. *)

From Coq Require Import List ZArith.
From Verif Require Import SpecTidy.
Import ListNotations.
Local Open Scope Z_scope.

(** The point [v], moved by [d]. *)
Definition moved_point (d v : Z * Z) : Z * Z := (fst v + fst d, snd v + snd d).
(** Lines, and the lines of several polygons, moved by [d]. *)
Definition moved_lines (d : Z * Z) (z : corners) : corners := map (map (moved_point d)) z.
Definition moved (d : Z * Z) (zs : list corners) : list corners := map (moved_lines d) zs.
