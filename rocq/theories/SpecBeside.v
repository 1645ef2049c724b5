(** Specification vocabulary for polygons beside each other. *)

From Coq Require Import List ZArith.
From Verif Require Import SpecTidy.
Import ListNotations.
Local Open Scope Z_scope.

(** All sides of the polygons [ws] are to the right of all sides of the polygons [zs]. *)
Definition beside (zs ws : list corners) : Prop := forall e f, In e (edges zs) -> In f (edges ws) -> fst (e_right e) < fst (e_left f).
