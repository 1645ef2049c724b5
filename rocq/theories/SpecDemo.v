(** What the shapeops command is to draw. *)

From Coq Require Import List ZArith.
From Verif Require Import Float SpecFloat64 Chart.
Import ListNotations.
Local Open Scope Z_scope.

(** The path goes once round the square with the lower left corner [(x, y)] (on the page,
    where y grows downwards) and sides of 32. *)
Definition square_path (x y : Z) (d : list (command f64)) : Prop :=
  exists x0 y0 x1 y1 z, int_valued x0 x /\ int_valued x1 (x + 32) /\ int_valued y0 y /\ int_valued y1 (y - 32)
    /\ z = [(x0, y0); (x1, y0); (x1, y1); (x0, y1)]
    /\ d = MoveTo x0 y1 :: map (fun p => LineTo (fst p) (snd p)) z.
Definition demo_squares : list (Z * Z) := [(0, 0); (0, -32); (32, 0); (32, -32)].
