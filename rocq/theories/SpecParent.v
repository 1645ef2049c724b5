(** Specification vocabulary for which contour a hole is listed with. *)

From Coq Require Import List ZArith QArith.
From Verif Require Import Base SpecIntersect SpecTidy.
Import ListNotations.

(** Looking straight down from the segment from [p] to [q], anywhere close to the right of
    [p], the first edge of the polygons one sees is that from [a] to [b]. *)
Definition looks_down_on (zs : list corners) (p q a b : Z * Z) : Prop :=
  exists x0, (inject_Z (fst p) < x0)%Q /\ forall x, (inject_Z (fst p) < x)%Q -> (x < x0)%Q ->
    exists y y', on_segment p q x y /\ on_segment a b x y' /\ (y' < y)%Q
      /\ forall e y'', In e (edges zs) -> on_segment (e_left e) (e_right e) x y'' -> ~ ((y' < y'')%Q /\ (y'' < y)%Q).

(** The same from the side with which the line [lh] comes back to its first corner, onto a
    side of the line [l] that goes to the right. *)
Definition lies_above (zs : list corners) (lh l : list (Z * Z)) : Prop :=
  (fst (hd (0, 0) lh) < fst (last lh (0, 0)))%Z
  /\ exists a b, In (a, b) (sides l) /\ (fst a < fst b)%Z /\ looks_down_on zs (hd (0, 0)%Z lh) (last lh (0, 0)%Z) a b.
