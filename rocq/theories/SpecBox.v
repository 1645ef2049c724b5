(** Specification vocabulary for bounding boxes of integer points. *)

From Coq Require Import List ZArith.
From Verif Require Import Base Float SpecFloat64 SpecShape.
Import ListNotations.
Local Open Scope Z_scope.

(** [r] is the smallest box around the points [zs]. *)
Definition box_around (zs : list (Z * Z)) (r : rect) : Prop :=
  exists lo hi bot top : Z,
    (forall z, In z zs -> lo <= fst z <= hi /\ bot <= snd z <= top)
    /\ (exists z, In z zs /\ fst z = lo) /\ (exists z, In z zs /\ fst z = hi)
    /\ (exists z, In z zs /\ snd z = bot) /\ (exists z, In z zs /\ snd z = top)
    /\ int_valued (r_x r) lo /\ int_valued (r_y r) bot
    /\ int_valued (r_w r) (hi - lo) /\ int_valued (r_h r) (top - bot).

(** Some two points of the list differ. *)
Definition two_points (zs : list (Z * Z)) : Prop := exists z w, In z zs /\ In w zs /\ z <> w.

(** [v] is in the box around the points, or on its border: it has points of the list to all
    sides, which may be level with it. *)
Definition boxed (zs : list (Z * Z)) (v : Z * Z) : Prop :=
  exists a b c d, In a zs /\ In b zs /\ In c zs /\ In d zs /\ fst a <= fst v <= fst b /\ snd c <= snd v <= snd d.
