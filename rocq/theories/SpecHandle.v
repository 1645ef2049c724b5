(** Specification vocabulary for what the sweep does with two neighbouring segments. *)

From Coq Require Import List ZArith QArith.
From Verif Require Import Base Float SpecFloat64 SpecShape SpecIntersect.
Import ListNotations.
Local Open Scope Z_scope.

(** The lines of the segments clearly cross, are clearly apart, or coincide. *)
Definition tellable (l1 r1 l2 r2 : Z * Z) : Prop :=
  clearly_crossing (vsub r1 l1) (vsub r2 l2)
  \/ (vcross (vsub r1 l1) (vsub r2 l2) = 0
      /\ (clearly_crossing (vsub l2 l1) (vsub r1 l1) \/ vcross (vsub l2 l1) (vsub r1 l1) = 0)).

Definition same_point (x y x' y' : Q) : Prop := (x == x')%Q /\ (y == y')%Q.

Definition disjoint (l1 r1 l2 r2 : Z * Z) : Prop := forall x y, ~ on_both l1 r1 l2 r2 x y.
(** (x, y) is the only common point. *)
Definition meet_at (l1 r1 l2 r2 : Z * Z) (x y : Q) : Prop :=
  on_both l1 r1 l2 r2 x y /\ forall x' y', on_both l1 r1 l2 r2 x' y' -> same_point x' y' x y.
(** The segments have more than one point in common. *)
Definition overlap (l1 r1 l2 r2 : Z * Z) : Prop :=
  exists x y x' y', on_both l1 r1 l2 r2 x y /\ on_both l1 r1 l2 r2 x' y' /\ ~ same_point x y x' y'.

Definition eps : Q := 1 # 16777216.
Definition close_to (e : Z * Z) (x y : Q) : Prop :=
  (- eps < inject_Z (fst e) - x /\ inject_Z (fst e) - x < eps
   /\ - eps < inject_Z (snd e) - y /\ inject_Z (snd e) - y < eps)%Q.

(** Where a segment from [l] to [r] that meets another one in (x, y) is split: nowhere if
    that is one of its ends, or hardly distinguishable from it; otherwise there, up to
    rounding, and exactly there if the other segment, from [l'] to [r'], ends there. *)
Definition splits (l r l' r' : Z * Z) (x y : Q) (o : option point) : Prop :=
  match o with
  | None => close_to l x y \/ close_to r x y
  | Some p => ~ is_at l x y /\ ~ is_at r x y /\ near eps p x y
      /\ (is_at l' x y -> at_z p l') /\ (is_at r' x y -> at_z p r')
  end.
