(** Specification vocabulary for polygons put together. *)

From Coq Require Import List ZArith QArith Permutation.
From Verif Require Import SpecTidy SpecFollow.
Import ListNotations.

(** No point is inside both polygons, just below or just above an edge neither. *)
Definition apart_inside (zs : list corners) (i j : nat) : Prop :=
  (forall x y, ~ (inner_below zs i x y /\ inner_below zs j x y))
  /\ forall e x y, In e (edges zs) -> inside_edge e x y -> ~ (inner_above zs e i x y /\ inner_above zs e j x y).

(** Each of [zs'] is made of the contours of one or more of [zs], number [i] of those being part
    of [into i]. Those put together do not overlap. *)
Definition joined (into : nat -> nat) (zs zs' : list corners) : Prop :=
  (forall i, (i < length zs)%nat -> (into i < length zs')%nat)
  /\ (forall k, (k < length zs')%nat -> exists i, (i < length zs)%nat /\ into i = k)
  /\ Permutation (edges zs') (map (numbered into) (edges zs))
  /\ forall i j, (i < length zs)%nat -> (j < length zs)%nat -> i <> j -> into i = into j -> apart_inside zs i j.
