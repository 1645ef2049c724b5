(** Specification vocabulary for polygons given more than once. *)

From Coq Require Import List ZArith.
From Verif Require Import SpecTidy.
Import ListNotations.

(** Each of [zs'] is one of [zs], number [i] being [src i] of those, and each of [zs] is
    there at least once. *)
Definition copies (src : nat -> nat) (zs zs' : list corners) : Prop :=
  (forall i, (i < length zs')%nat -> (src i < length zs)%nat /\ nth_error zs' i = nth_error zs (src i))
  /\ forall k, (k < length zs)%nat -> exists i, (i < length zs')%nat /\ src i = k.
