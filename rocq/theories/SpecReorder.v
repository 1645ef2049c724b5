(** Specification vocabulary for lists given in another order. *)

From Coq Require Import List Permutation.
Import ListNotations.

(** List number [i] of [l] is number [sigma i] of [l'], with its members in any order. *)
Definition reordered {A} (sigma : nat -> nat) (l l' : list (list A)) : Prop :=
  length l' = length l /\ (forall i, i < length l -> sigma i < length l) /\ (forall i j, i < length l -> j < length l -> sigma i = sigma j -> i = j)
  /\ forall i, i < length l -> Permutation (nth i l []) (nth (sigma i) l' []).
