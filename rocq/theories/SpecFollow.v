(** Specification vocabulary for how contours follow the sides that are kept, and for the
    same polygons written down in another way. *)

From Coq Require Import List ZArith QArith Bool Permutation.
From Verif Require Import Base Float Geometry Sweep Contours Compute SpecShape SpecOrder SpecIntersect SpecTurn SpecTidy SpecOverlay.
Import ListNotations.
Local Open Scope Z_scope.

(** The line, back to where it starts. *)
Definition closed (l : list (Z * Z)) : list (Z * Z) :=
  match l with
  | [] => []
  | a :: _ => l ++ [a]
  end.

(** The line starts in its leftmost corner, the lowest of those, and passes it only once. *)
Definition starts_leftmost (l : list (Z * Z)) : Prop :=
  match l with
  | [] => False
  | a :: t => Forall (fun v => lex_z a v = Lt) t
  end.

(** Coming from [a] to [b], going on to [c] is turning further left than along any other of
    the sides that start in [b], and is not turning back. *)
Definition furthest_left (S : list ((Z * Z) * (Z * Z))) (a b c : Z * Z) : Prop :=
  c <> a /\ forall d, In (b, d) S -> d <> a -> d <> c -> ~ as_left (vsub b a) (vsub d b) (vsub c b).

(** [l] starts to the left of [l'], straight below it, or in the same corner and sets out further to
    the right. *)
Definition starts_before (l l' : list (Z * Z)) : Prop :=
  match l, l' with
  | a :: b :: _, a' :: b' :: _ => lex_z a a' = Lt \/ (a = a' /\ 0 < orient a b b')
  | _, _ => False
  end.

(** The lines are in the order of where they start. They pass each side at most once, start
    leftmost, and everywhere but in their first corners turn as far left as their sides
    allow. *)
Definition well_followed (ls : list (list (Z * Z))) : Prop :=
  ForallOrdPairs starts_before ls
  /\ NoDup (flat_map sides ls)
  /\ forall l, In l ls -> starts_leftmost l
       /\ forall u a b c v, closed l = u ++ a :: b :: c :: v -> furthest_left (flat_map sides ls) a b c.

(** *** The same polygons *)

Definition numbered (sigma : nat -> nat) (e : edge) : edge := mk_edge (sigma (e_poly e)) (e_left e) (e_right e).

(** [zs'] are the polygons [zs] in another order, polygon [i] of [zs] being number
    [sigma i]; where the contours start, which way round they go, and how the edges of a
    polygon are put together to contours may also differ. *)
Definition same_polygons (sigma : nat -> nat) (zs zs' : list corners) : Prop :=
  length zs' = length zs
  /\ (forall i, (i < length zs)%nat -> (sigma i < length zs)%nat)
  /\ (forall i j, (i < length zs)%nat -> (j < length zs)%nat -> sigma i = sigma j -> i = j)
  /\ Permutation (edges zs') (map (numbered sigma) (edges zs)).
