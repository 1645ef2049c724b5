(** Specification vocabulary for polygons on a grid whose sides cross in its points. *)

From Coq Require Import List ZArith QArith Bool.
From Verif Require Import Base SpecShape SpecOrder SpecIntersect SpecHandle SpecTidy SpecCross SpecGrid SpecSlope.
Import ListNotations.
Local Open Scope Z_scope.

(** The edges cross in a point of the grid inside both, and have no other point in common. *)
Definition crosses_on (g : Z) (e f : edge) : Prop :=
  exists a b, let x := inject_Z (2 ^ g * a) in let y := inject_Z (2 ^ g * b) in
  inside_edge e x y /\ inside_edge f x y /\ forall x' y', on_both (e_left e) (e_right e) (e_left f) (e_right f) x' y' -> same_point x' y' x y.

(** Polygons with sides on a grid, at most 21 of its steps long across and up. Any two sides have
    only ends in common, or cross in a point of the grid, or are the same side of two polygons,
    which no other crosses. The steeper and flatter the sides, the closer to the origin all is:
    the direction of a side is [p] across and [q] up, without a common factor. *)
Record mesh (g R D : Z) (zs : list corners) : Prop := mk_mesh {
  mesh_size : 0 <= g <= 14;
  mesh_wide : 0 <= R <= 1000;
  mesh_bound : R * R * D <= 1248751;
  mesh_length : forall s, In s (flat_map sides (concat zs)) -> fst s <> snd s;
  mesh_points : forall e, In e (edges zs) -> slope_point g R (e_left e) /\ slope_point g R (e_right e);
  mesh_reach : forall e, In e (edges zs) -> within_reach g [e_left e; e_right e];
  mesh_slope : forall e, In e (edges zs) -> exists p q n, Z.gcd p q = 1 /\ p * p + q * q <= D /\ vsub (e_right e) (e_left e) = (n * (2 ^ g * p), n * (2 ^ g * q));
  mesh_pairs : ForallOrdPairs (fun e f => only_ends e f \/ crosses_on g e f \/ (coincide e f /\ forall h, In h (edges zs) -> ~ crosses_on g e h /\ ~ crosses_on g f h)) (edges zs) }.
