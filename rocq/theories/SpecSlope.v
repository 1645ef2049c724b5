(** Specification vocabulary for polygons with sides of any slope on a grid. *)

From Coq Require Import List ZArith QArith Bool.
From Verif Require Import Base SpecShape SpecOrder SpecIntersect SpecHandle SpecTidy SpecCross SpecGrid.
Import ListNotations.
Local Open Scope Z_scope.

(** A point on the grid of [2 ^ g] units, at most [R] steps from the origin each way. *)
Definition slope_point (g R : Z) (v : Z * Z) : Prop :=
  exists a b, v = (2 ^ g * a, 2 ^ g * b) /\ Z.abs a <= R /\ Z.abs b <= R.

(** From each of the points to each one goes some number of times [p] steps across and [q] up,
    with [p] and [q] small. *)
Definition sloping (g D : Z) (l : list (Z * Z)) : Prop :=
  exists p q, p * p + q * q <= D /\ forall a b, In a l -> In b l -> exists t, vsub b a = (t * (2 ^ g * p), t * (2 ^ g * q)).

(** Polygons with sides on a grid, at most 21 of its steps long across and up, and the points
    where their sides cross marked, which are on the grid: cut there the edges have only ends in
    common or are the same; no part of a side overlaps one of another without being the same;
    and a second edge comes from the left to each point marked. The steeper and flatter the
    sides, the closer to the origin all is. *)
Record slope_cut (g R D : Z) (ms : list (list (list mark))) : Prop := mk_slope_cut {
  slope_size : 0 <= g <= 14;
  slope_wide : 0 <= R <= 1000;
  slope_bound : R * R * D <= 1248751;
  slope_points : forall r v, In r (routes ms) -> In v (snd r) -> slope_point g R v;
  slope_order : forall r, In r (routes ms) -> forward (snd r) \/ forward (rev (snd r));
  slope_sloping : forall r, In r (routes ms) -> sloping g D (snd r);
  slope_reach : forall r, In r (routes ms) -> within_reach g (snd r);
  slope_tidy : ForallOrdPairs (fun e f => coincide e f \/ only_ends e f) (edges (marked ms));
  slope_along : forall j k r r' e f, nth_error (routes ms) j = Some r -> nth_error (routes ms) k = Some r' -> j <> k ->
    stretch r e -> stretch r' f -> coincide e f \/ ~ overlap (e_left e) (e_right e) (e_left f) (e_right f);
  slope_arrive : forall r pre v post, In r (routes ms) -> snd r = pre ++ v :: post -> pre <> [] -> post <> [] ->
    (2 <= arrivals (marked ms) v)%nat }.
