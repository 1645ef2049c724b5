(** Specification vocabulary for polygons with upright sides on a grid. *)

From Coq Require Import List ZArith QArith Bool.
From Verif Require Import Base SpecShape SpecOrder SpecIntersect SpecHandle SpecTidy SpecCross.
Import ListNotations.
Local Open Scope Z_scope.

(** A point on the grid of [2 ^ g] units, at most a thousand steps from the origin each way. *)
Definition grid_point (g : Z) (v : Z * Z) : Prop :=
  exists a b, v = (2 ^ g * a, 2 ^ g * b) /\ Z.abs a <= 1000 /\ Z.abs b <= 1000.

(** All on one vertical or on one horizontal line. *)
Definition upright (l : list (Z * Z)) : Prop :=
  (forall a b, In a l -> In b l -> fst a = fst b) \/ (forall a b, In a l -> In b l -> snd a = snd b).

(** At most 21 steps of the grid apart. *)
Definition within_reach (g : Z) (l : list (Z * Z)) : Prop :=
  forall a b, In a l -> In b l -> Z.abs (fst a - fst b) <= 2 ^ g * 21 /\ Z.abs (snd a - snd b) <= 2 ^ g * 21.

(** The edges have only ends in common. *)
Definition only_ends (e f : edge) : Prop :=
  forall x y, on_both (e_left e) (e_right e) (e_left f) (e_right f) x y -> exists v, is_end v e /\ is_end v f /\ is_at v x y.

(** Polygons with upright sides on a grid, and the points where their sides cross marked:
    cut there the edges have only ends in common or are the same; no part of a side overlaps
    one of another without being the same; and a second edge comes from the left to each point
    marked. *)
Record grid_cut (g : Z) (ms : list (list (list mark))) : Prop := mk_grid_cut {
  grid_size : 0 <= g <= 14;
  grid_points : forall r v, In r (routes ms) -> In v (snd r) -> grid_point g v;
  grid_order : forall r, In r (routes ms) -> forward (snd r) \/ forward (rev (snd r));
  grid_upright : forall r, In r (routes ms) -> upright (snd r);
  grid_reach : forall r, In r (routes ms) -> within_reach g (snd r);
  grid_tidy : ForallOrdPairs (fun e f => coincide e f \/ only_ends e f) (edges (marked ms));
  grid_along : forall j k r r' e f, nth_error (routes ms) j = Some r -> nth_error (routes ms) k = Some r' -> j <> k ->
    stretch r e -> stretch r' f -> coincide e f \/ ~ overlap (e_left e) (e_right e) (e_left f) (e_right f);
  grid_arrive : forall r pre v post, In r (routes ms) -> snd r = pre ++ v :: post -> pre <> [] -> post <> [] ->
    (2 <= arrivals (marked ms) v)%nat }.
