(** Specification vocabulary for overlaying polygons whose edges cross. *)

From Coq Require Import List ZArith QArith Bool.
From Verif Require Import Base Float Geometry Sweep Contours Compute SpecShape SpecOrder SpecIntersect SpecHandle SpecTidy SpecOverlay.
Import ListNotations.
Local Open Scope Z_scope.

(** The point with the integer coordinates [v]. *)
Definition int_point (v : Z * Z) : point := mk_point (f64_of_Z (fst v)) (f64_of_Z (snd v)).

(** The edges meet only in [v], which is not an end of both, and [intersect_segments] finds
    exactly that point. *)
Definition finds (e f : edge) (v : Z * Z) : Prop :=
  intersect_segments (int_point (e_left e), int_point (e_right e)) (int_point (e_left f), int_point (e_right f)) = IPoint (int_point v).
Definition crosses (e f : edge) (v : Z * Z) : Prop :=
  meet_at (e_left e) (e_right e) (e_left f) (e_right f) (inject_Z (fst v)) (inject_Z (snd v))
  /\ ~ (is_end v e /\ is_end v f) /\ finds e f v /\ finds f e v.

Definition fit (e f : edge) : Prop := coincide e f \/ apart e f \/ exists v, crosses e f v.

(** *** Polygons with points marked on their sides *)

(** A corner, and the points marked on the side from it to the next corner, in order. *)
Definition mark := ((Z * Z) * list (Z * Z))%type.

(** The polygons without the marked points, and with them as corners. *)
Definition plain (ms : list (list (list mark))) : list corners := map (map (map fst)) ms.
Definition marked (ms : list (list (list mark))) : list corners := map (map (flat_map (fun m => fst m :: snd m))) ms.

(** The points of each side, with the polygon it is of: its two corners and what is marked
    between them. *)
Fixpoint routes_to (a : Z * Z) (c : list mark) : list (list (Z * Z)) :=
  match c with
  | [] => []
  | (v, l) :: c' => (v :: l ++ [match c' with [] => a | (v', _) :: _ => v' end]) :: routes_to a c'
  end.
Definition contour_routes (c : list mark) : list (list (Z * Z)) :=
  match c with [] => [] | m :: _ => routes_to (fst m) c end.
Fixpoint routes_from (i : nat) (ms : list (list (list mark))) : list (nat * list (Z * Z)) :=
  match ms with
  | [] => []
  | z :: ms' => map (pair i) (flat_map contour_routes z) ++ routes_from (S i) ms'
  end.
Definition routes (ms : list (list (list mark))) : list (nat * list (Z * Z)) := routes_from 0 ms.

(** One after the other from left to right; straight on. *)
Fixpoint forward (l : list (Z * Z)) : Prop :=
  match l with
  | a :: ((b :: _) as l') => lex_z a b = Lt /\ forward l'
  | _ => True
  end.
Definition straight (l : list (Z * Z)) : Prop :=
  (forward l \/ forward (rev l)) /\ forall a b c, In a l -> In b l -> In c l -> orient a b c = 0.

(** The part of a side between two of its points. *)
Definition stretch (r : nat * list (Z * Z)) (e : edge) : Prop :=
  exists pre a mid b post, snd r = pre ++ a :: mid ++ b :: post /\ In e (left_to_right (fst r) (a, b)).

(** The number of edges with the right end [v]. *)
Definition same_z (v w : Z * Z) : bool := (fst v =? fst w) && (snd v =? snd w).
Definition arrivals (zs : list corners) (v : Z * Z) : nat := length (filter (fun e => same_z (e_right e) v) (edges zs)).

(** The points where the sides cross are marked, and nothing that is not on a side: with the
    marked points as corners the polygons are tidy; any parts of two sides coincide, are apart or
    cross in a point that [intersect_segments] finds; and a second edge comes from the left to
    each point marked. *)
Record cut_well (ms : list (list (list mark))) : Prop := mk_cut_well {
  cut_tidy : tidy (marked ms);
  cut_straight : forall r, In r (routes ms) -> straight (snd r);
  cut_fit : forall j k r r' e f, nth_error (routes ms) j = Some r -> nth_error (routes ms) k = Some r' -> j <> k ->
    stretch r e -> stretch r' f -> fit e f;
  cut_arrive : forall r pre v post, In r (routes ms) -> snd r = pre ++ v :: post -> pre <> [] -> post <> [] ->
    (2 <= arrivals (marked ms) v)%nat }.

(** The polygon has exactly the points [z]. *)
Definition has_points (p : polygon) (z : corners) : Prop := Forall2 (fun c l => c_points c = map int_point l) p z.

(** Polygons with these corners, cut well by the points marked. Those that have their edges
    removed are covered by later ones. *)
Definition crossable (polys : input) (ms : list (list (list mark))) : Prop :=
  Forall2 (fun p z => has_points (fst p) z) polys (plain ms) /\ cut_well ms /\ compact (marked ms) /\ covered (map snd polys) (marked ms).
