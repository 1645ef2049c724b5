(** Specification vocabulary for overlaying tidy polygons: polygons with integer corners
    whose edges only meet in common ends, or run along each other from end to end. *)

From Coq Require Import List ZArith QArith Bool.
From Verif Require Import Base Float Geometry Sweep Contours Compute SpecShape SpecOrder SpecIntersect SpecHandle.
Import ListNotations.
Local Open Scope Z_scope.

(** *** Polygons made of integer points, and their edges *)

(** The corners of the contours of a polygon. *)
Definition corners := list (list (Z * Z)).
Definition has_corners (p : polygon) (z : corners) : Prop := Forall2 (fun c zs => Forall2 at_z (c_points c) zs) p z.

(** An edge: the polygon it is of, its left and its right end. *)
Record edge := mk_edge { e_poly : nat; e_left : Z * Z; e_right : Z * Z }.

(** From each point to the next, and from the last to the first. *)
Definition sides (l : list (Z * Z)) : list ((Z * Z) * (Z * Z)) :=
  match l with
  | [] => []
  | a :: t => combine l (t ++ [a])
  end.
(** A side as an edge, unless it has no length. *)
Definition left_to_right (i : nat) (s : (Z * Z) * (Z * Z)) : list edge :=
  match lex_z (fst s) (snd s) with
  | Lt => [mk_edge i (fst s) (snd s)]
  | Gt => [mk_edge i (snd s) (fst s)]
  | Eq => []
  end.
Definition polygon_edges (i : nat) (z : corners) : list edge := flat_map (left_to_right i) (flat_map sides z).
Fixpoint edges_from (i : nat) (zs : list corners) : list edge :=
  match zs with
  | [] => []
  | z :: zs' => polygon_edges i z ++ edges_from (S i) zs'
  end.
Definition edges (zs : list corners) : list edge := edges_from 0 zs.

(** Edges of different polygons with the same ends. *)
Definition coincide (e f : edge) : Prop := e_left e = e_left f /\ e_right e = e_right f /\ e_poly e <> e_poly f.

Definition is_end (v : Z * Z) (e : edge) : Prop := v = e_left e \/ v = e_right e.
(** The edges have nothing in common but perhaps an end, and [intersect_segments] can tell. *)
Definition apart (e f : edge) : Prop :=
  tellable (e_left e) (e_right e) (e_left f) (e_right f)
  /\ (disjoint (e_left e) (e_right e) (e_left f) (e_right f)
      \/ exists v, is_end v e /\ is_end v f
         /\ meet_at (e_left e) (e_right e) (e_left f) (e_right f) (inject_Z (fst v)) (inject_Z (snd v))).

Definition tidy (zs : list corners) : Prop :=
  Forall (Forall (Forall (within (2 ^ 24)))) zs
  /\ ForallOrdPairs (fun e f => coincide e f \/ apart e f) (edges zs).

(** *** The even-odd rule *)

Definition qlt (a b : Q) : bool := match (a ?= b)%Q with Lt => true | _ => false end.

(** [e] passes below the point (x, y); if it ends straight below it, then only if it
    comes from the right. *)
Definition passes_below (e : edge) (x y : Q) : bool :=
  let '(xl, yl) := e_left e in
  let '(xr, yr) := e_right e in
  negb (qlt x (inject_Z xl)) && qlt x (inject_Z xr)
  && qlt (inject_Z (yr - yl) * (x - inject_Z xl)) ((y - inject_Z yl) * inject_Z (xr - xl)).

(** The number of edges of polygon [i] that a ray from (x, y) straight down hits. *)
Definition crossings (zs : list corners) (i : nat) (x y : Q) : nat :=
  length (filter (fun e => (e_poly e =? i)%nat && passes_below e x y) (edges zs)).

(** Polygon [i] has an edge with the ends of [e]. *)
Definition has_edge (zs : list corners) (i : nat) (e : edge) : Prop :=
  exists f, In f (edges zs) /\ e_poly f = i /\ e_left f = e_left e /\ e_right f = e_right e.

(** (x, y) is on the edge [e] but not an end of it. *)
Definition inside_edge (e : edge) (x y : Q) : Prop :=
  exists t : Q, (0 < t)%Q /\ (t < 1)%Q
    /\ (x == inject_Z (fst (e_left e)) + t * inject_Z (fst (e_right e) - fst (e_left e)))%Q
    /\ (y == inject_Z (snd (e_left e)) + t * inject_Z (snd (e_right e) - snd (e_left e)))%Q.

(** Just below the point (x, y) of an edge is inside polygon [i]; to the right of it, if
    the edge is vertical. *)
Definition inner_below (zs : list corners) (i : nat) (x y : Q) : Prop := Nat.odd (crossings zs i x y) = true.
(** Just above the point (x, y) of the edge [e] is inside polygon [i]; to the left of it,
    if the edge is vertical. *)
Definition inner_above (zs : list corners) (e : edge) (i : nat) (x y : Q) : Prop :=
  (has_edge zs i e /\ ~ inner_below zs i x y) \/ (~ has_edge zs i e /\ inner_below zs i x y).

(** A place that is inside the polygons [inner] is kept: it is inside some polygon, and
    not inside one whose interior is to be removed. *)
Definition kept_place (modes : list polygon_mode) (inner : nat -> Prop) : Prop :=
  (exists i, (i < length modes)%nat /\ inner i) /\ forall i, inner i -> nth_error modes i <> Some RemoveInterior.

(** Every edge that is to be removed is covered by that of a later polygon. *)
Definition covered (modes : list polygon_mode) (zs : list corners) : Prop :=
  forall e, In e (edges zs) -> nth_error modes (e_poly e) = Some RemoveEdges -> exists i, has_edge zs i e /\ (e_poly e < i)%nat.

(** [e] is kept: its polygon keeps its edges, and no later polygon has the same edge. *)
Definition kept_edge (modes : list polygon_mode) (zs : list corners) (e : edge) : Prop :=
  nth_error modes (e_poly e) <> Some RemoveEdges /\ forall i, has_edge zs i e -> (i <= e_poly e)%nat.
