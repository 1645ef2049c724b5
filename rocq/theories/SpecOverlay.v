(** Specification vocabulary for the contours that overlaying tidy polygons gives: how
    often a contour goes round a place, and which contours bound the same region. *)

From Coq Require Import List ZArith QArith Bool.
From Verif Require Import Base Float Geometry Sweep Contours Compute SpecShape SpecOrder SpecIntersect SpecTurn SpecTidy.
Import ListNotations.
Local Open Scope Z_scope.

(** *** What is asked of the polygons *)

(** The edges are short enough for the directions of any two to be told apart, and the
    corners near enough to the origin for areas to be exact. *)
Definition compact (zs : list corners) : Prop :=
  (forall e, In e (edges zs) -> short (vsub (e_right e) (e_left e)))
  /\ exists m, Forall (Forall (Forall (within m))) zs /\ Z.of_nat (length (edges zs)) * (2 * (m * m)) < 2 ^ 53.

(** Tidy polygons with these corners. Those that have their edges removed are covered by
    later ones. *)
Definition overlayable (polys : input) (zs : list corners) : Prop :=
  Forall2 (fun p z => has_corners (fst p) z) polys zs /\ tidy zs /\ compact zs /\ covered (map snd polys) zs.

(** *** Winding numbers *)

(** A side that passes below the point counts 1 from left to right, and -1 from right to left. *)
Definition side_sign (x y : Q) (s : (Z * Z) * (Z * Z)) : Z :=
  match lex_z (fst s) (snd s) with
  | Lt => if passes_below (mk_edge 0 (fst s) (snd s)) x y then 1 else 0
  | Gt => if passes_below (mk_edge 0 (snd s) (fst s)) x y then -1 else 0
  | Eq => 0
  end.
(** How often the closed line [l] goes round the point, against the clock. *)
Definition winding (x y : Q) (l : list (Z * Z)) : Z := fold_right Z.add 0 (map (side_sign x y) (sides l)).
Definition windings (x y : Q) (ls : list (list (Z * Z))) : Z := fold_right Z.add 0 (map (winding x y) ls).

(** The polygons that the point is inside, by the even-odd rule. *)
Definition place_of (zs : list corners) (x y : Q) : list bool :=
  map (fun i => Nat.odd (crossings zs i x y)) (seq 0 (length zs)).
Definition kept_at (modes : list polygon_mode) (zs : list corners) (x y : Q) : Prop :=
  kept_place modes (fun i => inner_below zs i x y).

(** *** Regions *)

(** The contour [i], its holes, the holes of those, and so on. *)
Inductive in_region (r : polygon) (i : nat) : nat -> Prop :=
| region_self : in_region r i i
| region_hole : forall j c h, in_region r i j -> nth_error r j = Some c -> In h (c_holes c) -> in_region r i h.

Definition outer (r : polygon) (i : nat) : Prop := exists c, nth_error r i = Some c /\ c_external c = true.

(** The lines [js] are all those of the region of the contour [i]. *)
Definition region_of (r : polygon) (i : nat) (js : list nat) : Prop := NoDup js /\ forall j, In j js <-> in_region r i j.

(** How often the lines [js] together go round the point. *)
Definition goes_round (rz : corners) (js : list nat) (x y : Q) : Z := windings x y (map (fun j => nth j rz []) js).

(** *** Sides *)

(** The side that has what is kept above the edge on its left, and the one that has what
    is kept below it on its left. *)
Definition kept_sides (modes : list polygon_mode) (zs : list corners) (e : edge) (a b : Z * Z) : Prop :=
  kept_edge modes zs e /\ exists x y, inside_edge e x y
    /\ ((a = e_left e /\ b = e_right e /\ kept_place modes (fun i => inner_above zs e i x y))
        \/ (a = e_right e /\ b = e_left e /\ kept_place modes (fun i => inner_below zs i x y))).
