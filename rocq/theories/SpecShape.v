(** Specification vocabulary for the shape code: contours, segments, orders. *)

From Coq Require Import List ZArith Bool Sorting.Permutation.
From Verif Require Import Base Float SpecFloat64 Geometry Sweep Contours.
Import ListNotations.
Local Open Scope Z_scope.

(** *** Points *)

(** The point is exactly the integer point (x, y). *)
Definition at_z (p : point) (z : Z * Z) : Prop :=
  is_f64 (px p) /\ is_f64 (py p) /\ int_valued (px p) (fst z) /\ int_valued (py p) (snd z).

Definition no_nan (p : point) : Prop := f64_is_nan (px p) = false /\ f64_is_nan (py p) = false.

(** Both coordinates are at most [m] in magnitude. *)
Definition within (m : Z) (z : Z * Z) : Prop := Z.abs (fst z) <= m /\ Z.abs (snd z) <= m.

(** Twice the signed area of the triangle a b c; positive iff counter-clockwise
    with the y axis pointing up. *)
Definition orient (a b c : Z * Z) : Z :=
  (fst b - fst a) * (snd c - snd a) - (snd b - snd a) * (fst c - fst a).

(** Twice the signed area of a closed polygon. *)
Definition cross_z (a b : Z * Z) : Z := fst a * snd b - snd a * fst b.
Definition shoelace (l : list (Z * Z)) : Z :=
  match l with
  | [] => 0
  | p :: _ => fold_right Z.add 0 (map (fun ab => cross_z (fst ab) (snd ab)) (combine l (tl l ++ [p])))
  end.

(** x first, then y. *)
Definition lex_before (p q : point) : Prop :=
  f64_lt (px p) (px q) = true \/ (f64_eq (px p) (px q) = true /\ f64_lt (py p) (py q) = true).

(** [lo <= x <= hi] *)
Definition in_span (lo hi x : f64) : Prop := f64_le lo x = true /\ f64_le x hi = true.

(** *** Histories of a contour *)

Inductive contour_op := OpAdd (p : point) | OpClockwise | OpReverse | OpSetCw | OpSetCcw.
Definition run_op (c : contour) (o : contour_op) : outcome contour :=
  match o with
  | OpAdd p => Ok (contour_add c p)
  | OpClockwise => let* (_, c) := clockwise c in Ok c
  | OpReverse => Ok (change_orientation c)
  | OpSetCw => set_clockwise c
  | OpSetCcw => set_counterclockwise c
  end.
Definition run_ops (l : list contour_op) (c : contour) : outcome contour := ofold run_op l c.

(** What a new contour with the same points would answer. *)
Definition orientation_of (l : list point) : outcome bool :=
  let* (b, _) := clockwise (set_points contour_new l) in Ok b.

(** A history that adds no points. *)
Definition fixed_history (l : list contour_op) : Prop := forall p, ~ In (OpAdd p) l.

(** A contour with integer coordinates up to [m] and non-zero area, small enough for
    the area to be computed exactly. *)
Definition int_contour (m : Z) (l : list point) : Prop :=
  exists zs, Forall2 at_z l zs /\ Forall (within m) zs /\ l <> []
    /\ Z.of_nat (length l) * (2 * (m * m)) < 2 ^ 53 /\ shoelace zs <> 0.
