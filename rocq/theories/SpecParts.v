(** Specification vocabulary for the areas of the parts of overlaid polygons. *)

From Coq Require Import List ZArith QArith Bool.
From Verif Require Import Base Contours Compute SpecShape SpecTidy SpecOverlay SpecRects.
Import ListNotations.
Local Open Scope Z_scope.

(** Twice the area that the closed lines go round together. *)
Definition total_area (ls : list (list (Z * Z))) : Z := fold_right Z.add 0 (map shoelace ls).

(** The closed lines of a polygon go round no place twice: [d] is 1 if they run against the
    clock and -1 if they run with it. A hole runs the other way. *)
Definition once_round (d : Z) (z : corners) : Prop :=
  (d = 1 \/ d = -1) /\ forall x y, windings x y z = 0 \/ windings x y z = d.

(** The contours that are made of polygon [i], and perhaps of others. *)
Definition made_of (i : nat) (r : polygon) (rz : corners) : corners :=
  map snd (filter (fun cl => nth i (c_from (fst cl)) false) (combine r rz)).

(** The area of the contours, each as often as the number of polygons it is made of. *)
Definition counted_area (r : polygon) (rz : corners) : Z :=
  fold_right Z.add 0 (map (fun cl => Z.of_nat (length (filter (fun b => b) (c_from (fst cl)))) * shoelace (snd cl)) (combine r rz)).

Definition width (q : rect) : Z := r_right q - r_left q.
Definition height_of (q : rect) : Z := r_top q - r_bottom q.

(** One of the polygons of [from] is to have its inside removed. *)
Definition cut_out (modes : list polygon_mode) (from : list bool) : bool :=
  existsb (fun mb => match mb with (RemoveInterior, b) => b | _ => false end) (combine modes from).
(** The contours with no such polygon. *)
Definition left_over (modes : list polygon_mode) (r : polygon) (rz : corners) : corners :=
  map snd (filter (fun cl => negb (cut_out modes (c_from (fst cl)))) (combine r rz)).
