(** Specification vocabulary for overlaying axis-parallel rectangles. *)

From Coq Require Import List ZArith.
From Verif Require Import Base SpecTidy SpecGrid.
Import ListNotations.
Local Open Scope Z_scope.

Record rect := mk_rect { r_left : Z; r_bottom : Z; r_right : Z; r_top : Z }.
Definition rect_corners (r : rect) : list (Z * Z) :=
  [(r_left r, r_bottom r); (r_right r, r_bottom r); (r_right r, r_top r); (r_left r, r_top r)].

(** Rectangles on the grid of [2 ^ g] units, at most 21 steps long and high, no two of which
    have a side on the same line. Each list is for the contours of one polygon. *)
Record spread_out (g : Z) (rss : list (list rect)) : Prop := mk_spread_out {
  so_size : 0 <= g <= 7;
  so_grid : forall r, In r (concat rss) -> grid_point g (r_left r, r_bottom r) /\ grid_point g (r_right r, r_top r);
  so_wide : forall r, In r (concat rss) -> 0 < r_right r - r_left r <= 2 ^ g * 21;
  so_high : forall r, In r (concat rss) -> 0 < r_top r - r_bottom r <= 2 ^ g * 21;
  so_xs : NoDup (flat_map (fun r => [r_left r; r_right r]) (concat rss));
  so_ys : NoDup (flat_map (fun r => [r_bottom r; r_top r]) (concat rss)) }.
