(** The shapeops command, programs/src/idchoppers.rs 610-708: it overlays three fixed
    polygons and draws the result. What is printed is not modelled, except that it may
    panic; as in Chart.v the SVG document is kept as structured data. *)

From Coq Require Import List ZArith.
From Verif Require Import Base Float Geometry Sweep Contours Compute Chart.
Import ListNotations.
Local Open Scope Z_scope.

Definition demo_point (p : Z * Z) : point := mk_point (f64_of_Z (fst p)) (f64_of_Z (snd p)).
(** 621-622, 640-641, 661-668: a contour with the given points. *)
Definition demo_contour (l : list (Z * Z)) : contour := set_points contour_new (map demo_point l).

(** 611-624 *)
Definition demo_first : polygon := [demo_contour [(0, 0); (0, 64); (32, 64); (32, 0)]].
(** 630-643 *)
Definition demo_second : polygon := [demo_contour [(0, 0); (0, 64); (64, 64); (64, 0)]].
(** 661-669 *)
Definition demo_third : polygon := [demo_contour [(0, 0); (64, 0); (64, 32); (0, 32)]].

(** 684-694 and 695-703: the path of a contour, and the place of the text with its number. *)
Record demo_item := mk_demo_item {
  di_d : list (command f64);
  di_number : nat;
  di_x : f64; di_y : f64 }.
Record demo_document := mk_demo_document {
  dd_view : f64 * f64 * f64 * f64;
  dd_items : list demo_item }.

(** 682-704: one contour; [points.last().unwrap()], [points[0]]. *)
Definition demo_item_of (i : nat) (c : contour) : outcome demo_item :=
  let* _ := counterclockwise c in
  let* last_point := (match rev (c_points c) with [] => Panic PUnwrap | p :: _ => Ok p end) in
  let* first_point := index_nat (c_points c) 0 in
  Ok (mk_demo_item
        (MoveTo (px last_point) (f64_neg (py last_point)) :: map (fun p => LineTo (px p) (f64_neg (py p))) (c_points c))
        i (f64_add (px first_point) (f64_of_Z 8)) (f64_sub (f64_neg (py first_point)) (f64_of_Z 8))).
Fixpoint demo_items (i : nat) (l : polygon) : outcome (list demo_item) :=
  match l with
  | [] => Ok []
  | c :: l' =>
      let* x := demo_item_of i c in
      let* xs := demo_items (S i) l' in
      Ok (x :: xs)
  end.

(** 610-708 *)
Definition do_shapeops (std : std_impl) (fuel : nat) : outcome demo_document :=
  let* first := compute_holes std demo_first in
  let* _ := omap clockwise first in
  let* result := compute std fuel [(first, Normal); (demo_second, Normal); (demo_third, Normal)] Union in
  let bbox := polygon_bbox result in
  let margin := f64_of_Z 16 in
  let view := (f64_sub (r_x bbox) margin, f64_sub (f64_neg (r_max_y bbox)) margin,
               f64_add (r_w bbox) (f64_of_Z 32), f64_add (r_h bbox) (f64_of_Z 32)) in
  let* items := demo_items 0 result in
  Ok (mk_demo_document view items).
