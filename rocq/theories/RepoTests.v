(** The tests of src/shapeops.rs (1732-1808), run on the model. *)

From Coq Require Import List ZArith.
From Verif Require Import Base Float Geometry Sweep Contours Compute StdRef ShapeSamples.
Import ListNotations.
Local Open Scope Z_scope.

(** src/shapeops.rs 1736-1738 *)
Definition make_points (l : list (Z * Z)) : list point := map (fun v => pt (fst v) (snd v)) l.
(** src/shapeops.rs 1740-1747 *)
Definition make_rect (x y width height : Z) : contour :=
  let c := contour_new in
  let c := contour_add c (pt x y) in
  let c := contour_add c (mk_point (f64_add (f64_of_Z x) (f64_of_Z width)) (f64_of_Z y)) in
  let c := contour_add c (mk_point (f64_add (f64_of_Z x) (f64_of_Z width)) (f64_add (f64_of_Z y) (f64_of_Z height))) in
  contour_add c (mk_point (f64_of_Z x) (f64_add (f64_of_Z y) (f64_of_Z height))).

Definition two (a b : contour) : input := [([a], Normal); ([b], Normal)].
Definition points_of (o : outcome polygon) : option (list (list point)) :=
  match o with Ok r => Some (map c_points r) | _ => None end.

(** src/shapeops.rs 1749-1755 *)
Example test_contour_empty_segments : length (iter_segments contour_new) = 0%nat.
Proof. reflexivity. Qed.

(** src/shapeops.rs 1757-1769 *)
Example test_contour_many_segments :
  let c := contour_add (contour_add (contour_add contour_new (pt 0 0)) (pt 1 1)) (pt 2 2) in
  iter_segments c = [(pt 0 0, pt 1 1); (pt 1 1, pt 2 2); (pt 2 2, pt 0 0)].
Proof. vm_compute. reflexivity. Qed.

(** src/shapeops.rs 1771-1782 *)
Example test_no_overlap :
  points_of (compute std_ref 100 (two (make_rect 0 0 10 10) (make_rect 20 20 10 10)) Intersection)
  = Some [c_points (make_rect 0 0 10 10); c_points (make_rect 20 20 10 10)].
Proof. vm_compute. reflexivity. Qed.

(** src/shapeops.rs 1784-1795 *)
Example test_corner_overlap :
  points_of (compute std_ref 100 (two (make_rect 0 0 10 10) (make_rect 5 5 10 10)) Intersection)
  = Some [make_points [(0, 0); (10, 0); (10, 5); (5, 5); (5, 10); (0, 10)];
          make_points [(5, 5); (10, 5); (10, 10); (5, 10)];
          make_points [(5, 10); (10, 10); (10, 5); (15, 5); (15, 15); (5, 15)]].
Proof. vm_compute. reflexivity. Qed.

(** src/shapeops.rs 1797-1807 *)
Example test_shared_edge :
  points_of (compute std_ref 100 (two (make_rect 0 0 10 10) (make_rect 10 10 10 10)) Intersection)
  = Some [c_points (make_rect 0 0 10 10); c_points (make_rect 10 10 10 10)].
Proof. vm_compute. reflexivity. Qed.
