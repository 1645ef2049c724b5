(** C51-C57, C69-C71, C106: overlaying polygons (src/shapeops.rs). *)

From Coq Require Import List ZArith Lia.
From Verif Require Import Base Float Geometry Sweep Contours Compute StdRef SpecShape SpecCompute
  StdFacts ComputeFacts FuelFacts HolesFacts RefutedFacts ShapeSamples.
Import ListNotations.

(** The laws asked of the standard library are met by a sorted list with insertion
    sort. *)
Theorem C51_std_laws_hold : std_laws std_ref.
Proof. exact std_ref_laws. Qed.
Print Assumptions C51_std_laws_hold.

(** C51. The polygons a result contour comes from. *)
Theorem C51_sources : forall std fuel polys op r c, std_laws std -> compute std fuel polys op = Ok r -> In c r ->
  length (c_from c) = length polys
  /\ (exists i, nth_error (c_from c) i = Some true)
  /\ (forall i, nth_error (c_from c) i = Some true -> ~ exists poly, nth_error polys i = Some (poly, RemoveInterior)).
Proof. exact compute_sources. Qed.
Print Assumptions C51_sources.

(** The overlapping squares of the tests in src/shapeops.rs, and a square cut out of
    another. *)
Example C51_example :
  shown (compute std_ref 1000 overlapping Intersection) = Ok shown_overlapping
  /\ shown (compute std_ref 1000 cut_out Union)
     = Ok [([pt 0 0; pt 10 0; pt 10 10; pt 0 10], [1%nat], [true; false], [false; false], true);
           ([pt 2 2; pt 2 4; pt 4 4; pt 4 2], [], [true; false], [false; false], false)].
Proof. split; vm_compute; reflexivity. Qed.

(** The other two tests: squares apart, and squares with a common corner. *)
Example C51_tests :
  shown (compute std_ref 1000 [([rct 0 0 10 10], Normal); ([rct 20 20 10 10], Normal)] Intersection)
  = Ok [([pt 0 0; pt 10 0; pt 10 10; pt 0 10], [], [true; false], [false; false], true);
        ([pt 20 20; pt 30 20; pt 30 30; pt 20 30], [], [false; true], [false; false], true)]
  /\ shown (compute std_ref 1000 [([rct 0 0 10 10], Normal); ([rct 10 10 10 10], Normal)] Intersection)
  = Ok [([pt 0 0; pt 10 0; pt 10 10; pt 0 10], [], [true; false], [false; false], true);
        ([pt 10 10; pt 20 10; pt 20 20; pt 10 20], [], [false; true], [false; false], true)].
Proof. split; vm_compute; reflexivity. Qed.

(** C52. Neighbours are mutual, and share a piece of an edge. *)
Theorem C52_neighbors : forall std fuel polys op r, std_laws std -> compute std fuel polys op = Ok r ->
  (forall c, In c r -> length (c_neighbors c) = length r)
  /\ (forall i j ci cj, nth_error r i = Some ci -> nth_error r j = Some cj ->
        nth_error (c_neighbors ci) j = nth_error (c_neighbors cj) i)
  /\ (forall i j ci, nth_error r i = Some ci -> nth_error (c_neighbors ci) j = Some true -> share_piece polys r i j).
Proof. exact compute_neighbors. Qed.
Print Assumptions C52_neighbors.

Example C52_example : exists r, compute std_ref 1000 nested Union = Ok r
  /\ map c_neighbors r = [[false; false; false]; [false; false; true]; [false; true; false]].
Proof.
  destruct (compute std_ref 1000 nested Union) as [r|e|p] eqn:E; vm_compute in E; inversion E.
  exists r. subst r. split; vm_compute; reflexivity.
Qed.

(** C53. Holes. *)
Theorem C53_holes : forall std fuel polys op r, std_laws std -> compute std fuel polys op = Ok r ->
  NoDup (concat (map c_holes r))
  /\ (forall i c h, nth_error r i = Some c -> In h (c_holes c) ->
        (i <= h)%nat /\ exists ch, nth_error r h = Some ch /\ c_external ch = false
          /\ orientation_of (c_points ch) = Ok true)
  /\ (forall h ch, nth_error r h = Some ch -> c_external ch = false ->
        exists i c, nth_error r i = Some c /\ In h (c_holes c)).
Proof. exact compute_hole_lists. Qed.
Print Assumptions C53_holes.

Example C53_example : exists r, compute std_ref 1000 nested Union = Ok r
  /\ map c_holes r = [[2%nat]; []; []] /\ map c_external r = [true; true; false].
Proof.
  destruct (compute std_ref 1000 nested Union) as [r|e|p] eqn:E; vm_compute in E; inversion E.
  exists r. subst r. split; [|split]; vm_compute; reflexivity.
Qed.

(** C54. Vertices, and edges other than the first of a contour, are those of kept
    polygons. *)
Theorem C54_vertices : forall std fuel polys op r c, std_laws std -> compute std fuel polys op = Ok r -> In c r ->
  (forall p, In p (c_points c) -> vertex_ok polys p)
  /\ (forall k a b, (1 <= k)%nat -> contour_edge (c_points c) k a b -> near_piece polys a b).
Proof. exact compute_vertices. Qed.
Print Assumptions C54_vertices.

(** The crossing of the squares is a vertex that is not one of theirs. *)
Example C54_example : exists r c, compute std_ref 1000 overlapping Union = Ok r /\ In c r
  /\ contour_edge (c_points c) 1 (pt 10 0) (pt 10 5)
  /\ ~ (exists poly c', In poly overlapping /\ In c' (fst poly) /\ In (pt 10 5) (c_points c')).
Proof.
  destruct (compute std_ref 1000 overlapping Union) as [r|e|p] eqn:E; vm_compute in E; inversion E.
  exists r. subst r. eexists. split; [reflexivity|]. split; [left; reflexivity|]. split; [split; vm_compute; reflexivity|].
  intros (poly & c' & [<-|[<-|[]]] & [<-|[]] & H); vm_compute in H; intuition discriminate.
Qed.

(** C55. The intersection of two rectangles that are apart is not empty: the operation is
    not looked at. *)
Theorem C55_refuted : exists a b n r, int_rectangle a /\ int_rectangle b
  /\ (forall p q, In p (c_points a) -> In q (c_points b) -> f64_lt (px p) (px q) = true)
  /\ (forall std fuel, std_laws std -> sorts std -> (n <= fuel)%nat -> compute std fuel [([a], Normal); ([b], Normal)] Intersection = Ok r)
  /\ r <> [].
Proof. exact apart_intersect. Qed.
Print Assumptions C55_refuted.

Theorem C55_ignored : forall std fuel polys op op', compute std fuel polys op = compute std fuel polys op'.
Proof. exact operation_ignored. Qed.
Print Assumptions C55_ignored.

(** C56. [compute] runs out of fuel only by sweeping that many events: including,
    tracing and joining always finish. *)
Theorem C56_tracing_finishes : forall std fuel polys op, std_laws std -> compute std fuel polys op = Panic PFuel ->
  exists w0 w, add_polygons (length polys) 0 polys (mk_sweep [] [] [] [] []) = Ok w0
    /\ sweeps (length polys) fuel w0 w /\ exists x, heap_pop endpoint_cmp (w_queue w) = Ok (Some x).
Proof. exact compute_fuel. Qed.
Print Assumptions C56_tracing_finishes.

(** With fuel to spare the result does not depend on it. *)
Theorem C56_fuel_irrelevant : forall std f f' polys op r,
  compute std f polys op = r -> r <> Panic PFuel -> (f <= f')%nat -> compute std f' polys op = r.
Proof. exact compute_more. Qed.
Print Assumptions C56_fuel_irrelevant.

Example C56_example : compute std_ref 3 overlapping Union = Panic PFuel
  /\ forall fuel, (1000 <= fuel)%nat -> shown (compute std_ref fuel overlapping Union) = Ok shown_overlapping.
Proof.
  split; [vm_compute; reflexivity|]. intros fuel L.
  destruct (compute std_ref 1000 overlapping Union) as [r|e|p] eqn:E.
  - rewrite (compute_more std_ref 1000 fuel overlapping Union (Ok r) E) by (auto; discriminate).
    vm_compute in E. inversion E. vm_compute. reflexivity.
  - vm_compute in E. discriminate.
  - vm_compute in E. discriminate.
Qed.

(** C57. [compute_holes]. *)
Theorem C57_hole_forest : forall std p r, std_laws std -> (forall c, In c p -> c_holes c = [] /\ c_external c = true) ->
  compute_holes std p = Ok r -> hole_forest p r.
Proof. exact compute_holes_spec. Qed.
Print Assumptions C57_hole_forest.

(** A square listed before the one around it, and one apart. *)
Example C57_example : exists r,
  compute_holes std_ref [rct 2 2 2 2; rct 0 0 10 10; rct 20 0 1 1] = Ok r
  /\ map c_holes r = [[]; [0%nat]; []] /\ map c_external r = [false; true; true]
  /\ map c_points r = [[pt 2 4; pt 4 4; pt 4 2; pt 2 2]; c_points (rct 0 0 10 10); c_points (rct 20 0 1 1)].
Proof.
  destruct (compute_holes std_ref [rct 2 2 2 2; rct 0 0 10 10; rct 20 0 1 1]) as [r|e|p] eqn:E; vm_compute in E; inversion E.
  exists r. subst r. split; [|split; [|split]]; vm_compute; reflexivity.
Qed.

(** C69. Two proper triangles can make [compute] panic. *)
Theorem C69_refuted : exists a b n, int_triangle a /\ int_triangle b
  /\ forall std fuel op, std_laws std -> sorts std -> (n <= fuel)%nat -> compute std fuel [([a], Normal); ([b], Normal)] op = Panic PAssert.
Proof. exact triangles_panic. Qed.
Print Assumptions C69_refuted.

(** C70. The first edge of a contour need not be an edge of anything. *)
Theorem C70_refuted : exists fuel polys r c a b, (forall std op, std_laws std -> sorts std -> compute std fuel polys op = Ok r) /\ In c r
  /\ contour_edge (c_points c) 0 a b /\ ~ near_piece polys a b.
Proof. exact bad_edge. Qed.
Print Assumptions C70_refuted.

(** C71. A contour can report a polygon that is entirely to the left of one of its
    vertices. *)
Theorem C71_refuted : exists fuel polys r c i poly p,
  (forall q m, In (q, m) polys -> m = Normal) /\ (forall std op, std_laws std -> sorts std -> compute std fuel polys op = Ok r) /\ In c r
  /\ nth_error polys i = Some (poly, Normal) /\ nth_error (c_from c) i = Some true /\ In p (c_points c)
  /\ forall c' q, In c' poly -> In q (c_points c') -> f64_lt (px q) (px p) = true.
Proof. exact wrong_source. Qed.
Print Assumptions C71_refuted.

(** C106. Overlaying two axis-parallel rectangles with integer corners can give a vertex
    whose height is not that of any corner. *)
Theorem C106_refuted : exists fuel a b r c p, int_rectangle a /\ int_rectangle b
  /\ (forall std op, std_laws std -> sorts std -> compute std fuel [([a], Normal); ([b], Normal)] op = Ok r) /\ In c r /\ In p (c_points c)
  /\ forall q, In q (c_points a) \/ In q (c_points b) -> f64_eq (py q) (py p) = false.
Proof. exact new_coordinate. Qed.
Print Assumptions C106_refuted.

(** Two lines that cross at (1, 0), turned to lie as in the tests of crossings: the
    point reported is just left of it. *)
Example C106_crossing : exists p, intersect_segments (pt 0 0, pt 49 0) (pt 1 (-5), pt 1 5) = IPoint p
  /\ f64_eq (py p) (py (pt 1 0)) = true /\ f64_lt (px p) (px (pt 1 0)) = true.
Proof. eexists. split; [vm_compute; reflexivity|]. split; vm_compute; reflexivity. Qed.
