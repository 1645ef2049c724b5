(** C96-C100: the contours that overlaying tidy polygons gives. *)

From Coq Require Import List ZArith QArith.
From Verif Require Import Base Contours Sweep Compute StdRef SpecShape SpecOrder SpecCompute SpecTidy SpecOverlay ShapeSamples TidySamples OverlaySamples OverlayFacts.
Import ListNotations.
Local Open Scope Z_scope.

(** C96. Overlaying tidy polygons, of which those that have their edges removed are covered
    by later ones, comes to an end without a panic, and the corners of the result are whole numbers. *)
Theorem C96_completes : forall std fuel polys op zs, std_laws std -> sorts std -> overlayable polys zs -> (2 * length (edges zs) <= fuel)%nat ->
  exists r rz, compute std fuel polys op = Ok r /\ has_corners r rz.
Proof. exact overlay_ends. Qed.
Print Assumptions C96_completes.

(** The contours made of given sets of polygons together go once round each place that is
    kept and is inside exactly such a set of polygons, and not at all round any other
    place. *)
Theorem C96_covers : forall std fuel polys op zs, std_laws std -> sorts std -> overlayable polys zs -> (2 * length (edges zs) <= fuel)%nat ->
  forall r rz, compute std fuel polys op = Ok r -> has_corners r rz -> forall (P : list bool -> bool) x y,
  let lines := map snd (filter (fun cl => P (c_from (fst cl))) (combine r rz)) in
  (kept_at (map snd polys) zs x y /\ P (place_of zs x y) = true -> windings x y lines = 1)
  /\ (~ (kept_at (map snd polys) zs x y /\ P (place_of zs x y) = true) -> windings x y lines = 0).
Proof. exact overlay_covers. Qed.
Print Assumptions C96_covers.

(** C97. The outer contours run against the clock and the holes with it, and no contour
    goes round a place twice. *)
Theorem C97_directions : forall std fuel polys op zs, std_laws std -> sorts std -> overlayable polys zs -> (2 * length (edges zs) <= fuel)%nat ->
  forall r rz, compute std fuel polys op = Ok r -> has_corners r rz -> forall i c l x y, nth_error r i = Some c -> nth_error rz i = Some l ->
  (c_external c = true -> 0 < shoelace l /\ (winding x y l = 0 \/ winding x y l = 1))
  /\ (c_external c = false -> shoelace l < 0 /\ (winding x y l = 0 \/ winding x y l = -1)).
Proof. exact overlay_shapes. Qed.
Print Assumptions C97_directions.

(** C98. Every contour belongs to the region of one outer contour: it is that contour, one
    of its holes, one of the holes listed with those, and so on. The contours of a region
    are made of the same polygons, and together go round no place twice. *)
Theorem C98_regions : forall std fuel polys op zs, std_laws std -> sorts std -> overlayable polys zs -> (2 * length (edges zs) <= fuel)%nat ->
  forall r rz, compute std fuel polys op = Ok r -> has_corners r rz ->
  (forall j, (j < length r)%nat -> exists i, outer r i /\ in_region r i j /\ forall k, outer r k -> in_region r k j -> k = i)
  /\ (forall i, outer r i -> exists js, region_of r i js)
  /\ (forall i j c c', outer r i -> in_region r i j -> nth_error r i = Some c -> nth_error r j = Some c' -> c_from c' = c_from c)
  /\ (forall i js x y, outer r i -> region_of r i js -> goes_round rz js x y = 0 \/ goes_round rz js x y = 1).
Proof. exact overlay_regions. Qed.
Print Assumptions C98_regions.

(** Every place that is kept is in exactly one region. A place in a region is kept, and the
    region is made of the polygons that the place is inside. *)
Theorem C98_places : forall std fuel polys op zs, std_laws std -> sorts std -> overlayable polys zs -> (2 * length (edges zs) <= fuel)%nat ->
  forall r rz, compute std fuel polys op = Ok r -> has_corners r rz -> forall x y,
  (kept_at (map snd polys) zs x y -> exists i, outer r i /\ (exists js, region_of r i js /\ goes_round rz js x y = 1)
     /\ forall k js, outer r k -> region_of r k js -> goes_round rz js x y = 1 -> k = i)
  /\ forall i c js, outer r i -> nth_error r i = Some c -> region_of r i js -> goes_round rz js x y = 1 ->
       kept_at (map snd polys) zs x y /\ c_from c = place_of zs x y.
Proof. exact overlay_places. Qed.
Print Assumptions C98_places.

(** C99. No two contours, and no two parts of one contour, run along the same side of an
    edge, and the sides they run along are exactly the kept ones. *)
Theorem C99_sides : forall std fuel polys op zs, std_laws std -> sorts std -> overlayable polys zs -> (2 * length (edges zs) <= fuel)%nat ->
  forall r rz, compute std fuel polys op = Ok r -> has_corners r rz ->
  NoDup (flat_map sides rz)
  /\ forall a b, In (a, b) (flat_map sides rz) <-> exists e, In e (edges zs) /\ kept_sides (map snd polys) zs e a b.
Proof. exact overlay_sides. Qed.
Print Assumptions C99_sides.

(** A contour is made of the polygons that are to the left of each of its sides. *)
Theorem C99_from : forall std fuel polys op zs, std_laws std -> sorts std -> overlayable polys zs -> (2 * length (edges zs) <= fuel)%nat ->
  forall r rz, compute std fuel polys op = Ok r -> has_corners r rz -> forall i c l e x y k, nth_error r i = Some c -> nth_error rz i = Some l ->
  In e (edges zs) -> kept_edge (map snd polys) zs e -> inside_edge e x y -> (k < length polys)%nat ->
  (In (e_left e, e_right e) (sides l) -> nth_error (c_from c) k = Some true <-> inner_above zs e k x y)
  /\ (In (e_right e, e_left e) (sides l) -> nth_error (c_from c) k = Some true <-> inner_below zs k x y).
Proof. exact overlay_from. Qed.
Print Assumptions C99_from.

(** C100. Two contours are neighbours exactly if they run along the two sides of an edge. *)
Theorem C100_neighbours : forall std fuel polys op zs, std_laws std -> sorts std -> overlayable polys zs -> (2 * length (edges zs) <= fuel)%nat ->
  forall r rz, compute std fuel polys op = Ok r -> has_corners r rz -> forall i j ci li lj,
  nth_error r i = Some ci -> nth_error rz i = Some li -> nth_error rz j = Some lj ->
  nth_error (c_neighbors ci) j = Some true <-> exists a b, In (a, b) (sides li) /\ In (b, a) (sides lj).
Proof. exact overlay_neighbours. Qed.
Print Assumptions C100_neighbours.

(** A square with three holes, of which the first two touch in a corner and are traced as
    one, an island, and a rectangle beside the square: the third hole is listed with the
    second, not with the square. (8, 5) is in a hole, (8, 8) on the island, (8, 14) between
    the holes, and (26, 1) in the rectangle. *)
Example C96_hypotheses : overlayable islands islands_z /\ length (edges islands_z) = 24%nat
  /\ compute std_ref 56 islands Union = Ok (sample_contours islands 56) /\ has_corners (sample_contours islands 56) islands_lines
  /\ contours_shown (sample_contours islands 56) =
       [([1%nat], [true; false], true); ([3%nat], [true; false], false); ([], [true; false], true); ([], [true; false], false);
        ([], [false; true], true)]
  /\ map (fun v => map (winding (fst v) (snd v)) islands_lines) [(8, 5); (8, 8); (8, 14); (26, 1)]%Q
     = [[1; -1; 0; 0; 0]; [1; -1; 1; 0; 0]; [1; 0; 0; 0; 0]; [0; 0; 0; 0; 1]]
  /\ map (fun v => place_of islands_z (fst v) (snd v)) [(8, 5); (8, 8); (8, 14); (26, 1)]%Q
     = [[false; false]; [true; false]; [true; false]; [false; true]]
  /\ map c_neighbors (sample_contours islands 56)
     = [[false; false; false; false; true]; [false; false; false; false; false]; [false; false; false; false; false];
        [false; false; false; false; false]; [true; false; false; false; false]].
Proof.
  split; [exact islands_compact|]. split; [reflexivity|]. split; [exact (proj1 islands_result)|]. split; [exact (proj2 islands_result)|].
  repeat split; vm_compute; reflexivity.
Qed.
(** Two squares side by side and a diamond cut out of the second also meet the hypotheses. *)
Example C96_cut_out : overlayable neighbours neighbours_z.
Proof. exact neighbours_compact. Qed.
(** So does a square whose edges are removed, under one with the same edges and a hole: the
    hole is a region of its own, made of the first square only. *)
Example C96_covered : overlayable lined lined_z /\ length (edges lined_z) = 12%nat
  /\ compute std_ref 24 lined Union = Ok (sample_contours lined 24)
  /\ contours_shown (sample_contours lined 24) = [([2%nat], [true; true], true); ([], [true; false], true); ([], [true; true], false)].
Proof. split; [exact lined_overlayable|]. split; [reflexivity|]. split; vm_compute; reflexivity. Qed.
