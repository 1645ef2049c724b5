(** C124-C127: overlaying polygons whose sides cross. *)

From Coq Require Import List ZArith QArith.
From Verif Require Import Base Contours Sweep Compute StdRef SpecShape SpecOrder SpecCompute SpecTidy SpecOverlay SpecFollow OverlaySamples CrossOverlay CrossSamples
  CrossCover SpecCross.
Import ListNotations.
Local Open Scope Z_scope.

(** C124. Overlaying polygons whose sides cross in points that can be found exactly gives the
    same as overlaying them with these points as corners. *)
Theorem C124_cut : forall std ms polys polys' fuel fuel' op, std_laws std -> sorts std -> cut_well ms ->
  Forall2 (fun p z => has_points (fst p) z) polys (plain ms) -> Forall2 (fun p z => has_points (fst p) z) polys' (marked ms) ->
  map snd polys = map snd polys' -> (3 * length (edges (marked ms)) <= fuel)%nat -> (2 * length (edges (marked ms)) <= fuel')%nat ->
  compute std fuel polys op = compute std fuel' polys' op.
Proof. exact overlay_cut. Qed.
Print Assumptions C124_cut.

(** C125. Such an overlay comes to an end without a panic, and the corners of the result are
    whole numbers. *)
Theorem C125_completes : forall std fuel polys op ms, std_laws std -> sorts std -> crossable polys ms -> (3 * length (edges (marked ms)) <= fuel)%nat ->
  exists r rz, compute std fuel polys op = Ok r /\ has_corners r rz.
Proof. exact cross_ends. Qed.
Print Assumptions C125_completes.

(** The contours made of given sets of polygons together go once round each place that is
    kept and is inside exactly such a set of the polygons as they were given, and not at all
    round any other place. *)
Theorem C125_covers : forall std fuel polys op ms, std_laws std -> sorts std -> crossable polys ms -> (3 * length (edges (marked ms)) <= fuel)%nat ->
  forall r rz, compute std fuel polys op = Ok r -> has_corners r rz -> forall (P : list bool -> bool) x y,
  let lines := map snd (filter (fun cl => P (c_from (fst cl))) (combine r rz)) in
  (kept_at (map snd polys) (plain ms) x y /\ P (place_of (plain ms) x y) = true -> windings x y lines = 1)
  /\ (~ (kept_at (map snd polys) (plain ms) x y /\ P (place_of (plain ms) x y) = true) -> windings x y lines = 0).
Proof. exact cross_covers. Qed.
Print Assumptions C125_covers.

(** Every place that is kept is in exactly one region. A place in a region is kept, and the
    region is made of the polygons that the place is inside. *)
Theorem C125_places : forall std fuel polys op ms, std_laws std -> sorts std -> crossable polys ms -> (3 * length (edges (marked ms)) <= fuel)%nat ->
  forall r rz, compute std fuel polys op = Ok r -> has_corners r rz -> forall x y,
  (kept_at (map snd polys) (plain ms) x y -> exists i, outer r i /\ (exists js, region_of r i js /\ goes_round rz js x y = 1)
     /\ forall k js, outer r k -> region_of r k js -> goes_round rz js x y = 1 -> k = i)
  /\ forall i c js, outer r i -> nth_error r i = Some c -> region_of r i js -> goes_round rz js x y = 1 ->
       kept_at (map snd polys) (plain ms) x y /\ c_from c = place_of (plain ms) x y.
Proof. exact cross_places. Qed.
Print Assumptions C125_places.

(** C126. The outer contours run against the clock and the holes with it, and no contour
    goes round a place twice. *)
Theorem C126_directions : forall std fuel polys op ms, std_laws std -> sorts std -> crossable polys ms -> (3 * length (edges (marked ms)) <= fuel)%nat ->
  forall r rz, compute std fuel polys op = Ok r -> has_corners r rz -> forall i c l x y, nth_error r i = Some c -> nth_error rz i = Some l ->
  (c_external c = true -> 0 < shoelace l /\ (winding x y l = 0 \/ winding x y l = 1))
  /\ (c_external c = false -> shoelace l < 0 /\ (winding x y l = 0 \/ winding x y l = -1)).
Proof. exact cross_shapes. Qed.
Print Assumptions C126_directions.

(** Every contour belongs to the region of one outer contour. The contours of a region are
    made of the same polygons, and together go round no place twice. *)
Theorem C126_regions : forall std fuel polys op ms, std_laws std -> sorts std -> crossable polys ms -> (3 * length (edges (marked ms)) <= fuel)%nat ->
  forall r rz, compute std fuel polys op = Ok r -> has_corners r rz ->
  (forall j, (j < length r)%nat -> exists i, outer r i /\ in_region r i j /\ forall k, outer r k -> in_region r k j -> k = i)
  /\ (forall i, outer r i -> exists js, region_of r i js)
  /\ (forall i j c c', outer r i -> in_region r i j -> nth_error r i = Some c -> nth_error r j = Some c' -> c_from c' = c_from c)
  /\ (forall i js x y, outer r i -> region_of r i js -> goes_round rz js x y = 0 \/ goes_round rz js x y = 1).
Proof. exact cross_regions. Qed.
Print Assumptions C126_regions.

(** The contours run along the kept sides of the parts that the sides are cut into, along each
    once. *)
Theorem C126_sides : forall std fuel polys op ms, std_laws std -> sorts std -> crossable polys ms -> (3 * length (edges (marked ms)) <= fuel)%nat ->
  forall r rz, compute std fuel polys op = Ok r -> has_corners r rz ->
  NoDup (flat_map sides rz)
  /\ forall a b, In (a, b) (flat_map sides rz) <-> exists e, In e (edges (marked ms)) /\ kept_sides (map snd polys) (marked ms) e a b.
Proof. exact cross_sides. Qed.
Print Assumptions C126_sides.

(** Two contours are neighbours exactly if they run along the two sides of such a part. *)
Theorem C126_neighbours : forall std fuel polys op ms, std_laws std -> sorts std -> crossable polys ms -> (3 * length (edges (marked ms)) <= fuel)%nat ->
  forall r rz, compute std fuel polys op = Ok r -> has_corners r rz -> forall i j ci li lj,
  nth_error r i = Some ci -> nth_error rz i = Some li -> nth_error rz j = Some lj ->
  nth_error (c_neighbors ci) j = Some true <-> exists a b, In (a, b) (sides li) /\ In (b, a) (sides lj).
Proof. exact cross_neighbours. Qed.
Print Assumptions C126_neighbours.

(** Each contour starts in its leftmost corner, the lowest of those, and in every other corner
    turns as far left as the kept sides allow. *)
Theorem C126_turns : forall std fuel polys op ms, std_laws std -> sorts std -> crossable polys ms -> (3 * length (edges (marked ms)) <= fuel)%nat ->
  forall r rz, compute std fuel polys op = Ok r -> has_corners r rz -> well_followed rz.
Proof. exact cross_followed. Qed.
Print Assumptions C126_turns.

(** C127. Overlaying the same polygons in another order, with contours that start elsewhere,
    go round the other way or are put together differently, gives the same contours in the
    same order, with the same holes and neighbours, and made of the same polygons. *)
Theorem C127_order_free : forall std std' fuel fuel' polys polys' op op' ms ms' sigma,
  std_laws std -> sorts std -> crossable polys ms -> (3 * length (edges (marked ms)) <= fuel)%nat ->
  std_laws std' -> sorts std' -> crossable polys' ms' -> (3 * length (edges (marked ms')) <= fuel')%nat ->
  same_polygons sigma (marked ms) (marked ms') ->
  (forall i, (i < length polys)%nat -> nth_error (map snd polys') (sigma i) = nth_error (map snd polys) i) ->
  forall r r' rz rz', compute std fuel polys op = Ok r -> compute std' fuel' polys' op' = Ok r' -> has_corners r rz -> has_corners r' rz' ->
  rz' = rz /\ forall i c c', nth_error r i = Some c -> nth_error r' i = Some c' ->
    c_holes c' = c_holes c /\ c_external c' = c_external c /\ c_neighbors c' = c_neighbors c
    /\ forall k, (k < length polys)%nat -> nth_error (c_from c') (sigma k) = nth_error (c_from c) k.
Proof. exact cross_order_free. Qed.
Print Assumptions C127_order_free.

(** Two squares and a triangle cut out of the second: eleven sides, four points where they
    cross, nineteen parts. *)
Example C124_hypotheses : cut_well crossing_marks
  /\ Forall2 (fun p z => has_points (fst p) z) crossing (plain crossing_marks)
  /\ Forall2 (fun p z => has_points (fst p) z) (shapes (marked crossing_marks) crossing_modes) (marked crossing_marks)
  /\ length (edges (plain crossing_marks)) = 11%nat /\ length (edges (marked crossing_marks)) = 19%nat
  /\ compute std_ref 38 (shapes (marked crossing_marks) crossing_modes) Union = Ok (sample_contours crossing 57).
Proof.
  split; [exact crossing_cut|]. split; [apply shapes_points; reflexivity|]. split; [apply shapes_points; reflexivity|].
  split; [vm_compute; reflexivity|]. split; vm_compute; reflexivity.
Qed.
(** (1, 1) is in the first square, (6, 6) in both, (12, 12) in the second, and (14.75, 5.25) in
    the corner of the second that the triangle cuts off. *)
Example C125_hypotheses : crossable crossing crossing_marks
  /\ compute std_ref 57 crossing Union = Ok (sample_contours crossing 57) /\ has_corners (sample_contours crossing 57) crossing_lines
  /\ contours_shown (sample_contours crossing 57) = [([], [true; false; false], true); ([], [true; true; false], true); ([], [false; true; false], true)]
  /\ map c_neighbors (sample_contours crossing 57) = [[false; true; false]; [true; false; true]; [false; true; false]]
  /\ map (fun v => map (winding (fst v) (snd v)) crossing_lines) [(1, 1); (6, 6); (12, 12); (59 # 4, 21 # 4)]%Q = [[1; 0; 0]; [0; 1; 0]; [0; 0; 1]; [0; 0; 0]]
  /\ map (fun v => place_of (plain crossing_marks) (fst v) (snd v)) [(1, 1); (6, 6); (12, 12); (59 # 4, 21 # 4)]%Q
     = [[true; false; false]; [true; true; false]; [false; true; false]; [false; true; true]].
Proof.
  split; [exact crossing_crossable|]. split; [exact (proj1 crossing_result)|]. split; [exact (proj2 crossing_result)|].
  split; [vm_compute; reflexivity|]. split; [vm_compute; reflexivity|]. split; vm_compute; reflexivity.
Qed.
(** The triangle first and the second square from another corner. *)
Example C127_hypotheses : crossable crossed crossed_marks /\ same_polygons rotated (marked crossing_marks) (marked crossed_marks)
  /\ (forall i, (i < length crossing)%nat -> nth_error (map snd crossed) (rotated i) = nth_error (map snd crossing) i)
  /\ compute std_ref 57 crossed Union = Ok (sample_contours crossed 57) /\ has_corners (sample_contours crossed 57) crossing_lines
  /\ contours_shown (sample_contours crossed 57) = [([], [false; true; false], true); ([], [false; true; true], true); ([], [false; false; true], true)].
Proof.
  split; [exact crossed_crossable|]. split; [exact crossed_same|]. split; [exact crossed_modes|]. split; [exact (proj1 crossed_result)|]. split; [exact (proj2 crossed_result)|].
  vm_compute. reflexivity.
Qed.
