(** C95: overlaying polygons whose edges meet only at corners. *)

From Coq Require Import List ZArith QArith Permutation.
From Verif Require Import Base Contours Sweep Compute StdRef SpecShape SpecOrder SpecCompute SpecTidy ShapeSamples TidyFacts TidySamples.
Import ListNotations.

(** C95. The sweep divides no edge, and visits every edge once. A side of an edge is kept
    exactly if the edge is not removed or covered by a later polygon, and the place on that
    side is, by the even-odd rule, inside some polygon and inside none whose interior is to
    be removed. *)
Theorem C95_sides : forall polys zs fuel, Forall2 (fun p z => has_corners (fst p) z) polys zs -> tidy zs ->
  (2 * length (edges zs) <= fuel)%nat ->
  exists w0 w segments ends, add_polygons (length polys) 0 polys (mk_sweep [] [] [] [] []) = Ok w0
    /\ sweep_loop fuel (length polys) w0 = Ok w
    /\ include_all (map snd polys) (w_packets w) (w_swept w) = Ok (segments, ends)
    /\ Forall2 (fun e s => seg_z s (e_left e) (e_right e) /\ s_order s = e_poly e) (edges zs) (w_segs w)
    /\ Permutation (w_swept w) (w_segs w) /\ NoDup ends /\ (forall d, In d ends -> In (fst d) (w_segs w))
    /\ forall k e s x y, nth_error (edges zs) k = Some e -> nth_error (w_segs w) k = Some s -> inside_edge e x y ->
         (In (s, LeftEnd) ends <-> kept_edge (map snd polys) zs e /\ kept_place (map snd polys) (fun i => inner_above zs e i x y))
         /\ (In (s, RightEnd) ends <-> kept_edge (map snd polys) zs e /\ kept_place (map snd polys) (fun i => inner_below zs i x y)).
Proof. exact tidy_sides. Qed.
Print Assumptions C95_sides.

(** Every edge knows which polygons are below it, and an edge that is kept knows which are
    above it. *)
Theorem C95_faces : forall polys zs fuel w0 w, Forall2 (fun p z => has_corners (fst p) z) polys zs -> tidy zs ->
  (2 * length (edges zs) <= fuel)%nat ->
  add_polygons (length polys) 0 polys (mk_sweep [] [] [] [] []) = Ok w0 -> sweep_loop fuel (length polys) w0 = Ok w ->
  forall j e s x y, nth_error (edges zs) j = Some e -> nth_error (w_segs w) j = Some s -> inside_edge e x y ->
    exists k, get_packet (w_packets w) s = Ok k /\ length (k_left k) = length polys /\ length (k_right k) = length polys
      /\ forall i, (nth_error (k_right k) i = Some true <-> inner_below zs i x y)
         /\ (kept_edge (map snd polys) zs e -> nth_error (k_left k) i = Some true <-> inner_above zs e i x y).
Proof. exact tidy_faces. Qed.
Print Assumptions C95_faces.

(** Two steps for each edge are enough. *)
Theorem C95_finishes : forall std polys zs fuel op, std_laws std -> Forall2 (fun p z => has_corners (fst p) z) polys zs -> tidy zs ->
  (2 * length (edges zs) <= fuel)%nat -> compute std fuel polys op <> Panic PFuel.
Proof. exact tidy_fuel. Qed.
Print Assumptions C95_finishes.

(** The ends can be strictly ordered, so the result does not depend on the sort (C94). *)
Theorem C95_sort_free : forall std std' polys zs fuel op, std_laws std -> std_laws std' -> sorts std -> sorts std' ->
  Forall2 (fun p z => has_corners (fst p) z) polys zs -> tidy zs -> (2 * length (edges zs) <= fuel)%nat ->
  compute std fuel polys op = compute std' fuel polys op.
Proof. exact tidy_same. Qed.
Print Assumptions C95_sort_free.

(** Two squares side by side with an edge in common, and a diamond cut out of the second:
    the common edge is kept as that of the second square, on both sides, and the diamond
    only on the outside. *)
Example C95_hypotheses : Forall2 (fun p z => has_corners (fst p) z) neighbours neighbours_z /\ tidy neighbours_z
  /\ length (edges neighbours_z) = 12%nat
  /\ sides_shown neighbours 24 = Ok
       [(3, RightEnd); (0, LeftEnd); (2, RightEnd); (7, LeftEnd); (7, RightEnd); (8, RightEnd); (11, LeftEnd);
        (10, LeftEnd); (9, RightEnd); (4, LeftEnd); (6, RightEnd); (5, LeftEnd)]%nat.
Proof.
  split; [exact neighbours_corners|]. split; [exact neighbours_tidy|]. split; [reflexivity|]. vm_compute. reflexivity.
Qed.
