(** C135: a corner that touches the side of another polygon. *)

From Coq Require Import List ZArith QArith Bool.
From Verif Require Import Base Float Geometry Contours Sweep Compute StdRef SpecShape SpecOrder SpecCompute SpecTidy SpecOverlay ShapeSamples OverlaySamples CrossSamples SpecCross CornerTouch.
Import ListNotations.
Local Open Scope Z_scope.

(** C135. C124 needs its hypothesis that a second edge comes from the left to each point marked:
    there are polygons that meet all others, for which [compute] panics, but not once the points
    marked are made corners. *)
Theorem C135_refuted : exists ms polys polys' n,
  tidy (marked ms) /\ (forall r, In r (routes ms) -> straight (snd r))
  /\ (forall j k r r' e f, nth_error (routes ms) j = Some r -> nth_error (routes ms) k = Some r' -> j <> k -> stretch r e -> stretch r' f -> fit e f)
  /\ Forall2 (fun p z => has_points (fst p) z) polys (plain ms) /\ Forall2 (fun p z => has_points (fst p) z) polys' (marked ms) /\ map snd polys = map snd polys'
  /\ forall std fuel op, std_laws std -> sorts std -> (n <= fuel)%nat ->
       compute std fuel polys op = Panic PAssert /\ exists r, compute std fuel polys' op = Ok r.
Proof. exact touch_panic. Qed.
Print Assumptions C135_refuted.

(** The square from (0, 0) to (10, 10), and the triangle with the corners (5, 10), (9, 12) and
    (9, 14), which only touches its top side. The edge from (5, 10) to (9, 12) is put below that
    side before the side is cut there, and taken to be inside the square. With (5, 10) as a corner
    of the square too, each is a contour of its own. *)
Example C135_sample : compute std_ref 100 (shapes (plain touch_marks) touch_modes) Union = Panic PAssert
  /\ exists r, compute std_ref 100 (shapes (marked touch_marks) touch_modes) Union = Ok r /\ map c_from r = [[true; false]; [false; true]]
     /\ has_corners r [[(0, 0); (10, 0); (10, 10); (5, 10); (0, 10)]; [(5, 10); (9, 12); (9, 14)]].
Proof.
  split; [vm_compute; reflexivity|]. exists (sample_contours (shapes (marked touch_marks) touch_modes) 100). split; [vm_compute; reflexivity|]. split; [vm_compute; reflexivity|].
  apply z_points_at; [vm_compute; reflexivity|reflexivity].
Qed.
