(** Properties of the intersection of segments: C68, C82-C85, and the start of C59. *)

From Coq Require Import List ZArith QArith Lia.
From Verif Require Import Base Float SpecFloat64 Geometry Sweep Contours Compute Route SpecShape SpecOrder SpecBox
  SpecIntersect SpecHandle CrossingFacts InLineFacts HandleFacts BoxFacts TouchFacts ShapeSamples.
Import ListNotations.
Local Open Scope Z_scope.

(** C68. Segments whose directions clearly differ: the answer is right, the point is
    within 2^-24 of the true one, and is exact if the segments meet in an end. *)
Theorem C68_crossing : forall a b c d za zb zc zd,
  at_z a za -> at_z b zb -> at_z c zc -> at_z d zd ->
  within (2 ^ 24) za -> within (2 ^ 24) zb -> within (2 ^ 24) zc -> within (2 ^ 24) zd ->
  clearly_crossing (vsub zb za) (vsub zd zc) ->
  match intersect_segments (a, b) (c, d) with
  | INone => forall x y, ~ on_both za zb zc zd x y
  | IPoint p => exists x y, on_both za zb zc zd x y /\ near (1 # 16777216) p x y
      /\ forall e, In e [za; zb; zc; zd] -> (x == inject_Z (fst e))%Q -> (y == inject_Z (snd e))%Q -> at_z p e
  | ISegment _ _ => False
  end.
Proof. exact crossing_spec. Qed.
Print Assumptions C68_crossing.

Example C68_example :
  at_z (pt 0 0) (0, 0) /\ within (2 ^ 24) (3, 1) /\ clearly_crossing (vsub (3, 1) (0, 0)) (vsub (1, 0) (1, 7))
  /\ (exists f, intersect_segments (pt 0 0, pt 3 1) (pt 1 7, pt 1 0) = IPoint (mk_point f64_one f))
  /\ intersect_segments (pt 0 0, pt 3 1) (pt 4 7, pt 4 0) = INone
  /\ intersect_segments (pt 0 0, pt 3 1) (pt 3 1, pt 4 9) = IPoint (pt 3 1).
Proof.
  split; [apply pt_at; lia|]. split; [split; cbn; lia|]. split; [split; vm_compute; discriminate|].
  split; [eexists; vm_compute; reflexivity|]. split; vm_compute; reflexivity.
Qed.

(** The threshold for the square of the sine of the angle between parallel segments is the
    double 0x3E7AD7F29ABCAF48, which is what 0.0000001 stands for. *)
Example C68_threshold : f64_1em7 = S754_finite false 7555786372591432 (-76).
Proof. reflexivity. Qed.

(** The threshold below which the fraction of a coordinate is rounded away is the double
    0x3E112E0BE826D695, which is what 1e-9 stands for. *)
Example C68_threshold_round : f64_1em9 = S754_finite false 4835703278458517 (-82).
Proof. reflexivity. Qed.

(** The threshold for the square of the distance within which a crossing is moved to an end is
    the double 0x3CD203AF9EE75616, which is what 1e-15 stands for. *)
Example C68_threshold_snap : f64_1em15 = S754_finite false 5070602400912918 (-102).
Proof. reflexivity. Qed.

(** C82. Parallel segments that are clearly apart do not meet. *)
Theorem C82_apart : forall a b c d za zb zc zd,
  at_z a za -> at_z b zb -> at_z c zc -> at_z d zd ->
  within (2 ^ 24) za -> within (2 ^ 24) zb -> within (2 ^ 24) zc -> within (2 ^ 24) zd ->
  vcross (vsub zb za) (vsub zd zc) = 0 -> clearly_crossing (vsub zc za) (vsub zb za) ->
  intersect_segments (a, b) (c, d) = INone /\ forall x y, ~ on_both za zb zc zd x y.
Proof. exact parallel_apart. Qed.
Print Assumptions C82_apart.

(** Segments on one line going the same way: nothing, a shared end, or an overlap that
    starts where reported. *)
Theorem C82_in_line : forall a b c d za zb zc zd,
  at_z a za -> at_z b zb -> at_z c zc -> at_z d zd ->
  within (2 ^ 24) za -> within (2 ^ 24) zb -> within (2 ^ 24) zc -> within (2 ^ 24) zd ->
  in_line za zb zc zd ->
  match intersect_segments (a, b) (c, d) with
  | INone => forall x y, ~ on_both za zb zc zd x y
  | IPoint p => exists e, In e [za; zb; zc; zd] /\ at_z p e /\ forall x y, on_both za zb zc zd x y <-> is_at e x y
  | ISegment p _ => exists e e', e <> e' /\ In e [za; zb; zc; zd] /\ at_z p e
      /\ on_both za zb zc zd (inject_Z (fst e)) (inject_Z (snd e))
      /\ on_both za zb zc zd (inject_Z (fst e')) (inject_Z (snd e'))
      /\ forall x y, on_both za zb zc zd x y -> ahead e (vsub zb za) x y
  end.
Proof. exact in_line_spec. Qed.
Print Assumptions C82_in_line.

Example C82_apart_example :
  vcross (vsub (8, 4) (0, 0)) (vsub (7, 4) (1, 1)) = 0 /\ clearly_crossing (vsub (1, 1) (0, 0)) (vsub (8, 4) (0, 0))
  /\ intersect_segments (pt 0 0, pt 8 4) (pt 1 1, pt 7 4) = INone.
Proof. split; [reflexivity|]. split; [split; vm_compute; discriminate|]. vm_compute; reflexivity. Qed.

Example C82_in_line_example :
  in_line (0, 0) (8, 4) (2, 1) (12, 6)
  /\ intersect_segments (pt 0 0, pt 8 4) (pt 10 5, pt 12 6) = INone
  /\ intersect_segments (pt 0 0, pt 8 4) (pt 8 4, pt 12 6) = IPoint (pt 8 4)
  /\ exists q, intersect_segments (pt 0 0, pt 8 4) (pt 2 1, pt 12 6) = ISegment (pt 2 1) q.
Proof.
  split; [repeat split; vm_compute; congruence|]. split; [vm_compute; reflexivity|].
  split; [vm_compute; reflexivity|]. eexists. vm_compute. reflexivity.
Qed.

(** C83. The answer is not right for all integer segments. Two segments that cross at a
    small angle: no intersection. *)
Theorem C83_crossing_refuted : exists x y,
  on_both (0, 0) (10000, 1) (0, 1) (10000, 0) x y
  /\ intersect_segments (pt 0 0, pt 10000 1) (pt 0 1, pt 10000 0) = INone.
Proof.
  exists 5000%Q, (1 # 2)%Q. split; [|vm_compute; reflexivity].
  split; exists (1 # 2)%Q; (repeat split; vm_compute; congruence).
Qed.
Print Assumptions C83_crossing_refuted.

(** Two segments a unit apart: an overlap. *)
Theorem C83_apart_refuted :
  (forall x y, ~ on_both (0, 0) (20000, 0) (10000, 1) (15000, 1) x y)
  /\ exists p q, intersect_segments (pt 0 0, pt 20000 0) (pt 10000 1, pt 15000 1) = ISegment p q.
Proof.
  split; [|eexists _, _; vm_compute; reflexivity].
  intros x y [(t & _ & _ & _ & A) (u & _ & _ & _ & B)]. cbn [fst snd Z.sub Z.opp Z.add Z.pos_sub] in A, B.
  rewrite A in B. unfold inject_Z in B. ring_simplify in B. discriminate B.
Qed.
Print Assumptions C83_apart_refuted.

(** Two segments in one line, going opposite ways, that share an end: no intersection. *)
Theorem C83_opposite_refuted : exists x y,
  on_both (0, 0) (3, 0) (7, 0) (3, 0) x y
  /\ intersect_segments (pt 0 0, pt 3 0) (pt 7 0, pt 3 0) = INone.
Proof.
  exists 3%Q, 0%Q. split; [|vm_compute; reflexivity].
  split; exists 1%Q; (repeat split; vm_compute; congruence).
Qed.
Print Assumptions C83_opposite_refuted.

(** C84. What the sweep does with two neighbouring segments. *)
Theorem C84_disjoint : forall (s1 s2 : bseg) l1 r1 l2 r2 ks,
  seg_z s1 l1 r1 -> seg_z s2 l2 r2 -> tellable l1 r1 l2 r2 -> disjoint l1 r1 l2 r2 ->
  handle_intersections ks (Some s1) (Some s2) = Ok (0%nat, None, None, ks).
Proof. exact handle_disjoint. Qed.
Print Assumptions C84_disjoint.

Theorem C84_meet : forall (s1 s2 : bseg) l1 r1 l2 r2 ks,
  seg_z s1 l1 r1 -> seg_z s2 l2 r2 -> tellable l1 r1 l2 r2 -> forall x y, meet_at l1 r1 l2 r2 x y ->
  (l1 = l2 \/ r1 = r2 -> handle_intersections ks (Some s1) (Some s2) = Ok (0%nat, None, None, ks))
  /\ (l1 <> l2 -> r1 <> r2 -> exists o1 o2, handle_intersections ks (Some s1) (Some s2) = Ok (1%nat, o1, o2, ks)
        /\ splits l1 r1 l2 r2 x y o1 /\ splits l2 r2 l1 r1 x y o2).
Proof. exact handle_meet. Qed.
Print Assumptions C84_meet.

Theorem C84_overlap : forall (s1 s2 : bseg) l1 r1 l2 r2 ks,
  seg_z s1 l1 r1 -> seg_z s2 l2 r2 -> tellable l1 r1 l2 r2 -> forall k1 k2, overlap l1 r1 l2 r2 ->
  nth_error ks (s_index s1) = Some k1 -> nth_error ks (s_index s2) = Some k2 -> k_polygon k1 <> k_polygon k2 ->
  (l1 = l2 -> exists o1 o2 ks', handle_intersections ks (Some s1) (Some s2) = Ok (2%nat, o1, o2, ks')
     /\ match lex_z r1 r2 with
        | Lt => o1 = None /\ o2 = Some (s_right s1)
        | Gt => o1 = Some (s_right s2) /\ o2 = None
        | Eq => o1 = None /\ o2 = None
        end
     /\ nth_error ks' (s_index s1) = Some (with_edge k1 ENonContributing)
     /\ nth_error ks' (s_index s2) = Some (with_edge k2
          (if is_non_contributing (k_edge k2) then ENonContributing
           else if Bool.eqb (k_up_out k1) (k_up_out k2) then ESameTransition else EDifferentTransition))
     /\ forall i, i <> s_index s1 -> i <> s_index s2 -> nth_error ks' i = nth_error ks i)
  /\ (lex_z l1 l2 = Lt -> handle_intersections ks (Some s1) (Some s2) = Ok (3%nat, Some (s_left s2), None, ks))
  /\ (lex_z l1 l2 = Gt -> handle_intersections ks (Some s1) (Some s2) = Ok (3%nat, None, Some (s_left s1), ks)).
Proof. exact handle_overlap. Qed.
Print Assumptions C84_overlap.

Theorem C84_same_polygon : forall (s1 s2 : bseg) l1 r1 l2 r2 ks,
  seg_z s1 l1 r1 -> seg_z s2 l2 r2 -> tellable l1 r1 l2 r2 -> forall k1 k2, overlap l1 r1 l2 r2 ->
  nth_error ks (s_index s1) = Some k1 -> nth_error ks (s_index s2) = Some k2 -> k_polygon k1 = k_polygon k2 ->
  handle_intersections ks (Some s1) (Some s2) = Panic PAssert.
Proof. exact handle_same_polygon. Qed.
Print Assumptions C84_same_polygon.

Example C84_meet_example :
  seg_z (sg 0 0 10 10 0 0) (0, 0) (10, 10) /\ tellable (0, 0) (10, 10) (0, 8) (12, 0)
  /\ overlap (0, 0) (10, 5) (4, 2) (12, 6)
  /\ (exists p, handle_intersections [] (Some (sg 0 0 10 10 0 0)) (Some (sg 0 8 12 0 1 1)) = Ok (1%nat, Some p, Some p, []))
  /\ handle_intersections [] (Some (sg 0 0 10 10 0 0)) (Some (sg 4 4 12 0 1 1)) = Ok (1%nat, Some (pt 4 4), None, [])
  /\ handle_intersections [] (Some (sg 0 0 10 10 0 0)) (Some (sg 0 0 12 0 1 1)) = Ok (0%nat, None, None, []).
Proof.
  split; [apply sg_seg; [reflexivity|split; cbn; lia..]|].
  split; [left; split; vm_compute; discriminate|].
  split.
  { exists 4%Q, 2%Q, 10%Q, 5%Q. split; [split|split; [split|]].
    - exists (2 # 5)%Q. repeat split; vm_compute; congruence.
    - exists 0%Q. repeat split; vm_compute; congruence.
    - exists 1%Q. repeat split; vm_compute; congruence.
    - exists (3 # 4)%Q. repeat split; vm_compute; congruence.
    - intros [H _]. vm_compute in H. discriminate H. }
  split; [eexists; vm_compute; reflexivity|]. split; vm_compute; reflexivity.
Qed.

Example C84_overlap_example :
  let k0 := packet_new 0 Normal 2 in let k1 := packet_new 1 Normal 2 in
  handle_intersections [k0; k1] (Some (sg 0 0 10 5 0 0)) (Some (sg 4 2 12 6 1 1)) = Ok (3%nat, Some (pt 4 2), None, [k0; k1])
  /\ handle_intersections [k0; k1] (Some (sg 0 0 10 5 0 0)) (Some (sg 0 0 12 6 1 1))
     = Ok (2%nat, None, Some (pt 10 5), [with_edge k0 ENonContributing; with_edge k1 ESameTransition])
  /\ handle_intersections [k0; k0] (Some (sg 0 0 10 5 0 0)) (Some (sg 4 2 12 6 1 1)) = Panic PAssert.
Proof. vm_compute. auto. Qed.

(** C85. The bounding box of a polygon. *)
Theorem C85_bbox : forall p zss, p <> [] ->
  Forall2 (fun c zs => Forall2 at_z (c_points c) zs /\ Forall (within (2 ^ 24)) zs /\ two_points zs) p zss ->
  box_around (concat zss) (polygon_bbox p).
Proof. exact polygon_bbox_spec. Qed.
Print Assumptions C85_bbox.

Example C85_example :
  polygon_bbox [rct 0 0 10 10; rct 20 (-5) 10 10] = mk_rect (f64_of_Z 0) (f64_of_Z (-5)) (f64_of_Z 30) (f64_of_Z 15)
  /\ Forall2 (fun c zs => Forall2 at_z (c_points c) zs /\ Forall (within (2 ^ 24)) zs /\ two_points zs)
       [rct 0 0 10 10] [[(0, 0); (10, 0); (10, 10); (0, 10)]].
Proof.
  split; [vm_compute; reflexivity|]. constructor; [|constructor].
  split; [repeat constructor; apply pt_at; cbn; lia|]. split; [repeat constructor; cbn; lia|].
  exists (0, 0), (10, 0). repeat split; cbn; auto. discriminate.
Qed.

(** Two bounding boxes touch iff they, with their borders, have a point in common. *)
Theorem C85_touches : forall p q zss wss, p <> [] -> q <> [] ->
  Forall2 (fun c zs => Forall2 at_z (c_points c) zs /\ Forall (within (2 ^ 24)) zs /\ two_points zs) p zss ->
  Forall2 (fun c zs => Forall2 at_z (c_points c) zs /\ Forall (within (2 ^ 24)) zs /\ two_points zs) q wss ->
  (touches (polygon_bbox p) (polygon_bbox q) = true <-> exists v, boxed (concat zss) v /\ boxed (concat wss) v).
Proof. exact touches_spec. Qed.
Print Assumptions C85_touches.

Example C85_touches_example : touches (polygon_bbox [rct 0 0 10 10]) (polygon_bbox [rct 10 10 5 5]) = true
  /\ touches (polygon_bbox [rct 0 0 10 10]) (polygon_bbox [rct 11 0 5 5]) = false
  /\ touches (polygon_bbox [rct 0 0 10 10]) (polygon_bbox [rct 0 (-6) 5 5]) = false.
Proof. vm_compute. auto. Qed.

(** C59, continued: for integer contours, the start is in the bounding box of a contour
    iff there are points of the contour to all sides of it; it may be level with those to
    its left and below it. *)
Theorem C59_start : forall c zs p x y, Forall2 at_z (c_points c) zs -> Forall (within (2 ^ 24)) zs ->
  at_z p (x, y) -> within (2 ^ 24) (x, y) ->
  (rect_contains (contour_bbox c) p = true <->
   (exists z, In z zs /\ fst z <= x) /\ (exists z, In z zs /\ x < fst z)
   /\ (exists z, In z zs /\ snd z <= y) /\ (exists z, In z zs /\ y < snd z)).
Proof. exact rect_contains_spec. Qed.
Print Assumptions C59_start.

Example C59_start_example : rect_contains (contour_bbox (rct 0 0 10 10)) (pt 0 9) = true
  /\ rect_contains (contour_bbox (rct 0 0 10 10)) (pt 0 10) = false.
Proof. vm_compute. auto. Qed.
