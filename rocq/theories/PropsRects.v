(** C131: overlaying rectangles with sides on different lines. *)

From Coq Require Import List ZArith QArith.
From Verif Require Import Base Contours Sweep Compute StdRef SpecShape SpecOrder SpecCompute SpecTidy SpecOverlay OverlaySamples SpecCross GridRects RectSamples SpecGrid SpecRects.
Import ListNotations.
Local Open Scope Z_scope.

(** C131. Overlaying polygons made of rectangles on a grid, at most 21 steps long and high and
    no two with a side on the same line, comes to an end without a panic. The corners of the
    result are whole numbers, and the contours made of given sets of polygons together go once
    round each place that is kept and is inside exactly such a set of the polygons, and not at all
    round any other place. *)
Theorem C131_covers : forall std g rss polys fuel op, std_laws std -> sorts std -> spread_out g rss ->
  Forall2 (fun p l => has_points (fst p) (map rect_corners l)) polys rss -> ~ In RemoveEdges (map snd polys) -> (252 * length (concat rss) <= fuel)%nat ->
  exists r rz, compute std fuel polys op = Ok r /\ has_corners r rz /\ forall (P : list bool -> bool) x y,
  let lines := map snd (filter (fun cl => P (c_from (fst cl))) (combine r rz)) in
  let zs := map (map rect_corners) rss in
  (kept_at (map snd polys) zs x y /\ P (place_of zs x y) = true -> windings x y lines = 1)
  /\ (~ (kept_at (map snd polys) zs x y /\ P (place_of zs x y) = true) -> windings x y lines = 0).
Proof. exact rects_cover. Qed.
Print Assumptions C131_covers.

(** All that C125, C126 and C127 say of crossing polygons holds of these. *)
Theorem C131_crossable : forall g rss polys, spread_out g rss ->
  Forall2 (fun p l => has_points (fst p) (map rect_corners l)) polys rss -> ~ In RemoveEdges (map snd polys) ->
  exists ms, plain ms = map (map rect_corners) rss /\ crossable polys ms /\ (length (edges (marked ms)) <= 84 * length (concat rss))%nat.
Proof. exact rects_crossable. Qed.
Print Assumptions C131_crossable.

(** A room with a pillar, a second room, and a pit, on a grid of 64 units: their sides
    cross, and five regions are left. (64, 64) is in the first room, (320, 256) in
    the pillar and the second room, (512, 128) in the pit. *)
Example C131_hypotheses : spread_out 6 sample_rects /\ Forall2 (fun p l => has_points (fst p) (map rect_corners l)) rect_input sample_rects
  /\ ~ In RemoveEdges (map snd rect_input) /\ (252 * length (concat sample_rects) = 1008)%nat
  /\ compute std_ref 1008 rect_input Union = Ok (sample_contours rect_input 1008) /\ has_corners (sample_contours rect_input 1008) rect_contours
  /\ contours_shown (sample_contours rect_input 1008) =
       [([], [true; false; false], true); ([], [false; true; false], true); ([], [true; true; false], true); ([], [true; false; false], true); ([], [false; true; false], true)]
  /\ map (fun v => place_of (map (map rect_corners) sample_rects) (fst v) (snd v)) [(64, 64); (320, 256); (512, 128)]%Q = [[true; false; false]; [false; true; false]; [true; false; true]]
  /\ map (fun v => map (winding (fst v) (snd v)) rect_contours) [(64, 64); (320, 256); (512, 128)]%Q = [[1; 0; 0; 0; 0]; [0; 1; 0; 0; 0]; [0; 0; 0; 0; 0]].
Proof.
  split; [exact sample_spread|]. split; [exact (proj1 sample_input)|]. split; [rewrite (proj2 sample_input); cbn; intros [H|[H|[H|[]]]]; discriminate|]. split; [reflexivity|].
  split; [exact (proj1 rect_result)|]. split; [exact (proj2 rect_result)|]. split; [vm_compute; reflexivity|]. split; vm_compute; reflexivity.
Qed.
