(** C136: the areas of the parts of overlaid polygons. *)

From Coq Require Import List ZArith QArith.
From Verif Require Import Base Contours Sweep Compute StdRef SpecShape SpecOrder SpecCompute SpecTidy SpecOverlay SpecCross SpecRects CrossOverlay PartsArea PartsSamples SpecParts.
Import ListNotations.
Local Open Scope Z_scope.

(** C136. A polygon that goes round no place twice is divided exactly into the contours made
    of it: together they have its area, whatever it is overlaid with. Nothing is lost to
    rounding, and nothing counted twice. *)
Theorem C136_divides : forall std fuel polys op ms, std_laws std -> sorts std -> crossable polys ms -> (3 * length (edges (marked ms)) <= fuel)%nat ->
  forall r rz, compute std fuel polys op = Ok r -> has_corners r rz -> ~ In RemoveInterior (map snd polys) ->
  forall i z d, nth_error (plain ms) i = Some z -> once_round d z -> total_area (made_of i r rz) = d * total_area z.
Proof. exact parts_area. Qed.
Print Assumptions C136_divides.

(** The contours, each counted once for every polygon it is made of, have the areas of all
    the polygons together. *)
Theorem C136_counts : forall std fuel polys op ms, std_laws std -> sorts std -> crossable polys ms -> (3 * length (edges (marked ms)) <= fuel)%nat ->
  forall r rz, compute std fuel polys op = Ok r -> has_corners r rz -> ~ In RemoveInterior (map snd polys) ->
  (forall z, In z (plain ms) -> once_round 1 z) -> counted_area r rz = total_area (concat (plain ms)).
Proof. exact parts_counted. Qed.
Print Assumptions C136_counts.

(** Removing the insides of polygons takes away the area of the contours made of them. *)
Theorem C136_removes : forall std fuel fuel' polys polys' op ms r rz r' rz', std_laws std -> sorts std -> crossable polys ms -> crossable polys' ms ->
  ~ In RemoveInterior (map snd polys) -> (3 * length (edges (marked ms)) <= fuel)%nat -> (3 * length (edges (marked ms)) <= fuel')%nat ->
  compute std fuel polys op = Ok r -> has_corners r rz -> compute std fuel' polys' op = Ok r' -> has_corners r' rz' ->
  total_area rz' = total_area (left_over (map snd polys') r rz).
Proof. exact removed_area. Qed.
Print Assumptions C136_removes.

(** A rectangle among rectangles with their sides on different lines of a grid is divided
    into contours that have, together, its width times its height. *)
Theorem C136_rects : forall std g rs polys fuel op, std_laws std -> sorts std -> spread_out g (map (fun q => [q]) rs) ->
  Forall2 (fun p q => has_points (fst p) [rect_corners q]) polys rs -> ~ In RemoveEdges (map snd polys) -> ~ In RemoveInterior (map snd polys) ->
  (252 * length rs <= fuel)%nat ->
  exists r rz, compute std fuel polys op = Ok r /\ has_corners r rz
  /\ (forall i q, nth_error rs i = Some q -> total_area (made_of i r rz) = 2 * (width q * height_of q))
  /\ counted_area r rz = fold_right Z.add 0 (map (fun q => 2 * (width q * height_of q)) rs).
Proof. exact rects_area. Qed.
Print Assumptions C136_rects.

(** Two rooms, of 16 times 14 and 16 times 6 steps of 64 units, that overlap: three contours,
    of 152, 72 and 24 square steps. If the inside of the second is removed, 152 are left. *)
Example C136_hypotheses : spread_out 6 (map (fun q => [q]) rooms) /\ Forall2 (fun p q => has_points (fst p) [rect_corners q]) (rooms_input [Normal; Normal]) rooms
  /\ (exists ms, plain ms = map (fun q => [rect_corners q]) rooms /\ (3 * length (edges (marked ms)) <= 504)%nat
      /\ (forall m, m <> RemoveEdges -> crossable (rooms_input [Normal; m]) ms) /\ forall z, In z (plain ms) -> once_round 1 z)
  /\ compute std_ref 504 (rooms_input [Normal; Normal]) Union = Ok (rooms_result [Normal; Normal]) /\ has_corners (rooms_result [Normal; Normal]) rooms_corners
  /\ compute std_ref 504 (rooms_input [Normal; RemoveInterior]) Union = Ok (rooms_result [Normal; RemoveInterior])
  /\ has_corners (rooms_result [Normal; RemoveInterior]) (firstn 1 rooms_corners)
  /\ map (fun a => a / (2 * 64 * 64)) (map shoelace rooms_corners) = [152; 72; 24]
  /\ map (fun i => total_area (made_of i (rooms_result [Normal; Normal]) rooms_corners) / (2 * 64 * 64)) [0%nat; 1%nat] = [16 * 14; 16 * 6]
  /\ counted_area (rooms_result [Normal; Normal]) rooms_corners = 2 * 64 * 64 * (16 * 14 + 16 * 6)
  /\ total_area (left_over [Normal; RemoveInterior] (rooms_result [Normal; Normal]) rooms_corners) = 2 * 64 * 64 * 152.
Proof.
  split; [exact rooms_spread|]. split; [exact (proj1 (rooms_points Normal))|]. split; [exact rooms_crossable|]. split; [exact (proj1 rooms_done)|]. split; [exact (proj2 rooms_done)|].
  split; [exact (proj1 rooms_less)|]. split; [exact (proj2 rooms_less)|]. split; [vm_compute; reflexivity|]. split; [vm_compute; reflexivity|]. split; vm_compute; reflexivity.
Qed.
