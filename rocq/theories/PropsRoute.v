(** Properties of the route command: C59, C60, C73, C74. *)

From Coq Require Import List ZArith QArith Lia.
From Verif Require Import Base Float MapModel SpecShape Contours Compute StdRef SpecCompute Route SpecRoute FillFacts DilateFacts
  RouteRefuted ShapeSamples RouteSamples.
Import ListNotations.
Local Open Scope Z_scope.

(** C59. What the flood fill returns: a distance for every contour and the chunks. A
    contour has distance k + 1 iff it is in chunk number k, so chunks are disjoint; the
    contours in some chunk are those reached from the start; all of a chunk can be walked
    to from one contour of it; walking never leads to a later chunk. *)
Theorem C59_flood : forall mode m refs result start r,
  floors_i16 m -> flood mode m refs result start = Ok r ->
  let '(dist, chunks) := r in
  length dist = length result
  /\ (forall i k, nth_error dist i = Some (S k) <-> exists chunk, nth_error chunks k = Some chunk /\ In i chunk)
  /\ (forall i, (exists k chunk, nth_error chunks k = Some chunk /\ In i chunk) <-> reached result start i)
  /\ (forall k chunk, nth_error chunks k = Some chunk ->
        exists seed, In seed chunk /\ forall i, In i chunk -> walk_to m refs result seed i)
  /\ (forall k chunk i j, nth_error chunks k = Some chunk -> In i chunk -> walkable m refs result i j ->
        exists k' chunk', (k' <= k)%nat /\ nth_error chunks k' = Some chunk' /\ In j chunk').
Proof. exact flood_result. Qed.
Print Assumptions C59_flood.

(** It ends. *)
Theorem C59_ends : forall mode m refs result start, floors_i16 m -> flood mode m refs result start <> Panic PFuel.
Proof. exact flood_halts. Qed.
Print Assumptions C59_ends.

(** The command, on a map: the flood fill is that of the overlay of its sectors and
    lines, from the player's start. *)
Theorem C59_route : forall std fuel mode m result dist chunks,
  floors_i16 m -> route std fuel mode m = Ok (result, (dist, chunks)) ->
  exists polygons refs start, route_input m = Ok (polygons, refs) /\ compute std fuel polygons Union = Ok result
    /\ start_of m start
    /\ (forall i, (exists k, nth_error dist i = Some (S k)) <-> reached result start i)
    /\ (forall k chunk i, nth_error chunks k = Some chunk -> In i chunk ->
          nth_error dist i = Some (S k) /\ exists seed, In seed chunk /\ walk_to m refs result seed i).
Proof. exact route_result. Qed.
Print Assumptions C59_route.

(** Of three rooms the third is too high to step into. The walls keep the player 16
    units away; the second and fourth contours are the spaces around the doors. *)
Example C59_example :
  (let* (result, filled) := route std_ref 3000 Checked (rooms 0 16 100) in Ok (map c_points result, filled))
  = Ok ([[pt 16 16; pt 112 16; pt 112 112; pt 16 112];
         [pt 112 16; pt 128 16; pt 144 16; pt 144 112; pt 128 112; pt 112 112];
         [pt 144 16; pt 240 16; pt 240 112; pt 144 112];
         [pt 240 16; pt 256 16; pt 272 16; pt 272 112; pt 256 112; pt 240 112];
         [pt 272 16; pt 368 16; pt 368 112; pt 272 112]],
        ([1; 1; 1; 2; 2]%nat, [[2; 1; 0]; [4; 3]]%nat)).
Proof. vm_compute. reflexivity. Qed.

Example C59_hypotheses : floors_i16 (rooms 0 16 100).
Proof. intros sec [<-|[<-|[<-|[]]]]; cbn; lia. Qed.

(** C60. The space around a line: for integer vertices, the hexagon has corners at
    integers and is the region of the points a square of side 32 about which touches
    the line. *)
Theorem C60_dilation : forall v0 v1 z0 z1,
  at_z v0 z0 -> at_z v1 z1 -> within (2 ^ 52) z0 -> within (2 ^ 52) z1 ->
  exists zs, Forall2 at_z (c_points (dilate v0 v1)) zs /\ forall x y, in_convex zs x y <-> touches 16 z0 z1 x y.
Proof. exact dilate_exact. Qed.
Print Assumptions C60_dilation.

Example C60_example :
  c_points (dilate (pt 0 0) (pt 100 50)) = [pt 84 66; pt 116 66; pt 116 34; pt 16 (-16); pt (-16) (-16); pt (-16) 16]
  /\ touches 16 (0, 0) (100, 50) (100 # 3) 0.
Proof.
  split; [vm_compute; reflexivity|]. exists (1 # 4). repeat split; discriminate.
Qed.

(** C73 (finding). The rooms the flood fill starts from are not those the player is in: it
    goes by bounding boxes. Contour [i] does not have the start in it and is not connected
    to contour [j], which does; yet [i] gets distance 1 and [j] gets 2. *)
Theorem C73_refuted : exists fuel mode m start result dist chunks i j ci cj zi zj,
  find_player_start m = Some start /\ (forall std, std_laws std -> sorts std -> route std fuel mode m = Ok (result, (dist, chunks)))
  /\ nth_error result i = Some ci /\ nth_error result j = Some cj
  /\ Forall2 at_z (c_points ci) zi /\ Forall2 at_z (c_points cj) zj
  /\ at_z start (300, 300) /\ surrounds zi (300, 300) = false /\ surrounds zj (300, 300) = true
  /\ ~ connected result i j
  /\ nth_error dist i = Some 1%nat /\ nth_error dist j = Some 2%nat.
Proof. exact start_room_refuted. Qed.
Print Assumptions C73_refuted.

(** C74 (finding). The references of the map are sound and the overlay succeeds, but the
    flood fill panics: a contour is in no sector, and the lines looked at before the first
    one that blocks the player are none. *)
Theorem C74_refuted : exists fuel mode m result, floors_i16 m /\ lines_ok m
  /\ forall std, std_laws std -> sorts std ->
     (let* (polygons, refs) := route_input m in compute std fuel polygons Union) = Ok result
     /\ route std fuel mode m = Panic PUnwrap.
Proof. exact completes_refuted. Qed.
Print Assumptions C74_refuted.

(** It completes if every contour of the overlay lies in a sector. *)
Theorem C74_completes : forall std fuel mode m polygons refs result,
  std_laws std -> floors_i16 m -> lines_ok m ->
  route_input m = Ok (polygons, refs) -> compute std fuel polygons Union = Ok result ->
  (forall c, In c result -> exists h, comes_from refs c (RSector h)) ->
  exists filled, route std fuel mode m = Ok (result, filled).
Proof. exact route_total. Qed.
Print Assumptions C74_completes.

Example C74_hypotheses :
  route_input (rooms 0 16 100) = Ok rooms_inputs
  /\ compute std_ref 3000 (fst rooms_inputs) Union = Ok (fst rooms_routed)
  /\ forall c, In c (fst rooms_routed) -> exists h, comes_from (snd rooms_inputs) c (RSector h).
Proof.
  split; [exact rooms_input|]. split; [exact rooms_computed|].
  intros c H. cbn in H. decompose [or] H; try contradiction; subst c; cbn;
    first [exists 0; exists 0%nat; split; reflexivity|exists 1; exists 1%nat; split; reflexivity|exists 2; exists 2%nat; split; reflexivity].
Qed.
