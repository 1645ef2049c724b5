(** Properties of the drawing of the route command: C88-C91. *)

From Coq Require Import String List ZArith QArith Lia.
From Verif Require Import Base ParseWad ArchiveWad ParseMap SpecArchive SpecLumps SpecMap Float SpecFloat64 MapModel SpecMapModel SpecShape
  Contours Compute StdRef StdFacts SpecCompute Route SpecRoute Chart SpecChart RouteDraw SpecRouteDraw RouteDrawFacts RouteHueFacts
  RouteCommandFacts RouteDrawRefuted ShapeSamples RouteSamples RouteDrawSamples Samples.
Import ListNotations.
Local Open Scope Z_scope.

(** C88. If the flood fill succeeds, so does the drawing: it has every line, with the class
    for the number of its sides, and one path for each contour of the overlay that is no
    hole. A path has the edges of the contour and of its holes, and names the sectors and
    lines the contour comes from. It is dark red iff the contour is not reached, and has a
    hue iff it is in a chunk. *)
Theorem C88_drawing : forall std fuel mode m result dist chunks, std_laws std -> floors_i16 m ->
  route std fuel mode m = Ok (result, (dist, chunks)) ->
  exists d polygons refs start, route_map_as_svg std fuel mode m = Ok d
    /\ route_input m = Ok (polygons, refs) /\ compute std fuel polygons Union = Ok result /\ start_of m start
    /\ Forall2 (route_line_drawn m) (g_lines m) (rd_lines d)
    /\ drawn_contours result (rd_paths d)
    /\ forall p c, In p (rd_paths d) -> nth_error result (rp_contour p) = Some c ->
         contour_drawn result c (rp_d p) /\ origins_shown refs c (rp_origin p)
         /\ (rp_fill p = DarkRed <-> ~ reached result start (rp_contour p))
         /\ ((exists h, rp_fill p = Hue h) <-> exists k, in_chunk chunks k (rp_contour p)).
Proof. exact route_drawing. Qed.
Print Assumptions C88_drawing.

Theorem C88_only : forall std fuel mode m d, route_map_as_svg std fuel mode m = Ok d -> exists r, route std fuel mode m = Ok r.
Proof. exact route_no_drawing. Qed.
Print Assumptions C88_only.

(** The hue of chunk number k of n is 330 (k + 1) / (n + 1), so contours have the same colour
    iff they are in the same chunk. *)
Theorem C88_hues : forall std fuel mode m result dist chunks d p k, std_laws std -> floors_i16 m ->
  route std fuel mode m = Ok (result, (dist, chunks)) -> route_map_as_svg std fuel mode m = Ok d ->
  Z.of_nat (length chunks) < 2 ^ 40 -> In p (rd_paths d) -> in_chunk chunks k (rp_contour p) ->
  exists h, rp_fill p = Hue h /\ nearly h (330 * (inject_Z (Z.of_nat (S k)) / inject_Z (Z.of_nat (S (length chunks))))).
Proof. exact route_hues. Qed.
Print Assumptions C88_hues.

Theorem C88_distinct : forall std fuel mode m result dist chunks d p q j k, std_laws std -> floors_i16 m ->
  route std fuel mode m = Ok (result, (dist, chunks)) -> route_map_as_svg std fuel mode m = Ok d ->
  Z.of_nat (length chunks) < 2 ^ 40 -> In p (rd_paths d) -> In q (rd_paths d) ->
  in_chunk chunks j (rp_contour p) -> in_chunk chunks k (rp_contour q) ->
  (rp_fill p = rp_fill q <-> j = k).
Proof. exact route_distinct. Qed.
Print Assumptions C88_distinct.

(** The view box has all the vertices in it, with a margin of 32 around them. *)
Theorem C88_view : forall std fuel mode b m d, map_valid b -> from_bare b = Ok m -> route_map_as_svg std fuel mode m = Ok d ->
  m_vertices b <> [] ->
  exists x0 y0 x1 y1, tight vx (m_vertices b) x0 x1 /\ tight vy (m_vertices b) y0 y1
    /\ view_is int_valued (rd_view d) (x0 - 32, - y1 - 32, x1 - x0 + 64, y1 - y0 + 64)
    /\ forall v x y, In v (m_vertices b) -> Z.abs (x - vx v) <= 32 -> Z.abs (y - vy v) <= 32 ->
         visible (x0 - 32, - y1 - 32, x1 - x0 + 64, y1 - y0 + 64) (rd_scale d) (x, y).
Proof. exact route_view. Qed.
Print Assumptions C88_view.

Theorem C88_view_empty : forall std fuel mode b m d, from_bare b = Ok m -> route_map_as_svg std fuel mode m = Ok d -> m_vertices b = [] ->
  view_is int_valued (rd_view d) (-32, -32, 64, 64).
Proof. exact route_view_empty. Qed.
Print Assumptions C88_view_empty.

(** Of the three rooms, the first two and the space around the first door are in the chunk
    with hue 110, the third and the space around the second door in the one with hue 220. *)
Example C88_example :
  map (fun p => (rp_contour p, rp_fill p, rp_origin p)) (rd_paths rooms_document)
  = [(0%nat, Hue (f64_of_Z 110), [FromSector 0]); (1%nat, Hue (f64_of_Z 110), [FromSector 0; FromSector 1; FromLine 0]);
     (2%nat, Hue (f64_of_Z 110), [FromSector 1]); (3%nat, Hue (f64_of_Z 220), [FromSector 1; FromSector 2; FromLine 0]);
     (4%nat, Hue (f64_of_Z 220), [FromSector 2])]
  /\ rd_view rooms_document = (f64_of_Z (-32), f64_of_Z (-160), f64_of_Z 448, f64_of_Z 192)
  /\ length (rd_lines rooms_document) = 10%nat.
Proof. vm_compute. auto. Qed.

Example C88_hypotheses : std_laws std_ref /\ floors_i16 (rooms 0 16 100)
  /\ route std_ref 3000 Checked (rooms 0 16 100) = Ok rooms_routed
  /\ route_map_as_svg std_ref 3000 Checked (rooms 0 16 100) = Ok rooms_document
  /\ in_chunk (snd (snd rooms_routed)) 1 4.
Proof.
  split; [exact std_ref_laws|]. split; [intros sec [<-|[<-|[<-|[]]]]; cbn; lia|]. split; [exact rooms_route|]. split; [exact rooms_drawn|].
  eexists. split; [reflexivity|]. left. reflexivity.
Qed.

(** C89 (finding). "Contours that are not reached are drawn in red" is false: they are dark
    red, and no contour is ever red. *)
Theorem C89_refuted : exists fuel mode m d result dist chunks start p, floors_i16 m
  /\ (forall std, std_laws std -> sorts std -> route std fuel mode m = Ok (result, (dist, chunks)) /\ route_map_as_svg std fuel mode m = Ok d)
  /\ find_player_start m = Some start /\ In p (rd_paths d) /\ ~ reached result start (rp_contour p) /\ rp_fill p <> Red.
Proof. exact red_refuted. Qed.
Print Assumptions C89_refuted.

Theorem C89_never_red : forall std fuel mode m d p, route_map_as_svg std fuel mode m = Ok d -> In p (rd_paths d) -> rp_fill p <> Red.
Proof. exact never_red. Qed.
Print Assumptions C89_never_red.

(** C90 (finding). "Holes are holes of contours that are none" is false. *)
Theorem C90_refuted : exists fuel polygons result k c h,
  (forall std, std_laws std -> sorts std -> compute std fuel polygons Union = Ok result)
  /\ nth_error result k = Some c /\ c_external c = false /\ In h (c_holes c).
Proof. exact nested_refuted. Qed.
Print Assumptions C90_refuted.

(** What this does to the route: contour [h] bounds a hole in contour [i], which the player
    starts in, and the player can step from [i] to [j], just inside the hole. Yet the hole is
    not drawn, and [j] is not reached and is drawn dark red. *)
Theorem C90_route_refuted : exists fuel mode m refs d result dist chunks i ci zi h hc zh j cj p, floors_i16 m
  /\ (forall std, std_laws std -> sorts std -> route std fuel mode m = Ok (result, (dist, chunks)) /\ route_map_as_svg std fuel mode m = Ok d)
  /\ option_map snd (match route_input m with Ok x => Some x | _ => None end) = Some refs
  /\ nth_error result i = Some ci /\ nth_error result h = Some hc /\ nth_error result j = Some cj
  /\ Forall2 at_z (c_points ci) zi /\ Forall2 at_z (c_points hc) zh /\ (forall z, In z zh -> surrounds zi z = true)
  /\ c_external ci = true /\ c_external hc = false /\ nth_error (c_neighbors hc) j = Some true
  /\ steps_into m refs ci cj /\ nth_error dist i = Some 1%nat /\ nth_error dist j = Some 0%nat
  /\ not_drawn result h /\ In p (rd_paths d) /\ rp_contour p = j /\ rp_fill p = DarkRed.
Proof. exact platform_refuted. Qed.
Print Assumptions C90_route_refuted.

(** C91. Which map is drawn: the first that is none of MAP01 to MAP14; nothing is drawn if
    there is none or if it is a Hexen map, and it is an error if a lump it needs is missing. *)
Theorem C91_route : forall std fuel mode w, unsigned_entries w ->
  ((~ exists i, route_marker (directory w) i) -> do_route std fuel mode w = Ok None)
  /\ forall r, block_ok (directory w) r -> route_marker (directory w) (marker_index r) ->
     (forall b m, map_decoded w r (BMDoom b) -> from_bare b = Ok m ->
        do_route std fuel mode w = let* d := route_map_as_svg std fuel mode m in Ok (Some d))
     /\ (forall b, map_decoded w r (BMHexen b) -> do_route std fuel mode w = Ok None)
     /\ (forall f, first_unreadable_lump w r f ->
           (lump_index f r = None -> do_route std fuel mode w = Err (MissingMapLump (lump_string f)))
           /\ (lump_index f r <> None -> exists p, do_route std fuel mode w = Panic p)).
Proof. exact route_command. Qed.
Print Assumptions C91_route.

(** One of the cases applies. *)
Theorem C91_cases : forall w, unsigned_entries w ->
  (~ exists i, route_marker (directory w) i)
  \/ exists r, block_ok (directory w) r /\ route_marker (directory w) (marker_index r)
     /\ ((exists b m, map_decoded w r (BMDoom b) /\ from_bare b = Ok m) \/ (exists b, map_decoded w r (BMHexen b))
         \/ exists f, first_unreadable_lump w r f).
Proof. exact route_cases. Qed.
Print Assumptions C91_cases.

(** MAP14 is skipped and MAP15 drawn; the first map of the other WAD is of Hexen. *)
Example C91_example :
  do_route std_ref 3000 Checked cut_map_wad = Ok None
  /\ do_route std_ref 3000 Checked full_wad = Ok None
  /\ match do_route std_ref 3000 Checked later_wad with Ok (Some d) => length (rd_lines d) | _ => 0%nat end = 4%nat.
Proof. vm_compute. auto. Qed.

Example C91_hypotheses : unsigned_entries later_wad /\ route_marker (directory later_wad) 6 /\ early (directory later_wad) 0.
Proof. exact later_route. Qed.
