(** Properties of the chart command: C75-C81. *)

From Coq Require Import String List ZArith QArith Lia.
From Verif Require Import Base ParseWad ArchiveWad ParseMap SpecArchive SpecLumps SpecMap Float SpecFloat64 MapModel SpecMapModel
  SectorPolys SpecSector Actors Chart SpecChart ChartFacts ChartBareFacts ChartCommandFacts RouteCommandFacts ChartSamples Samples.
Import ListNotations.
Local Open Scope Z_scope.

(** C75. The drawing of an in-memory map. *)
Theorem C75_chart : forall b m, map_valid b -> small_map b -> from_bare b = Ok m ->
  (chart_refs b -> exists d ls ts ss, map_as_svg m = Ok d /\ d_shapes d = ls ++ ts ++ ss
     /\ Forall2 (line_drawn b int_valued) (m_lines b) ls
     /\ Forall2 (thing_drawn int_valued) (m_things b) ts
     /\ length ss = length (m_sectors b)
     /\ forall k sec s, nth_error (m_sectors b) k = Some sec -> nth_error ss k = Some s ->
          exists outlines, map_sector_to_polygons m (Z.of_nat k) = Ok outlines
            /\ sector_drawn b (map (map (fun p => (px p, py p))) outlines) k sec s)
  /\ (~ chart_refs b -> map_as_svg m = Panic PIndex).
Proof. exact chart_spec. Qed.
Print Assumptions C75_chart.

Example C75_example : map_valid room_map /\ small_map room_map /\ chart_refs room_map
  /\ match from_bare step_map with
     | Ok m => match map_as_svg m with
               | Ok d => map (fun s => match s with SLine _ _ _ _ cs => cs | SPath _ _ _ cs => cs | _ => [] end) (d_shapes d)
               | _ => []
               end
     | _ => []
     end = [["line"; "two-sided"; "step"]; ["line"; "one-sided"; "blocking"]; ["line"; "zero-sided"]; ["sector"]; ["sector"]]%string.
Proof. split; [exact room_valid|]. split; [apply room_refs|]. split; [apply room_refs|]. vm_compute. reflexivity. Qed.

(** C76. The part of the map that can be seen. *)
Theorem C76_view : forall b m d, map_valid b -> from_bare b = Ok m -> map_as_svg m = Ok d -> m_vertices b <> [] ->
  exists x0 y0 x1 y1, tight vx (m_vertices b) x0 x1 /\ tight vy (m_vertices b) y0 y1
    /\ view_is int_valued (d_view d) (x0, - y1, x1 - x0, y1 - y0)
    /\ forall v, In v (m_vertices b) -> visible (x0, - y1, x1 - x0, y1 - y0) (d_scale d) (vx v, vy v).
Proof. exact chart_view. Qed.
Print Assumptions C76_view.

Theorem C76_view_empty : forall b m d, from_bare b = Ok m -> map_as_svg m = Ok d -> m_vertices b = [] ->
  view_is int_valued (d_view d) (0, 0, 0, 0).
Proof. exact chart_view_empty. Qed.
Print Assumptions C76_view_empty.

Example C76_example :
  match from_bare flipped_room with
  | Ok m => match map_as_svg m with Ok d => view_is int_valued (d_view d) (0, 0, 64, 64) | _ => False end
  | _ => False
  end.
Proof. vm_compute. auto. Qed.

(** C77. "Every thing of the map can be seen" is false. *)
Theorem C77_refuted : exists b m d z t, map_valid b /\ chart_refs b /\ from_bare b = Ok m /\ map_as_svg m = Ok d
  /\ view_is int_valued (d_view d) z /\ In t (m_things b) /\ ~ visible z (d_scale d) (dt_x t, dt_y t).
Proof. exact far_thing_invisible. Qed.
Print Assumptions C77_refuted.

(** C78. The drawing of a bare map. *)
Theorem C78_bare_chart : forall L T (ops : chart_ops L T) m mode, bare_i16 ops m ->
  (bare_refs ops m -> (mode = Checked -> fits ops m) ->
   exists d, bare_map_as_svg mode ops m = Ok d
     /\ (fits ops m -> exists lss ts ss, d_shapes d = concat lss ++ ts ++ ss
         /\ Forall2 (bare_line_drawn ops m) (m_lines m) lss
         /\ Forall2 (bare_thing_drawn ops) (m_things m) ts
         /\ length ss = length (m_sectors m)
         /\ (forall k sec s, nth_error (m_sectors m) k = Some sec -> nth_error ss k = Some s ->
               exists outlines, bare_sector_to_polygons (co_line ops) m (Z.of_nat k) = Ok outlines
                 /\ bare_sector_drawn m outlines sec s)
         /\ ((places ops m = [] /\ d_view d = (0, 0, 0, 0))
             \/ exists x0 y0 x1 y1, tight fst (places ops m) x0 x1 /\ tight snd (places ops m) y0 y1
                  /\ d_view d = (x0, - y1, x1 - x0, y1 - y0))
         /\ forall p, In p (places ops m) -> visible (d_view d) (d_scale d) p))
  /\ (~ (bare_refs ops m /\ (mode = Checked -> fits ops m)) ->
      bare_map_as_svg mode ops m = Panic PIndex \/ bare_map_as_svg mode ops m = Panic POverflow).
Proof. exact @bare_chart_spec. Qed.
Print Assumptions C78_bare_chart.

(** The Hexen maps read from an archive meet its hypothesis. *)
Theorem C78_parsed : forall w r b, Z.of_nat (length (buffer w)) <= 2 ^ 63 -> map_decoded w r (BMHexen b) ->
  bare_i16 hexen_chart_ops b.
Proof. exact decoded_bare. Qed.
Print Assumptions C78_parsed.

(** What the classes of a line say in the two formats. *)
Theorem C78_hexen_classes : forall l c, bare_line_class hexen_chart_ops l c <->
  c = "line"%string \/ sided (hl_front l) (hl_back l) c \/ (hl_special l <> 0 /\ c = "has-special"%string).
Proof. exact hexen_classes. Qed.
Print Assumptions C78_hexen_classes.

Theorem C78_doom_classes : forall l c, bare_line_class doom_chart_ops l c <->
  c = "line"%string \/ sided (dl_front l) (dl_back l) c \/ (dl_special l <> 0 /\ c = "has-special"%string).
Proof. exact doom_classes. Qed.
Print Assumptions C78_doom_classes.

Example C78_example :
  bare_i16 hexen_chart_ops triangle_map /\ bare_refs hexen_chart_ops triangle_map /\ fits hexen_chart_ops triangle_map
  /\ match bare_map_as_svg Checked hexen_chart_ops triangle_map with
     | Ok d => Some (d_view d, nth 2 (d_shapes d) (SRect 0 0 0 0 ""), nth 6 (d_shapes d) (SRect 0 0 0 0 ""), nth 7 (d_shapes d) (SRect 0 0 0 0 ""))
     | _ => None
     end
     = Some ((-30, -200, 130, 200), SLine 100 50 0 200 ["line"; "one-sided"; "has-special"], SRect (-50) 80 40 40 "red",
             SPath [MoveTo 0 0; LineTo 100 50; LineTo 0 200; LineTo 0 0] (Some 7) None ["sector"; "secret"])%string.
Proof. split; [apply triangle_fits|]. split; [apply triangle_fits|]. split; [apply triangle_fits|]. vm_compute. reflexivity. Qed.

(** C79. "Every bare map whose indices exist is drawn" is false. *)
Theorem C79_refuted : exists m d p, bare_i16 hexen_chart_ops m /\ bare_refs hexen_chart_ops m
  /\ bare_map_as_svg Checked hexen_chart_ops m = Panic POverflow
  /\ bare_map_as_svg Wrapping hexen_chart_ops m = Ok d
  /\ In p (places hexen_chart_ops m) /\ ~ visible (d_view d) (d_scale d) p.
Proof. exact wide_map_overflows. Qed.
Print Assumptions C79_refuted.

(** C80. Which map is drawn. *)
Theorem C80_none : forall mode w,
  do_chart mode w = Ok None <-> ~ exists i, first_marker (directory w) i /\ ~ broken (directory w) i.
Proof. exact chart_none. Qed.
Print Assumptions C80_none.

Theorem C80_first_map : forall mode w c, unsigned_entries w -> do_chart mode w = Ok (Some c) ->
  exists r bm, block_ok (directory w) r /\ first_marker (directory w) (marker_index r)
    /\ map_decoded w r bm
    /\ match bm, c with
       | BMDoom b, ChartDoom d => exists m, from_bare b = Ok m /\ map_as_svg m = Ok d
       | BMHexen b, ChartHexen d => bare_map_as_svg mode hexen_chart_ops b = Ok d
       | _, _ => False
       end.
Proof. exact chart_some. Qed.
Print Assumptions C80_first_map.

Theorem C80_error : forall mode w e, unsigned_entries w -> Z.of_nat (length (buffer w)) <= 2 ^ 63 ->
  do_chart mode w = Err e <->
  exists r f, block_ok (directory w) r /\ first_marker (directory w) (marker_index r) /\ ~ broken (directory w) (marker_index r)
    /\ first_unreadable_lump w r f /\ lump_index f r = None /\ e = MissingMapLump (lump_string f).
Proof. exact chart_fails. Qed.
Print Assumptions C80_error.

Example C80_example :
  do_chart Checked broken_map_wad = Ok None
  /\ do_chart Checked cut_map_wad = Err (MissingMapLump "VERTEXES")
  /\ match do_chart Checked full_wad with Ok (Some (ChartDoom d)) => length (d_shapes d) | _ => 0%nat end = 6%nat.
Proof. vm_compute. auto. Qed.

(** C81. "Player starts are drawn in green" is false: nothing ever is. *)
Theorem C81_refuted : exists w d s t b r, do_chart Checked w = Ok (Some (ChartDoom d)) /\ parse_doom_map w r = Ok (BMDoom b)
  /\ m_things b = [t] /\ dt_num t = 1 /\ In s (d_shapes d) /\ square_about int_valued s (dt_x t, dt_y t) 8 "gray".
Proof. exact start_gray. Qed.
Print Assumptions C81_refuted.

Theorem C81_never_green : forall mode w c, do_chart mode w = Ok (Some c) ->
  match c with
  | ChartDoom d => forall s, In s (d_shapes d) -> ~ green s
  | ChartHexen d => forall s, In s (d_shapes d) -> ~ green s
  end.
Proof. exact chart_not_green. Qed.
Print Assumptions C81_never_green.
