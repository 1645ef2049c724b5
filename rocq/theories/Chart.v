(** The chart command: programs/src/idchoppers.rs 199-510. The SVG document is kept as
    structured data: the shapes of its only group, in order, and its view box. Writing it
    out as text, the style sheet and the output file are not modelled. *)

From Coq Require Import String List ZArith Bool.
From Verif Require Import Base ParseWad ArchiveWad ParseMap Float MapModel SectorPolys Actors.
Import ListNotations.
Local Open Scope Z_scope.

(** ** Documents (crate svg) *)

(** Commands of the [d] attribute of a path, [Data::move_to] and [Data::line_to]. *)
Inductive command (N : Type) :=
| MoveTo (x y : N)
| LineTo (x y : N).
Arguments MoveTo {N} _ _.
Arguments LineTo {N} _ _.

(** Elements: [Line], [Path] (with the attributes data-sector-tag and data-sector-light,
    if any; data-sector-light-color is made of the latter) and [Rectangle]. The classes are
    joined with spaces in the code. *)
Inductive shape (N : Type) :=
| SLine (x1 y1 x2 y2 : N) (classes : list string)
| SPath (d : list (command N)) (tag light : option Z) (classes : list string)
| SRect (x y : N) (width height : Z) (fill : string).
Arguments SLine {N} _ _ _ _ _.
Arguments SPath {N} _ _ _ _.
Arguments SRect {N} _ _ _ _ _.

(** The view box is (left, top, width, height). The group has the transformation
    "scale(1 -1)" (386, 505), kept as the two factors. *)
Record document (N : Type) := mk_document {
  d_view : N * N * N * N; d_scale : Z * Z; d_shapes : list (shape N) }.
Arguments mk_document {N} _ _ _.
Arguments d_view {N} _.
Arguments d_scale {N} _.
Arguments d_shapes {N} _.

(** ** Parts common to the two functions *)

(** 334-347 and 440-453: colour and radius of a thing. *)
Definition thing_look (num : Z) : string * Z :=
  match lookup_thing_type num with
  | Some a =>
      (match a_category a with
       | PlayerStart => "green"
       | Monster => "red"
       | Miscellaneous => "gray"
       | _ => "magenta"
       end%string, a_radius a)
  | None => ("gray"%string, 8)
  end.

(** 358-368 and 464-475: the path commands of an outline; [split_first().unwrap()]. *)
Definition outline_path {N} (outline : list (N * N)) : outcome (list (command N)) :=
  match outline with
  | [] => Panic PUnwrap
  | (fx, fy) :: others =>
      Ok (MoveTo fx fy :: map (fun v => LineTo (fst v) (snd v)) others ++ [LineTo fx fy])
  end.
Definition outlines_path {N} (outlines : list (list (N * N))) : outcome (list (command N)) :=
  let* parts := omap outline_path outlines in
  Ok (concat parts).

(** 257-266 and 403-412: the class for the number of sides. *)
Definition sides_class (no_front no_back : bool) : string :=
  (if no_front && no_back then "zero-sided"
   else if no_front || no_back then "one-sided"
   else "two-sided")%string.

(** ** Bare maps *)

(** [+] and [-] on i16. *)
Definition i16_result (mode : build) (z : Z) : outcome Z :=
  if in_i16 z then Ok z
  else match mode with Checked => Panic POverflow | Wrapping => Ok (wrap_i16 z) end.
Definition add_i16 (mode : build) (a b : Z) : outcome Z := i16_result mode (a + b).
Definition sub_i16 (mode : build) (a b : Z) : outcome Z := i16_result mode (a - b).

(** src/parse/map.rs 99-119 and 192-226: the rest of the traits [BareBinaryThing] and
    [BareBinaryLine]. *)
Record chart_ops (L T : Type) := mk_cops {
  co_line : line_ops L;
  co_special : L -> bool;
  co_coords : T -> Z * Z;
  co_num : T -> Z }.
Arguments mk_cops {L T} _ _ _ _.
Arguments co_line {L T} _.
Arguments co_special {L T} _ _.
Arguments co_coords {L T} _ _.
Arguments co_num {L T} _ _.
Definition doom_chart_ops : chart_ops doom_line doom_thing :=
  mk_cops doom_line_ops (fun l => negb (dl_special l =? 0)) (fun t => (dt_x t, dt_y t)) dt_num.
Definition hexen_chart_ops : chart_ops hexen_line hexen_thing :=
  mk_cops hexen_line_ops (fun l => negb (hl_special l =? 0)) (fun t => (ht_x t, ht_y t)) ht_num.

(** The variables minx, miny, maxx and maxy. *)
Record extent := mk_extent { minx : Z; miny : Z; maxx : Z; maxy : Z }.

(** 222-233 *)
Definition extent_start {L T} (ops : chart_ops L T) (m : binary_map L T) : extent :=
  let '(x, y) :=
    match m_vertices m with
    | v :: _ => (vx v, vy v)
    | [] =>
        match m_things m with
        | t :: _ => co_coords ops t
        | [] => (0, 0)
        end
    end in
  mk_extent x y x y.

(** 235-248, 320-333 *)
Definition extend (e : extent) (p : Z * Z) : extent :=
  let '(x, y) := p in
  mk_extent (if x <? minx e then x else minx e) (if y <? miny e then y else miny e)
            (if x >? maxx e then x else maxx e) (if y >? maxy e then y else maxy e).

(** 283-312: the outline of the space around a line, with radius 16. *)
Definition bare_dilation (mode : build) (v0 v1 : bare_vertex) : outcome (list (command Z)) :=
  let radius := 16 in
  let '(top, bottom) := if vy v0 >? vy v1 then (v0, v1) else (v1, v0) in
  let corner (v : bare_vertex) (right up : bool) :=
    let* x := (if right then add_i16 else sub_i16) mode (vx v) radius in
    let* y := (if up then add_i16 else sub_i16) mode (vy v) radius in
    Ok (x, y) in
  let* corners :=
    (if vx top <? vx bottom then
       omap (fun c => c tt)
         [(fun _ => corner top false false); (fun _ => corner top false true); (fun _ => corner top true true);
          (fun _ => corner bottom true true); (fun _ => corner bottom true false);
          (fun _ => corner bottom false false)]
     else
       omap (fun c => c tt)
         [(fun _ => corner top false true); (fun _ => corner top true true); (fun _ => corner top true false);
          (fun _ => corner bottom true false); (fun _ => corner bottom false false);
          (fun _ => corner bottom false true)]) in
  match corners with
  | [] => Ok []
  | (x, y) :: others => Ok (MoveTo x y :: map (fun p => LineTo (fst p) (snd p)) others)
  end.

(** 251-318: one line: the line itself and the space around it. *)
Definition bare_line_shapes {L T} (mode : build) (ops : chart_ops L T) (m : binary_map L T) (l : L)
  : outcome (list (shape Z)) :=
  let '(v0i, v1i) := lo_vertices (co_line ops) l in
  let* v0 := index (m_vertices m) (as_usize v0i) in
  let* v1 := index (m_vertices m) (as_usize v1i) in
  let '(frontid, backid) := lo_sides (co_line ops) l in
  let classes :=
    ["line"%string; sides_class (frontid =? -1) (backid =? -1)]
    ++ (if co_special ops l then ["has-special"%string] else []) in
  let* d := bare_dilation mode v0 v1 in
  Ok [SLine (vx v0) (vy v0) (vx v1) (vy v1) classes; SPath d None None ["line-dilation"%string]].

(** 320-355: one thing. *)
Definition bare_thing_shape {L T} (mode : build) (ops : chart_ops L T) (t : T) : outcome (shape Z) :=
  let '(x, y) := co_coords ops t in
  let '(color, radius) := thing_look (as_u32 (co_num ops t)) in
  let* x0 := sub_i16 mode x (wrap_i16 radius) in
  let* y0 := sub_i16 mode y (wrap_i16 radius) in
  Ok (SRect x0 y0 (radius * 2) (radius * 2) color).

(** 357-381: one sector. *)
Definition bare_sector_shape {L T} (ops : chart_ops L T) (m : binary_map L T) (s : nat * bare_sector)
  : outcome (shape Z) :=
  let '(k, sector) := s in
  let* polys := bare_sector_to_polygons (co_line ops) m (Z.of_nat k) in
  let* points := omap (omap (fun v => let* b := index (m_vertices m) v in Ok (vx b, vy b))) polys in
  let* d := outlines_path points in
  Ok (SPath d
        (if negb (sc_tag sector =? 0) then Some (sc_tag sector) else None) None
        (["sector"%string] ++ if sc_type sector =? 9 then ["secret"%string] else [])).

(** 220-391: [bare_map_as_svg]. *)
Definition bare_map_as_svg {L T} (mode : build) (ops : chart_ops L T) (m : binary_map L T)
  : outcome (document Z) :=
  let e := fold_left extend (map (fun v => (vx v, vy v)) (m_vertices m)) (extent_start ops m) in
  let* lines := omap (bare_line_shapes mode ops m) (m_lines m) in
  let e := fold_left extend (map (co_coords ops) (m_things m)) e in
  let* things := omap (bare_thing_shape mode ops) (m_things m) in
  let* sectors := omap (bare_sector_shape ops m) (enumerate (m_sectors m)) in
  let* top := neg_i16 mode (maxy e) in
  let* width := sub_i16 mode (maxx e) (minx e) in
  let* height := sub_i16 mode (maxy e) (miny e) in
  Ok (mk_document (minx e, top, width, height) (1, -1) (concat lines ++ things ++ sectors)).

(** ** In-memory maps *)

(** 419-425: whether the player can step over a two-sided line. Heights come from i16
    fields (C32), so the i32 arithmetic does not overflow. *)
Definition step_class (m : gmap) (l : line) : outcome (list string) :=
  if is_two_sided l then
    let* f := bound_front m l in
    let* front := match f with Some s => map_sector m (si_sector s) | None => Panic PUnwrap end in
    let* b := bound_back m l in
    let* back := match b with Some s => map_sector m (si_sector s) | None => Panic PUnwrap end in
    Ok (if (Z.abs (ms_floor front - ms_floor back) <=? 24)
           && (Z.min (ms_ceil front) (ms_ceil back) - Z.max (ms_floor front) (ms_floor back) >=? 56)
        then ["step"%string] else [])
  else Ok [].

(** 398-436: one line. *)
Definition map_line_shape (m : gmap) (l : line) : outcome (shape f64) :=
  let* v0 := bound_start m l in
  let* v1 := bound_end m l in
  let* step := step_class m l in
  Ok (SLine (px v0) (py v0) (px v1) (py v1)
        (["line"%string; sides_class (negb (is_some (ln_front l))) (negb (is_some (ln_back l)))]
         ++ (if has_special l then ["has-special"%string] else [])
         ++ (if blocks_player l then ["blocking"%string] else []) ++ step)).

(** 438-461: one thing. *)
Definition map_thing_shape (t : thing) : shape f64 :=
  let '(color, radius) := thing_look (th_num t) in
  SRect (f64_sub (px (th_point t)) (f64_of_Z radius)) (f64_sub (py (th_point t)) (f64_of_Z radius))
    (radius * 2) (radius * 2) color.

(** 487-497: whether some line with its back to the sector has a special and no tag; the
    loop stops at the first. *)
Fixpoint implicit_tag (m : gmap) (s : Z) (ls : list line) : outcome bool :=
  match ls with
  | [] => Ok false
  | l :: ls' =>
      let* back := bound_back m l in
      if match back with Some sd => si_sector sd =? s | None => false end
         && (has_special l && (ln_tag l =? 0))
      then Ok true
      else implicit_tag m s ls'
  end.

(** 463-500: one sector. *)
Definition map_sector_shape (m : gmap) (s : nat * sector) : outcome (shape f64) :=
  let '(k, sector) := s in
  let* polys := map_sector_to_polygons m (Z.of_nat k) in
  let* d := outlines_path (map (map (fun p => (px p, py p))) polys) in
  let* implicit := implicit_tag m (Z.of_nat k) (g_lines m) in
  Ok (SPath d
        (if negb (ms_tag sector =? 0) then Some (ms_tag sector) else None) (Some (ms_light sector))
        (["sector"%string] ++ (if ms_special sector =? 9 then ["secret"%string] else [])
         ++ if implicit : bool then ["implicit-tag"%string] else [])).

(** 393-510: [map_as_svg]. *)
Definition map_as_svg (m : gmap) : outcome (document f64) :=
  let bbox := map_bbox m in
  let* lines := omap (map_line_shape m) (g_lines m) in
  let things := map map_thing_shape (g_things m) in
  let* sectors := omap (map_sector_shape m) (enumerate (g_sectors m)) in
  Ok (mk_document (r_x bbox, f64_neg (r_max_y bbox), r_w bbox, r_h bbox) (1, -1)
        (lines ++ things ++ sectors)).

(** ** The command *)

Inductive chart :=
| ChartDoom (d : document f64)
| ChartHexen (d : document Z).

(** 199-218: [do_chart]: the document saved, if any; only the first map is looked at. *)
Definition do_chart (mode : build) (w : bare_wad) : outcome (option chart) :=
  match iter_maps w with
  | [] => Ok None
  | r :: _ =>
      let* bm := parse_doom_map w r in
      match bm with
      | BMDoom b =>
          let* m := from_bare b in
          let* d := map_as_svg m in
          Ok (Some (ChartDoom d))
      | BMHexen b =>
          let* d := bare_map_as_svg mode hexen_chart_ops b in
          Ok (Some (ChartHexen d))
      end
  end.
