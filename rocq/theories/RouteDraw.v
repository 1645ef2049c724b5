(** The drawing of the route command, programs/src/idchoppers.rs 748-797 and 1079-1148, and
    the command itself, 711-740. As in Chart.v the SVG document is kept as structured data;
    the style sheet, writing the document out and what is printed are not modelled. *)

From Coq Require Import String List ZArith Bool.
From Verif Require Import Base ParseWad ArchiveWad ParseMap Float MapModel Sweep Contours Compute Route Chart.
Import ListNotations.
Local Open Scope Z_scope.

(** 1120-1132: the attribute fill; [Hue h] is "hsl(h, 100%, 75%)". *)
Inductive route_colour :=
| Red
| DarkRed
| Hue (h : f64).

(** 1111-1118: the items of the attribute data-origin. *)
Inductive origin :=
| FromSector (h : handle)
| FromLine (i : Z).

(** 1133-1139: a [Path], with the attributes d, fill, data-origin and data-contour-id. *)
Record route_path := mk_route_path {
  rp_d : list (command f64);
  rp_fill : route_colour;
  rp_origin : list origin;
  rp_contour : nat }.

(** 1142-1148: the view box and the two groups, both with the transformation
    "scale(1 -1)". *)
Record route_document := mk_route_document {
  rd_view : f64 * f64 * f64 * f64;
  rd_scale : Z * Z;
  rd_lines : list (shape f64);
  rd_paths : list route_path }.

(** 776-804: the drawing of a line. *)
Definition route_line_shape (m : gmap) (l : line) : outcome (shape f64) :=
  let class :=
    (if is_one_sided l then "one-sided" else if is_two_sided l then "two-sided" else "zero-sided")%string in
  let* v0 := bound_start m l in
  let* v1 := bound_end m l in
  Ok (SLine (px v0) (py v0) (px v1) (py v1) ["line"%string; class]).

(** 853-860: the origins of a contour; [p] is the index of the first of the bits. *)
Fixpoint contour_origins (refs : list polygon_ref) (bits : list bool) (p : nat) : outcome (list polygon_ref) :=
  match bits with
  | [] => Ok []
  | from :: bits' =>
      let* here := (if from : bool then let* r := index_nat refs p in Ok [r] else Ok []) in
      let* rest := contour_origins refs bits' (S p) in
      Ok (here ++ rest)
  end.

(** 1113-1117 *)
Definition show_origin (r : polygon_ref) : origin :=
  match r with
  | RSector h => FromSector h
  | RLine l => FromLine (ln_index l)
  end.

(** 1087-1091 and 1096-1100: from the last point to all of them. *)
Definition contour_path (c : contour) : outcome (list (command f64)) :=
  match c_points c with
  | [] => Panic PUnwrap
  | p :: _ =>
      let point := last (c_points c) p in
      Ok (MoveTo (px point) (py point) :: map (fun point => LineTo (px point) (py point)) (c_points c))
  end.

(** 1120-1132; [distance] and [d] are isize. *)
Definition distance_colour (distance d : Z) : route_colour :=
  if distance =? -1 then Red
  else if distance =? 0 then DarkRed
  else
    let frac := f64_mul (f64_div (f64_of_Z distance) (f64_of_Z d)) (f64_of_Z 255) in
    Hue (f64_mul (f64_div frac (f64_of_Z 255)) (f64_of_Z 330)).

(** 1079-1140: one contour. *)
Definition route_contour_path (refs : list polygon_ref) (result : polygon) (dist : list nat) (d : Z) (ic : nat * contour) :
  outcome (list route_path) :=
  let '(i, c) := ic in
  let* _ := counterclockwise c in
  if negb (c_external c) then Ok []
  else
    let* data := contour_path c in
    let* holes := omap (fun h => let* hole := index_nat result h in contour_path hole) (c_holes c) in
    let* origins := contour_origins refs (c_from c) 0 in
    let* distance := index_nat dist i in
    Ok [mk_route_path (data ++ concat holes) (distance_colour (Z.of_nat distance) d) (map show_origin origins) i].

(** 748-1149: [route_map_as_svg]. [route] covers 762-840 but for the drawing of the lines,
    and 842-1077 but for the origins, which are found before the flood fill. After the
    flood fill [d] is one more than the number of chunks. *)
Definition route_map_as_svg (std : std_impl) (fuel : nat) (mode : build) (m : gmap) : outcome route_document :=
  let bbox := map_bbox m in
  let* (polygons, refs) := route_input m in
  let* lines := omap (route_line_shape m) (g_lines m) in
  let* (result, filled) := route std fuel mode m in
  let '(dist, chunks) := filled in
  let d := Z.of_nat (S (length chunks)) in
  let* paths := omap (route_contour_path refs result dist d) (enumerate result) in
  let margin := f64_of_Z 32 in
  Ok (mk_route_document
        (f64_sub (r_x bbox) margin, f64_sub (f64_neg (r_max_y bbox)) margin,
         f64_add (r_w bbox) (f64_mul margin (f64_of_Z 2)), f64_add (r_h bbox) (f64_mul margin (f64_of_Z 2)))
        (1, -1) lines (concat paths)).

(** 714-737: the loop over the maps; the document saved, if any. *)
Fixpoint route_maps (std : std_impl) (fuel : nat) (mode : build) (w : bare_wad) (l : list map_block) :
  outcome (option route_document) :=
  match l with
  | [] => Ok None
  | r :: l' =>
      if match b_name r with MAPxx n => n <? 15 | ExMy _ _ => false end then route_maps std fuel mode w l'
      else
        let* bm := parse_doom_map w r in
        match bm with
        | BMDoom b =>
            let* m := from_bare b in
            let* d := route_map_as_svg std fuel mode m in
            Ok (Some d)
        | BMHexen _ => Ok None
        end
  end.

(** 711-740: [do_route]. *)
Definition do_route (std : std_impl) (fuel : nat) (mode : build) (w : bare_wad) : outcome (option route_document) :=
  route_maps std fuel mode w (iter_maps w).
