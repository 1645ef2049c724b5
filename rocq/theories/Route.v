(** programs/src/idchoppers.rs 748-1077: the route command up to its drawing. *)

From Coq Require Import List ZArith Bool Arith.
From Verif Require Import Base Float MapModel SectorPolys Geometry Sweep Contours Compute.
Import ListNotations.

(** programs/src/idchoppers.rs 806-836: the space a line keeps a player out of.
    (Coordinates are doubles already, so the casts do nothing.) *)
Definition dilate (v0 v1 : vertex) : contour :=
  let radius := f64_of_Z 16 in
  let '(top, bottom) := if f64_gt (py v0) (py v1) then (v0, v1) else (v1, v0) in
  set_points contour_new
    (if f64_lt (px top) (px bottom) then
       [mk_point (f64_sub (px top) radius) (f64_sub (py top) radius);
        mk_point (f64_sub (px top) radius) (f64_add (py top) radius);
        mk_point (f64_add (px top) radius) (f64_add (py top) radius);
        mk_point (f64_add (px bottom) radius) (f64_add (py bottom) radius);
        mk_point (f64_add (px bottom) radius) (f64_sub (py bottom) radius);
        mk_point (f64_sub (px bottom) radius) (f64_sub (py bottom) radius)]
     else
       [mk_point (f64_sub (px top) radius) (f64_add (py top) radius);
        mk_point (f64_add (px top) radius) (f64_add (py top) radius);
        mk_point (f64_add (px top) radius) (f64_sub (py top) radius);
        mk_point (f64_add (px bottom) radius) (f64_sub (py bottom) radius);
        mk_point (f64_sub (px bottom) radius) (f64_sub (py bottom) radius);
        mk_point (f64_sub (px bottom) radius) (f64_add (py bottom) radius)]).

(** programs/src/idchoppers.rs 752-755 *)
Inductive polygon_ref :=
| RSector (h : handle)
| RLine (l : line).

(** programs/src/idchoppers.rs 764-774: the outlines of a sector. *)
Definition sector_input (m : gmap) (s : Z) : outcome (polygon * polygon_mode) :=
  let* outlines := map_sector_to_polygons m s in
  Ok (map (fun points => set_points contour_new points) outlines, RemoveEdges).

(** programs/src/idchoppers.rs 776-840: the space around a line. *)
Definition line_input (m : gmap) (l : line) : outcome (polygon * polygon_mode) :=
  let mode := if is_one_sided l then RemoveInterior else if is_two_sided l then Normal else RemoveInterior in
  let* v0 := bound_start m l in
  let* v1 := bound_end m l in
  Ok ([dilate v0 v1], mode).

(** programs/src/idchoppers.rs 762-840 *)
Definition route_input (m : gmap) : outcome (input * list polygon_ref) :=
  let handles := map Z.of_nat (seq 0 (length (g_sectors m))) in
  let* sectors := omap (sector_input m) handles in
  let* lines := omap (line_input m) (g_lines m) in
  Ok (sectors ++ lines, map RSector handles ++ map RLine (g_lines m)).

(** euclid 0.16 [Rect::contains]. *)
Definition rect_contains (r : rect) (p : point) : bool :=
  f64_le (r_x r) (px p) && f64_lt (px p) (f64_add (r_x r) (r_w r))
  && f64_le (r_y r) (py p) && f64_lt (py p) (f64_add (r_y r) (r_h r)).

(** The sectors of the sides of a line. *)
Definition line_sectors (m : gmap) (l : line) : outcome (list handle) :=
  let* f := bound_front m l in
  let* b := bound_back m l in
  Ok (match f with Some s => [si_sector s] | None => [] end
      ++ match b with Some s => [si_sector s] | None => [] end).

(** programs/src/idchoppers.rs 965-983: the sectors of a contour. The [HashSet] is only
    used for the extreme heights of its members, so repetitions are kept. *)
Fixpoint sectors_here (m : gmap) (refs : list polygon_ref) (bits : list bool) (p : nat) : outcome (list handle) :=
  match bits with
  | [] => Ok []
  | from :: bits' =>
      let* here :=
        (if from : bool then
           let* r := index_nat refs p in
           match r with
           | RSector h => Ok [h]
           | RLine l => line_sectors m l
           end
         else Ok []) in
      let* rest := sectors_here m refs bits' (S p) in
      Ok (here ++ rest)
  end.

(** programs/src/idchoppers.rs 1011-1035: the same, up to the first line that blocks the
    player; the boolean tells whether there is none. *)
Fixpoint sectors_open (m : gmap) (refs : list polygon_ref) (bits : list bool) (p : nat) : outcome (bool * list handle) :=
  match bits with
  | [] => Ok (true, [])
  | from :: bits' =>
      if from : bool then
        let* r := index_nat refs p in
        match r with
        | RSector h =>
            let* (ok, rest) := sectors_open m refs bits' (S p) in
            Ok (ok, h :: rest)
        | RLine l =>
            if blocks_player l then Ok (false, [])
            else
              let* here := line_sectors m l in
              let* (ok, rest) := sectors_open m refs bits' (S p) in
              Ok (ok, here ++ rest)
        end
      else sectors_open m refs bits' (S p)
  end.

(** programs/src/idchoppers.rs 903-939: the tags of a contour, as the list of tags
    inserted into the set. *)
Definition contour_tags (m : gmap) (refs : list polygon_ref) (c : contour) : outcome (list Z) :=
  let* hs := sectors_here m refs (c_from c) 0 in
  let* sectors := omap (map_sector m) hs in
  Ok (filter (fun t => negb (t =? 0)%Z && negb (t =? 13)%Z) (map ms_tag sectors)).

(** Equality of the sets with these members. *)
Definition member_z (l : list Z) (z : Z) : bool := existsb (Z.eqb z) l.
Definition same_tags (a b : list Z) : bool := forallb (member_z b) a && forallb (member_z a) b.

(** [.map(|h| map.sector(h).floor_height()).max().unwrap()] and the same with [min]. *)
Definition extreme_floor (pick : Z -> Z -> Z) (m : gmap) (hs : list handle) : outcome Z :=
  let* sectors := omap (map_sector m) hs in
  match map ms_floor sectors with
  | [] => Panic PUnwrap
  | z :: l => Ok (fold_left pick l z)
  end.

(** Subtraction of i32. *)
Definition sub_i32 (mode : build) (a b : Z) : outcome Z :=
  let d := (a - b)%Z in
  if (wrap_i32 d =? d)%Z then Ok d else match mode with Checked => Panic POverflow | Wrapping => Ok (wrap_i32 d) end.

Definition PLAYER_STEP_HEIGHT : Z := 24.

(** The sets [seen_contours] and [seed_ixs], the queue [next_contours], the current
    [chunk] and [contour_distance]. *)
Record fill := mk_fill {
  fl_seen : list nat;
  fl_seeds : list nat;
  fl_next : list nat;
  fl_chunk : list nat;
  fl_dist : list nat }.

Definition member (l : list nat) (i : nat) : bool := existsb (Nat.eqb i) l.
Definition insert (l : list nat) (i : nat) : list nat := if member l i then l else i :: l.

(** The smallest member of a set ([iter().next()] of a [BTreeSet]). *)
Definition least (l : list nat) : option nat :=
  match l with
  | [] => None
  | x :: l' => Some (fold_left Nat.min l' x)
  end.
Definition remove (l : list nat) (i : nat) : list nat := filter (fun j => negb (Nat.eqb i j)) l.

Section Fill.
  Variable mode : build.
  Variable m : gmap.
  Variable refs : list polygon_ref.
  Variable result : polygon.
  Variable tags : list (list Z).

  (** programs/src/idchoppers.rs 997-1070: one neighbour of a contour whose highest
      floor is [highest]. *)
  Definition fill_neighbor (ix : nat) (highest : Z) (st : fill) (nt : nat * bool) : outcome fill :=
    let '(n, touching) := nt in
    if negb touching || member (fl_seen st) n then Ok st
    else
      let* t := index_nat tags ix in
      let* t' := index_nat tags n in
      let ok := same_tags t t' in
      let* c := index_nat result n in
      let* (open, hs) := sectors_open m refs (c_from c) 0 in
      let* floor := extreme_floor Z.max m hs in
      let* up := sub_i32 mode floor highest in
      let* far :=
        (if (PLAYER_STEP_HEIGHT <? up)%Z then Ok true
         else let* down := sub_i32 mode highest floor in Ok (PLAYER_STEP_HEIGHT <? down)%Z) in
      if ok && open && negb far then
        Ok (mk_fill (insert (fl_seen st) n) (fl_seeds st) (fl_next st ++ [n]) (fl_chunk st) (fl_dist st))
      else
        Ok (mk_fill (fl_seen st) (insert (fl_seeds st) n) (fl_next st) (fl_chunk st) (fl_dist st)).

  (** programs/src/idchoppers.rs 993-996 *)
  Definition around (c : contour) : outcome (list bool) :=
    ofold (fun bits h => let* hc := index_nat result h in bits_union bits (c_neighbors hc)) (c_holes c) (c_neighbors c).

  (** programs/src/idchoppers.rs 958-1071: one contour of chunk number [d]. *)
  Definition fill_contour (d : nat) (st : fill) (ix : nat) : outcome fill :=
    let* _ := index_nat tags ix in
    let* dist := update_nat (fl_dist st) ix (fun _ => Ok d) in
    let st := mk_fill (fl_seen st) (fl_seeds st) (fl_next st) (insert (fl_chunk st) ix) dist in
    let* c := index_nat result ix in
    let* hs := sectors_here m refs (c_from c) 0 in
    let* highest := extreme_floor Z.max m hs in
    let* _ := extreme_floor Z.min m hs in
    let* bits := around c in
    ofold (fill_neighbor ix highest) (enumerate bits) st.

  (** programs/src/idchoppers.rs 953-1072: the inner loop. *)
  Fixpoint fill_chunk (fuel : nat) (d : nat) (st : fill) : outcome fill :=
    match fl_next st with
    | [] => Ok st
    | contours =>
        match fuel with
        | O => Panic PFuel
        | S fuel' =>
            let* st := ofold (fill_contour d) contours (mk_fill (fl_seen st) (fl_seeds st) [] (fl_chunk st) (fl_dist st)) in
            fill_chunk fuel' d st
        end
    end.

  (** programs/src/idchoppers.rs 940-1077: the outer loop. *)
  Fixpoint fill_all (fuel inner : nat) (d : nat) (chunks : list (list nat)) (seen seeds dist : list nat) :
    outcome (list nat * list (list nat)) :=
    match least seeds with
    | None => Ok (dist, chunks)
    | Some seed =>
        match fuel with
        | O => Panic PFuel
        | S fuel' =>
            let seeds := remove seeds seed in
            if member seen seed then fill_all fuel' inner d chunks seen seeds dist
            else
              let* st := fill_chunk inner d (mk_fill (insert seen seed) seeds [seed] [] dist) in
              fill_all fuel' inner (S d) (chunks ++ [fl_chunk st]) (fl_seen st) (fl_seeds st) (fl_dist st)
        end
    end.
End Fill.

(** programs/src/idchoppers.rs 842-1077: the flood fill, giving [contour_distance] and
    [chunks]. The fuel is enough for every input (see FillFacts.v). *)
Definition flood (mode : build) (m : gmap) (refs : list polygon_ref) (result : polygon) (start : point) :
  outcome (list nat * list (list nat)) :=
  let n := length result in
  let seeds := filter (fun i => match nth_error result i with
                                | Some c => rect_contains (contour_bbox c) start
                                | None => false
                                end) (seq 0 n) in
  let* tags := omap (contour_tags m refs) result in
  fill_all mode m refs result tags (n * n + n + n) n 1 [] [] seeds (repeat 0%nat n).

(** programs/src/idchoppers.rs 748-1077 *)
Definition route (std : std_impl) (fuel : nat) (mode : build) (m : gmap) : outcome (polygon * (list nat * list (list nat))) :=
  let* (polygons, refs) := route_input m in
  let start := match find_player_start m with Some p => p | None => mk_point f64_zero f64_zero end in
  let* result := compute std fuel polygons Union in
  let* filled := flood mode m refs result start in
  Ok (result, filled).
