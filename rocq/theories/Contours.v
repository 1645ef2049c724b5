(** src/shapeops.rs 40-49 and 409-753: rectangles, contours and polygons. *)

From Coq Require Import List ZArith Bool Arith.
From Verif Require Import Base Float Geometry Sweep.
Import ListNotations.

(** src/shapeops.rs 41-49: [MapRectX::touches]. *)
Definition touches (a b : rect) : bool :=
  f64_le (r_x a) (f64_add (r_x b) (r_w b)) && f64_le (r_x b) (f64_add (r_x a) (r_w a))
  && f64_le (r_y a) (f64_add (r_y b) (r_h b)) && f64_le (r_y b) (f64_add (r_y a) (r_h a)).

(** src/shapeops.rs 412-424; a [BitVec] is the list of its bits. *)
Record contour := mk_contour {
  c_points : list point;
  c_holes : list nat;
  c_from : list bool;
  c_neighbors : list bool;
  c_external : bool;
  c_cache : option bool }.

(** src/shapeops.rs 427-436 *)
Definition contour_new : contour := mk_contour [] [] [] [] true None.

Definition set_points (c : contour) (p : list point) : contour :=
  mk_contour p (c_holes c) (c_from c) (c_neighbors c) (c_external c) (c_cache c).
Definition set_from (c : contour) (b : list bool) : contour :=
  mk_contour (c_points c) (c_holes c) b (c_neighbors c) (c_external c) (c_cache c).
Definition set_neighbors (c : contour) (b : list bool) : contour :=
  mk_contour (c_points c) (c_holes c) (c_from c) b (c_external c) (c_cache c).
Definition set_cache (c : contour) (b : option bool) : contour :=
  mk_contour (c_points c) (c_holes c) (c_from c) (c_neighbors c) (c_external c) b.

(** src/shapeops.rs 438-453 *)
Definition contour_bbox (c : contour) : rect :=
  match c_points c with
  | [] => rect_zero
  | p :: l =>
      let min_x := fold_left (fun m q => f64_min m (px q)) l (px p) in
      let max_x := fold_left (fun m q => f64_max m (px q)) l (px p) in
      let min_y := fold_left (fun m q => f64_min m (py q)) l (py p) in
      let max_y := fold_left (fun m q => f64_max m (py q)) l (py p) in
      mk_rect min_x min_y (f64_sub max_x min_x) (f64_sub max_y min_y)
  end.

(** src/shapeops.rs 463-465: the loop over consecutive points. *)
Fixpoint area_loop (l : list point) (area : f64) : f64 :=
  match l with
  | a :: ((b :: _) as l') => area_loop l' (f64_add area (v_cross a b))
  | _ => area
  end.

(** src/shapeops.rs 457-469. The cache is a [Cell]: the call may change the
    contour, so the new contour is returned. *)
Definition clockwise (c : contour) : outcome (bool * contour) :=
  match c_cache c with
  | Some b => Ok (b, c)
  | None =>
      match c_points c with
      | [] => Panic PUnwrap
      | p :: _ =>
          let b := f64_lt (area_loop (c_points c) (v_cross (last (c_points c) p) p)) f64_zero in
          Ok (b, set_cache c (Some b))
      end
  end.

(** src/shapeops.rs 470-472 *)
Definition counterclockwise (c : contour) : outcome (bool * contour) :=
  let* (b, c) := clockwise c in
  Ok (negb b, c).

(** src/shapeops.rs 483-488 and 531-558: what iterating [iter_segments] yields.
    The iterator has an index; [seg_at] is one call of [next]. *)
Definition seg_at (l : list point) (i : nat) : option (point * point) :=
  match l with
  | [] => None
  | p0 :: _ =>
      if (i <? length l - 1)%nat then
        match nth_error l i, nth_error l (S i) with
        | Some a, Some b => Some (a, b)
        | _, _ => None
        end
      else if (i =? length l - 1)%nat then
        match nth_error l i with
        | Some a => Some (a, p0)
        | None => None
        end
      else None
  end.
Fixpoint segs_from (fuel : nat) (l : list point) (i : nat) : list (point * point) :=
  match fuel with
  | O => []
  | S fuel' =>
      match seg_at l i with
      | None => []
      | Some s => s :: segs_from fuel' l (S i)
      end
  end.
Definition iter_segments (c : contour) : list (point * point) :=
  segs_from (S (length (c_points c))) (c_points c) 0.

(** src/shapeops.rs 490-495 *)
Definition change_orientation (c : contour) : contour :=
  set_cache (set_points c (rev (c_points c)))
            (match c_cache c with Some b => Some (negb b) | None => None end).

(** src/shapeops.rs 496-500 *)
Definition set_clockwise (c : contour) : outcome contour :=
  let* (b, c) := counterclockwise c in
  Ok (if b : bool then change_orientation c else c).

(** src/shapeops.rs 501-505 *)
Definition set_counterclockwise (c : contour) : outcome contour :=
  let* (b, c) := clockwise c in
  Ok (if b : bool then change_orientation c else c).

(** src/shapeops.rs 507-509 *)
Definition contour_add (c : contour) (p : point) : contour := set_points c (c_points c ++ [p]).

(** src/shapeops.rs 520-528 *)
Definition add_hole (c : contour) (i : nat) : contour :=
  mk_contour (c_points c) (c_holes c ++ [i]) (c_from c) (c_neighbors c) (c_external c) (c_cache c).
Definition set_external (c : contour) (e : bool) : contour :=
  mk_contour (c_points c) (c_holes c) (c_from c) (c_neighbors c) e (c_cache c).

(** src/shapeops.rs 579-588 *)
Definition polygon := list contour.

(** euclid 0.16 [Rect::union]. *)
Definition rect_empty (r : rect) : bool := f64_eq (r_w r) f64_zero && f64_eq (r_h r) f64_zero.
Definition e_min (a b : f64) : f64 := if f64_le a b then a else b.
Definition e_max (a b : f64) : f64 := if f64_le b a then a else b.
Definition rect_union (a b : rect) : rect :=
  if rect_empty a then b
  else if rect_empty b then a
  else
    let x := e_min (r_x a) (r_x b) in
    let y := e_min (r_y a) (r_y b) in
    mk_rect x y (f64_sub (e_max (r_max_x a) (r_max_x b)) x) (f64_sub (e_max (r_max_y a) (r_max_y b)) y).

(** src/shapeops.rs 605-607 *)
Definition nvertices (p : polygon) : nat := list_sum (map (fun c => length (c_points c)) p).

(** src/shapeops.rs 609-618 *)
Definition polygon_bbox (p : polygon) : rect :=
  match p with
  | [] => rect_zero
  | c :: l => fold_left (fun b c => rect_union b (contour_bbox c)) l (contour_bbox c)
  end.

(** Replace the contour (or other element) at an index ([self.contours[i] = ..]). *)
Definition update_nat {A} (l : list A) (i : nat) (f : A -> outcome A) : outcome (list A) :=
  let* x := index_nat l i in
  let* y := f x in
  Ok (set_nth i y l).

(** ** [compute_holes] *)

(** What is used of the standard library's stable sort and of its [BTreeSet], as
    operations on the list of members. The theorems hold for every
    implementation meeting the laws in SpecCompute.v. *)
Record std_impl := mk_std {
  std_sort : forall A, (A -> A -> outcome comparison) -> list A -> outcome (list A);
  bt_insert : forall A, (A -> A -> outcome comparison) -> list A -> A -> outcome (list A);
  bt_remove : forall A, (A -> A -> outcome comparison) -> list A -> A -> outcome (list A);
  (** [range(..x).last()] *)
  bt_last_before : forall A, (A -> A -> outcome comparison) -> list A -> A -> outcome (option A) }.

(** src/shapeops.rs 639-647: the non-vertical segments of one contour. *)
Fixpoint hole_segments (cid : nat) (l : list (point * point)) (acc : list (sseg nat)) :
  outcome (list (sseg nat)) :=
  match l with
  | [] => Ok acc
  | (p0, p1) :: l' =>
      if f64_eq (px p0) (px p1) then hole_segments cid l' acc
      else
        let* s := sseg_new p0 p1 (length acc) 0 cid in
        hole_segments cid l' (acc ++ [s])
  end.

(** src/shapeops.rs 635-648; the second component of the payload, the number of
    the point, is never read and is left out. *)
Fixpoint collect_holes (cid : nat) (cs : list contour) (segs : list (sseg nat)) :
  outcome (list contour * list (sseg nat)) :=
  match cs with
  | [] => Ok ([], segs)
  | c :: cs' =>
      let* c := set_counterclockwise c in
      let* segs := hole_segments cid (iter_segments c) segs in
      let* (cs', segs) := collect_holes (S cid) cs' segs in
      Ok (c :: cs', segs)
  end.

(** src/shapeops.rs 653-656 and similar: both ends of each segment. *)
Definition both_ends {T} (l : list (sseg T)) : list (endpoint T) :=
  flat_map (fun s => [(s, LeftEnd); (s, RightEnd)]) l.

Record holes_state := mk_hs {
  hs_contours : list contour;
  hs_active : list (sseg nat);
  hs_processed : list bool;
  hs_hole_of : list (option nat);
  hs_nprocessed : nat }.

(** src/shapeops.rs 714-722 and 725-733 *)
Definition make_hole (cs : list contour) (parent cid : nat) : outcome (list contour) :=
  let* cs := update_nat cs cid (fun c => Ok (set_external c false)) in
  let* cs := update_nat cs parent (fun c => Ok (add_hole c cid)) in
  let* p := index_nat cs parent in
  let* (ccw, p) := counterclockwise p in
  let cs := set_nth parent p cs in
  if ccw : bool then update_nat cs cid set_clockwise
  else update_nat cs cid set_counterclockwise.

(** src/shapeops.rs 684-737: one endpoint. *)
Definition holes_step (std : std_impl) (st : holes_state) (e : endpoint nat) : outcome holes_state :=
  let '(segment, end_) := e in
  match end_ with
  | RightEnd =>
      let* active := bt_remove std _ segment_cmp (hs_active st) segment in
      Ok (mk_hs (hs_contours st) active (hs_processed st) (hs_hole_of st) (hs_nprocessed st))
  | LeftEnd =>
      let* active := bt_insert std _ segment_cmp (hs_active st) segment in
      let cid := s_data segment in
      let* done := index_nat (hs_processed st) cid in
      if done : bool then
        Ok (mk_hs (hs_contours st) active (hs_processed st) (hs_hole_of st) (hs_nprocessed st))
      else
        let processed := set_nth cid true (hs_processed st) in
        let n := S (hs_nprocessed st) in
        let* prev := bt_last_before std _ segment_cmp active segment in
        match prev with
        | None =>
            let* cs := update_nat (hs_contours st) cid set_counterclockwise in
            Ok (mk_hs cs active processed (hs_hole_of st) n)
        | Some prev =>
            let pid := s_data prev in
            let* parent := (if negb (s_out prev) then Ok (Some pid) else index_nat (hs_hole_of st) pid) in
            match parent with
            | Some parent =>
                let hole_of := set_nth cid (Some parent) (hs_hole_of st) in
                let* cs := make_hole (hs_contours st) parent cid in
                Ok (mk_hs cs active processed hole_of n)
            | None =>
                let* cs := update_nat (hs_contours st) cid set_counterclockwise in
                Ok (mk_hs cs active processed (hs_hole_of st) n)
            end
        end
  end.

(** src/shapeops.rs 678-682: stop when every contour has been seen. *)
Fixpoint holes_loop (std : std_impl) (l : list (endpoint nat)) (st : holes_state) : outcome holes_state :=
  match l with
  | [] => Ok st
  | e :: l' =>
      if (length (hs_contours st) <=? hs_nprocessed st)%nat then Ok st
      else
        let* st := holes_step std st e in
        holes_loop std l' st
  end.

(** src/shapeops.rs 626-739 *)
Definition compute_holes (std : std_impl) (p : polygon) : outcome polygon :=
  match p with
  | [] => Ok []
  | [c] =>
      let* (b, c) := clockwise c in
      Ok [if b : bool then change_orientation c else c]
  | _ =>
      let* (cs, segs) := collect_holes 0 p [] in
      let* endpoints := std_sort std _ endpoint_cmp (both_ends segs) in
      let n := length cs in
      let* st := holes_loop std endpoints (mk_hs cs [] (repeat false n) (repeat None n) 0) in
      Ok (hs_contours st)
  end.
