(** src/shapeops.rs 755-860 and 997-1731: overlaying polygons. *)

From Coq Require Import List ZArith Bool Arith.
From Verif Require Import Base Float Geometry Sweep Contours.
Import ListNotations.

(** src/shapeops.rs 182-188 *)
Inductive edge_type := ENormal | ENonContributing | ESameTransition | EDifferentTransition.
Definition is_non_contributing (e : edge_type) : bool :=
  match e with ENonContributing => true | _ => false end.

(** src/shapeops.rs 175-181 *)
Inductive boolean_op := Intersection | Union | Difference | ExclusiveOr.

(** src/shapeops.rs 761-766 *)
Inductive polygon_mode := Normal | RemoveEdges | RemoveInterior.
Definition is_remove_edges (m : polygon_mode) : bool := match m with RemoveEdges => true | _ => false end.
Definition is_remove_interior (m : polygon_mode) : bool := match m with RemoveInterior => true | _ => false end.

(** src/shapeops.rs 768-793. [contour_id] and [result_in_out] are never read and
    are left out. *)
Record packet := mk_packet {
  k_polygon : nat;
  k_mode : polygon_mode;
  k_edge : edge_type;
  k_up_out : bool;
  k_outside : bool;
  k_left : list bool;
  k_right : list bool;
  k_in_result : bool;
  k_below : option nat;
  k_left_done : bool;
  k_right_done : bool;
  k_left_contour : option nat;
  k_right_contour : option nat;
  k_left_index : nat;
  k_right_index : nat }.

(** src/shapeops.rs 795-821 *)
Definition packet_new (i : nat) (mode : polygon_mode) (n : nat) : packet :=
  mk_packet i mode ENormal false false (repeat false n) (repeat false n) false None
            false false None None 0 0.

Definition with_edge (k : packet) (e : edge_type) : packet :=
  mk_packet (k_polygon k) (k_mode k) e (k_up_out k) (k_outside k) (k_left k) (k_right k)
            (k_in_result k) (k_below k) (k_left_done k) (k_right_done k)
            (k_left_contour k) (k_right_contour k) (k_left_index k) (k_right_index k).
Definition with_facing (k : packet) (up outside : bool) (l r : list bool) (below : option nat) : packet :=
  mk_packet (k_polygon k) (k_mode k) (k_edge k) up outside l r
            (k_in_result k) below (k_left_done k) (k_right_done k)
            (k_left_contour k) (k_right_contour k) (k_left_index k) (k_right_index k).
Definition with_in_result (k : packet) (b : bool) : packet :=
  mk_packet (k_polygon k) (k_mode k) (k_edge k) (k_up_out k) (k_outside k) (k_left k) (k_right k)
            b (k_below k) (k_left_done k) (k_right_done k)
            (k_left_contour k) (k_right_contour k) (k_left_index k) (k_right_index k).
Definition with_below (k : packet) (b : option nat) : packet :=
  mk_packet (k_polygon k) (k_mode k) (k_edge k) (k_up_out k) (k_outside k) (k_left k) (k_right k)
            (k_in_result k) b (k_left_done k) (k_right_done k)
            (k_left_contour k) (k_right_contour k) (k_left_index k) (k_right_index k).
Definition with_index (k : packet) (e : seg_end) (i : nat) : packet :=
  mk_packet (k_polygon k) (k_mode k) (k_edge k) (k_up_out k) (k_outside k) (k_left k) (k_right k)
            (k_in_result k) (k_below k) (k_left_done k) (k_right_done k)
            (k_left_contour k) (k_right_contour k)
            (match e with LeftEnd => i | RightEnd => k_left_index k end)
            (match e with LeftEnd => k_right_index k | RightEnd => i end).
(** Lines 835-838 and 1668-1675: mark an end processed and give it its contour. *)
Definition with_done (k : packet) (e : seg_end) (cid : nat) : packet :=
  mk_packet (k_polygon k) (k_mode k) (k_edge k) (k_up_out k) (k_outside k) (k_left k) (k_right k)
            (k_in_result k) (k_below k)
            (match e with LeftEnd => true | RightEnd => k_left_done k end)
            (match e with LeftEnd => k_right_done k | RightEnd => true end)
            (match e with LeftEnd => Some cid | RightEnd => k_left_contour k end)
            (match e with LeftEnd => k_right_contour k | RightEnd => Some cid end)
            (k_left_index k) (k_right_index k).

(** *** bit-vec 0.4 *)

(** [union] asserts equal lengths. *)
Definition bits_union (a b : list bool) : outcome (list bool) :=
  if (length a =? length b)%nat then Ok (map (fun p => fst p || snd p) (combine a b))
  else Panic PAssert.
(** [clear] sets every bit to 0. *)
Definition bits_clear (a : list bool) : list bool := repeat false (length a).
(** [set] asserts the index is in range. *)
Definition bits_set (a : list bool) (i : nat) (b : bool) : outcome (list bool) :=
  if (i <? length a)%nat then Ok (set_nth i b a) else Panic PAssert.
Definition bits_none (a : list bool) : bool := forallb negb a.

(** *** Segments of the sweep *)

(** The packets are [RefCell]s in the segments; here they are in a list indexed
    by [s_index]. *)
Definition bseg := sseg unit.
Definition bend := endpoint unit.

Definition get_packet (ks : list packet) (s : bseg) : outcome packet := index_nat ks (s_index s).
Definition put_packet (ks : list packet) (s : bseg) (k : packet) : list packet := set_nth (s_index s) k ks.

(** src/shapeops.rs 1067-1096 *)
Definition is_in_result (k : packet) : bool :=
  if is_non_contributing (k_edge k) then false
  else if is_remove_edges (k_mode k) then false
  else true.

(** src/shapeops.rs 998-1064. Borrowing the packet of [below] while that of
    [segment] is mutably borrowed panics if they are the same segment. *)
Definition update_polygon_facing (ks : list packet) (segment : bseg) (maybe_below : option bseg) :
  outcome (list packet) :=
  let* k := get_packet ks segment in
  let i := k_polygon k in
  let* k :=
    match maybe_below with
    | Some b =>
        if (s_index b =? s_index segment)%nat then Panic PAssert
        else
          let* bk := get_packet ks b in
          let* (up, outside) :=
            (if (i =? k_polygon bk)%nat then Ok (negb (k_up_out bk), k_outside bk)
             else
               let* up := index_nat (k_left bk) i in
               Ok (up, if vertical b then negb (k_up_out bk) else k_up_out bk)) in
          let* l := bits_union (bits_clear (k_left k)) (k_left bk) in
          let* r := bits_union (bits_clear (k_right k))
                               (if is_non_contributing (k_edge bk) then k_right bk else k_left bk) in
          let* l := bits_set l i (negb up) in
          let below_in_result :=
            if vertical b || is_non_contributing (k_edge bk) then k_below bk else Some (s_index b) in
          Ok (with_facing k up outside l r below_in_result)
    | None =>
        let* l := bits_set (bits_clear (k_left k)) i true in
        Ok (with_facing k false true l (bits_clear (k_right k)) (k_below k))
    end in
  Ok (put_packet ks segment (with_in_result k (is_in_result k))).

(** src/shapeops.rs 1099-1250. Returns the mode (0-3), where to split each
    segment, and the packets, whose edge types may have changed. *)
Definition handle_intersections (ks : list packet) (maybe1 maybe2 : option bseg) :
  outcome (nat * option point * option point * list packet) :=
  match maybe1, maybe2 with
  | Some s1, Some s2 =>
      match intersect_segments (s_left s1, s_right s1) (s_left s2, s_right s2) with
      | INone => Ok (0%nat, None, None, ks)
      | IPoint p =>
          if point_eqb (s_left s1) (s_left s2) || point_eqb (s_right s1) (s_right s2)
          then Ok (0%nat, None, None, ks)
          else
            let pt s := if negb (point_eqb (s_left s) p) && negb (point_eqb (s_right s) p)
                        then Some p else None in
            Ok (1%nat, pt s1, pt s2, ks)
      | ISegment _ _ =>
          let* k1 := get_packet ks s1 in
          let* k2 := get_packet ks s2 in
          if (k_polygon k1 =? k_polygon k2)%nat then Panic PAssert
          else
            let* left_cmp := compare_points (s_left s1) (s_left s2) in
            let* right_cmp := compare_points (s_right s1) (s_right s2) in
            if point_eqb (s_left s1) (s_left s2) then
              let t2 := if Bool.eqb (k_up_out k1) (k_up_out k2)
                        then ESameTransition else EDifferentTransition in
              let ks := put_packet ks s1 (with_edge k1 ENonContributing) in
              let* k2 := get_packet ks s2 in
              let ks := if is_non_contributing (k_edge k2) then ks
                        else put_packet ks s2 (with_edge k2 t2) in
              Ok match right_cmp with
                 | Lt => (2%nat, None, Some (s_right s1), ks)
                 | Gt => (2%nat, Some (s_right s2), None, ks)
                 | Eq => (2%nat, None, None, ks)
                 end
            else
              match left_cmp with
              | Lt => Ok (3%nat, Some (s_left s2), None, ks)
              | Gt => Ok (3%nat, None, Some (s_left s1), ks)
              | Eq => Panic PAssert
              end
      end
  | _, _ => Ok (0%nat, None, None, ks)
  end.

(** The locals of the sweep: [segment_order] (whose length is [segment_id]), the
    packets, the event queue, the sweep line, and [swept_segments]. *)
Record sweep := mk_sweep {
  w_segs : list bseg;
  w_packets : list packet;
  w_queue : list bend;
  w_active : list bseg;
  w_swept : list bseg }.

Definition with_packets (w : sweep) (ks : list packet) : sweep :=
  mk_sweep (w_segs w) ks (w_queue w) (w_active w) (w_swept w).

(** src/shapeops.rs 1400-1405: one edge of an input polygon. *)
Definition add_edge (n i : nat) (mode : polygon_mode) (w : sweep) (e : point * point) : outcome sweep :=
  let '(p0, p1) := e in
  if point_eqb p0 p1 then Ok w
  else
    let* s := sseg_new p0 p1 (length (w_segs w)) i tt in
    let* q := heap_push endpoint_cmp (w_queue w) (s, LeftEnd) in
    let* q := heap_push endpoint_cmp q (s, RightEnd) in
    Ok (mk_sweep (w_segs w ++ [s]) (w_packets w ++ [packet_new i mode n]) q (w_active w) (w_swept w)).

(** src/shapeops.rs 1388-1408 *)
Definition input := list (polygon * polygon_mode).
Fixpoint add_polygons (n i : nat) (l : input) (w : sweep) : outcome sweep :=
  match l with
  | [] => Ok w
  | (p, mode) :: l' =>
      let* w := ofold (fun w c => ofold (add_edge n i mode) (iter_segments c) w) p w in
      add_polygons n (S i) l' w
  end.

(** src/shapeops.rs 1420-1503: [_split_segment!]. Returns the left part. *)
Definition split_segment (n : nat) (w : sweep) (s : bseg) (pt : point) : outcome (bseg * sweep) :=
  let* k := get_packet (w_packets w) s in
  let id := length (w_segs w) in
  let* lseg := sseg_new (s_left s) pt id (k_polygon k) tt in
  let* rseg := sseg_new pt (s_right s) (S id) (k_polygon k) tt in
  let rk := packet_new (k_polygon k) (k_mode k) n in
  let* l := bits_union (bits_clear (k_left rk)) (k_left k) in
  let* r := bits_union (bits_clear (k_right rk)) (k_right k) in
  let rk := with_facing rk (k_up_out rk) (k_outside rk) l r (k_below rk) in
  let* (found, active) := sl_remove segment_cmp (w_active w) s in
  if negb (found : bool) then Panic PAssert
  else
    let* active := sl_insert segment_cmp active lseg in
    let* q := heap_push endpoint_cmp (w_queue w) (lseg, RightEnd) in
    let* q := heap_push endpoint_cmp q (rseg, LeftEnd) in
    let* q := heap_push endpoint_cmp q (rseg, RightEnd) in
    let fix_below k :=
      match k_below k with
      | Some i => if (i =? s_index s)%nat then with_below k (Some id) else k
      | None => k
      end in
    Ok (lseg, mk_sweep (w_segs w ++ [lseg; rseg]) (map fix_below (w_packets w ++ [k; rk]))
                       q active (w_swept w)).

(** [if let Some(pt) = .. { x = _split_segment!(x, pt) }] *)
Definition maybe_split (n : nat) (w : sweep) (s : bseg) (pt : option point) : outcome (bseg * sweep) :=
  match pt with
  | None => Ok (s, w)
  | Some pt => split_segment n w s pt
  end.
(** The same with [maybe_above.unwrap()]. *)
Definition maybe_split_opt (n : nat) (w : sweep) (s : option bseg) (pt : option point) :
  outcome (option bseg * sweep) :=
  match pt with
  | None => Ok (s, w)
  | Some pt =>
      match s with
      | None => Panic PUnwrap
      | Some s => let* (s, w) := split_segment n w s pt in Ok (Some s, w)
      end
  end.
Definition unwrap {A} (o : option A) : outcome A :=
  match o with Some a => Ok a | None => Panic PUnwrap end.

(** src/shapeops.rs 1525-1549: a right end. *)
Definition sweep_right (n : nat) (w : sweep) (segment : bseg) : outcome sweep :=
  let* (found, maybe_below, maybe_above, active) :=
    sl_remove_neighbors segment_cmp (w_active w) segment in
  let w := mk_sweep (w_segs w) (w_packets w) (w_queue w) active (w_swept w) in
  if found : bool then
    let w := mk_sweep (w_segs w) (w_packets w) (w_queue w) active (w_swept w ++ [segment]) in
    match maybe_above, maybe_below with
    | Some above, Some below =>
        let* (_, c1, c2, ks) := handle_intersections (w_packets w) (Some below) (Some above) in
        let w := with_packets w ks in
        let* (_, w) := maybe_split n w below c1 in
        let* (_, w) := maybe_split n w above c2 in
        Ok w
    | _, _ => Ok w
    end
  else Ok w.

(** src/shapeops.rs 1551-1587: a left end. *)
Definition sweep_left (n : nat) (w : sweep) (segment : bseg) : outcome sweep :=
  let* (maybe_below, maybe_above, active) := sl_insert_neighbors segment_cmp (w_active w) segment in
  let w := mk_sweep (w_segs w) (w_packets w) (w_queue w) active (w_swept w) in
  let* ks := update_polygon_facing (w_packets w) segment maybe_below in
  let* (mode, split_seg, split_above, ks) := handle_intersections ks (Some segment) maybe_above in
  let w := with_packets w ks in
  let* (segment, w) := maybe_split n w segment split_seg in
  let* (maybe_above, w) := maybe_split_opt n w maybe_above split_above in
  let* w :=
    (if (mode =? 2)%nat then
       let* ks := update_polygon_facing (w_packets w) segment maybe_below in
       let* above := unwrap maybe_above in
       let* ks := update_polygon_facing ks above (Some segment) in
       Ok (with_packets w ks)
     else Ok w) in
  let* (mode, split_below, split_seg, ks) := handle_intersections (w_packets w) maybe_below (Some segment) in
  let w := with_packets w ks in
  let* (maybe_below, w) := maybe_split_opt n w maybe_below split_below in
  let* (segment, w) := maybe_split n w segment split_seg in
  if (mode =? 2)%nat then
    let* below := unwrap maybe_below in
    let* prev := sl_previous segment_cmp (w_active w) below in
    let* ks := update_polygon_facing (w_packets w) below prev in
    let* ks := update_polygon_facing ks segment maybe_below in
    Ok (with_packets w ks)
  else Ok w.

(** src/shapeops.rs 1507-1588. Nothing in the code bounds the number of events:
    the model takes fuel and says [PFuel] when it runs out. *)
Fixpoint sweep_loop (fuel n : nat) (w : sweep) : outcome sweep :=
  let* next := heap_pop endpoint_cmp (w_queue w) in
  match next with
  | None => Ok w
  | Some (segment, end_, q) =>
      match fuel with
      | O => Panic PFuel
      | S fuel' =>
          let w := mk_sweep (w_segs w) (w_packets w) q (w_active w) (w_swept w) in
          let* w := match end_ with
                    | RightEnd => sweep_right n w segment
                    | LeftEnd => sweep_left n w segment
                    end in
          sweep_loop fuel' n w
      end
  end.

(** src/shapeops.rs 1599-1608 and 1609-1618: a side faces nothing, or a polygon
    whose interior is to be removed. [polygons[polygon_index]] is in range because
    the bits are as many as the polygons; the model reads [Normal] beyond. *)
Definition skip_side (modes : list polygon_mode) (faces : list bool) : bool :=
  existsb (fun p => fst p && is_remove_interior (snd p)) (combine faces modes) || bits_none faces.

(** src/shapeops.rs 1594-1631: the endpoints kept, in sweep order. *)
Definition include_one (modes : list polygon_mode) (ks : list packet) (s : bseg) :
  outcome (list bseg * list bend) :=
  let* k := get_packet ks s in
  if negb (k_in_result k) then Ok ([], [])
  else
    let skip_left := skip_side modes (k_left k) in
    let skip_right := skip_side modes (k_right k) in
    if skip_left && skip_right then Ok ([], [])
    else Ok ([s], (if skip_left then [] else [(s, LeftEnd)]) ++ (if skip_right then [] else [(s, RightEnd)])).

Definition include_all (modes : list polygon_mode) (ks : list packet) (l : list bseg) :
  outcome (list bseg * list bend) :=
  let* r := omap (include_one modes ks) l in
  Ok (flat_map fst r, flat_map snd r).

(** src/shapeops.rs 1635-1641 *)
Fixpoint assign_indexes (i : nat) (l : list bend) (ks : list packet) : outcome (list packet) :=
  match l with
  | [] => Ok ks
  | (s, e) :: l' =>
      let* k := get_packet ks s in
      assign_indexes (S i) l' (put_packet ks s (with_index k e i))
  end.

(** src/shapeops.rs 825-831 *)
Definition is_processed (ks : list packet) (e : bend) : outcome bool :=
  let* k := get_packet ks (fst e) in
  Ok match snd e with LeftEnd => k_left_done k | RightEnd => k_right_done k end.

(** src/shapeops.rs 1271-1273: skip to the first endpoint at the point wanted; an
    index panic if there is none. *)
Fixpoint seek_point (l : list bend) (p : point) : outcome (list bend) :=
  match l with
  | [] => Panic PIndex
  | e :: l' => if point_eqb (ep_point e) p then Ok l else seek_point l' p
  end.

(** The candidate so far: [closest_dot], [closest_endpoint], [seen_ccw]. *)
Definition best := (f64 * option bend * bool)%type.

(** src/shapeops.rs 1300-1324: consider one endpoint. *)
Definition consider_end (current_vec : point) (b : best) (e : bend) : best :=
  let '(closest_dot, closest, seen_ccw) := b in
  let vec := p_sub (ep_other e) (ep_point e) in
  let dot := f64_div (v_dot current_vec vec) (v_length vec) in
  let this_ccw := f64_gt (v_cross current_vec vec) f64_zero in
  if this_ccw && negb seen_ccw then (dot, Some e, true)
  else if negb this_ccw && seen_ccw then b
  else if (match closest with None => true | _ => false end)
          || (this_ccw && f64_lt dot closest_dot) || (negb this_ccw && f64_gt dot closest_dot)
  then (dot, Some e, seen_ccw)
  else b.

(** src/shapeops.rs 1283-1329 *)
Fixpoint scan_ends (ks : list packet) (current : bend) (current_vec next_point : point)
                   (l : list bend) (b : best) : outcome best :=
  match l with
  | [] => Ok b
  | e :: l' =>
      let* done := is_processed ks e in
      if done : bool then scan_ends ks current current_vec next_point l' b
      else
        let* c := endpoint_cmp e current in
        match c with
        | Eq => scan_ends ks current current_vec next_point l' b
        | _ =>
            let* c := segment_cmp (fst e) (fst current) in
            match c with
            | Eq => scan_ends ks current current_vec next_point l' b
            | _ =>
                if point_eqb next_point (ep_point e)
                then scan_ends ks current current_vec next_point l' (consider_end current_vec b e)
                else Ok b
            end
        end
  end.

(** src/shapeops.rs 1253-1337. Lines 1257-1266 compute an index that line 1270
    overwrites; they are left out. *)
Definition find_next_segment (ks : list packet) (current : bend) (included : list bend) : outcome bend :=
  let next_point := ep_other current in
  let* l := seek_point included next_point in
  let* (_, closest, _) :=
    scan_ends ks current (p_sub next_point (ep_point current)) next_point l (f64_nan, None, false) in
  match closest with
  | Some e => Ok e
  | None => Panic PAssert
  end.

(** src/shapeops.rs 1663-1686: walk around one contour. Returns the contour, the
    packets and the endpoint it ended with. *)
Fixpoint trace_loop (fuel : nat) (included : list bend) (cid : nat) (start : point)
                    (current : bend) (c : contour) (ks : list packet) :
  outcome (contour * list packet * bend) :=
  match fuel with
  | O => Panic PFuel
  | S fuel' =>
      let* k := get_packet ks (fst current) in
      let ks := put_packet ks (fst current) (with_done k (snd current) cid) in
      let* from := bits_union (c_from c)
                     (match snd current with LeftEnd => k_left k | RightEnd => k_right k end) in
      let c := set_from c from in
      let point := ep_other current in
      if point_eqb point start then Ok (c, ks, current)
      else
        let c := contour_add c point in
        let* next := find_next_segment ks current included in
        trace_loop fuel' included cid start next c ks
  end.

(** src/shapeops.rs 1647-1712: one iteration of the loop that groups the
    endpoints into contours. *)
Definition trace_one (segs : list bseg) (included : list bend) (st : list packet * polygon) (e : bend) :
  outcome (list packet * polygon) :=
  let '(ks, final) := st in
  let* done := is_processed ks e in
  if done : bool then Ok (ks, final)
  else
    let '(segment, end_) := e in
    let cid := length final in
    let start := s_left segment in
    let* k := get_packet ks segment in
    let c := contour_add
               (set_from contour_new (match end_ with LeftEnd => k_left k | RightEnd => k_right k end)) start in
    let* current := index_nat included (k_left_index k) in
    let* (c, ks, current) := trace_loop (S (S (length included))) included cid start current c ks in
    let* (cw, c) := clockwise c in
    let final := final ++ [c] in
    if cw : bool then
      let* k := get_packet ks (fst current) in
      match k_below k with
      | Some below_id =>
          let* below := index_nat segs below_id in
          let* bk := get_packet ks below in
          let* parent := unwrap (k_left_contour bk) in
          let* final := update_nat final parent (fun c => Ok (add_hole c cid)) in
          let* final := update_nat final cid (fun c => Ok (set_external c false)) in
          Ok (ks, final)
      | None => Ok (ks, final)
      end
    else Ok (ks, final).

(** src/shapeops.rs 1720-1728 *)
Definition assign_neighbors (ks : list packet) (final : polygon) (e : bend) : outcome polygon :=
  let* k := get_packet ks (fst e) in
  match k_right_contour k, k_left_contour k with
  | Some r, Some l =>
      let set i c := let* b := bits_set (c_neighbors c) i true in Ok (set_neighbors c b) in
      let* final := update_nat final l (set r) in
      update_nat final r (set l)
  | _, _ => Ok final
  end.

(** src/shapeops.rs 1339-1731. The operation is never looked at. [fuel] bounds the
    number of events of the sweep. *)
Definition compute (std : std_impl) (fuel : nat) (polygons : input) (operation : boolean_op) :
  outcome polygon :=
  let n := length polygons in
  let modes := map snd polygons in
  let* w := add_polygons n 0 polygons (mk_sweep [] [] [] [] []) in
  let* w := sweep_loop fuel n w in
  let* (segments, endpoints) := include_all modes (w_packets w) (w_swept w) in
  let* _ := std_sort std _ segment_cmp segments in
  let* included := std_sort std _ endpoint_cmp endpoints in
  let* ks := assign_indexes 0 included (w_packets w) in
  let* (ks, final) := ofold (trace_one (w_segs w) included) included (ks, []) in
  let final := map (fun c => set_neighbors c (c_neighbors c ++ repeat false (length final))) final in
  ofold (assign_neighbors ks) included final.
