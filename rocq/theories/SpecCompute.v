(** Specification vocabulary for overlaying polygons. *)

From Coq Require Import List ZArith Bool Arith Sorting.Permutation Sorting.Sorted.
From Verif Require Import Base Float Geometry Sweep Contours Compute SpecShape.
Import ListNotations.

(** What is assumed of the standard library: sorting permutes and fails only with a
    comparison; a [BTreeSet] holds what was put into it, and [range(..x).last()]
    finds a member that compares different from [x]. *)
Record std_laws (std : std_impl) : Prop := mk_laws {
  sort_perm : forall A cmp (l l' : list A), std_sort std A cmp l = Ok l' -> Permutation l l';
  sort_total : forall A cmp (l : list A), (forall a b, In a l -> In b l -> exists c, cmp a b = Ok c) ->
    exists l', std_sort std A cmp l = Ok l';
  sort_panic : forall A cmp (l : list A) p, std_sort std A cmp l = Panic p ->
    exists a b, In a l /\ In b l /\ cmp a b = Panic p;
  insert_incl : forall A cmp (l l' : list A) x, bt_insert std A cmp l x = Ok l' -> incl l' (x :: l);
  remove_incl : forall A cmp (l l' : list A) x, bt_remove std A cmp l x = Ok l' -> incl l' l;
  before_member : forall A cmp (l : list A) x y, bt_last_before std A cmp l x = Ok (Some y) ->
    In y l /\ cmp x y = Ok Gt }.

(** In strictly increasing order. *)
Definition increasing {A} (cmp : A -> A -> outcome comparison) (l : list A) : Prop :=
  StronglySorted (fun a b => cmp a b = Ok Lt /\ cmp b a = Ok Gt) l.

(** Sorting finds the strictly increasing arrangement if there is one. *)
Definition sorts (std : std_impl) : Prop := forall A cmp (l l' : list A),
  Permutation l l' -> (forall a, In a l -> cmp a a = Ok Eq) -> increasing cmp l' -> std_sort std A cmp l = Ok l'.

(** The directed edge [p]-[q] of a contour of input polygon [i]. *)
Definition edge_of (polys : input) (i : nat) (p q : point) : Prop :=
  exists poly mode c j, nth_error polys i = Some (poly, mode) /\ In c poly
    /\ nth_error (c_points c) j = Some p /\ nth_error (c_points c) (S j mod length (c_points c)) = Some q.

(** [pt] is where the segment [p q] is cut by the segment [p' q']. *)
Definition meets (p q p' q' pt : point) : Prop :=
  intersect_segments (p, q) (p', q') = IPoint pt \/ intersect_segments (p', q') (p, q) = IPoint pt
  \/ ((exists u v, intersect_segments (p, q) (p', q') = ISegment u v \/ intersect_segments (p', q') (p, q) = ISegment u v)
      /\ (pt = p' \/ pt = q')).

(** [p q] is an edge of polygon [i] or a piece of one, cut where it meets another
    edge or piece strictly between its ends. *)
Inductive descends (polys : input) : nat -> point -> point -> Prop :=
| d_edge : forall i p q, edge_of polys i p q -> point_eqb p q = false -> descends polys i p q
| d_swap : forall i p q, descends polys i p q -> descends polys i q p
| d_cut : forall i p q j p' q' pt, descends polys i p q -> descends polys j p' q' -> meets p q p' q' pt ->
    point_eqb p pt = false -> point_eqb pt q = false -> descends polys i p pt
| d_cut_right : forall i p q j p' q' pt, descends polys i p q -> descends polys j p' q' -> meets p q p' q' pt ->
    point_eqb p pt = false -> point_eqb pt q = false -> descends polys i pt q.

(** Polygon [i] was given with mode [m]. *)
Definition mode_of (polys : input) (i : nat) (m : polygon_mode) : Prop :=
  exists poly, nth_error polys i = Some (poly, m).

(** [p q] is (a piece of) an edge of a polygon whose edges are kept. *)
Definition kept_piece (polys : input) (p q : point) : Prop :=
  exists i m, descends polys i p q /\ mode_of polys i m /\ m <> RemoveEdges.

(** A result contour lists the polygons it lies in: some, and none of those whose
    interior is removed. *)
Definition from_ok (polys : input) (bits : list bool) : Prop :=
  length bits = length polys
  /\ (exists i, nth_error bits i = Some true)
  /\ (forall i, nth_error bits i = Some true -> ~ mode_of polys i RemoveInterior).

(** Consecutive points of a closed contour. *)
Definition contour_edge (l : list point) (k : nat) (a b : point) : Prop :=
  nth_error l k = Some a /\ nth_error l (S k mod length l) = Some b.

(** The same point, up to the sign of zero. *)
Definition same_spot (a b : point) : Prop := a = b \/ point_eqb a b = true.

(** [a]-[b] is a kept piece, [p] an end of one. *)
Definition near_piece (polys : input) (a b : point) : Prop :=
  exists a' b', kept_piece polys a' b' /\ same_spot a a' /\ same_spot b b'.
Definition vertex_ok (polys : input) (p : point) : Prop := exists a b, kept_piece polys a b /\ same_spot p a.

(** The contour arrives at [q], and from [p], except that nothing is said of where
    its first edge comes from. *)
Definition runs_along (l : list point) (p q : point) : Prop :=
  exists k a b, contour_edge l k a b /\ same_spot b q /\ (k <> 0%nat -> same_spot a p).

(** Contours [i] and [j] run along one kept piece in opposite directions. *)
Definition share_piece (polys : input) (r : polygon) (i j : nat) : Prop :=
  exists p q ci cj, kept_piece polys p q /\ nth_error r i = Some ci /\ nth_error r j = Some cj
    /\ runs_along (c_points ci) p q /\ runs_along (c_points cj) q p.

(** The hole lists of a polygon are consistent. *)
Definition holes_ok (r : polygon) : Prop :=
  NoDup (concat (map c_holes r))
  /\ (forall i c h, nth_error r i = Some c -> In h (c_holes c) ->
        (i <= h)%nat /\ exists ch, nth_error r h = Some ch /\ c_external ch = false
          /\ orientation_of (c_points ch) = Ok true)
  /\ (forall h ch, nth_error r h = Some ch -> c_external ch = false ->
        exists i c, nth_error r i = Some c /\ In h (c_holes c)).

(** The neighbour sets form a symmetric matrix. *)
Definition neighbors_ok (r : polygon) : Prop :=
  (forall c, In c r -> length (c_neighbors c) = length r)
  /\ (forall i j ci cj, nth_error r i = Some ci -> nth_error r j = Some cj ->
        nth_error (c_neighbors ci) j = nth_error (c_neighbors cj) i).

(** Processing [m] events of the sweep leads from [w] to [w']. *)
Inductive sweeps (n : nat) : nat -> sweep -> sweep -> Prop :=
| s_none : forall w, sweeps n 0 w w
| s_event : forall m w s e q w1 w', heap_pop endpoint_cmp (w_queue w) = Ok (Some (s, e, q)) ->
    (let w := mk_sweep (w_segs w) (w_packets w) q (w_active w) (w_swept w) in
     match e with RightEnd => sweep_right n w s | LeftEnd => sweep_left n w s end) = Ok w1 ->
    sweeps n m w1 w' -> sweeps n (S m) w w'.

(** The ends of the pieces that the sweep leaves can be strictly ordered, and all the pieces
    compared. *)
Definition pieces_ordered (fuel : nat) (polys : input) : Prop :=
  forall w0 w segments endpoints, add_polygons (length polys) 0 polys (mk_sweep [] [] [] [] []) = Ok w0 ->
    sweep_loop fuel (length polys) w0 = Ok w ->
    include_all (map snd polys) (w_packets w) (w_swept w) = Ok (segments, endpoints) ->
    (forall a b, In a segments -> In b segments -> exists c, segment_cmp a b = Ok c)
    /\ (forall a, In a endpoints -> endpoint_cmp a a = Ok Eq)
    /\ exists l, Permutation endpoints l /\ increasing endpoint_cmp l.

(** *** Holes found by [compute_holes] *)

(** A contour as made from points: no holes, external. *)
Definition plain (c : contour) : Prop := c_holes c = [] /\ c_external c = true.

(** The contours of [p] with their holes and orientations assigned. *)
Definition hole_forest (p r : polygon) : Prop :=
  Forall2 (fun c c' => (c_points c' = c_points c \/ c_points c' = rev (c_points c))
                       /\ c_from c' = c_from c /\ c_neighbors c' = c_neighbors c) p r
  /\ NoDup (concat (map c_holes r))
  /\ (forall i c h, nth_error r i = Some c -> In h (c_holes c) ->
        exists ch, nth_error r h = Some ch /\ c_external ch = false)
  /\ (forall h ch, nth_error r h = Some ch -> c_external ch = false -> exists i c, nth_error r i = Some c /\ In h (c_holes c))
  /\ (exists rank : nat -> nat, forall i c h, nth_error r i = Some c -> In h (c_holes c) -> (rank i < rank h)%nat)
  /\ (forall c, In c r -> c_external c = true -> clockwise c = Ok (false, c))
  /\ (forall i c h ch, nth_error r i = Some c -> In h (c_holes c) -> nth_error r h = Some ch ->
        exists b, clockwise c = Ok (b, c) /\ clockwise ch = Ok (negb b, ch)).

(** A contour made of three points with integer coordinates, not on one line. *)
Definition int_triangle (c : contour) : Prop :=
  exists x1 y1 x2 y2 x3 y3 p1 p2 p3, c = set_points contour_new [p1; p2; p3]
    /\ at_z p1 (x1, y1) /\ at_z p2 (x2, y2) /\ at_z p3 (x3, y3)
    /\ ((x2 - x1) * (y3 - y1) - (x3 - x1) * (y2 - y1) <> 0)%Z.

(** A contour that is an axis-parallel rectangle with integer corners. *)
Definition int_rectangle (c : contour) : Prop :=
  exists l r t b p1 p2 p3 p4, c = set_points contour_new [p1; p2; p3; p4] /\ (l < r)%Z /\ (t < b)%Z
    /\ at_z p1 (l, t) /\ at_z p2 (r, t) /\ at_z p3 (r, b) /\ at_z p4 (l, b).
