(** Specification vocabulary for what the sweep does with the edges it is given. *)

From Coq Require Import List Arith Bool Sorting.Permutation.
From Verif Require Import Base Float Geometry Sweep Contours Compute.
Import ListNotations.

(** The segment runs between [p] and [q], left to right or right to left. *)
Definition joins {T} (s : sseg T) (p q : point) : Prop :=
  (s_left s = p /\ s_right s = q) \/ (s_left s = q /\ s_right s = p).

(** Segments are filed by number. *)
Definition filed (segs : list bseg) (s : bseg) : Prop := nth_error segs (s_index s) = Some s.

(** [k'] says what [k] does, except that it lies above segment [b] instead of segment [a]. *)
Definition redirected (a b : nat) (k k' : packet) : Prop :=
  k_below k' = match k_below k with Some i => if Nat.eq_dec i a then Some b else Some i | None => None end
  /\ k_polygon k' = k_polygon k /\ k_mode k' = k_mode k /\ k_edge k' = k_edge k
  /\ k_up_out k' = k_up_out k /\ k_outside k' = k_outside k /\ k_left k' = k_left k /\ k_right k' = k_right k
  /\ k_in_result k' = k_in_result k /\ k_left_done k' = k_left_done k /\ k_right_done k' = k_right_done k
  /\ k_left_contour k' = k_left_contour k /\ k_right_contour k' = k_right_contour k
  /\ k_left_index k' = k_left_index k /\ k_right_index k' = k_right_index k.

(** [k'] belongs to the same polygon as [k] and has the same polygons on its sides, but
    nothing else has been found out about it. *)
Definition fresh_like (k k' : packet) : Prop :=
  k_polygon k' = k_polygon k /\ k_mode k' = k_mode k /\ k_left k' = k_left k /\ k_right k' = k_right k
  /\ k_edge k' = ENormal /\ k_up_out k' = false /\ k_outside k' = false /\ k_in_result k' = false
  /\ k_below k' = None /\ k_left_done k' = false /\ k_right_done k' = false
  /\ k_left_contour k' = None /\ k_right_contour k' = None /\ k_left_index k' = 0 /\ k_right_index k' = 0.

(** The sides of the closed line through the points of [l]. *)
Definition around (l : list point) : list (point * point) :=
  match l with [] => [] | p :: r => combine l (r ++ [p]) end.
(** The edges of the polygons, by polygon, but for those of no length. *)
Definition edges_of (polys : input) : list (nat * point * point) :=
  concat (map (fun '(i, (p, _)) =>
    map (fun '(a, b) => (i, a, b))
      (filter (fun '(a, b) => negb (point_eqb a b)) (concat (map (fun c => around (c_points c)) p))))
    (combine (seq 0 (length polys)) polys)).

(** Segments that lead from one end of an edge of polygon [i] to the other. *)
Inductive chain (i : nat) : point -> point -> list bseg -> Prop :=
| ch_one : forall p q s, joins s p q -> s_order s = i -> point_eqb p q = false -> chain i p q [s]
| ch_more : forall p q r s l, joins s p q -> s_order s = i -> point_eqb p q = false -> chain i q r l ->
    chain i p r (s :: l).
Definition cut_up (e : nat * point * point) (l : list bseg) : Prop :=
  let '(i, p, q) := e in chain i p q l.
