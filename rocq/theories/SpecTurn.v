(** Specification vocabulary for the choice of the next edge when walking around a
    contour: the leftmost turn. *)

From Coq Require Import List ZArith.
From Verif Require Import Base Float Sweep Compute MapModel SectorPolys SpecSector SpecShape SpecOrder SpecIntersect.
Import ListNotations.
Local Open Scope Z_scope.

(** Coming in direction [u], going on in direction [v] is turning at least as far left as
    going on in direction [w]. Any left turn beats going straight on and any right turn;
    turning back altogether is the least of all. *)
Definition as_left (u v w : Z * Z) : Prop :=
  if 0 <? vcross u v then 0 < vcross u w -> 0 <= vcross w v
  else vcross u w <= 0 /\ 0 <= vcross w v
       /\ (vcross u v = 0 -> vcross u w = 0 -> 0 < vdot u w -> 0 < vdot u v).

(** The components of the vector are at most 4000 in magnitude, and not both 0. *)
Definition short (v : Z * Z) : Prop := within 4000 v /\ v <> (0, 0).

(** The endpoint [e] is at [a]; its segment goes from there to [b]. *)
Definition end_at (e : bend) (a b : Z * Z) : Prop :=
  match snd e with LeftEnd => seg_z (fst e) a b | RightEnd => seg_z (fst e) b a end.

(** [e] starts at [p], with a short segment. *)
Definition short_end (e : bend) : Prop := exists a b, end_at e a b /\ short (vsub b a).

(** Neither processed nor part of the segment the walk came along. *)
Definition open_end (ks : list packet) (current e : bend) : Prop :=
  s_index (fst e) <> s_index (fst current)
  /\ exists k, nth_error ks (s_index (fst e)) = Some k
       /\ match snd e with LeftEnd => k_left_done k | RightEnd => k_right_done k end = false.

(** Endpoints at one point are next to each other in the list. *)
Definition grouped (l : list bend) : Prop :=
  forall i j k ei ej ek p b b', (i <= j <= k)%nat ->
    nth_error l i = Some ei -> nth_error l j = Some ej -> nth_error l k = Some ek ->
    end_at ei p b -> end_at ek p b' -> exists b'', end_at ej p b''.

(** *** Outlines of sectors *)

Section Outlines.
  Variables (m : gmap) (s : Z) (place : handle -> Z * Z).

  (** Line number [p] leads from vertex [v] to [w] along the border, and the walks so far
      did not follow it. *)
  Definition open_line (walked : list nat) (v : handle) (p : nat) (w : handle) : Prop :=
    m_joins m s p v w /\ ~ In p walked.

  (** A walk that came from [prev] to [next] and goes on along the given lines, through the
      given vertices, always taking the leftmost line. It ends when it is back at the place
      it started from, or where no line is open. *)
  Inductive left_walk (first : handle) : list nat -> handle -> handle -> list nat -> list handle -> Prop :=
  | lw_closed : forall walked prev next, place next = place first -> left_walk first walked prev next [] []
  | lw_stuck : forall walked prev next, place next <> place first -> (forall p w, ~ open_line walked next p w) ->
      left_walk first walked prev next [] [next]
  | lw_step : forall walked prev next p w rest vs,
      place next <> place first ->
      open_line walked next p w ->
      (forall p' w', open_line walked next p' w' ->
         as_left (vsub (place next) (place prev)) (vsub (place w) (place next)) (vsub (place w') (place next))) ->
      left_walk first (walked ++ [p]) next w rest vs ->
      left_walk first walked prev next (p :: rest) (next :: vs).

  (** One walk after another, each starting along the first line of the border not followed
      yet, until none is left. *)
  Inductive sector_walks : list nat -> list (list handle * list nat) -> Prop :=
  | sw_done : forall walked, (forall p a b, m_joins m s p a b -> In p walked) -> sector_walks walked []
  | sw_next : forall walked p l rest vs walks,
      nth_error (g_lines m) p = Some l -> m_borders m s l -> ~ In p walked ->
      (forall p' a b, m_joins m s p' a b -> ~ In p' walked -> (p <= p')%nat) ->
      left_walk (ln_start l) (walked ++ [p]) (ln_start l) (ln_end l) rest vs ->
      sector_walks (walked ++ p :: rest) walks ->
      sector_walks walked ((ln_start l :: vs, p :: rest) :: walks).

  Definition vertex_at (h : handle) : Prop :=
    within (2 ^ 24) (place h) /\ forall p, item_at (g_vertices m) h p -> at_z p (place h).

  (** The border has corners at integer coordinates; its lines are at most 4000 long in
      each direction and none has length 0. *)
  Definition short_border : Prop :=
    forall l, In l (g_lines m) -> m_borders m s l ->
      vertex_at (ln_start l) /\ vertex_at (ln_end l) /\ short (vsub (place (ln_end l)) (place (ln_start l))).
End Outlines.
