(** Specification vocabulary for the holes that [compute_holes] finds: contours with
    integer corners, which of them lie inside which. *)

From Coq Require Import List ZArith QArith Bool.
From Verif Require Import Base Float Geometry Sweep Contours Compute SpecShape SpecOrder SpecTidy SpecOverlay SpecCompute.
Import ListNotations.
Local Open Scope Z_scope.

(** What is assumed of [BTreeSet] besides [std_laws]: in a set whose members and the key
    are strictly ordered by [cmp], an element is put in its place, taken out of it, and
    [range(..x).last()] is the one right before it. *)
Record set_laws (std : std_impl) : Prop := mk_set_laws {
  set_insert : forall A cmp (l r : list A) x, increasing cmp (l ++ x :: r) -> cmp x x = Ok Eq ->
    bt_insert std A cmp (l ++ r) x = Ok (l ++ x :: r);
  set_remove : forall A cmp (l r : list A) x, increasing cmp (l ++ x :: r) -> cmp x x = Ok Eq ->
    bt_remove std A cmp (l ++ x :: r) x = Ok (l ++ r);
  set_first : forall A cmp (r : list A) x, increasing cmp (x :: r) -> cmp x x = Ok Eq ->
    bt_last_before std A cmp (x :: r) x = Ok None;
  set_before : forall A cmp (l r : list A) y x, increasing cmp (l ++ y :: x :: r) -> cmp x x = Ok Eq ->
    bt_last_before std A cmp (l ++ y :: x :: r) x = Ok (Some y) }.

(** *** Contours inside each other *)

(** The point is inside the closed line [l]: [l] goes round it. *)
Definition inside_of (l : list (Z * Z)) (x y : Q) : Prop := winding x y l <> 0.

(** Everything inside contour [j] is inside contour [i]. *)
Definition has_inside (z : corners) (i j : nat) : Prop :=
  forall a b, nth_error z i = Some a -> nth_error z j = Some b -> forall x y, inside_of b x y -> inside_of a x y.
(** Contour [j] lies inside contour [i]. *)
Definition lies_in (z : corners) (i j : nat) : Prop :=
  i <> j /\ (i < length z)%nat /\ (j < length z)%nat /\ has_inside z i j.
(** Contour [j] lies inside contour [i], and inside nothing else that does not also
    have [i] inside it. *)
Definition directly_in (z : corners) (i j : nat) : Prop :=
  lies_in z i j /\ forall k, k <> i -> lies_in z k j -> lies_in z k i.

(** Nothing is inside both. *)
Definition separate (z : corners) (i j : nat) : Prop :=
  forall a b, nth_error z i = Some a -> nth_error z j = Some b -> forall x y, ~ (inside_of a x y /\ inside_of b x y).

(** *** What is asked of the contours *)

(** Goes round some places, round none twice, and always the same way ([o] is 1 for
    against the clock and -1 for with it). *)
Definition goes_once (o : Z) (l : list (Z * Z)) : Prop :=
  (exists x y, winding x y l <> 0) /\ forall x y, winding x y l = 0 \/ winding x y l = o.

(** The edges of all the contours, contour [i] counted as polygon [i]. *)
Definition ring_edges (z : corners) : list edge := edges (map (fun l => [l]) z).

(** Closed lines of which any two edges meet as [meet] says; of any two lines, one is
    inside the other or nothing is inside both; and all are near enough to the origin for
    areas to be exact. *)
Definition rings_that (meet : edge -> edge -> Prop) (z : corners) : Prop :=
  Forall (Forall (within (2 ^ 24))) z
  /\ ForallOrdPairs meet (ring_edges z)
  /\ Forall (fun l => goes_once 1 l \/ goes_once (-1) l) z
  /\ (forall i j, i <> j -> has_inside z i j \/ has_inside z j i \/ separate z i j)
  /\ Forall (fun l => exists m, Forall (within m) l /\ Z.of_nat (length l) * (2 * (m * m)) < 2 ^ 53) z.
(** No two edges meet except in a corner of both. *)
Definition rings : corners -> Prop := rings_that apart.
(** Edges of different lines may also be the same. *)
Definition joined_rings : corners -> Prop := rings_that (fun e f => coincide e f \/ apart e f).

(** A contour of which nothing has been computed. *)
Definition raw (c : contour) : Prop := plain c /\ c_cache c = None.

(** What [compute_holes] is to make of the contours [p]: the same lines, maybe turned
    round; the holes of a contour are those directly in it, and external are those that
    lie in none. Lines that lie in an even number of others go against the clock, the
    other ones with it. *)
Definition holes_found (z : corners) (p r : polygon) : Prop :=
  length r = length p
  /\ forall i c, nth_error r i = Some c ->
       (exists c0 l0 l, nth_error p i = Some c0 /\ nth_error z i = Some l0
          /\ ((c_points c = c_points c0 /\ l = l0) \/ (c_points c = rev (c_points c0) /\ l = rev l0))
          /\ exists ds, NoDup ds /\ (forall j, In j ds <-> lies_in z j i)
             /\ goes_once (if Nat.even (length ds) then 1 else -1) l
             /\ clockwise c = Ok (Nat.odd (length ds), c)
             /\ (c_external c = true <-> ds = []))
       /\ NoDup (c_holes c)
       /\ forall j, In j (c_holes c) <-> directly_in z i j.
