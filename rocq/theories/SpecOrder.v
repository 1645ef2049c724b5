(** Specification vocabulary for the orders of the sweep, on segments whose
    coordinates are integers. *)

From Coq Require Import List ZArith Bool Arith.
From Verif Require Import Base Float SpecFloat64 Geometry Sweep SpecShape.
Import ListNotations.
Local Open Scope Z_scope.

(** Left to right, then bottom to top. *)
Definition lex_z (a b : Z * Z) : comparison :=
  match fst a ?= fst b with Eq => snd a ?= snd b | c => c end.

(** A sweep segment with integer coordinates: its ends, left end first. *)
Definition seg_z {T} (s : sseg T) (l r : Z * Z) : Prop :=
  at_z (s_left s) l /\ at_z (s_right s) r /\ lex_z l r = Lt /\ within (2 ^ 24) l /\ within (2 ^ 24) r.
Definition int_seg {T} (s : sseg T) : Prop := exists l r, seg_z s l r.
Definition int_event {T} (e : endpoint T) : Prop := int_seg (fst e).

(** Events go by position; at one position segments end before others start; of two
    segments at one position the lower one (the one turning clockwise from the other)
    comes first. [Eq] means collinear segments leaving the same point. *)
Definition event_before_z (p q : Z * Z) (pe qe : seg_end) (po qo : Z * Z) : comparison :=
  match lex_z p q with
  | Eq => match pe, qe with
          | RightEnd, LeftEnd => Lt
          | LeftEnd, RightEnd => Gt
          | _, _ => orient q qo po ?= 0
          end
  | c => c
  end.

Definition end_z (l r : Z * Z) (e : seg_end) : Z * Z := match e with LeftEnd => l | RightEnd => r end.
Definition other_z (l r : Z * Z) (e : seg_end) : Z * Z := match e with LeftEnd => r | RightEnd => l end.

(** Segment [l1 r1] passes strictly below segment [l2 r2] above the abscissa [x]
    (both reach [x]; neither is vertical). *)
Definition below_at (x : Z) (l1 r1 l2 r2 : Z * Z) : Prop :=
  fst l1 < fst r1 /\ fst l2 < fst r2 /\ fst l1 <= x <= fst r1 /\ fst l2 <= x <= fst r2
  /\ (snd l1 * (fst r1 - fst l1) + (snd r1 - snd l1) * (x - fst l1)) * (fst r2 - fst l2)
     < (snd l2 * (fst r2 - fst l2) + (snd r2 - snd l2) * (x - fst l2)) * (fst r1 - fst l1).
