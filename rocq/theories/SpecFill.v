(** Specification vocabulary for what the path of a sector in the chart fills. *)

From Coq Require Import List ZArith QArith.
From Verif Require Import Base Float MapModel Chart SpecFloat64 SpecSector SpecTidy SpecRooms SpecOverlay.
Import ListNotations.
Local Open Scope Z_scope.

(** The lines drawn up to the next move, and the subpaths of a path. *)
Fixpoint drawn_to {N} (d : list (command N)) : list (N * N) :=
  match d with
  | LineTo x y :: d' => (x, y) :: drawn_to d'
  | _ => []
  end.
Fixpoint subpaths {N} (d : list (command N)) : list (list (N * N)) :=
  match d with
  | [] => []
  | MoveTo x y :: d' => ((x, y) :: drawn_to d') :: subpaths d'
  | LineTo _ _ :: d' => subpaths d'
  end.

(** The subpaths go through these integer places. *)
Definition runs_through (d : list (command f64)) (zs : list (list (Z * Z))) : Prop :=
  Forall2 (Forall2 (fun p z => int_valued (fst p) (fst z) /\ int_valued (snd p) (snd z))) (subpaths d) zs.

(** SVG's rule unless [fill-rule] says otherwise, as the chart's style sheet does not. *)
Definition painted (zs : list (list (Z * Z))) (x y : Q) : Prop := windings x y zs <> 0.

Section Hands.
  Variables (m : gmap) (place : handle -> Z * Z) (s : Z).

  (** Along the border line [l], from its start to its end, the sector is on the right. At
      a point of an edge [in_sector] speaks of the place just below it, or to the right of
      an upright one. *)
  Definition right_hand (l : line) : Prop :=
    exists e x y, In e (line_as_edge place 0 l) /\ inside_edge e x y
      /\ ((place (ln_start l) = e_left e /\ in_sector m place s x y) \/ (place (ln_start l) = e_right e /\ ~ in_sector m place s x y)).
  Definition left_hand (l : line) : Prop :=
    exists e x y, In e (line_as_edge place 0 l) /\ inside_edge e x y
      /\ ((place (ln_start l) = e_left e /\ ~ in_sector m place s x y) \/ (place (ln_start l) = e_right e /\ in_sector m place s x y)).

  (** The border lines of the sector follow each other: no two start or end together. *)
  Definition head_to_tail : Prop :=
    forall p q l k, nth_error (g_lines m) p = Some l -> nth_error (g_lines m) q = Some k -> m_borders m s l -> m_borders m s k ->
      ln_start l = ln_start k \/ ln_end l = ln_end k -> p = q.
  Definition one_hand : Prop :=
    (forall l, In l (g_lines m) -> m_borders m s l -> right_hand l) \/ (forall l, In l (g_lines m) -> m_borders m s l -> left_hand l).
End Hands.
