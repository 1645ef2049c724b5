(** Specification of sector outlines. *)

From Coq Require Import String List ZArith.
From Verif Require Import ParseMap Float MapModel SpecMapModel SectorPolys.
Import ListNotations.
Local Open Scope Z_scope.

(** Element number [i] of a list. *)
Definition item_at {A} (l : list A) (i : Z) (a : A) : Prop := 0 <= i /\ nth_error l (Z.to_nat i) = Some a.
Definition has_item {A} (l : list A) (i : Z) : Prop := 0 <= i < Z.of_nat (length l).

Section Bare.
  Context {L T : Type} (ops : line_ops L) (m : binary_map L T).

  (** Side number [id] belongs to the sector with (usize) number [s]. *)
  Definition side_in (s id : Z) : Prop :=
    exists sd, item_at (m_sides m) id sd /\ pattern_of 64 (sd_sector sd) s.

  Definition same_sector_both_sides (l : L) : Prop :=
    exists f b, item_at (m_sides m) (fst (lo_sides ops l)) f /\ item_at (m_sides m) (snd (lo_sides ops l)) b
      /\ sd_sector f = sd_sector b.

  (** The line separates the sector from something else. *)
  Definition borders (s : Z) (l : L) : Prop :=
    In l (m_lines m)
    /\ (side_in s (fst (lo_sides ops l)) \/ side_in s (snd (lo_sides ops l)))
    /\ ~ same_sector_both_sides l.

  Definition border_vertex (s v : Z) : Prop :=
    exists l, borders s l /\ (v = fst (lo_vertices ops l) \/ v = snd (lo_vertices ops l)).

  Definition joined (s a b : Z) : Prop :=
    exists l, borders s l
      /\ ((a = fst (lo_vertices ops l) /\ b = snd (lo_vertices ops l))
          \/ (b = fst (lo_vertices ops l) /\ a = snd (lo_vertices ops l))).

  (** Every index the function looks at exists. *)
  Definition indices_exist (s : Z) : Prop :=
    (forall l id, In l (m_lines m) -> id = fst (lo_sides ops l) \/ id = snd (lo_sides ops l) ->
       id = -1 \/ has_item (m_sides m) id)
    /\ (forall v, border_vertex s v -> has_item (m_vertices m) v).

  (** All indices are 16-bit (as the parser guarantees). *)
  Definition i16_indices : Prop :=
    (forall l, In l (m_lines m) ->
       SpecLumps.is_i16 (fst (lo_vertices ops l)) /\ SpecLumps.is_i16 (snd (lo_vertices ops l))
       /\ SpecLumps.is_i16 (fst (lo_sides ops l)) /\ SpecLumps.is_i16 (snd (lo_sides ops l)))
    /\ (forall sd, In sd (m_sides m) -> SpecLumps.is_i16 (sd_sector sd))
    /\ Z.of_nat (length (m_vertices m)) <= 2 ^ 63 /\ Z.of_nat (length (m_sides m)) <= 2 ^ 63.
End Bare.

(** Consecutive elements are related. *)
Definition path {A} (R : A -> A -> Prop) (l : list A) : Prop :=
  forall k a b, nth_error l k = Some a -> nth_error l (S k) = Some b -> R a b.

(** [a] is followed by [b] in the list read as a closed loop. *)
Definition loop_next {A} (o : list A) (a b : A) : Prop :=
  exists i, nth_error o i = Some a /\ nth_error o (S i mod length o) = Some b.

Section Simple.
  Context {L T : Type} (ops : line_ops L) (m : binary_map L T).

  Definition borders_at (s v : Z) (l : L) : Prop :=
    borders ops m s l /\ (v = fst (lo_vertices ops l) \/ v = snd (lo_vertices ops l)).

  (** Exactly two border lines of the sector meet at [v]. *)
  Definition two_borders_at (s v : Z) : Prop :=
    exists A l1 B l2 C, m_lines m = A ++ l1 :: B ++ l2 :: C
      /\ borders_at s v l1 /\ borders_at s v l2
      /\ forall l, In l A \/ In l B \/ In l C -> ~ borders_at s v l.

  (** The border of the sector consists of disjoint closed loops. *)
  Definition simple_border (s : Z) : Prop :=
    (forall v, border_vertex ops m s v -> two_borders_at s v)
    /\ (forall l, borders ops m s l -> fst (lo_vertices ops l) <> snd (lo_vertices ops l)).
End Simple.

(** ** In-memory maps *)

Section Mem.
  Variable m : gmap.

  Definition m_side_in (s : Z) (o : option handle) : Prop :=
    exists h sd, o = Some h /\ item_at (g_sides m) h sd /\ si_sector sd = s.

  Definition m_same_sector (l : line) : Prop :=
    exists h k f b, ln_front l = Some h /\ ln_back l = Some k /\ item_at (g_sides m) h f /\ item_at (g_sides m) k b
      /\ si_sector f = si_sector b.

  Definition m_borders (s : Z) (l : line) : Prop :=
    (m_side_in s (ln_front l) \/ m_side_in s (ln_back l)) /\ ~ m_same_sector l.

  Definition m_indices_exist (s : Z) : Prop :=
    (forall l h, In l (g_lines m) -> ln_front l = Some h \/ ln_back l = Some h -> has_item (g_sides m) h)
    /\ (forall l, In l (g_lines m) -> m_borders s l -> has_item (g_vertices m) (ln_start l) /\ has_item (g_vertices m) (ln_end l)).

  (** The line number [p] borders the sector and joins vertices [a] and [b]. *)
  Definition m_joins (s : Z) (p : nat) (a b : handle) : Prop :=
    exists l, nth_error (g_lines m) p = Some l /\ m_borders s l
      /\ ((ln_start l = a /\ ln_end l = b) \/ (ln_start l = b /\ ln_end l = a)).

  (** The points [o] of an outline sit at the vertices [vs]; line number [ls(k)]
      joins point [k] to the next; the outline is either open, or the last line
      leads to a vertex at the place of the first point. *)
  Definition walked (s : Z) (o : list point) (vs : list handle) (ls : list nat) : Prop :=
    Forall2 (item_at (g_vertices m)) vs o
    /\ (forall k p a b, nth_error ls k = Some p -> nth_error vs k = Some a -> nth_error vs (S k) = Some b -> m_joins s p a b)
    /\ (S (length ls) = length vs
        \/ (length ls = length vs
            /\ exists p a b ptb pt0, nth_error ls (length vs - 1) = Some p /\ nth_error vs (length vs - 1) = Some a
                 /\ m_joins s p a b /\ item_at (g_vertices m) b ptb /\ nth_error o 0 = Some pt0 /\ point_eqb ptb pt0 = true)).

  (** Exactly two border lines meet at [v]. *)
  Definition m_at (s v : Z) (l : line) : Prop := m_borders s l /\ (ln_start l = v \/ ln_end l = v).
  Definition m_two_borders_at (s v : Z) : Prop :=
    exists A l1 B l2 C, g_lines m = A ++ l1 :: B ++ l2 :: C
      /\ m_at s v l1 /\ m_at s v l2 /\ forall l, In l A \/ In l B \/ In l C -> ~ m_at s v l.

  (** Disjoint loops through distinct places. *)
  Definition m_simple_border (s : Z) : Prop :=
    (forall l v, In l (g_lines m) -> m_at s v l -> m_two_borders_at s v)
    /\ (forall l, In l (g_lines m) -> m_borders s l -> ln_start l <> ln_end l)
    /\ (forall l l' v v' p p', In l (g_lines m) -> In l' (g_lines m) -> m_at s v l -> m_at s v' l' ->
          item_at (g_vertices m) v p -> item_at (g_vertices m) v' p' -> (point_eqb p p' = true <-> v = v')).
End Mem.
