(** C37, C38, C63, C65: sector outlines. *)

From Coq Require Import String List ZArith.
From Verif Require Import Base ParseMap Float MapModel SectorPolys SpecLumps SpecMapModel SpecSector SectorFacts LoopFacts MapSectorFacts SectorSamples Samples.
Import ListNotations.
Local Open Scope Z_scope.

(** C37. [BareBinaryMap::sector_to_polygons]. *)
Theorem C37_outlines : forall {L T} (ops : line_ops L) (m : binary_map L T) s,
  0 <= s < 2 ^ 64 -> i16_indices ops m ->
  (indices_exist ops m s ->
     exists outlines, bare_sector_to_polygons ops m s = Ok outlines
       /\ NoDup (concat outlines) /\ (forall v, In v (concat outlines) <-> border_vertex ops m s v)
       /\ ~ In [] outlines /\ Forall (path (joined ops m s)) outlines)
  /\ (~ indices_exist ops m s -> bare_sector_to_polygons ops m s = Panic PIndex).
Proof. exact @bare_sector_spec. Qed.
Print Assumptions C37_outlines.

Example C37_hypotheses : i16_indices doom_line_ops pillar_map /\ indices_exist doom_line_ops pillar_map 0.
Proof. exact pillar_indices. Qed.
Example C37_example :
  bare_sector_to_polygons doom_line_ops pillar_map 0 = Ok [[0; 1; 2; 3]; [4; 5; 6]]
  /\ bare_sector_to_polygons doom_line_ops pillar_map 2 = Ok []
  /\ bare_sector_to_polygons doom_line_ops
       (mk_bmap (m_vertices pillar_map) [] (m_sides pillar_map) [mk_dline 4 50 4 0 0 7 4] [] : doom_map) 1 = Panic PIndex.
Proof. vm_compute. auto. Qed.

(** C63. On a border made of disjoint closed loops, the outlines are the loops. *)
Theorem C63_loops : forall {L T} (ops : line_ops L) (m : binary_map L T) s,
  0 <= s < 2 ^ 64 -> i16_indices ops m -> indices_exist ops m s -> simple_border ops m s ->
  exists outlines, bare_sector_to_polygons ops m s = Ok outlines
    /\ (forall o a b, In o outlines -> loop_next o a b -> joined ops m s a b)
    /\ (forall o, In o outlines -> (2 <= length o)%nat)
    /\ (forall l, borders ops m s l -> exists o, In o outlines /\
          (loop_next o (fst (lo_vertices ops l)) (snd (lo_vertices ops l))
           \/ loop_next o (snd (lo_vertices ops l)) (fst (lo_vertices ops l)))).
Proof. exact @bare_sector_loops. Qed.
Print Assumptions C63_loops.

Example C63_hypotheses : simple_border doom_line_ops pillar_map 0.
Proof. exact pillar_simple. Qed.

(** C38. [Map::sector_to_polygons]. *)
Theorem C38_outlines : forall m s,
  (m_indices_exist m s ->
     exists outlines vss lss, map_sector_to_polygons m s = Ok outlines
       /\ length vss = length outlines /\ length lss = length outlines
       /\ (forall k o vs ls, nth_error outlines k = Some o -> nth_error vss k = Some vs -> nth_error lss k = Some ls ->
             (3 <= length o)%nat /\ walked m s o vs ls)
       /\ NoDup (concat lss))
  /\ (~ m_indices_exist m s -> map_sector_to_polygons m s = Panic PIndex).
Proof. exact map_sector_spec. Qed.
Print Assumptions C38_outlines.

Definition pt (x y : Z) : point := mk_point (f64_of_Z x) (f64_of_Z y).

Example C38_example :
  match from_bare pillar_map with
  | Ok m => map_sector_to_polygons m 0
  | _ => Panic PUnwrap
  end = Ok [[pt 0 0; pt 256 0; pt 256 256; pt 0 256]; [pt 64 64; pt 128 64; pt 64 128]].
Proof. vm_compute. reflexivity. Qed.

(** C65. On a border made of disjoint closed loops through distinct points, the
    outlines are the loops of at least three lines. *)
Theorem C65_loops : forall m s, m_indices_exist m s -> m_simple_border m s ->
  exists outlines vss lss, map_sector_to_polygons m s = Ok outlines
    /\ length vss = length outlines /\ length lss = length outlines
    /\ (forall k o vs ls, nth_error outlines k = Some o -> nth_error vss k = Some vs -> nth_error lss k = Some ls ->
          (3 <= length o)%nat /\ Forall2 (item_at (g_vertices m)) vs o /\ length ls = length vs
          /\ forall i p, nth_error ls i = Some p -> exists a b, nth_error vs i = Some a /\ nth_error vs (S i mod length vs) = Some b /\ m_joins m s p a b)
    /\ NoDup (concat lss)
    /\ (forall p l, nth_error (g_lines m) p = Some l -> m_borders m s l ->
          In p (concat lss) \/ exists p', p' <> p /\ m_joins m s p' (ln_start l) (ln_end l)).
Proof. exact map_sector_loops. Qed.
Print Assumptions C65_loops.

Example C65_hypotheses : exists m, from_bare pillar_map = Ok m /\ m_indices_exist m 0 /\ m_simple_border m 0.
Proof. exact pillar_m_simple. Qed.
