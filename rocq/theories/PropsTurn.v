(** Which way contour tracing turns. *)

From Coq Require Import List ZArith.
From Verif Require Import Base Float Geometry MapModel Sweep Compute SectorPolys SpecSector SpecShape SpecOrder SpecIntersect ShapeSamples
  SpecTurn TurnFacts3 TurnFacts5 TurnSamples.
Import ListNotations.
Local Open Scope Z_scope.

(** C67. With integer segments at most 4000 long in each direction, the next endpoint is
    the leftmost open one at the point reached; without one, [find_next_segment] panics. *)
Theorem C67_next : forall ks current za zb included,
  end_at current za zb -> short (vsub zb za) ->
  Forall (fun e => short_end e /\ (s_index (fst e) < length ks)%nat) included -> grouped included ->
  ((exists e b, In e included /\ open_end ks current e /\ end_at e zb b) ->
   exists e b, find_next_segment ks current included = Ok e /\ In e included /\ open_end ks current e /\ end_at e zb b
     /\ forall e' b', In e' included -> open_end ks current e' -> end_at e' zb b' ->
          as_left (vsub zb za) (vsub b zb) (vsub b' zb))
  /\ ((forall e b, In e included -> open_end ks current e -> ~ end_at e zb b) ->
      exists p, find_next_segment ks current included = Panic p).
Proof. exact next_left. Qed.
Print Assumptions C67_next.

Example C67_hypotheses :
  end_at from_west (-10, 0) (0, 0) /\ short (vsub (0, 0) (-10, 0))
  /\ Forall (fun e => short_end e /\ (s_index (fst e) < length (open_packets 4))%nat) junction
  /\ grouped junction
  /\ (exists e b, In e junction /\ open_end (open_packets 4) from_west e /\ end_at e (0, 0) b).
Proof. exact junction_meets. Qed.

Example C67_example : find_next_segment (open_packets 4) from_west junction = Ok to_north.
Proof. vm_compute. reflexivity. Qed.

(** C86. On a sector whose border lines are at most 4000 long in each direction, the
    outlines are the left walks around it that pass at least three vertices. *)
Theorem C86_outlines : forall m s place, m_indices_exist m s -> short_border m s place ->
  exists outlines walks, map_sector_to_polygons m s = Ok outlines /\ sector_walks m s place [] walks
    /\ Forall2 (Forall2 (item_at (g_vertices m))) (filter (fun vs => (2 <? length vs)%nat) (map fst walks)) outlines.
Proof. exact sector_left. Qed.
Print Assumptions C86_outlines.

Example C86_hypotheses : m_indices_exist bow_tie 0 /\ short_border bow_tie 0 (corner bow_corners).
Proof. exact bow_tie_meets. Qed.

Example C86_example : map_sector_to_polygons bow_tie 0 = Ok [[pt 0 0; pt 64 64; pt 0 128]; [pt 64 64; pt 128 128; pt 128 0]].
Proof. vm_compute. reflexivity. Qed.

(** C87. With longer lines both can take a turn that is not the leftmost. *)
Theorem C87_next_refuted : exists ks current included e e' za zb b b',
  end_at current za zb /\ within (2 ^ 14) za /\ zb = (0, 0)
  /\ find_next_segment ks current included = Ok e /\ end_at e zb b /\ within (2 ^ 14) b
  /\ In e' included /\ open_end ks current e' /\ end_at e' zb b' /\ within (2 ^ 14) b'
  /\ ~ as_left (vsub zb za) (vsub b zb) (vsub b' zb).
Proof. exact next_not_left. Qed.
Print Assumptions C87_next_refuted.

Theorem C87_outlines_refuted : exists m s place, m_indices_exist m s
  /\ (forall l, In l (g_lines m) -> m_borders m s l ->
        vertex_at m place (ln_start l) /\ vertex_at m place (ln_end l)
        /\ within (2 ^ 14) (place (ln_start l)) /\ within (2 ^ 14) (place (ln_end l)))
  /\ ~ exists outlines walks, map_sector_to_polygons m s = Ok outlines /\ sector_walks m s place [] walks
    /\ Forall2 (Forall2 (item_at (g_vertices m))) (filter (fun vs => (2 <? length vs)%nat) (map fst walks)) outlines.
Proof. exact outlines_not_left. Qed.
Print Assumptions C87_outlines_refuted.
