(** Overlaying the sectors of a map whose lines cross in points of a grid. *)

From Coq Require Import List ZArith QArith Bool Lia Permutation.
From Coq Require Import ZifyBool ZifyNat.
From Verif Require Import Base Float ParseMap MapModel SectorPolys Contours Compute SpecMapModel SpecSector SpecShape SpecOrder SpecIntersect SpecHandle SpecTurn SpecTidy SpecOverlay SpecCompute
  TurnFacts5 NestGeo MapSectorFacts SpecRooms RoomFacts RoomFacts2 RoomFacts3 SpecCross SpecGrid SpecSlope CrossOverlay CrossCover CrossAgain CrossSamples MeshSamples MapFacts GridCut GridLines AgainEdges MeshTrack MeshCut SpecMesh SpecCrossMap.
Import ListNotations.
Local Open Scope Z_scope.

Lemma cross_same : forall g e h, e_left e <> e_right e -> e_left h = e_left e -> e_right h = e_right e -> ~ crosses_on g e h.
Proof.
  intros g e h Ne A B (a & b & H1 & H2 & H3). cbv zeta in *. set (v := (2 ^ g * a, 2 ^ g * b)).
  assert (NE : ~ is_end v e) by (apply inside_not_end; [exact H1|exact Ne]).
  assert (O : on_both (e_left e) (e_right e) (e_left h) (e_right h) (inject_Z (fst (e_left e))) (inject_Z (snd (e_left e)))).
  { rewrite A, B. split; exists 0%Q; (split; [apply Qle_refl|]; split; [discriminate|]; split; ring). }
  apply H3 in O. apply NE. left. symmetry. exact (int_same (e_left e) v O).
Qed.
Lemma cross_ends_not : forall g e h, e_left e <> e_right e -> only_ends e h -> ~ crosses_on g e h.
Proof.
  intros g e h Ne H (a & b & H1 & H2 & H3). cbv zeta in *. set (v := (2 ^ g * a, 2 ^ g * b)).
  assert (NE : ~ is_end v e) by (apply inside_not_end; [exact H1|exact Ne]).
  destruct (H _ _ (conj (inside_on _ _ _ H1) (inside_on _ _ _ H2))) as (w & W & _ & A). apply NE. rewrite (int_same v w); [exact W|exact A].
Qed.
Lemma ends_same : forall e h, e_left e <> e_right e -> e_left h = e_left e -> e_right h = e_right e -> ~ only_ends e h.
Proof.
  intros e h Ne A B O. set (a := e_left e) in *. set (b := e_right e) in *.
  assert (M : forall t : Q, (0 <= t)%Q -> (t <= 1)%Q -> on_both a b (e_left h) (e_right h) (inject_Z (fst a) + t * inject_Z (fst b - fst a)) (inject_Z (snd a) + t * inject_Z (snd b - snd a))).
  { intros t T0 T1. rewrite A, B. split; exists t; (split; [exact T0|]; split; [exact T1|]; split; reflexivity). }
  destruct (O _ _ (M (1 # 2)%Q ltac:(discriminate) ltac:(discriminate))) as (v & V & _ & X & Y). fold a in V. cbn [e_left] in V. unfold is_end in V. fold a b in V.
  assert (G : forall p q r : Z, (inject_Z p + (1 # 2) * inject_Z (q - p) == inject_Z r)%Q -> p + q = 2 * r).
  { clear. intros p q r H. unfold Qeq, Qplus, Qmult, inject_Z in H. cbn [Qnum Qden] in H. lia. }
  apply G in X, Y. apply Ne. fold a b. destruct a as [a1 a2], b as [b1 b2]. destruct V as [->| ->]; cbn [fst snd] in *; f_equal; lia.
Qed.

Section Map.
Variables (g R D : Z) (m : gmap) (place : handle -> Z * Z).
Hypothesis CM : crossing_map g R D m place.

Lemma short_differ : forall s l, is_sector m s -> In l (g_lines m) -> m_borders m s l -> place (ln_start l) <> place (ln_end l).
Proof using CM.
  intros s l IS I B. destruct (cm_borders _ _ _ _ _ CM s IS) as (_ & SB & _). destruct (SB l I B) as (_ & _ & _ & N). intros E. apply N. rewrite E. unfold vsub. now rewrite !Z.sub_diag.
Qed.
Lemma edge_differ : forall p l i e, border_line m p l -> In e (line_as_edge place i l) -> e_left e <> e_right e.
Proof using CM.
  intros p l i e (E & s & IS & B) I. pose proof (short_differ s l IS (nth_error_In _ _ E) B) as N. destruct (lr_ends i _ _ e I) as (_ & [[-> ->]|[-> ->]]); congruence.
Qed.
Lemma as_zero : forall i l e, In e (line_as_edge place i l) -> In (mk_edge 0 (e_left e) (e_right e)) (line_as_edge place 0 l).
Proof using. intros i l e. unfold line_as_edge, left_to_right. cbn [fst snd]. destruct (lex_z _ _); cbn [In]; intuition; subst e; auto. Qed.

Lemma cross_traced : traced m place.
Proof using CM.
  split; [exact (cm_borders _ _ _ _ _ CM)|]. split; [exact (cm_places _ _ _ _ _ CM)|]. intros s p q v w IS J K. destruct (Nat.eq_dec p q) as [|N]; [assumption|]. exfalso.
  assert (S : forall r, m_joins m s r v w -> exists l e, border_line m r l /\ left_to_right 0 (place v, place w) = [e] /\ line_as_edge place 0 l = [e]).
  { intros r X. pose proof (joins_bordering m s _ _ _ X) as BX. destruct (side_one m place (cm_borders _ _ _ _ _ CM) s 0 r IS BX) as (l & e & E & B & L & _). exists l, e.
    split; [split; [exact E|eauto]|]. split; [now rewrite (joins_side m place s r v w 0 X)|]. unfold line_side in L. now rewrite E in L. }
  destruct (S p J) as (l & e & Bl & E1 & E2). destruct (S q K) as (k & f & Bk & F1 & F2). rewrite E1 in F1. injection F1 as <-.
  assert (Ie : In e (line_as_edge place 0 l)) by (rewrite E2; now left). assert (If : In e (line_as_edge place 0 k)) by (rewrite F2; now left).
  pose proof (edge_differ p l 0%nat e Bl Ie) as Ne. destruct (cm_pairs _ _ _ _ _ CM p l q k e e Bl Bk N Ie If) as [O|(X & _)]; [exact (ends_same e e Ne eq_refl eq_refl O)|exact (cross_same g e e Ne eq_refl eq_refl X)].
Qed.

Variable xs : list (list (list point) * (corners * list nat)).
Hypothesis XS : Forall2 (drawn_sector m place) (seq 0 (length (g_sectors m))) xs.
Let outs := map fst xs.
Let zs := map (fun x => fst (snd x)) xs.

Lemma trail_sides : forall s v ps vs z, trail m s v ps vs z -> forall t, In t (combine (map place vs) (tl (map place vs) ++ [place z])) -> exists p u w, m_joins m s p u w /\ t = (place u, place w).
Proof using.
  intros s v ps vs z T. induction T as [v|v p w ps vs z J T IH]; intros t I; [destruct I|]. cbn [map tl] in I.
  assert (X : combine (place v :: map place vs) (map place vs ++ [place z]) = (place v, place w) :: combine (map place vs) (tl (map place vs) ++ [place z])).
  { destruct T as [w|w q u ps vs z J' T]; cbn [map tl app combine]; reflexivity. }
  rewrite X in I. destruct I as [<-|I]; [eauto|auto].
Qed.

Lemma zs_sides : forall t, In t (flat_map sides (concat zs)) -> fst t <> snd t.
Proof using CM XS.
  intros t I. apply in_flat_map in I. destruct I as (l & Il & I). apply in_concat in Il. destruct Il as (z & Iz & Il). unfold zs in Iz. apply in_map_iff in Iz. destruct Iz as (x & <- & Ix). apply In_nth_error in Ix. destruct Ix as (i & Ix).
  pose proof (sector_at m place xs XS i x Ix) as IS. destruct (xs_at m place xs XS i x Ix) as (_ & _ & _ & _ & _ & _ & ws & _ & F & Z1 & _). rewrite Z1 in Il.
  apply in_map_iff in Il. destruct Il as (vs & <- & Il). apply in_map_iff in Il. destruct Il as (w & <- & Iw). rewrite Forall_forall in F. destruct (F w Iw) as (v & T & N).
  assert (Y : exists p u w', m_joins m (Z.of_nat i) p u w' /\ t = (place u, place w')).
  { apply (trail_sides _ _ _ _ _ T). destruct w as [vs ps]. cbn [fst snd] in *. inversion T; subst; [contradiction|exact I]. }
  destruct Y as (p & u & w' & (l & E & B & J) & ->). cbn [fst snd]. pose proof (short_differ _ l IS (nth_error_In _ _ E) B) as Q. destruct J as [[<- <-]|[<- <-]]; congruence.
Qed.

Lemma zs_side : forall e, In e (edges zs) -> exists p l, (e_poly e < length (g_sectors m))%nat /\ border_line m p l /\ m_borders m (Z.of_nat (e_poly e)) l /\ In e (line_as_edge place (e_poly e) l).
Proof using CM XS.
  intros e I. destruct (side_key m place cross_traced xs XS e I) as (p & L & (l & E & B) & J). exists p, l. unfold line_side in J. rewrite E in J. split; [exact L|]. split; [|auto].
  split; [exact E|]. exists (Z.of_nat (e_poly e)). split; [now apply small_sector|exact B].
Qed.

Lemma zs_pairs : ForallOrdPairs (fun e f => only_ends e f \/ crosses_on g e f \/ (coincide e f /\ forall h, In h (edges zs) -> ~ crosses_on g e h /\ ~ crosses_on g f h)) (edges zs).
Proof using CM XS.
  pose proof (zs_edges m place xs XS) as Ez. fold zs in Ez. match goal with |- ForallOrdPairs ?q0 _ => set (P := q0) end. rewrite Ez. apply RoomFacts3.pairs_flat; [exact (pss_nodup m place xs XS)|exact (key_single m place cross_traced xs XS)|].
  intros [i p] [j q] e f I J N Ie If. unfold P. clear P. apply (pss_keys m place xs XS) in I, J. destruct I as (Li & l & El & Bl), J as (Lj & k & Ek & Bk).
  unfold key_edges, line_side in Ie, If. cbn [fst snd] in Ie, If. rewrite El in Ie. rewrite Ek in If.
  assert (BL : border_line m p l) by (split; [exact El|]; exists (Z.of_nat i); split; [now apply small_sector|exact Bl]).
  assert (BK : border_line m q k) by (split; [exact Ek|]; exists (Z.of_nat j); split; [now apply small_sector|exact Bk]).
  destruct (Nat.eq_dec p q) as [<-|Npq].
  - right. right. rewrite El in Ek. injection Ek as <-. assert (Nij : i <> j) by congruence.
    assert (C : coincide e f).
    { unfold line_as_edge, left_to_right in Ie, If. cbn [fst snd] in Ie, If. destruct (lex_z _ _); [destruct Ie|destruct Ie as [<-|[]]; destruct If as [<-|[]]|destruct Ie as [<-|[]]; destruct If as [<-|[]]]; (split; [reflexivity|split; [reflexivity|exact Nij]]). }
    split; [exact C|]. assert (BT : between_sectors m l).
    { exists (Z.of_nat i), (Z.of_nat j). split; [lia|]. split; [now apply small_sector|]. split; [now apply small_sector|]. now split. }
    assert (G : forall c d, In d (line_as_edge place c l) -> forall h, In h (edges zs) -> ~ crosses_on g d h).
    { intros c d Id h Ih X. destruct (zs_side h Ih) as (r & t & _ & Bt & _ & Jh). pose proof (edge_differ p l c d BL Id) as Nd. destruct (Nat.eq_dec r p) as [->|Nr].
      - destruct Bt as (Et & _). rewrite El in Et. injection Et as <-. apply (cross_same g d h Nd); [| |exact X]; apply as_zero in Id, Jh; unfold line_as_edge, left_to_right in Id, Jh; cbn [fst snd] in Id, Jh;
          (destruct (lex_z _ _); [destruct Id|destruct Id as [Id|[]]; destruct Jh as [Jh|[]]; injection Id; injection Jh; congruence..]).
      - destruct (cm_pairs _ _ _ _ _ CM p l r t _ _ BL Bt (fun Y => Nr (eq_sym Y)) (as_zero _ _ _ Id) (as_zero _ _ _ Jh)) as [O|(_ & NB & _)]; [|exact (NB BT)].
        apply (cross_ends_not g (mk_edge 0 (e_left d) (e_right d)) (mk_edge 0 (e_left h) (e_right h))); [exact Nd|exact O|exact X]. }
    intros h Ih. split; [exact (G i e Ie h Ih)|exact (G j f If h Ih)].
  - destruct (cm_pairs _ _ _ _ _ CM p l q k _ _ BL BK Npq (as_zero _ _ _ Ie) (as_zero _ _ _ If)) as [O|(X & _)]; [left; exact O|right; left; exact X].
Qed.

Lemma zs_mesh : mesh g R D zs.
Proof using CM XS.
  pose proof (cm_size _ _ _ _ _ CM) as Sz.
  assert (G : forall e, In e (edges zs) -> slope_point g R (e_left e) /\ slope_point g R (e_right e) /\ within_reach g [e_left e; e_right e]
    /\ exists p q n, Z.gcd p q = 1 /\ p * p + q * q <= D /\ vsub (e_right e) (e_left e) = (n * (2 ^ g * p), n * (2 ^ g * q))).
  { intros e I. destruct (zs_side e I) as (p & l & _ & B & _ & J). exact (cm_grid _ _ _ _ _ CM p l _ B (as_zero _ _ _ J)). }
  constructor.
  - lia.
  - exact (cm_wide _ _ _ _ _ CM).
  - exact (cm_bound _ _ _ _ _ CM).
  - exact zs_sides.
  - intros e I. destruct (G e I) as (A & B & _). now split.
  - intros e I. apply (G e I).
  - intros e I. apply (G e I).
  - exact zs_pairs.
Qed.

Lemma zs_exact : Forall2 (fun p z => has_points (fst p) z) (map sector_polygon outs) zs.
Proof using CM XS.
  unfold outs, zs. rewrite map_map.
  assert (H : forall x, In x xs -> has_points (map (set_points contour_new) (fst x)) (fst (snd x))).
  { intros x I. apply In_nth_error in I. destruct I as (i & I). destruct (xs_at m place xs XS i x I) as (_ & _ & _ & _ & _ & _ & ws & _ & _ & -> & _ & F). clear - F CM. unfold has_points.
    induction F as [|vs o vss os H F IH]; cbn [map]; constructor; [|exact IH]. cbn [c_points set_points]. clear - H CM. induction H as [|v q vs o I H IH]; [reflexivity|]. cbn [map]. f_equal; [|exact IH].
    exact (cm_vertices _ _ _ _ _ CM v q I). }
  clear - H. induction xs as [|x l IH]; cbn [map]; constructor; [cbn [sector_polygon fst]; apply H; left; reflexivity|]. apply IH. intros y I. apply H. right. exact I.
Qed.
End Map.

Theorem crossing_rooms : forall std fuel g R D m place op, std_laws std -> sorts std -> crossing_map g R D m place -> (126 * length (g_lines m) <= fuel)%nat ->
  exists outs r rz, Forall2 (fun k o => map_sector_to_polygons m (Z.of_nat k) = Ok o) (seq 0 (length (g_sectors m))) outs
    /\ compute std fuel (map sector_polygon outs) op = Ok r /\ has_corners r rz
    /\ (forall x y, (exists s, is_sector m s /\ in_sector m place s x y) ->
          exists i, outer r i /\ (exists js, region_of r i js /\ goes_round rz js x y = 1)
            /\ forall k js, outer r k -> region_of r k js -> goes_round rz js x y = 1 -> k = i)
    /\ (forall x y i c js, outer r i -> nth_error r i = Some c -> region_of r i js -> goes_round rz js x y = 1 ->
          (exists s, is_sector m s /\ in_sector m place s x y)
          /\ forall s, is_sector m s -> (nth_error (c_from c) (Z.to_nat s) = Some true <-> in_sector m place s x y))
    /\ NoDup (flat_map sides rz)
    /\ (forall a b x y, In (a, b) (flat_map sides rz) -> on_segment a b x y -> exists p l, border_line m p l /\ on_line place l x y)
    /\ (forall i j ci li lj, nth_error r i = Some ci -> nth_error rz i = Some li -> nth_error rz j = Some lj ->
          nth_error (c_neighbors ci) j = Some true <-> exists a b, In (a, b) (sides li) /\ In (b, a) (sides lj)).
Proof.
  intros std fuel g R D m place op SL SO CM HF. pose proof (cross_traced g R D m place CM) as TR.
  destruct (pick_all (drawn_sector m place) (length (g_sectors m)) 0) as (xs & XS).
  { intros i L. apply (sector_drawn m place TR). apply small_sector. apply L. }
  set (outs := map fst xs). set (zs := map (fun x => fst (snd x)) xs).
  pose proof (edges_few m place TR xs XS) as F. fold zs in F. pose proof (cm_few _ _ _ _ _ CM) as Few.
  assert (NR : ~ In RemoveEdges (map snd (map sector_polygon outs))).
  { rewrite map_map. intros I. apply in_map_iff in I. destruct I as (o & E & _). discriminate E. }
  destruct (mesh_crossable g R D zs (map sector_polygon outs) (zs_mesh g R D m place CM xs XS) (proj2 (cm_size _ _ _ _ _ CM)) ltac:(lia) (zs_exact g R D m place CM xs XS) NR) as (ms & P & X & Lm).
  assert (Fu : (3 * length (edges (marked ms)) <= fuel)%nat) by lia.
  destruct (cross_ends std fuel _ op ms SL SO X Fu) as (r & rz & C & H).
  exists outs, r, rz. split.
  { unfold outs. clear - XS. induction XS as [|k x ks xs D F IH]; cbn [map]; constructor; [apply D|exact IH]. }
  pose proof (cross_places std fuel _ op ms SL SO X Fu r rz C H) as PL. rewrite P in PL.
  split; [exact C|]. split; [exact H|]. split; [|split; [|split; [|split]]].
  - intros x y I. apply (PL x y). apply (kept_in m place TR xs XS). exact I.
  - intros x y i c js O E Rg G. destruct (proj2 (PL x y) i c js O E Rg G) as (K & Fr).
    split; [apply (kept_in m place TR xs XS); exact K|]. intros s IS. rewrite Fr. apply (place_nth m place TR xs XS x y s IS).
  - apply (cross_sides std fuel _ op ms SL SO X Fu r rz C H).
  - intros a b x y I On. apply (proj2 (cross_sides std fuel _ op ms SL SO X Fu r rz C H)) in I. destruct I as (e & Ie & _ & x0 & y0 & _ & Dd).
    assert (On' : on_segment (e_left e) (e_right e) x y) by (destruct Dd as [(-> & -> & _)|(-> & -> & _)]; [exact On|now apply segment_swap]).
    destruct X as (_ & CW & _). destruct (proj1 (cut_points ms (cut_straight ms CW) x y) (ex_intro _ e (conj Ie On'))) as (e' & Ie' & On2). rewrite P in Ie'.
    destruct (zs_side g R D m place CM xs XS e' Ie') as (p & l & _ & B & _ & J). exists p, l. split; [exact B|]. unfold on_line. destruct (lr_ends _ _ _ e' J) as (_ & [[<- <-]|[<- <-]]); [exact On2|now apply segment_swap].
  - intros i j ci li lj. apply (cross_neighbours std fuel _ op ms SL SO X Fu r rz C H).
Qed.

(** Loading a map puts its vertices at the doubles nearest to their coordinates. *)
Lemma loaded_vertices : forall b m, from_bare b = Ok m -> forall h p, item_at (g_vertices m) h p -> exists v, item_at (m_vertices b) h v /\ p = int_point (vx v, vy v).
Proof.
  intros b m H h p [P I]. rewrite from_bare_conv in H. injection H as <-. unfold conv_map in I. cbn [g_vertices] in I. rewrite nth_error_map in I. destruct (nth_error (m_vertices b) (Z.to_nat h)) as [v|] eqn:E; [|discriminate I].
  injection I as <-. exists v. split; [split; [exact P|exact E]|reflexivity].
Qed.
