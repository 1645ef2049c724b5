(** Overlaying the sectors of a well drawn map: what is asked of the polygons. *)

From Coq Require Import List ZArith QArith Bool Lia Permutation.
From Coq Require Import ZifyBool ZifyNat.
From Verif Require Import Base Float MapModel SectorPolys Contours Compute SpecMapModel SpecSector SpecShape SpecOrder SpecIntersect SpecHandle SpecTurn SpecTidy SpecOverlay
  TurnFacts5 NestGeo MapSectorFacts SpecRooms RoomFacts.
Import ListNotations.
Local Open Scope Z_scope.

Lemma lr_ends : forall i a b e, In e (left_to_right i (a, b)) -> e_poly e = i /\ ((e_left e = a /\ e_right e = b) \/ (e_left e = b /\ e_right e = a)).
Proof.
  intros i a b e I. unfold left_to_right in I. cbn [fst snd] in I. destruct (lex_z a b); cbn [In] in I; intuition; subst e; auto.
Qed.
Lemma lr_some : forall i a b, a <> b -> exists e, left_to_right i (a, b) = [e].
Proof.
  intros i [a1 a2] [b1 b2] N. unfold left_to_right. cbn [fst snd]. unfold lex_z. cbn [fst snd].
  destruct (Z.compare_spec a1 b1); [|eauto..]. destruct (Z.compare_spec a2 b2); [|eauto..]. subst. contradiction.
Qed.

(** Edges with the same ends are not apart. *)
Lemma same_not_apart : forall e f, e_left e <> e_right e -> e_left e = e_left f -> e_right e = e_right f -> ~ apart e f.
Proof.
  intros e f N L R (_ & A). rewrite <- L, <- R in A.
  assert (BL : forall a b, on_segment a b (inject_Z (fst a)) (inject_Z (snd a))).
  { intros a b. exists 0%Q. split; [apply Qle_refl|]. split; [discriminate|]. split; rewrite Qmult_0_l, Qplus_0_r; reflexivity. }
  assert (BR : forall a b, on_segment a b (inject_Z (fst b)) (inject_Z (snd b))).
  { intros a b. exists 1%Q. split; [discriminate|]. split; [apply Qle_refl|].
    split; rewrite Qmult_1_l, <- inject_Z_plus; apply inject_Z_injective; lia. }
  set (a := e_left e) in *. set (b := e_right e) in *.
  destruct A as [A|(v & _ & _ & _ & A)].
  - exact (A _ _ (conj (BL a b) (BL a b))).
  - destruct (A _ _ (conj (BL a b) (BL a b))) as [X1 Y1]. destruct (A _ _ (conj (BR a b) (BR a b))) as [X2 Y2].
    rewrite <- X2 in X1. rewrite <- Y2 in Y1. apply (proj1 (inject_Z_injective _ _)) in X1. apply (proj1 (inject_Z_injective _ _)) in Y1.
    apply N. rewrite (surjective_pairing a), (surjective_pairing b). congruence.
Qed.

(** What tracing the outlines needs: closed borders with one line between two vertices. *)
Definition traced (m : gmap) (place : handle -> Z * Z) : Prop :=
  (forall s, is_sector m s -> m_indices_exist m s /\ short_border m s place /\ closed_border m s)
  /\ (forall p l q k v w, border_line m p l -> border_line m q k -> v = ln_start l \/ v = ln_end l -> w = ln_start k \/ w = ln_end k ->
        place v = place w -> v = w)
  /\ (forall s p q v w, is_sector m s -> m_joins m s p v w -> m_joins m s q v w -> p = q).

Section Sides.
Variables (m : gmap) (place : handle -> Z * Z).
Hypothesis W : forall s, is_sector m s -> m_indices_exist m s /\ short_border m s place /\ closed_border m s.

Lemma side_one : forall s i p, is_sector m s -> bordering m s p -> exists l e, nth_error (g_lines m) p = Some l /\ m_borders m s l
  /\ line_side m place i p = [e] /\ e_poly e = i /\ In e (line_as_edge place i l)
  /\ ((e_left e = place (ln_start l) /\ e_right e = place (ln_end l)) \/ (e_left e = place (ln_end l) /\ e_right e = place (ln_start l))).
Proof using W.
  intros s i p IS (l & E & B). exists l. destruct (W s IS) as (_ & SB & _).
  destruct (SB l (nth_error_In _ _ E) B) as (_ & _ & _ & N).
  unfold line_side. rewrite E. unfold line_as_edge.
  destruct (lr_some i (place (ln_start l)) (place (ln_end l))) as (e & L).
  { intros EQ. apply N. rewrite EQ. unfold vsub. now rewrite !Z.sub_diag. }
  exists e. rewrite L. split; [reflexivity|]. split; [assumption|]. split; [reflexivity|].
  destruct (lr_ends i (place (ln_start l)) (place (ln_end l)) e) as (P & D); [rewrite L; left; reflexivity|].
  split; [assumption|]. split; [left; reflexivity|assumption].
Qed.

End Sides.

(** Different lines are apart, whatever polygons they are taken for edges of. *)
Lemma keys_apart : forall m place, well_drawn m place -> forall s t i j p q e f, is_sector m s -> is_sector m t -> bordering m s p -> bordering m t q -> p <> q ->
  In e (line_side m place i p) -> In f (line_side m place j q) -> apart e f.
Proof.
  intros m place WD s t i j p q e f IS IT (l & E & B) (k & F & C) N Ie If. destruct WD as (_ & _ & W & _).
  unfold line_side in Ie, If. rewrite E in Ie. rewrite F in If. unfold line_as_edge in *.
  assert (X : forall i a b e, In e (left_to_right i (a, b)) -> In (mk_edge 0 (e_left e) (e_right e)) (left_to_right 0 (a, b))).
  { clear. intros i a b e. unfold left_to_right. cbn [fst snd]. destruct (lex_z a b); cbn [In]; intuition; subst e; auto. }
  exact (W p l q k _ _ (conj E (ex_intro _ s (conj IS B))) (conj F (ex_intro _ t (conj IT C))) N (X _ _ _ _ Ie) (X _ _ _ _ If)).
Qed.

Lemma line_same : forall m place, well_drawn m place -> forall s p q v w, is_sector m s -> m_joins m s p v w -> m_joins m s q v w -> p = q.
Proof.
  intros m place WD s p q v w IS J K. destruct (Nat.eq_dec p q) as [|N]; [assumption|]. exfalso.
  pose proof (joins_bordering m s _ _ _ J) as BJ. pose proof (joins_bordering m s _ _ _ K) as BK.
  destruct (side_one m place (proj1 WD) s 0 p IS BJ) as (l & e & E & B & L & _ & _ & D).
  destruct (side_one m place (proj1 WD) s 0 q IS BK) as (k & f & F & C & M & _).
  assert (L' : left_to_right 0 (place v, place w) = [e]) by (rewrite (joins_side m place s p v w 0 J); exact L).
  assert (M' : left_to_right 0 (place v, place w) = [f]) by (rewrite (joins_side m place s q v w 0 K); exact M).
  assert (e = f) by congruence. subst f.
  apply (same_not_apart e e); auto.
  - destruct WD as (W & _). destruct (W s IS) as (_ & SB & _). destruct (SB l (nth_error_In _ _ E) B) as (_ & _ & _ & NZ).
    intros EQ. apply NZ. assert (X : place (ln_end l) = place (ln_start l)) by (destruct D as [[<- <-]|[<- <-]]; congruence).
    rewrite X. unfold vsub. now rewrite !Z.sub_diag.
  - apply (keys_apart m place WD s s 0%nat 0%nat p q e e IS IS BJ BK N); rewrite ?L, ?M; left; reflexivity.
Qed.

Lemma drawn_traced : forall m place, well_drawn m place -> traced m place.
Proof. intros m place WD. split; [exact (proj1 WD)|]. split; [exact (proj1 (proj2 WD))|]. exact (line_same m place WD). Qed.

Section Drawn.
Variables (m : gmap) (place : handle -> Z * Z).
Hypothesis TR : traced m place.

Lemma key_one : forall s i p, is_sector m s -> bordering m s p -> exists l e, nth_error (g_lines m) p = Some l /\ m_borders m s l
  /\ line_side m place i p = [e] /\ e_poly e = i /\ In e (line_as_edge place i l)
  /\ ((e_left e = place (ln_start l) /\ e_right e = place (ln_end l)) \/ (e_left e = place (ln_end l) /\ e_right e = place (ln_start l))).
Proof using TR. exact (side_one m place (proj1 TR)). Qed.

Lemma round_long : forall s w, is_sector m s -> round m s w -> NoDup (snd w) -> (2 < length (fst w))%nat.
Proof using TR.
  intros s [vs ps] IS (v & T & N) ND. cbn [fst snd] in *. inversion T as [|? p u ps1 vs1 ? J T1]; subst; [contradiction|].
  inversion T1 as [|? q t ps2 vs2 ? K T2]; subst.
  - exfalso. destruct TR as (W & _). destruct (W s IS) as (_ & SB & _). destruct J as (l & E & B & J).
    apply (ends_differ m place s SB p l E B). destruct J as [[]|[]]; congruence.
  - inversion T2 as [|? r t' ps3 vs3 ? M T3]; subst; [|cbn [length]; lia].
    exfalso. assert (K' : m_joins m s q v u).
    { destruct K as (l & E & B & [[]|[]]); exists l; auto. }
    pose proof (proj2 (proj2 TR) s p q v u IS J K'). subst q. inversion ND as [|? ? X]; subst. apply X. left. reflexivity.
Qed.

Lemma trail_vertex : forall s v ps vs z, trail m s v ps vs z -> forall u, In u vs -> exists p w, m_joins m s p u w.
Proof using.
  intros s v ps vs z T. induction T as [v|v p w ps vs z J T IH]; intros u I; [destruct I|]. destruct I as [<-|I]; eauto.
Qed.

Definition drawn_sector (k : nat) (x : list (list point) * (corners * list nat)) : Prop :=
  map_sector_to_polygons m (Z.of_nat k) = Ok (fst x)
  /\ has_corners (map (set_points contour_new) (fst x)) (fst (snd x))
  /\ (forall j, polygon_edges j (fst (snd x)) = flat_map (line_side m place j) (snd (snd x)))
  /\ NoDup (snd (snd x)) /\ (forall p, In p (snd (snd x)) <-> bordering m (Z.of_nat k) p)
  /\ (forall l v, In l (fst (snd x)) -> In v l -> exists p k, border_line m p k /\ (v = place (ln_start k) \/ v = place (ln_end k)))
  /\ exists ws, sector_walks m (Z.of_nat k) place [] ws /\ Forall (round m (Z.of_nat k)) ws
       /\ fst (snd x) = map (map place) (map fst ws) /\ snd (snd x) = concat (map snd ws)
       /\ Forall2 (Forall2 (item_at (g_vertices m))) (map fst ws) (fst x).

Lemma sector_drawn : forall k, is_sector m (Z.of_nat k) -> exists x, drawn_sector k x.
Proof using TR.
  intros k IS. set (s := Z.of_nat k) in *. pose proof TR as W. destruct W as (W & PI & _). destruct (W s IS) as (IE & SB & CB).
  destruct (sector_left m s place IE SB) as (outs & ws & O & SW & F).
  destruct (walks_round m place s SB CB) with (W := @nil nat) (walks := ws) as (R & ND & BP); auto.
  { intros p l q k0 v w E E' B B' V V' EQ. eapply (PI p l q k0); eauto; (split; [eassumption|]); exists s; auto. }
  { constructor. }
  { intros p []. }
  cbn [app] in ND, BP.
  assert (KEEP : filter (fun vs => (2 <? length vs)%nat) (map fst ws) = map fst ws).
  { clear F SW BP. induction R as [|w ws RW R IH]; [reflexivity|]. cbn [map filter]. cbn [map concat] in ND.
    assert (L : (2 < length (fst w))%nat).
    { apply (round_long s w IS RW). clear - ND. induction (snd w) as [|p l IH]; [constructor|]. cbn [app] in ND. inversion ND; subst.
      constructor; [|auto]. intro I. apply H1. apply in_or_app. auto. }
    apply Nat.ltb_lt in L. rewrite L. f_equal. apply IH. clear - ND. induction (snd w) as [|p l IH]; [assumption|]. inversion ND; auto. }
  rewrite KEEP in F.
  assert (VS : forall vs v, In vs (map fst ws) -> In v vs -> exists p w, m_joins m s p v w).
  { intros vs v I J. apply in_map_iff in I. destruct I as (w & <- & I). rewrite Forall_forall in R. destruct (R w I) as (u & T & _).
    eapply trail_vertex; eauto. }
  exists (outs, (map (map place) (map fst ws), concat (map snd ws))). split; [exact O|]. cbn [fst snd]. split; [|split; [|split; [exact ND|split; [exact BP|split; [|exists ws; auto]]]]].
  - unfold has_corners. clear O KEEP SW BP ND R. revert VS F. generalize (map fst ws). intros L VS F. revert VS. induction F as [|vs o vss os H F IH]; intros VS; cbn [map]; constructor.
    + cbn [c_points set_points]. assert (V : forall v, In v vs -> exists p w, m_joins m s p v w) by (intros v I; apply (VS vs v); [left; reflexivity|exact I]).
      clear - H V SB. induction H as [|v q vs o I H IH]; cbn [map]; constructor.
      * destruct (V v) as (p & w & l & E & B & J); [left; reflexivity|]. destruct (SB l (nth_error_In _ _ E) B) as (V1 & V2 & _).
        destruct J as [[<- _]|[_ <-]]; [apply V1|apply V2]; exact I.
      * apply IH. intros u J. apply V. right. exact J.
    + apply IH. intros vs' v I J. apply (VS vs' v); [right; exact I|exact J].
  - intros j. apply (rounds_edges m place s j ws R).
  - intros l v I J. apply in_map_iff in I. destruct I as (vs & <- & I). apply in_map_iff in J. destruct J as (u & <- & J).
    destruct (VS vs u I J) as (p & w & k0 & E & B & D). exists p, k0. split; [split; [exact E|]; exists s; auto|].
    destruct D as [[<- _]|[_ <-]]; auto.
Qed.

End Drawn.
