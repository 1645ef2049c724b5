(** Samples and counterexamples for the choice of turn. *)

From Coq Require Import List ZArith Bool Lia.
From Verif Require Import Base BaseFacts Float SpecFloat64 FloatFacts FloatOrder MapFacts Geometry MapModel Sweep Compute SectorPolys SpecSector SectorFacts LoopFacts MapSectorFacts
  SpecShape ShapeFacts SpecOrder OrderFacts SpecIntersect ShapeSamples SpecTurn IntersectFacts TurnFacts TurnFacts2 TurnFacts3.
Import ListNotations.
Local Open Scope Z_scope.

(** *** Segments *)

(** Coming from the west: one can go on north, east or south. *)
Definition from_west : bend := (sg (-10) 0 0 0 0 0, LeftEnd).
Definition to_north : bend := (sg 0 0 0 10 3 3, LeftEnd).
Definition to_east : bend := (sg 0 0 10 0 2 2, LeftEnd).
Definition to_south : bend := (sg 0 (-10) 0 0 1 1, RightEnd).
Definition junction : list bend := [to_south; (fst from_west, RightEnd); to_east; to_north].
Definition open_packets (n : nat) : list packet := repeat (packet_new 0 Normal 1) n.

Lemma sg_left : forall x y x' y' i o, lex_z (x, y) (x', y') = Lt -> within (2 ^ 24) (x, y) -> within (2 ^ 24) (x', y') ->
  end_at (sg x y x' y' i o, LeftEnd) (x, y) (x', y').
Proof. intros. unfold end_at. cbn [fst snd]. now apply sg_seg. Qed.
Lemma sg_right : forall x y x' y' i o, lex_z (x, y) (x', y') = Lt -> within (2 ^ 24) (x, y) -> within (2 ^ 24) (x', y') ->
  end_at (sg x y x' y' i o, RightEnd) (x', y') (x, y).
Proof. intros. unfold end_at. cbn [fst snd]. now apply sg_seg. Qed.

Ltac sg_end := first [apply sg_left | apply sg_right]; [reflexivity| |]; unfold within; cbn; lia.

Lemma junction_at : forall e, In e junction -> exists b, end_at e (0, 0) b /\ short (vsub b (0, 0)).
Proof.
  intros e He. cbn in He. destruct He as [<-|[<-|[<-|[<-|[]]]]]; eexists; (split; [sg_end|]);
    (split; [unfold within, vsub; cbn; lia|discriminate]).
Qed.

Lemma all_grouped : forall l q, (forall e, In e l -> exists b, end_at e q b) -> grouped l.
Proof.
  intros l q H i j k ei ej ek p b b' _ Hi Hj Hk Ei Ek. destruct (H ei (nth_error_In _ _ Hi)) as (bi & Qi).
  destruct (end_at_inj _ _ _ _ _ Ei Qi) as [-> _]. destruct (H ej (nth_error_In _ _ Hj)) as (bj & Qj). eauto.
Qed.

Lemma junction_meets :
  end_at from_west (-10, 0) (0, 0) /\ short (vsub (0, 0) (-10, 0))
  /\ Forall (fun e => short_end e /\ (s_index (fst e) < length (open_packets 4))%nat) junction
  /\ grouped junction
  /\ (exists e b, In e junction /\ open_end (open_packets 4) from_west e /\ end_at e (0, 0) b).
Proof.
  split; [sg_end|]. split; [split; [unfold within, vsub; cbn; lia|discriminate]|]. split; [|split].
  - apply Forall_forall. intros e He. split; [destruct (junction_at e He) as (b & H & S); now exists (0, 0), b|].
    cbn in He. destruct He as [<-|[<-|[<-|[<-|[]]]]]; cbn; lia.
  - apply (all_grouped _ (0, 0)). intros e He. destruct (junction_at e He) as (b & H & _). eauto.
  - exists to_north, (0, 10). split; [cbn; auto|]. split; [|sg_end]. split; [discriminate|].
    exists (packet_new 0 Normal 1). split; reflexivity.
Qed.

(** Two directions too close for the rounded cosines to tell apart. *)
Definition from_far : bend := (sg (-7574) (-7299) 0 0 0 0, LeftEnd).
Definition to_right : bend := (sg 0 0 6913 6662 1 1, LeftEnd).
Definition to_left : bend := (sg 0 0 6252 6025 2 2, LeftEnd).

Lemma far_ends :
  end_at from_far (-7574, -7299) (0, 0) /\ end_at to_right (0, 0) (6913, 6662) /\ end_at to_left (0, 0) (6252, 6025)
  /\ open_end (open_packets 3) from_far to_left
  /\ find_next_segment (open_packets 3) from_far [(fst from_far, RightEnd); to_right; to_left] = Ok to_right
  /\ ~ as_left (7574, 7299) (6913, 6662) (6252, 6025).
Proof.
  split; [sg_end|]. split; [sg_end|]. split; [sg_end|].
  split; [split; [discriminate|]; exists (packet_new 0 Normal 1); split; reflexivity|].
  split; [vm_compute; reflexivity|].
  unfold as_left. intros H. vm_compute in H. specialize (H eq_refl). now apply H.
Qed.

(** *** Sectors *)

(** One-sided lines between the given vertices, all around sector 0. *)
Definition outline_map (vs : list (Z * Z)) (ls : list (handle * handle)) : gmap :=
  mk_gmap (map (fun l => mk_line 0 (fst l) (snd l) 0 0 0 (Some 0) None) ls) [mk_mside 0 [] [] [] 0] [] []
    (map (fun v => pt (fst v) (snd v)) vs).
Definition corner (vs : list (Z * Z)) (h : handle) : Z * Z := nth (Z.to_nat h) vs (0, 0).

Section OutlineMap.
Variables (vs : list (Z * Z)) (ls : list (handle * handle)).
Let m := outline_map vs ls.

Lemma om_borders : forall l, In l (g_lines m) -> m_borders m 0 l.
Proof using.
  intros l H. cbn in H. apply in_map_iff in H. destruct H as (e & <- & _). split.
  - left. exists 0, (mk_mside 0 [] [] [] 0). cbn. repeat split; lia.
  - intros (h & k & f & b & _ & H & _). discriminate H.
Qed.

Lemma om_joins : forall p a b, m_joins m 0 p a b <-> (nth_error ls p = Some (a, b) \/ nth_error ls p = Some (b, a)).
Proof using.
  intros p a b. split.
  - intros (l & Hl & _ & J). cbn in Hl. rewrite nth_error_map in Hl. destruct (nth_error ls p) as [[x y]|]; [|discriminate Hl].
    cbn in Hl. injection Hl as <-. cbn in J. destruct J as [[-> ->]|[-> ->]]; auto.
  - intros H. assert (exists x y, nth_error ls p = Some (x, y) /\ ((x = a /\ y = b) \/ (x = b /\ y = a))) as (x & y & E & Q).
    { destruct H as [H|H]; eauto 6. }
    exists (mk_line 0 x y 0 0 0 (Some 0) None).
    assert (El : nth_error (g_lines m) p = Some (mk_line 0 x y 0 0 0 (Some 0) None)).
    { cbn. rewrite nth_error_map, E. reflexivity. }
    split; [exact El|]. split; [apply om_borders; eapply nth_error_In, El|]. exact Q.
Qed.

Hypothesis Hv : forall a b, In (a, b) ls -> 0 <= a < Z.of_nat (length vs) /\ 0 <= b < Z.of_nat (length vs).

Lemma om_indices : m_indices_exist m 0.
Proof using Hv.
  split.
  - intros l h H E. cbn in H. apply in_map_iff in H. destruct H as (e & <- & _). cbn in E.
    destruct E as [E|E]; [injection E as <-; unfold has_item; cbn; lia|discriminate E].
  - intros l H _. cbn in H. apply in_map_iff in H. destruct H as ([a b] & <- & H). unfold has_item. cbn [ln_start ln_end fst snd m outline_map g_vertices].
    rewrite map_length. now apply Hv.
Qed.

Hypothesis Hw : Forall (within (2 ^ 24)) vs.

Lemma om_vertex : forall h, 0 <= h < Z.of_nat (length vs) -> vertex_at m (corner vs) h.
Proof using Hw Hv.
  intros h H. unfold vertex_at. destruct (nth_error vs (Z.to_nat h)) as [[x y]|] eqn:E; [|apply nth_error_None in E; lia].
  assert (C : corner vs h = (x, y)) by (unfold corner; now apply nth_error_nth). rewrite C.
  rewrite Forall_forall in Hw. pose proof (Hw _ (nth_error_In _ _ E)) as W. split; [assumption|].
  intros p [_ Hp]. cbn in Hp. rewrite nth_error_map, E in Hp. cbn in Hp. injection Hp as <-. destruct W. cbn [fst snd] in *.
  assert (2 ^ 24 < 2 ^ 53) by reflexivity. apply pt_at; lia.
Qed.
End OutlineMap.

(** Two triangles with a common corner. *)
Definition bow_corners : list (Z * Z) := [(0, 0); (64, 64); (128, 128); (0, 128); (128, 0)].
Definition bow_lines : list (handle * handle) := [(0, 1); (1, 2); (1, 3); (1, 4); (3, 0); (4, 2)].
Definition bow_tie : gmap := outline_map bow_corners bow_lines.

Lemma bow_tie_meets : m_indices_exist bow_tie 0 /\ short_border bow_tie 0 (corner bow_corners).
Proof.
  assert (Hv : forall a b, In (a, b) bow_lines -> 0 <= a < 5 /\ 0 <= b < 5).
  { intros a b H. cbn in H. repeat destruct H as [H|H]; try (injection H as <- <-; lia). contradiction. }
  assert (Hw : Forall (within (2 ^ 24)) bow_corners) by (repeat constructor; cbn; lia).
  split; [now apply om_indices|]. intros l H _. apply in_map_iff in H. destruct H as ([a b] & <- & H). cbn [ln_start ln_end fst snd].
  split; [apply om_vertex; try assumption; now apply (Hv a b)|]. split; [apply om_vertex; try assumption; now apply (Hv a b)|].
  cbn in H. repeat destruct H as [H|H]; try (injection H as <- <-; split; [split; vm_compute; intros Q; discriminate Q|vm_compute; intros Q; discriminate Q]). contradiction.
Qed.

(** The two directions from above, as lines of a map. *)
Definition far_corners : list (Z * Z) := [(-7574, -7299); (0, 0); (6913, 6662); (6252, 6025)].
Definition far_lines : list (handle * handle) := [(0, 1); (1, 2); (1, 3); (2, 0); (3, 0)].
Definition far_map : gmap := outline_map far_corners far_lines.

Lemma far_outlines : map_sector_to_polygons far_map 0 = Ok [[pt (-7574) (-7299); pt 0 0; pt 6913 6662]; [pt 0 0; pt 6252 6025; pt (-7574) (-7299)]].
Proof. vm_compute. reflexivity. Qed.

Lemma far_meets : m_indices_exist far_map 0
  /\ (forall l, In l (g_lines far_map) -> m_borders far_map 0 l ->
        vertex_at far_map (corner far_corners) (ln_start l) /\ vertex_at far_map (corner far_corners) (ln_end l)
        /\ within (2 ^ 14) (corner far_corners (ln_start l)) /\ within (2 ^ 14) (corner far_corners (ln_end l))).
Proof.
  assert (Hv : forall a b, In (a, b) far_lines -> 0 <= a < 4 /\ 0 <= b < 4).
  { intros a b H. cbn in H. repeat destruct H as [H|H]; try (injection H as <- <-; lia). contradiction. }
  assert (Hw : Forall (within (2 ^ 24)) far_corners) by (repeat constructor; cbn; lia).
  split; [now apply om_indices|]. intros l H _. apply in_map_iff in H. destruct H as ([a b] & <- & H). cbn [ln_start ln_end fst snd].
  split; [apply om_vertex; try assumption; now apply (Hv a b)|]. split; [apply om_vertex; try assumption; now apply (Hv a b)|].
  cbn in H. repeat destruct H as [H|H]; try (injection H as <- <-; split; split; vm_compute; intros Q; discriminate Q). contradiction.
Qed.

Lemma far_wrong : forall walks, sector_walks far_map 0 (corner far_corners) [] walks ->
  exists vs ls rest, walks = (0 :: 1 :: 3 :: vs, ls) :: rest.
Proof.
  intros walks H.
  assert (J : forall p a b, m_joins far_map 0 p a b <-> _) by (exact (om_joins far_corners far_lines)).
  inversion H as [? D|? p l rest vs walks' Hl B _ Min W _]; subst.
  - destruct (D 0%nat 0 1). apply J. now left.
  - assert (p = 0%nat). { pose proof (Min 0%nat 0 1 (proj2 (J 0%nat 0 1) (or_introl eq_refl)) (fun x => x)). lia. }
    subst p. cbn in Hl. injection Hl as <-. cbn [ln_start ln_end app fst snd] in *. clear H Min B.
    inversion W as [? ? ? C|? ? ? _ N|? ? ? p w rest' vs' _ O L W']; subst.
    + discriminate C.
    + exfalso. apply (N 1%nat 2). split; [apply J; now left|]. intros [Q|[]]; discriminate Q.
    + assert (O2 : open_line far_map 0 [0%nat] 1 2%nat 3) by (split; [apply J; now left|intros [Q|[]]; discriminate Q]).
      specialize (L _ _ O2). destruct O as [O NI]. apply J in O.
      assert (w = 3).
      { destruct p as [|[|[|[|[|p]]]]]; cbn in O; destruct O as [O|O]; try discriminate O.
        - injection O as <-. exfalso. apply NI. now left.
        - injection O as <-. exfalso. unfold as_left in L. vm_compute in L. specialize (L eq_refl). now apply L.
        - now injection O as <-.
        - destruct p; discriminate O.
        - destruct p; discriminate O. }
      subst w. inversion W' as [? ? ? C|? ? ? _ N|? ? ? ? ? ? ? _ _ _ _]; subst; [discriminate C| |]; eauto.
Qed.

Lemma far_not_left : ~ exists outlines walks, map_sector_to_polygons far_map 0 = Ok outlines
    /\ sector_walks far_map 0 (corner far_corners) [] walks
    /\ Forall2 (Forall2 (item_at (g_vertices far_map))) (filter (fun vs => (2 <? length vs)%nat) (map fst walks)) outlines.
Proof.
  intros (outlines & walks & E & W & F). rewrite far_outlines in E. injection E as <-.
  destruct (far_wrong _ W) as (vs & ls & rest & ->). cbn [map fst] in F.
  change (filter _ ((0 :: 1 :: 3 :: vs) :: map fst rest)) with ((0 :: 1 :: 3 :: vs) :: filter (fun vs => (2 <? length vs)%nat) (map fst rest)) in F.
  inversion F as [|? ? ? ? F1 _]; subst. inversion F1 as [|? ? ? ? _ F2]; subst. inversion F2 as [|? ? ? ? _ F3]; subst.
  inversion F3 as [|? ? ? ? [_ Q] _]; subst. vm_compute in Q. discriminate Q.
Qed.

Lemma next_left : forall ks current za zb included,
  end_at current za zb -> short (vsub zb za) ->
  Forall (fun e => short_end e /\ (s_index (fst e) < length ks)%nat) included -> grouped included ->
  ((exists e b, In e included /\ open_end ks current e /\ end_at e zb b) ->
   exists e b, find_next_segment ks current included = Ok e /\ In e included /\ open_end ks current e /\ end_at e zb b
     /\ forall e' b', In e' included -> open_end ks current e' -> end_at e' zb b' ->
          as_left (vsub zb za) (vsub b zb) (vsub b' zb))
  /\ ((forall e b, In e included -> open_end ks current e -> ~ end_at e zb b) ->
      exists p, find_next_segment ks current included = Panic p).
Proof.
  intros ks current za zb included H S F G. destruct (next_leftmost ks current za zb H S included F G) as [A B]. split.
  - intros (e & b & H1 & H2 & H3). apply A. exists e. split; [assumption|]. split; [assumption|]. eauto.
  - intros N. apply B. intros e H1 (H2 & b & H3). eapply N; eassumption.
Qed.

Lemma next_not_left : exists ks current included e e' za zb b b',
  end_at current za zb /\ within (2 ^ 14) za /\ zb = (0, 0)
  /\ find_next_segment ks current included = Ok e /\ end_at e zb b /\ within (2 ^ 14) b
  /\ In e' included /\ open_end ks current e' /\ end_at e' zb b' /\ within (2 ^ 14) b'
  /\ ~ as_left (vsub zb za) (vsub b zb) (vsub b' zb).
Proof.
  exists (open_packets 3), from_far, [(fst from_far, RightEnd); to_right; to_left], to_right, to_left, (-7574, -7299), (0, 0), (6913, 6662), (6252, 6025).
  destruct far_ends as (H1 & H2 & H3 & H4 & H5 & H6). repeat (split; [first [assumption | reflexivity | split; vm_compute; intros Q; discriminate Q | cbn; auto]|]).
  exact H6.
Qed.

Lemma outlines_not_left : exists m s place, m_indices_exist m s
  /\ (forall l, In l (g_lines m) -> m_borders m s l ->
        vertex_at m place (ln_start l) /\ vertex_at m place (ln_end l)
        /\ within (2 ^ 14) (place (ln_start l)) /\ within (2 ^ 14) (place (ln_end l)))
  /\ ~ exists outlines walks, map_sector_to_polygons m s = Ok outlines /\ sector_walks m s place [] walks
    /\ Forall2 (Forall2 (item_at (g_vertices m))) (filter (fun vs => (2 <? length vs)%nat) (map fst walks)) outlines.
Proof. exists far_map, 0, (corner far_corners). destruct far_meets as [A B]. split; [exact A|]. split; [exact B|]. exact far_not_left. Qed.
