(** Proofs about the chart command as a whole (C77-C81). *)

From Coq Require Import String List ZArith QArith Bool Lia ZifyBool.
From Coq Require Import Strings.Byte.
From Verif Require Import SpecBytes Base BaseFacts ParseWad ArchiveWad ParseMap SpecArchive SpecLumps SpecMap ParseMapFacts PropsArchiveAux
  Float SpecFloat64 MapModel SpecMapModel MapFacts FlipFacts SectorPolys SpecSector Actors Chart SpecChart ChartFacts ChartBareFacts Samples.
Import ListNotations.
Local Open Scope Z_scope.

(** ** Which map is charted *)

Lemma maps_split : forall l, match maps_of l with
  | [] => forall x, In x l -> match x with WMap _ => False | _ => True end
  | r :: _ => exists pre post, l = pre ++ WMap r :: post /\ forall x, In x pre -> match x with WMap _ => False | _ => True end
  end.
Proof.
  induction l as [|x l IH]; cbn [maps_of]; [intros y []|].
  destruct x as [b|i e|i e|i e].
  1: { exists [], l. split; [reflexivity|intros y []]. }
  all: destruct (maps_of l) as [|r rs];
    [intros y [<-|Hy]; [exact I|apply IH, Hy]|destruct IH as (pre & post & -> & H); eexists (_ :: pre), post; split; [reflexivity|];
     intros y [<-|Hy]; [exact I|apply H, Hy]].
Qed.

Lemma plain_unmarked : forall w l k, (forall x, In x l -> In x (iter w) /\ match x with WMap _ => False | _ => True end) ->
  In k (concat (map item_span l)) -> ~ marker (directory w) k.
Proof.
  intros w l k Hl Hk. apply in_concat in Hk. destruct Hk as (sp & H1 & H2). apply in_map_iff in H1. destruct H1 as (x & <- & Hx).
  destruct (Hl x Hx) as [Hi Hp]. pose proof (iter_kinds w x Hi) as K. destruct x as [b|i e|i e|i e]; [destruct Hp| | |];
    destruct K as [_ K]; cbn in H2; destruct H2 as [<-|[]]; apply K; reflexivity.
Qed.

Lemma first_map : forall w r rest, iter_maps w = r :: rest -> first_marker (directory w) (marker_index r) /\ ~ broken (directory w) (marker_index r).
Proof.
  intros w r rest H. unfold iter_maps in H. pose proof (maps_split (iter w)) as S. rewrite H in S. destruct S as (pre & post & E & Hpre).
  assert (Hin : In r (iter_maps w)) by (unfold iter_maps; rewrite H; left; reflexivity).
  assert (M : marker (directory w) (marker_index r)).
  { destruct (block_points w r Hin) as (e & fs & H1 & H2 & _). exists e, (b_name r). auto. }
  destruct (iter_spans w) as (n & Ln & Sp). rewrite E, map_app, concat_app in Sp. cbn [map concat item_span app] in Sp.
  assert (Lp : marker_index r = length (concat (map item_span pre))).
  { pose proof (f_equal (fun l => nth_error l (length (concat (map item_span pre)))) Sp) as Q. cbn beta in Q.
    rewrite nth_error_app2, Nat.sub_diag in Q by lia. cbn [nth_error] in Q.
    assert (L : (length (concat (map item_span pre)) < length (seq 0 n))%nat) by (apply nth_error_Some; rewrite <- Q; discriminate).
    rewrite seq_length in L.
    rewrite (nth_error_nth' _ 0%nat) in Q by (rewrite seq_length; exact L). rewrite seq_nth in Q by exact L. injection Q as Q. exact Q. }
  split; [split; [exact M|]|].
  - intros j Hj. apply (plain_unmarked w pre); [intros x Hx; split; [rewrite E; apply in_or_app; auto|apply Hpre, Hx]|].
    pose proof (f_equal (fun l => nth_error l j) Sp) as Q. cbn beta in Q. rewrite nth_error_app1 in Q by lia.
    assert (L : (j < n)%nat) by (pose proof (f_equal (@length nat) Sp) as Z; rewrite app_length, seq_length in Z; lia).
    rewrite (nth_error_nth' (seq 0 n) 0%nat) in Q by (rewrite seq_length; exact L). rewrite seq_nth in Q by exact L.
    eapply nth_error_In. exact Q.
  - assert (L : (marker_index r < length (directory w))%nat).
    { destruct M as (e & nm & M & _). apply nth_error_Some. congruence. }
    intros B. refine (proj1 (iter_reach w _ L) _ (marker_index r) (le_n _) (conj M B)).
    unfold reported. rewrite E, map_app, concat_app. apply in_or_app. right. left. reflexivity.
Qed.

Lemma maps_in : forall l b, In b (maps_of l) -> In (WMap b) l.
Proof.
  induction l as [|x l IH]; intros b H; cbn [maps_of] in H; [destruct H|].
  destruct x; try (right; apply IH, H). destruct H as [->|H]; [left; reflexivity|right; apply IH, H].
Qed.

Lemma first_map_unique : forall w r rest r', iter_maps w = r :: rest -> In r' (iter_maps w) -> first_marker (directory w) (marker_index r') -> r' = r.
Proof.
  intros w r rest r' H Hin (M' & F'). destruct (first_map w r rest H) as [(M & F) _].
  assert (Ei : marker_index r' = marker_index r).
  { destruct (Nat.lt_trichotomy (marker_index r') (marker_index r)) as [L|[L|L]]; [|exact L|].
    - exfalso. exact (F _ L M').
    - exfalso. exact (F' _ L M). }
  rewrite H in Hin. destruct Hin as [->|Hin]; [reflexivity|exfalso].
  destruct (iter_spans w) as (n & _ & Sp). pose proof (seq_NoDup n 0) as ND. rewrite <- Sp in ND. clear Sp. unfold iter_maps in H. revert ND H. clear M M' F F'.
  induction (iter w) as [|x l IH]; cbn [maps_of map concat]; intros ND H; [discriminate|].
  destruct x as [b|i e|i e|i e].
  - injection H as -> Hr. rewrite <- Hr in Hin. apply maps_in in Hin. cbn [item_span app] in ND. apply NoDup_cons_iff in ND.
    destruct ND as [N _]. apply N. apply in_or_app. right. apply in_concat. exists (item_span (WMap r')). split; [apply in_map, Hin|].
    left. exact Ei.
  - cbn in ND. apply NoDup_cons_iff in ND. apply IH; tauto.
  - cbn in ND. apply NoDup_cons_iff in ND. apply IH; tauto.
  - cbn in ND. apply NoDup_cons_iff in ND. apply IH; tauto.
Qed.

Lemma no_map : forall w, iter_maps w = [] <-> ~ exists i, first_marker (directory w) i /\ ~ broken (directory w) i.
Proof.
  intros w. split.
  - intros H (i & (M & Hj) & B).
    assert (L : (i < length (directory w))%nat) by (destruct M as (e & nm & M & _); apply nth_error_Some; congruence).
    pose proof (maps_split (iter w)) as S. unfold iter_maps in H. rewrite H in S.
    refine (plain_unmarked w (iter w) i _ _ M); [intros x Hx; split; [exact Hx|apply S, Hx]|].
    apply (iter_reach w i L). intros j Lj (Mj & Bj). destruct (Nat.eq_dec j i) as [->|N]; [auto|]. apply (Hj j); [lia|exact Mj].
  - intros H. destruct (iter_maps w) as [|r rest] eqn:E; [reflexivity|]. destruct H. exists (marker_index r). eapply first_map, E.
Qed.

Lemma chart_none : forall mode w,
  do_chart mode w = Ok None <-> ~ exists i, first_marker (directory w) i /\ ~ broken (directory w) i.
Proof.
  intros mode w. rewrite <- no_map. unfold do_chart. destruct (iter_maps w) as [|r rest]; [tauto|]. split; [|discriminate].
  intros H. apply obind_ok in H. destruct H as (bm & _ & H). destruct bm as [b|b].
  - apply obind_ok in H. destruct H as (m & _ & H). apply obind_ok in H. destruct H as (d & _ & H). discriminate.
  - apply obind_ok in H. destruct H as (d & _ & H). discriminate.
Qed.

Lemma chart_some : forall mode w c, unsigned_entries w -> do_chart mode w = Ok (Some c) ->
  exists r bm, block_ok (directory w) r /\ first_marker (directory w) (marker_index r)
    /\ map_decoded w r bm
    /\ match bm, c with
       | BMDoom b, ChartDoom d => exists m, from_bare b = Ok m /\ map_as_svg m = Ok d
       | BMHexen b, ChartHexen d => bare_map_as_svg mode hexen_chart_ops b = Ok d
       | _, _ => False
       end.
Proof.
  intros mode w c Hu H. unfold do_chart in H. destruct (iter_maps w) as [|r rest] eqn:E; [discriminate|].
  apply obind_ok in H. destruct H as (bm & Hp & H). apply (parse_doom_map_ok _ _ _ Hu) in Hp.
  exists r, bm. split; [apply block_points; rewrite E; left; reflexivity|]. split; [eapply first_map, E|]. split; [exact Hp|].
  destruct bm as [b|b].
  - apply obind_ok in H. destruct H as (m & Hm & H). apply obind_ok in H. destruct H as (d & Hd & [= <-]). eauto.
  - apply obind_ok in H. destruct H as (d & Hd & [= <-]). exact Hd.
Qed.

(** ** Parsed maps *)

Lemma decodes_length : forall {A} n (rec : list byte -> nat -> A -> Prop) buf rs, (0 < n)%nat -> decodes n rec buf rs ->
  (length rs <= length buf)%nat.
Proof.
  intros A n rec buf rs Hn (H & _). destruct rs as [|r rs]; [cbn; lia|].
  destruct (nth_error (r :: rs) (length rs)) as [x|] eqn:E; [|apply nth_error_None in E; cbn in E; lia].
  destruct (H _ _ E) as [L _]. cbn [length]. nia.
Qed.

Lemma lump_length : forall w r f d, lump_data w r f d -> (length d <= length (buffer w))%nat.
Proof.
  intros w r f d (k & e & _ & _ & _ & ->). unfold sub. rewrite firstn_length, skipn_length. lia.
Qed.

Lemma decoded_small : forall w r b, Z.of_nat (length (buffer w)) <= 2 ^ 63 -> map_decoded w r (BMDoom b) -> small_map b.
Proof.
  intros w r b Hw (dv & ds & dd & dl & dt & H1 & H2 & H3 & _ & _ & _ & D1 & D2 & D3 & _).
  apply lump_length in H1, H2, H3. apply decodes_length in D1; [|lia]. apply decodes_length in D2; [|lia]. apply decodes_length in D3; [|lia].
  unfold small_map. lia.
Qed.

Lemma decodes_in : forall {A} n (rec : list byte -> nat -> A -> Prop) buf rs r, decodes n rec buf rs -> In r rs -> exists o, rec buf o r.
Proof.
  intros A n rec buf rs r (H & _) Hr. apply In_nth_error in Hr. destruct Hr as (k & Hk). destruct (H k r Hk). eauto.
Qed.

Lemma at_i16 : forall l i, is_i16 (i16_at l i).
Proof. intros l i. pose proof (i16_at_range l i). unfold is_i16. lia. Qed.

Lemma decoded_bare : forall w r b, Z.of_nat (length (buffer w)) <= 2 ^ 63 -> map_decoded w r (BMHexen b) -> bare_i16 hexen_chart_ops b.
Proof.
  intros w r b Hw (dv & ds & dd & dl & dt & H1 & H2 & H3 & _ & _ & _ & D1 & D2 & D3 & D4 & D5).
  apply lump_length in H1, H2, H3. assert (E1 := D1). assert (E2 := D2). assert (E3 := D3).
  apply decodes_length in E1; [|lia]. apply decodes_length in E2; [|lia]. apply decodes_length in E3; [|lia].
  assert (HT : forall t, In t (m_things b) -> is_i16 (ht_x t) /\ is_i16 (ht_y t) /\ is_i16 (ht_num t)).
  { intros t Ht. destruct (decodes_in _ _ _ _ _ D5 Ht) as (o & ->). cbn [ht_x ht_y ht_num]. auto using at_i16. }
  split; [|split; [|split]].
  - split; [|split; [|lia]].
    + intros l Hl. destruct (decodes_in _ _ _ _ _ D4 Hl) as (o & ->). cbn. auto using at_i16.
    + intros sd Hs. destruct (decodes_in _ _ _ _ _ D3 Hs) as (o & _ & _ & _ & _ & _ & ->). apply at_i16.
  - intros p Hp. unfold places in Hp. apply in_app_or in Hp. destruct Hp as [Hp|Hp]; apply in_map_iff in Hp; destruct Hp as (v & <- & Hv).
    + destruct (decodes_in _ _ _ _ _ D1 Hv) as (o & ->). cbn. auto using at_i16.
    + destruct (HT v Hv) as (A & B & _). cbn. auto.
  - intros t Ht. apply HT, Ht.
  - lia.
Qed.

Lemma chart_err : forall mode w e, unsigned_entries w -> Z.of_nat (length (buffer w)) <= 2 ^ 63 ->
  do_chart mode w = Err e <->
  exists r f, block_ok (directory w) r /\ first_marker (directory w) (marker_index r) /\ In r (iter_maps w)
    /\ first_unreadable_lump w r f /\ lump_index f r = None /\ e = MissingMapLump (lump_string f).
Proof.
  intros mode w e Hu Hw. unfold do_chart. destruct (iter_maps w) as [|r rest] eqn:E.
  { split; [discriminate|]. intros (r & f & _ & _ & H & _). destruct H. }
  pose proof (parse_doom_map_err w r e Hu) as P. pose proof (parse_doom_map_ok w r) as K. split.
  - intros H. destruct (parse_doom_map w r) as [bm|e'|p] eqn:Ep; cbn [obind] in H; [|injection H as ->|discriminate].
    + exfalso. pose proof (proj1 (K bm Hu) eq_refl) as D. destruct bm as [b|b].
      * rewrite from_bare_conv in H. cbn [obind] in H.
        pose proof (chart_decides b (parsed_map_valid _ _ _ Ep) (decoded_small _ _ _ Hw D)) as C.
        destruct (map_as_svg (conv_map b)); cbn [obind decides] in *; [discriminate|contradiction|discriminate].
      * pose proof (bare_chart_decides hexen_chart_ops b mode (decoded_bare _ _ _ Hw D)) as C.
        destruct (bare_map_as_svg mode hexen_chart_ops b); cbn [obind decides] in *; [discriminate|contradiction|discriminate].
    + destruct (proj1 P eq_refl) as (f & H1 & H2 & H3). exists r, f.
      split; [apply block_points; rewrite E; left; reflexivity|]. split; [eapply first_map, E|]. split; [left; reflexivity|auto].
  - intros (r' & f & _ & F & Hin & H).
    assert (r' = r).
    { eapply first_map_unique; [exact E|rewrite E; exact Hin|exact F]. }
    subst r'. rewrite (proj2 P) by (exists f; exact H). reflexivity.
Qed.

Lemma bare_chart_spec : forall {L T} (ops : chart_ops L T) m mode, bare_i16 ops m ->
  (bare_refs ops m -> (mode = Checked -> fits ops m) ->
   exists d, bare_map_as_svg mode ops m = Ok d
     /\ (fits ops m -> exists lss ts ss, d_shapes d = concat lss ++ ts ++ ss
         /\ Forall2 (bare_line_drawn ops m) (m_lines m) lss
         /\ Forall2 (bare_thing_drawn ops) (m_things m) ts
         /\ length ss = length (m_sectors m)
         /\ (forall k sec s, nth_error (m_sectors m) k = Some sec -> nth_error ss k = Some s ->
               exists outlines, bare_sector_to_polygons (co_line ops) m (Z.of_nat k) = Ok outlines
                 /\ bare_sector_drawn m outlines sec s)
         /\ ((places ops m = [] /\ d_view d = (0, 0, 0, 0))
             \/ exists x0 y0 x1 y1, tight fst (places ops m) x0 x1 /\ tight snd (places ops m) y0 y1
                  /\ d_view d = (x0, - y1, x1 - x0, y1 - y0))
         /\ forall p, In p (places ops m) -> visible (d_view d) (d_scale d) p))
  /\ (~ (bare_refs ops m /\ (mode = Checked -> fits ops m)) ->
      bare_map_as_svg mode ops m = Panic PIndex \/ bare_map_as_svg mode ops m = Panic POverflow).
Proof.
  intros L T ops m mode Hm. pose proof (bare_chart_decides ops m mode Hm) as D.
  destruct (bare_map_as_svg mode ops m) as [d|e|p]; cbn [decides] in D; [|contradiction|].
  - destruct D as [D1 D2]. split; [|tauto]. intros _ _. exists d. split; [reflexivity|exact D1].
  - destruct D as [D1 D2]. split; [tauto|]. intros _. destruct D1 as [-> | ->]; auto.
Qed.

(** ** Colours *)

Lemma look_not_green : forall num, fst (thing_look num) <> "green"%string.
Proof.
  assert (H : forallb (fun a => match a_category a with PlayerStart => false | _ => true end) doom2_actors = true) by (vm_compute; reflexivity).
  intros num. unfold thing_look. destruct (lookup_thing_type num) as [a|] eqn:E; [|discriminate].
  unfold lookup_thing_type in E. apply find_some in E. destruct E as [E _]. rewrite forallb_forall in H. specialize (H a E).
  destruct (a_category a); discriminate.
Qed.

Lemma chart_not_green : forall mode w c, do_chart mode w = Ok (Some c) ->
  match c with
  | ChartDoom d => forall s, In s (d_shapes d) -> ~ green s
  | ChartHexen d => forall s, In s (d_shapes d) -> ~ green s
  end.
Proof.
  intros mode w c H. unfold do_chart in H. destruct (iter_maps w) as [|r rest]; [discriminate|].
  apply obind_ok in H. destruct H as (bm & _ & H). destruct bm as [b|b].
  - apply obind_ok in H. destruct H as (m & _ & H). apply obind_ok in H. destruct H as (d & Hd & [= <-]).
    unfold map_as_svg in Hd. apply obind_ok in Hd. destruct Hd as (ls & Hls & Hd). apply obind_ok in Hd. destruct Hd as (ss & Hss & [= <-]).
    cbn [d_shapes]. intros s Hs. apply in_app_or in Hs. destruct Hs as [Hs|Hs]; [|apply in_app_or in Hs; destruct Hs as [Hs|Hs]].
    + apply omap_ok in Hls. apply In_nth_error in Hs. destruct Hs as (k & Hk).
      destruct (MapSectorFacts.Forall2_nth _ _ _ _ _ Hls Hk) as (l & _ & E). unfold map_line_shape in E.
      apply obind_ok in E. destruct E as (? & _ & E). apply obind_ok in E. destruct E as (? & _ & E). apply obind_ok in E. destruct E as (? & _ & [= <-]). cbn. auto.
    + apply in_map_iff in Hs. destruct Hs as (t & <- & _). unfold map_thing_shape. pose proof (look_not_green (th_num t)) as G.
      destruct (thing_look (th_num t)) as [fill rad]. exact G.
    + apply omap_ok in Hss. apply In_nth_error in Hs. destruct Hs as (k & Hk).
      destruct (MapSectorFacts.Forall2_nth _ _ _ _ _ Hss Hk) as ([j sec] & _ & E). unfold map_sector_shape in E.
      apply obind_ok in E. destruct E as (? & _ & E). apply obind_ok in E. destruct E as (? & _ & E). apply obind_ok in E. destruct E as (? & _ & [= <-]). cbn. auto.
  - apply obind_ok in H. destruct H as (d & Hd & [= <-]). unfold bare_map_as_svg in Hd.
    apply obind_ok in Hd. destruct Hd as (ls & Hls & Hd). apply obind_ok in Hd. destruct Hd as (ts & Hts & Hd). apply obind_ok in Hd. destruct Hd as (ss & Hss & Hd).
    apply obind_ok in Hd. destruct Hd as (? & _ & Hd). apply obind_ok in Hd. destruct Hd as (? & _ & Hd). apply obind_ok in Hd. destruct Hd as (? & _ & [= <-]).
    cbn [d_shapes]. intros s Hs. apply in_app_or in Hs. destruct Hs as [Hs|Hs]; [|apply in_app_or in Hs; destruct Hs as [Hs|Hs]].
    + apply omap_ok in Hls. apply in_concat in Hs. destruct Hs as (ss' & H1 & H2). apply In_nth_error in H1. destruct H1 as (k & Hk).
      destruct (MapSectorFacts.Forall2_nth _ _ _ _ _ Hls Hk) as (l & _ & E). unfold bare_line_shapes in E.
      destruct (lo_vertices _ l), (lo_sides _ l).
      apply obind_ok in E. destruct E as (? & _ & E). apply obind_ok in E. destruct E as (? & _ & E). apply obind_ok in E. destruct E as (? & _ & [= <-]).
      destruct H2 as [<-|[<-|[]]]; cbn; auto.
    + apply omap_ok in Hts. apply In_nth_error in Hs. destruct Hs as (k & Hk).
      destruct (MapSectorFacts.Forall2_nth _ _ _ _ _ Hts Hk) as (t & _ & E). unfold bare_thing_shape in E.
      destruct (co_coords _ t). pose proof (look_not_green (as_u32 (co_num hexen_chart_ops t))) as G.
      destruct (thing_look _) as [fill rad]. apply obind_ok in E. destruct E as (? & _ & E). apply obind_ok in E. destruct E as (? & _ & [= <-]). exact G.
    + apply omap_ok in Hss. apply In_nth_error in Hs. destruct Hs as (k & Hk).
      destruct (MapSectorFacts.Forall2_nth _ _ _ _ _ Hss Hk) as ([j sec] & _ & E). unfold bare_sector_shape in E.
      apply obind_ok in E. destruct E as (? & _ & E). apply obind_ok in E. destruct E as (? & _ & E). apply obind_ok in E. destruct E as (? & _ & [= <-]). cbn. auto.
Qed.

(** ** Counterexamples *)

Definition far_thing_map : doom_map :=
  mk_bmap room_vertices [sample_sector] room_sides room_lines [mk_dthing 1000 1000 0 1 7].

Lemma far_thing_invisible : exists b m d z t, map_valid b /\ chart_refs b /\ from_bare b = Ok m /\ map_as_svg m = Ok d
  /\ view_is int_valued (d_view d) z /\ In t (m_things b) /\ ~ visible z (d_scale d) (dt_x t, dt_y t).
Proof.
  exists far_thing_map. eexists. eexists. exists (0, -64, 64, 64). exists (mk_dthing 1000 1000 0 1 7).
  split; [|split].
  - assert (V : map_valid room_map).
    { apply (parsed_map_valid full_wad (nth 0 (iter_maps full_wad) (new_block (MAPxx 1) 0))). vm_compute. reflexivity. }
    destruct V as (_ & V). split; [|exact V]. constructor; [|constructor]. unfold thing_valid, is_i16, is_u16. cbn. lia.
  - unfold chart_refs, has_item. cbn [far_thing_map m_lines m_vertices m_sides m_sectors room_lines In]. split; [|split].
    + intros l [<-|[<-|[<-|[<-|[]]]]]; cbn; lia.
    + intros l [<-|[<-|[<-|[<-|[]]]]]; cbn; lia.
    + intros _ l id [<-|[<-|[<-|[<-|[]]]]]; cbn; lia.
  - split; [vm_compute; reflexivity|]. split; [vm_compute; reflexivity|].
    split; [cbn; lia|]. split; [left; reflexivity|]. unfold visible. cbn. lia.
Qed.

Definition wide_map : binary_map hexen_line hexen_thing :=
  mk_bmap [mk_vertex (-20000) 0; mk_vertex 20000 0] [] [] [mk_hline 0 1 0 0 [0; 0; 0; 0; 0] (-1) (-1)] [].

Lemma wide_map_overflows : exists m d p, bare_i16 hexen_chart_ops m /\ bare_refs hexen_chart_ops m
  /\ bare_map_as_svg Checked hexen_chart_ops m = Panic POverflow
  /\ bare_map_as_svg Wrapping hexen_chart_ops m = Ok d
  /\ In p (places hexen_chart_ops m) /\ ~ visible (d_view d) (d_scale d) p.
Proof.
  exists wide_map. eexists. exists (20000, 0). split; [|split].
  - unfold bare_i16, i16_indices, is_i16. cbn.
    split; [split; [|split; [intros sd []|lia]]|split; [|split; [intros t []|lia]]].
    + intros l [<-|[]]. cbn. lia.
    + intros q [<-|[<-|[]]]; cbn; lia.
  - unfold bare_refs, has_item. cbn. split; [intros l [<-|[]]; cbn; lia|]. intros H. destruct H. reflexivity.
  - split; [vm_compute; reflexivity|]. split; [vm_compute; reflexivity|]. split; [cbn; auto|]. cbn. lia.
Qed.

Lemma start_gray : exists w d s t b r, do_chart Checked w = Ok (Some (ChartDoom d)) /\ parse_doom_map w r = Ok (BMDoom b)
  /\ m_things b = [t] /\ dt_num t = 1 /\ In s (d_shapes d) /\ square_about int_valued s (dt_x t, dt_y t) 8 "gray".
Proof.
  exists full_wad. eexists. exists (SRect (f64_of_Z 24) (f64_of_Z 24) 16 16 "gray"). exists (mk_dthing 32 32 90 1 7), room_map.
  exists (nth 0 (iter_maps full_wad) (new_block (MAPxx 1) 0)).
  split; [vm_compute; reflexivity|]. split; [vm_compute; reflexivity|]. split; [reflexivity|]. split; [reflexivity|].
  split; [do 4 right; left; vm_compute; reflexivity|]. do 2 eexists. split; [reflexivity|]. vm_compute. auto.
Qed.
