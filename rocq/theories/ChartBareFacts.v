(** Proofs about the chart of a bare map (C78, C79). *)

From Coq Require Import String List ZArith QArith Bool Lia ZifyBool.
From Verif Require Import Base BaseFacts ParseWad ArchiveWad ParseMap SpecLumps Float MapModel SpecMapModel
  MapFacts SectorPolys SpecSector SectorFacts MapSectorFacts Actors Chart SpecRoute DilateFacts SpecChart ChartFacts.
Import ListNotations.
Local Open Scope Z_scope.

Lemma wrap_id : forall z, is_i16 z -> wrap_i16 z = z.
Proof. intros z H. unfold wrap_i16, is_i16 in *. rewrite Z.mod_small by lia. lia. Qed.

Lemma in_i16_spec : forall z, in_i16 z = true <-> is_i16 z.
Proof. intros z. unfold in_i16, is_i16. lia. Qed.

Definition stops (p : panic) : Prop := p = PIndex \/ p = POverflow.

Lemma i16_result_spec : forall mode z,
  decides stops (mode = Checked -> is_i16 z) (fun r => is_i16 z -> r = z) (i16_result mode z).
Proof.
  intros mode z. unfold i16_result. destruct (in_i16 z) eqn:E.
  - apply in_i16_spec in E. cbn. auto.
  - assert (N : ~ is_i16 z) by (rewrite <- in_i16_spec; congruence).
    destruct mode; cbn; [unfold stops|]; intuition discriminate.
Qed.

Lemma i16_result_cases : forall mode z,
  (i16_result mode z = Ok (wrap_i16 z) /\ (mode = Checked -> is_i16 z))
  \/ (i16_result mode z = Panic POverflow /\ mode = Checked /\ ~ is_i16 z).
Proof.
  intros mode z. unfold i16_result. destruct (in_i16 z) eqn:E.
  - apply in_i16_spec in E. left. rewrite wrap_id by exact E. auto.
  - assert (N : ~ is_i16 z) by (rewrite <- in_i16_spec; congruence).
    destruct mode; [right|left]; repeat split; auto; discriminate.
Qed.

Lemma decides_index : forall {A} (l : list A) z, is_i16 z -> Z.of_nat (length l) <= 2 ^ 63 ->
  decides stops (has_item l z) (item_at l z) (index l (as_usize z)).
Proof.
  intros A l z Hz Hl. pose proof (index_i16 l z Hz Hl) as H. unfold stops.
  destruct (index l (as_usize z)); cbn; [tauto|assumption|]. destruct H as [-> H]. auto.
Qed.

(** ** The space around a line *)

Definition roomy (v : bare_vertex) : Prop := -32752 <= vx v <= 32751 /\ -32752 <= vy v <= 32751.

Ltac head_of t := match t with obind ?m _ => head_of m | _ => t end.

Lemma bare_dilation_spec : forall mode v0 v1,
  is_i16 (vx v0) -> is_i16 (vy v0) -> is_i16 (vx v1) -> is_i16 (vy v1) ->
  decides stops (mode = Checked -> roomy v0 /\ roomy v1)
    (fun d => roomy v0 -> roomy v1 -> corners d = hexagon (vx v0, vy v0) (vx v1, vy v1)) (bare_dilation mode v0 v1).
Proof.
  assert (G : forall mode top bottom (c : bool) (z : bool), is_i16 (vx top) -> is_i16 (vy top) -> is_i16 (vx bottom) -> is_i16 (vy bottom) ->
    let corner (v : bare_vertex) (right up : bool) :=
      let* x := (if right then add_i16 else sub_i16) mode (vx v) 16 in
      let* y := (if up then add_i16 else sub_i16) mode (vy v) 16 in
      Ok (x, y) in
    decides stops (mode = Checked -> roomy top /\ roomy bottom)
      (fun ps => roomy top -> roomy bottom -> ps = if c then
         [(vx top - 16, vy top - 16); (vx top - 16, vy top + 16); (vx top + 16, vy top + 16); (vx bottom + 16, vy bottom + 16); (vx bottom + 16, vy bottom - 16); (vx bottom - 16, vy bottom - 16)]%Z
       else
         [(vx top - 16, vy top + 16); (vx top + 16, vy top + 16); (vx top + 16, vy top - 16); (vx bottom + 16, vy bottom - 16); (vx bottom - 16, vy bottom - 16); (vx bottom - 16, vy bottom + 16)]%Z)
      (if c then
       omap (fun c : unit -> outcome (Z * Z) => c tt)
         [(fun _ => corner top false false); (fun _ => corner top false true); (fun _ => corner top true true);
          (fun _ => corner bottom true true); (fun _ => corner bottom true false);
          (fun _ => corner bottom false false)]
     else
       omap (fun c => c tt)
         [(fun _ => corner top false true); (fun _ => corner top true true); (fun _ => corner top true false);
          (fun _ => corner bottom true false); (fun _ => corner bottom false false);
          (fun _ => corner bottom false true)])).
  { intros mode top bottom c z I0 I1 I2 I3 corner. subst corner. unfold add_i16, sub_i16, roomy, is_i16 in *.
    destruct c; cbn [omap].
    all: repeat (match goal with |- decides _ _ _ ?t => let h := head_of t in let O := fresh "O" in match h with i16_result ?mo ?w =>
        destruct (i16_result_cases mo w) as [[E O]|(E & Em & O)]; rewrite E; clear E; unfold is_i16 in O; cbn [obind];
        [|cbn [decides]; split; [right; reflexivity|]; intros C; specialize (C Em); clear - C O; lia] end end).
    all: cbn [decides]; split; [intros R0 R1; repeat rewrite wrap_id by (unfold is_i16; lia); reflexivity|].
    all: intros Em; repeat match goal with O : _ = Checked -> _ |- _ => specialize (O Em) end; lia. }
  intros mode v0 v1 I0 J0 I1 J1. unfold bare_dilation, hexagon. cbn [fst snd].
  replace (vy v0 >? vy v1) with (vy v1 <? vy v0) by lia.
  assert (K : forall (Q : Prop) (zs : list (Z * Z)) (R : Prop) (m : outcome (list (Z * Z))), zs <> [] ->
    decides stops Q (fun ps => R -> ps = zs) m ->
    decides stops Q (fun d => R -> corners d = zs)
      (let* ps := m in match ps with
        | [] => Ok []
        | (x, y) :: others => Ok (MoveTo x y :: map (fun p => LineTo (fst p) (snd p)) others)
        end)).
  { intros Q zs R m Hz D. destruct m as [ps|e|p]; cbn [obind decides] in *; auto. destruct D as [D1 D2].
    assert (S : forall l : list (Z * Z), corners (map (fun p => LineTo (fst p) (snd p)) l) = l).
    { clear. induction l as [|[x y] l IH]; cbn; [reflexivity|]. unfold corners in IH. rewrite IH. reflexivity. }
    destruct ps as [|[x y] others]; cbn; (split; [|exact D2]); intros HR; specialize (D1 HR).
    - congruence.
    - unfold corners in S. rewrite S. exact D1. }
  destruct (vy v1 <? vy v0).
  - match goal with |- decides _ ?Q (fun d => roomy v0 -> roomy v1 -> corners d = ?zs) _ =>
      eapply (decides_weaken _ _ _ (fun d => roomy v0 /\ roomy v1 -> corners d = zs)) end; [|reflexivity|cbn beta; tauto].
    apply K; [destruct (_ <? _); discriminate|].
    eapply decides_weaken; [apply (G mode v0 v1 (vx v0 <? vx v1) true); assumption|reflexivity|].
    cbn beta. intros ps _ H [R0 R1]. apply (H R0 R1).
  - match goal with |- decides _ ?Q (fun d => roomy v0 -> roomy v1 -> corners d = ?zs) _ =>
      eapply (decides_weaken _ (mode = Checked -> roomy v1 /\ roomy v0) _ (fun d => roomy v1 /\ roomy v0 -> corners d = zs)) end; [|tauto|cbn beta; tauto].
    apply K; [destruct (_ <? _); discriminate|].
    eapply decides_weaken; [apply (G mode v1 v0 (vx v1 <? vx v0) true); assumption|reflexivity|].
    cbn beta. intros ps _ H [R0 R1]. apply (H R0 R1).
Qed.

Lemma neg_i16_result : forall mode z, is_i16 z -> neg_i16 mode z = i16_result mode (- z).
Proof.
  intros mode z H. unfold neg_i16, i16_result, in_i16, is_i16 in *. destruct (Z.eqb_spec z (-32768)) as [->|N].
  - destruct mode; reflexivity.
  - replace (_ && _) with true by lia. reflexivity.
Qed.

Lemma Forall2_impl_in : forall {A B} (P Q : A -> B -> Prop) l r,
  (forall a b, In a l -> P a b -> Q a b) -> Forall2 P l r -> Forall2 Q l r.
Proof.
  intros A B P Q l r H F. induction F; constructor; [apply H; [left; reflexivity|assumption]|]. apply IHF. intros; apply H; [right|]; assumption.
Qed.

(** ** Extents *)

Lemma extend_spec : forall ps e,
  let e' := fold_left extend ps e in
  (minx e' <= minx e /\ maxx e <= maxx e' /\ miny e' <= miny e /\ maxy e <= maxy e')
  /\ (forall p, In p ps -> minx e' <= fst p <= maxx e' /\ miny e' <= snd p <= maxy e')
  /\ (minx e' = minx e \/ exists p, In p ps /\ fst p = minx e')
  /\ (maxx e' = maxx e \/ exists p, In p ps /\ fst p = maxx e')
  /\ (miny e' = miny e \/ exists p, In p ps /\ snd p = miny e')
  /\ (maxy e' = maxy e \/ exists p, In p ps /\ snd p = maxy e').
Proof.
  induction ps as [|[x y] ps IH]; intros e; cbn [fold_left].
  - cbn zeta. split; [lia|]. split; [intros p []|]. auto.
  - specialize (IH (extend e (x, y))). cbn zeta in *. set (e' := fold_left extend ps (extend e (x, y))) in *. clearbody e'.
    destruct IH as ((A1 & A2 & A3 & A4) & A5 & A6 & A7 & A8 & A9). unfold extend in *. cbn [minx maxx miny maxy] in *.
    assert (B : minx e' <= minx e /\ maxx e <= maxx e' /\ miny e' <= miny e /\ maxy e <= maxy e' /\
                minx e' <= x <= maxx e' /\ miny e' <= y <= maxy e').
    { destruct (x <? minx e) eqn:?, (x >? maxx e) eqn:?, (y <? miny e) eqn:?, (y >? maxy e) eqn:?; lia. }
    split; [tauto|]. split; [intros p [<-|Hp]; [cbn [fst snd]; tauto|auto]|].
    repeat split.
    + destruct A6 as [A6|(p & H1 & H2)]; [|right; exists p; cbn; auto]. destruct (x <? minx e); [|auto]. right. exists (x, y). cbn. auto.
    + destruct A7 as [A7|(p & H1 & H2)]; [|right; exists p; cbn; auto]. destruct (x >? maxx e); [|auto]. right. exists (x, y). cbn. auto.
    + destruct A8 as [A8|(p & H1 & H2)]; [|right; exists p; cbn; auto]. destruct (y <? miny e); [|auto]. right. exists (x, y). cbn. auto.
    + destruct A9 as [A9|(p & H1 & H2)]; [|right; exists p; cbn; auto]. destruct (y >? maxy e); [|auto]. right. exists (x, y). cbn. auto.
Qed.

Lemma places_extent : forall {L T} (ops : chart_ops L T) m,
  let e := fold_left extend (places ops m) (extent_start ops m) in
  (places ops m = [] /\ e = mk_extent 0 0 0 0)
  \/ (tight fst (places ops m) (minx e) (maxx e) /\ tight snd (places ops m) (miny e) (maxy e)).
Proof.
  intros L T ops m. destruct (places ops m) as [|p0 ps0] eqn:Ep.
  - left. split; [reflexivity|]. unfold places in Ep. apply app_eq_nil in Ep. destruct Ep as [E1 E2].
    apply map_eq_nil in E1, E2. unfold extent_start. rewrite E1, E2. reflexivity.
  - right. rewrite <- Ep.
    assert (S : exists p, In p (places ops m) /\ extent_start ops m = mk_extent (fst p) (snd p) (fst p) (snd p)).
    { unfold extent_start, places in *. destruct (m_vertices m) as [|v vs].
      - destruct (m_things m) as [|t ts]; [discriminate|]. exists (co_coords ops t). split; [left; reflexivity|].
        destruct (co_coords ops t); reflexivity.
      - exists (vx v, vy v). split; [left; reflexivity|reflexivity]. }
    destruct S as (p & Hp & ->). pose proof (extend_spec (places ops m) (mk_extent (fst p) (snd p) (fst p) (snd p))) as H.
    cbn zeta in H. set (e := fold_left _ _ _) in *. clearbody e. cbn [minx maxx miny maxy] in H.
    destruct H as (_ & A & H1 & H2 & H3 & H4). unfold tight. repeat split; try (apply A; assumption).
    + destruct H1 as [->|(q & Q1 & Q2)]; eauto.
    + destruct H2 as [->|(q & Q1 & Q2)]; eauto.
    + destruct H3 as [->|(q & Q1 & Q2)]; eauto.
    + destruct H4 as [->|(q & Q1 & Q2)]; eauto.
Qed.

Section BareChart.
  Context {L T : Type} (ops : chart_ops L T) (m : binary_map L T) (mode : build).
  Hypothesis Hm : bare_i16 ops m.

  Definition line_ends (l : L) : Prop :=
    has_item (m_vertices m) (fst (lo_vertices (co_line ops) l)) /\ has_item (m_vertices m) (snd (lo_vertices (co_line ops) l)).
  Definition line_room (l : L) : Prop := forall v,
    item_at (m_vertices m) (fst (lo_vertices (co_line ops) l)) v \/ item_at (m_vertices m) (snd (lo_vertices (co_line ops) l)) v ->
    roomy v.

  Lemma vertex_at_i16 : forall z v, item_at (m_vertices m) z v -> is_i16 (vx v) /\ is_i16 (vy v).
  Proof using Hm.
    intros z v (_ & H). destruct Hm as (_ & P & _). apply (P (vx v, vy v)). unfold places. apply in_or_app. left.
    apply in_map_iff. exists v. split; [reflexivity|]. eauto using nth_error_In.
  Qed.

  Lemma bare_line_spec : forall l, In l (m_lines m) ->
    decides stops (line_ends l /\ (mode = Checked -> line_room l)) (fun ss => line_room l -> bare_line_drawn ops m l ss)
      (bare_line_shapes mode ops m l).
  Proof using Hm.
    intros l Hl. destruct Hm as ((Hi & _ & Lv & _) & _). destruct (Hi l Hl) as (I0 & I1 & _).
    unfold bare_line_shapes, line_ends, line_room, bare_line_drawn, exactly.
    assert (BC : forall c, bare_line_class ops l c <-> c = "line"%string
      \/ sided (fst (lo_sides (co_line ops) l)) (snd (lo_sides (co_line ops) l)) c
      \/ (co_special ops l = true /\ c = "has-special"%string)).
    { intros c. split.
      - intros [|c' H|H]; auto.
      - intros [-> | [H|[H ->]]]; [constructor|apply bl_sides, H|apply bl_special, H]. }
    destruct (lo_vertices (co_line ops) l) as [a b]. destruct (lo_sides (co_line ops) l) as [f k]. cbn [fst snd] in *.
    pose proof (decides_index (m_vertices m) a I0 Lv) as Da. destruct (index (m_vertices m) (as_usize a)) as [v0|e|p]; cbn [obind decides] in *; [|contradiction|tauto].
    destruct Da as [Da Ha].
    pose proof (decides_index (m_vertices m) b I1 Lv) as Db. destruct (index (m_vertices m) (as_usize b)) as [v1|e|p]; cbn [obind decides] in *; [|contradiction|tauto].
    destruct Db as [Db Hb].
    assert (RR : (forall v, item_at (m_vertices m) a v \/ item_at (m_vertices m) b v -> roomy v) <-> roomy v0 /\ roomy v1).
    { split; [auto|]. intros [R0 R1] v [V|V]; [rewrite (item_at_inj _ _ _ _ V Da)|rewrite (item_at_inj _ _ _ _ V Db)]; assumption. }
    destruct (vertex_at_i16 _ _ Da) as [X0 Y0], (vertex_at_i16 _ _ Db) as [X1 Y1].
    pose proof (bare_dilation_spec mode v0 v1 X0 Y0 X1 Y1) as D.
    destruct (bare_dilation mode v0 v1) as [d|e|p]; cbn [obind decides] in *; [|contradiction|tauto].
    destruct D as [D1 D2]. split; [|tauto]. intros R. apply RR in R. destruct R as [R0 R1]. specialize (D1 R0 R1).
    exists v0, v1. do 3 eexists. split; [exact Da|]. split; [exact Db|]. split; [reflexivity|].
    split; [unfold line_between; do 4 eexists; split; [reflexivity|]; auto|].
    split; [|intros x y; rewrite D1; apply hexagon_region].
    pose proof (sides_class_sided f k) as SC. remember (sides_class (f =? -1) (k =? -1)) as sc eqn:Esc.
    assert (Nsc : sc = "zero-sided"%string \/ sc = "one-sided"%string \/ sc = "two-sided"%string).
    { subst sc. unfold sides_class. destruct (_ && _); [auto|]. destruct (_ || _); auto. }
    clear Esc. split.
    - destruct Nsc as [->|[->| ->]], (co_special ops l); cbn [app]; nodup.
    - intros c. rewrite BC, <- SC. destruct (co_special ops l); cbn [app In].
      + split; [intros [<-|[H|[<-|[]]]]; auto|intros [-> | [H|[_ ->]]]; auto].
      + split; [intros [<-|[H|[]]]; auto|intros [-> | [H|[H _]]]; auto; discriminate].
  Qed.

  Definition thing_room (t : T) : Prop := forall fill r, thing_style (co_num ops t) fill r ->
    -32768 <= fst (co_coords ops t) - r /\ -32768 <= snd (co_coords ops t) - r.

  Lemma bare_thing_spec : forall t, In t (m_things m) ->
    decides stops (mode = Checked -> thing_room t) (fun s => thing_room t -> bare_thing_drawn ops t s) (bare_thing_shape mode ops t).
  Proof using Hm.
    intros t Ht. destruct Hm as (_ & P & N & _). specialize (N t Ht).
    assert (C : is_i16 (fst (co_coords ops t)) /\ is_i16 (snd (co_coords ops t))).
    { apply P. unfold places. apply in_or_app. right. apply in_map, Ht. }
    unfold bare_thing_shape, thing_room, bare_thing_drawn, square_about. destruct (co_coords ops t) as [x y]. cbn [fst snd] in *. destruct C as [Cx Cy].
    pose proof (look_style _ N) as S. pose proof (look_radius (as_u32 (co_num ops t))) as R.
    assert (U : forall fill r, thing_style (co_num ops t) fill r -> r = snd (thing_look (as_u32 (co_num ops t)))) by (intros; eapply style_radius; eauto).
    destruct (thing_look (as_u32 (co_num ops t))) as [fill r]. cbn [fst snd] in *.
    rewrite (wrap_id r) by (unfold is_i16; lia).
    assert (RR : (forall fill r, thing_style (co_num ops t) fill r -> -32768 <= x - r /\ -32768 <= y - r) <-> -32768 <= x - r /\ -32768 <= y - r).
    { split; [intros H; exact (H _ _ S)|]. intros H f' r' S'. rewrite (U _ _ S'). exact H. }
    apply (decides_weaken _ (mode = Checked -> -32768 <= x - r /\ -32768 <= y - r) _
      (fun s => -32768 <= x - r /\ -32768 <= y - r -> exists fill r, thing_style (co_num ops t) fill r
         /\ exists x0 y0, s = SRect x0 y0 (2 * r) (2 * r) fill /\ x0 = x - r /\ y0 = y - r)); [|tauto|tauto].
    clear RR U. unfold sub_i16, is_i16 in *.
    destruct (i16_result_cases mode (x - r)) as [[-> O]|(-> & Em & O)]; unfold is_i16 in O; cbn [obind decides].
    2: { split; [right; reflexivity|]. intros H. specialize (H Em). lia. }
    destruct (i16_result_cases mode (y - r)) as [[-> O']|(-> & Em & O')]; unfold is_i16 in O'; cbn [obind decides].
    2: { split; [right; reflexivity|]. intros H. specialize (H Em). lia. }
    split; [|intros Em; specialize (O Em); specialize (O' Em); lia].
    intros H. exists fill, r. split; [exact S|]. do 2 eexists. split; [rewrite (Z.mul_comm 2 r); reflexivity|].
    split; apply wrap_id; unfold is_i16; lia.
  Qed.

  Definition side_refs : Prop := forall l id, In l (m_lines m) ->
    id = fst (lo_sides (co_line ops) l) \/ id = snd (lo_sides (co_line ops) l) -> id = -1 \/ has_item (m_sides m) id.

  Lemma side_refs_dec : side_refs \/ ~ side_refs.
  Proof.
    unfold side_refs. set (ok := fun id => (id =? -1) || ((0 <=? id) && (id <? Z.of_nat (length (m_sides m))))).
    assert (O : forall id, ok id = true <-> id = -1 \/ has_item (m_sides m) id) by (intros id; unfold ok, has_item; lia).
    destruct (forallb (fun l => ok (fst (lo_sides (co_line ops) l)) && ok (snd (lo_sides (co_line ops) l))) (m_lines m)) eqn:E.
    - left. intros l id Hl Hid. rewrite forallb_forall in E. specialize (E l Hl). apply andb_prop in E. rewrite !O in E.
      destruct Hid as [-> | ->]; tauto.
    - right. intros C. apply Bool.not_true_iff_false in E. apply E. apply forallb_forall. intros l Hl. apply andb_true_intro. rewrite !O.
      split; apply (C l); auto.
  Qed.

  Lemma bare_sector_shape_spec : forall k sec, nth_error (m_sectors m) k = Some sec -> (forall l, In l (m_lines m) -> line_ends l) ->
    decides stops side_refs
      (fun s => exists outlines, bare_sector_to_polygons (co_line ops) m (Z.of_nat k) = Ok outlines /\ bare_sector_drawn m outlines sec s)
      (bare_sector_shape ops m (k, sec)).
  Proof using Hm.
    intros k sec Hk Hends. unfold bare_sector_shape.
    assert (Bk : 0 <= Z.of_nat k < 2 ^ 64).
    { assert (k < length (m_sectors m))%nat by (apply nth_error_Some; congruence). destruct Hm as (_ & _ & _ & H1). lia. }
    destruct Hm as (Hi & _). destruct (bare_sector_spec (co_line ops) m (Z.of_nat k) Bk Hi) as [HY HN].
    assert (BV : forall v, border_vertex (co_line ops) m (Z.of_nat k) v -> has_item (m_vertices m) v).
    { intros v (l & (Hl & _) & [-> | ->]); apply (Hends l Hl). }
    destruct side_refs_dec as [D|D].
    - destruct HY as (os & E & _ & Hin & Hne & _); [split; [exact D|exact BV]|]. rewrite E. cbn [obind].
      assert (EP : exists points, omap (omap (fun v => let* b := index (m_vertices m) v in Ok (vx b, vy b))) os = Ok points
        /\ Forall2 (Forall2 (fun v p => exists bv, item_at (m_vertices m) v bv /\ p = (vx bv, vy bv))) os points).
      { assert (V : forall v, In v (concat os) -> has_item (m_vertices m) v) by (intros v Hv; apply BV, Hin, Hv).
        clear - V. induction os as [|o os IH]; cbn [omap].
        - exists []. split; [reflexivity|constructor].
        - assert (EO : exists ps, omap (fun v => let* b := index (m_vertices m) v in Ok (vx b, vy b)) o = Ok ps
            /\ Forall2 (fun v p => exists bv, item_at (m_vertices m) v bv /\ p = (vx bv, vy bv)) o ps).
          { assert (W : forall v, In v o -> has_item (m_vertices m) v) by (intros v Hv; apply V; cbn [concat]; apply in_or_app; auto).
            clear - W. induction o as [|v o IH]; cbn [omap].
            - exists []. split; [reflexivity|constructor].
            - destruct IH as (ps & -> & Hps); [intros; apply W; right; assumption|].
              assert (HV : has_item (m_vertices m) v) by (apply W; left; reflexivity).
              unfold has_item in HV. unfold index, zlen. replace (_ && _) with true by lia.
              destruct (nth_error (m_vertices m) (Z.to_nat v)) as [bv|] eqn:En; [|apply nth_error_None in En; lia].
              cbn [obind]. eexists. split; [reflexivity|]. constructor; [|exact Hps]. exists bv. split; [split; [lia|exact En]|reflexivity]. }
          destruct EO as (ps & -> & Hps). cbn [obind].
          destruct IH as (pss & -> & Hpss); [intros v Hv; apply V; cbn [concat]; apply in_or_app; auto|].
          cbn [obind]. eexists. split; [reflexivity|]. constructor; assumption. }
      destruct EP as (points & EP & Hpts). rewrite EP. cbn [obind].
      destruct (outlines_path_spec points) as (d & Ed & Sd).
      { intros C. apply In_nth_error in C. destruct C as (j & Hj). destruct (MapSectorFacts.Forall2_nth _ _ _ _ _ Hpts Hj) as (o & Ho & Fo).
        inversion Fo; subst. apply Hne. eauto using nth_error_In. }
      rewrite Ed. cbn [obind decides]. split; [|exact D]. exists os. split; [reflexivity|].
      do 4 eexists. split; [reflexivity|]. split; [exact Hpts|]. split; [exact Sd|]. split.
      + intros t. destruct (Z.eqb_spec (sc_tag sec) 0) as [E0|E0]; cbn [negb]; split; intuition congruence.
      + assert (BC : forall c, bare_sector_class sec c <-> c = "sector"%string \/ (sc_type sec = 9 /\ c = "secret"%string)).
        { intros c. split; [intros [|H]; auto|]. intros [-> | [H ->]]; [constructor|apply bs_secret, H]. }
        split; [destruct (sc_type sec =? 9); cbn [app]; nodup|]. intros c. rewrite BC.
        destruct (Z.eqb_spec (sc_type sec) 9); cbn [app In]; intuition.
    - rewrite HN by (intros [C _]; exact (D C)). cbn. unfold stops. auto.
  Qed.

  Theorem bare_chart_decides :
    decides stops (bare_refs ops m /\ (mode = Checked -> fits ops m))
      (fun d => fits ops m -> exists lss ts ss, d_shapes d = concat lss ++ ts ++ ss
         /\ Forall2 (bare_line_drawn ops m) (m_lines m) lss
         /\ Forall2 (bare_thing_drawn ops) (m_things m) ts
         /\ length ss = length (m_sectors m)
         /\ (forall k sec s, nth_error (m_sectors m) k = Some sec -> nth_error ss k = Some s ->
               exists outlines, bare_sector_to_polygons (co_line ops) m (Z.of_nat k) = Ok outlines
                 /\ bare_sector_drawn m outlines sec s)
         /\ ((places ops m = [] /\ d_view d = (0, 0, 0, 0))
             \/ exists x0 y0 x1 y1, tight fst (places ops m) x0 x1 /\ tight snd (places ops m) y0 y1
                  /\ d_view d = (x0, - y1, x1 - x0, y1 - y0))
         /\ forall p, In p (places ops m) -> visible (d_view d) (d_scale d) p)
      (bare_map_as_svg mode ops m).
  Proof using Hm.
    unfold bare_map_as_svg. rewrite <- fold_left_app. fold (places ops m).
    pose proof (places_extent ops m) as PE. cbn zeta in PE. set (e := fold_left _ _ _) in *. clearbody e.
    assert (E1 : forall x : Z * Z, In x (places ops m) -> is_i16 (fst x) /\ is_i16 (snd x)) by apply Hm.
    assert (BE : is_i16 (minx e) /\ is_i16 (maxx e) /\ is_i16 (miny e) /\ is_i16 (maxy e)).
    { destruct PE as [[_ ->]|[(_ & (p1 & P1 & <-) & (p2 & P2 & <-)) (_ & (p3 & P3 & <-) & (p4 & P4 & <-))]].
      - unfold is_i16; cbn; lia.
      - repeat split; apply E1; assumption. }
    set (room := (is_i16 (- maxy e) /\ is_i16 (maxx e - minx e) /\ is_i16 (maxy e - miny e))).
    assert (FE : room <-> (forall p q, In p (places ops m) -> In q (places ops m) -> fst p - fst q <= 32767 /\ snd p - snd q <= 32767)
      /\ (places ops m = [] \/ exists p, In p (places ops m) /\ snd p <> -32768)).
    { subst room. destruct PE as [[-> ->]|[(A1 & (p1 & P1 & Q1) & (p2 & P2 & Q2)) (A2 & (p3 & P3 & Q3) & (p4 & P4 & Q4))]].
      - unfold is_i16. cbn. split; [|lia]. intros _. split; [intros p q []|auto].
      - unfold is_i16 in *. split.
        + intros (H1 & H2 & H3). split.
          * intros p q Hp Hq. pose proof (A1 p Hp). pose proof (A1 q Hq). pose proof (A2 p Hp). pose proof (A2 q Hq). lia.
          * right. exists p4. split; [exact P4|]. lia.
        + intros (H1 & H2). destruct (H1 p2 p1 P2 P1) as [HX _]. destruct (H1 p4 p3 P4 P3) as [_ HY].
          pose proof (A1 p2 P2). pose proof (A2 p4 P4). destruct H2 as [H2|(p & Hp & H2)]; [rewrite H2 in P1; destruct P1|].
          pose proof (A2 p Hp). specialize (E1 p Hp). lia. }
    match goal with |- decides _ ?Q ?P _ =>
      eapply (decides_weaken _ (((forall l, In l (m_lines m) -> line_ends l /\ (mode = Checked -> line_room l))
        /\ (forall t, In t (m_things m) -> mode = Checked -> thing_room t)
        /\ (forall x, In x (enumerate (m_sectors m)) -> side_refs)
        /\ (mode = Checked -> room))) Q P P) end; [| |auto].
    2: { unfold bare_refs, fits. fold side_refs.
         assert (H3 : (forall x, In x (enumerate (m_sectors m)) -> side_refs) <-> (m_sectors m <> [] -> side_refs)).
         { split.
           - intros H N. destruct (m_sectors m) as [|sec ss]; [congruence|]. apply (H (0%nat, sec)). apply enumerate_in. reflexivity.
           - intros H [k sec] Hin. apply H. intros E. apply enumerate_in in Hin. rewrite E in Hin. destruct k; discriminate. }
         rewrite H3. clear H3. unfold line_ends, line_room, thing_room, roomy. rewrite FE. split.
         - intros (A & B & C & D). split; [split; [intros l Hl; apply A, Hl|exact C]|].
           intros Em. split; [intros l v Hl; apply (A l Hl); exact Em|]. split; [intros t fill r Ht; apply (B t Ht Em)|]. exact (D Em).
         - intros ((A & B) & C). split; [intros l Hl; split; [apply A, Hl|intros Em v; apply (C Em); exact Hl]|].
           split; [intros t Ht Em fill r; apply (C Em); exact Ht|]. split; [exact B|]. intros Em. apply (C Em). }
    eapply decides_bind; [apply decides_omap; intros l Hl; apply bare_line_spec, Hl|]. intros lss Hends Hlss. cbn beta.
    eapply decides_bind; [apply decides_omap; intros t Ht; apply bare_thing_spec, Ht|]. intros ts _ Hts. cbn beta.
    eapply decides_bind.
    { apply (decides_omap stops (fun _ => side_refs) (fun x s => exists outlines, bare_sector_to_polygons (co_line ops) m (Z.of_nat (fst x)) = Ok outlines
               /\ bare_sector_drawn m outlines (snd x) s)).
      intros [k sec] Hx. apply enumerate_in in Hx. apply bare_sector_shape_spec; [exact Hx|]. intros l Hl. apply Hends, Hl. }
    intros ss _ Hss. cbn beta. unfold sub_i16. rewrite neg_i16_result by apply BE.
    destruct (i16_result_cases mode (- maxy e)) as [[-> O1]|(-> & Em & O1)]; cbn [obind decides].
    2: { split; [right; reflexivity|]. intros H. apply O1. apply (H Em). }
    destruct (i16_result_cases mode (maxx e - minx e)) as [[-> O2]|(-> & Em & O2)]; cbn [obind decides].
    2: { split; [right; reflexivity|]. intros H. apply O2. apply (H Em). }
    destruct (i16_result_cases mode (maxy e - miny e)) as [[-> O3]|(-> & Em & O3)]; cbn [obind decides].
    2: { split; [right; reflexivity|]. intros H. apply O3. apply (H Em). }
    split; [|intros Em; subst room; auto].
    intros F. assert (R : room) by (apply FE; split; apply F). destruct R as (R1 & R2 & R3).
    rewrite !wrap_id by assumption. cbn [d_shapes d_view d_scale].
    exists lss, ts, ss. split; [reflexivity|].
    split; [eapply Forall2_impl_in; [|exact Hlss]; cbn beta; intros l y Hl H; apply H; intros v; apply F, Hl|].
    split; [eapply Forall2_impl_in; [|exact Hts]; cbn beta; intros t y Ht H; apply H; intros fill r; apply F, Ht|].
    split; [apply Forall2_len in Hss; rewrite enumerate_length in Hss; symmetry; exact Hss|].
    split.
    { intros k sec s H1 H2. apply enumerate_nth in H1. destruct (Forall2_nth_l _ _ _ _ _ Hss H1) as (s' & H3 & H4). rewrite H2 in H3.
      injection H3 as <-. exact H4. }
    split.
    - destruct PE as [[A ->]|[A B]]; [left; auto|]. right. exists (minx e), (miny e), (maxx e), (maxy e). auto.
    - intros p Hp. destruct PE as [[A _]|[(A & _) (B & _)]]; [rewrite A in Hp; destruct Hp|].
      specialize (A p Hp). specialize (B p Hp). unfold visible. cbn [fst snd]. lia.
  Qed.
End BareChart.

(** *** The classes of lines in the two formats *)

Lemma hexen_classes : forall l c, bare_line_class hexen_chart_ops l c <->
  c = "line"%string \/ sided (hl_front l) (hl_back l) c \/ (hl_special l <> 0 /\ c = "has-special"%string).
Proof.
  intros l c. split.
  - intros [|d H|H]; [auto|right; left; exact H|]. right. right. cbn in H. split; [lia|reflexivity].
  - intros [->|[H|(H & ->)]]; [constructor|now apply bl_sides|]. apply bl_special. cbn. lia.
Qed.
Lemma doom_classes : forall l c, bare_line_class doom_chart_ops l c <->
  c = "line"%string \/ sided (dl_front l) (dl_back l) c \/ (dl_special l <> 0 /\ c = "has-special"%string).
Proof.
  intros l c. split.
  - intros [|d H|H]; [auto|right; left; exact H|]. right. right. cbn in H. split; [lia|reflexivity].
  - intros [->|[H|(H & ->)]]; [constructor|now apply bl_sides|]. apply bl_special. cbn. lia.
Qed.
