(** Proofs about [parse_doom_map] and its archive variant. *)

From Coq Require Import String List ZArith Bool Lia ZifyBool ZifyNat ZifyN.
From Coq Require Import Strings.Byte.
From Verif Require Import Base SpecBytes BaseFacts Nom NomFacts ParseWad ParseMap SpecLumps LumpFacts
  ArchiveWad SpecArchive ArchiveFacts IterFacts TexturexFacts ToArchiveFacts SpecMap.
Import ListNotations.
Local Open Scope Z_scope.

Lemma decodes_unique : forall {A} n (rec : bytes -> nat -> A -> Prop) buf rs rs',
  (forall o a b, rec buf o a -> rec buf o b -> a = b) ->
  decodes n rec buf rs -> decodes n rec buf rs' -> rs = rs'.
Proof.
  intros A n rec buf rs rs' Hdet [D1 D2] [D1' D2'].
  assert (L : length rs = length rs').
  { destruct (lt_eq_lt_dec (length rs) (length rs')) as [[H|H]|H]; auto; exfalso.
    - destruct (nth_error rs' (length rs)) as [r|] eqn:E; [|apply nth_error_None in E; lia].
      destruct (D1' _ _ E) as [B R]. exact (D2 B r R).
    - destruct (nth_error rs (length rs')) as [r|] eqn:E; [|apply nth_error_None in E; lia].
      destruct (D1 _ _ E) as [B R]. exact (D2' B r R). }
  apply nth_error_ext'; [exact L|]. intros k.
  destruct (nth_error rs k) as [r|] eqn:E; destruct (nth_error rs' k) as [r'|] eqn:E'; auto.
  - f_equal. eapply Hdet; [apply (D1 _ _ E)|apply (D1' _ _ E')].
  - apply nth_error_None in E'. assert (k < length rs)%nat by (apply nth_error_Some; congruence). lia.
  - apply nth_error_None in E. assert (k < length rs')%nat by (apply nth_error_Some; congruence). lia.
Qed.

(** Fetching one lump. *)
Definition fetch (w : bare_wad) (b : map_block) (f : lump) : outcome bytes :=
  let* k := require (lump_index f b) (lump_string f) in entry_slice w k.

Lemma fetch_cases : forall w b f, unsigned_entries w ->
  (exists d, lump_data w b f d /\ fetch w b f = Ok d)
  \/ (lump_index f b = None /\ (forall d, ~ lump_data w b f d) /\ fetch w b f = Err (MissingMapLump (lump_string f)))
  \/ (lump_index f b <> None /\ (forall d, ~ lump_data w b f d) /\ exists p, fetch w b f = Panic p).
Proof.
  intros w b f Hu. unfold fetch. destruct (lump_index f b) as [k|] eqn:E; cbn [require obind].
  2:{ right; left. split; [auto|]. split; [|auto]. intros d (k & e & Hk & _). congruence. }
  destruct (entry_slice w k) as [d|x|p] eqn:Es.
  - left. exists d. split; [|auto]. apply entry_slice_ok in Es; auto. destruct Es as (e & He & Hd). exists k, e. auto.
  - exfalso. eapply entry_slice_no_err; eauto.
  - right; right. split; [congruence|]. split; [|eauto].
    intros d (k' & e & Hk & He & Hd). rewrite E in Hk. injection Hk as <-.
    assert (entry_slice w k = Ok d) by (apply entry_slice_ok; eauto). congruence.
Qed.

(** The reading itself, lump by lump. *)
Definition decoded_by (b : map_block) (dv ds dd dl dt : bytes) (bm : bare_map) : Prop :=
  match bm with
  | BMDoom m =>
      b_format b = Doom
      /\ decodes 4 vertex_at dv (m_vertices m) /\ decodes 26 sector_at ds (m_sectors m)
      /\ decodes 30 side_at dd (m_sides m) /\ decodes 14 doom_line_at dl (m_lines m)
      /\ decodes 10 doom_thing_at dt (m_things m)
  | BMHexen m =>
      b_format b <> Doom
      /\ decodes 4 vertex_at dv (m_vertices m) /\ decodes 26 sector_at ds (m_sectors m)
      /\ decodes 30 side_at dd (m_sides m) /\ decodes 16 hexen_line_at dl (m_lines m)
      /\ decodes 20 hexen_thing_at dt (m_things m)
  end.

Lemma decoded_by_unique : forall b dv ds dd dl dt m m', decoded_by b dv ds dd dl dt m -> decoded_by b dv ds dd dl dt m' -> m = m'.
Proof.
  intros b dv ds dd dl dt [[v s d l t]|[v s d l t]] [[v' s' d' l' t']|[v' s' d' l' t']]; cbn;
    intros (F & A1 & A2 & A3 & A4 & A5) (F' & B1 & B2 & B3 & B4 & B5); try congruence.
  - f_equal. f_equal.
    + eapply (decodes_unique 4 vertex_at dv); eauto. unfold vertex_at. congruence.
    + eapply (decodes_unique 26 sector_at ds); eauto. intros; eapply sector_at_unique; eauto.
    + eapply (decodes_unique 30 side_at dd); eauto. intros; eapply side_at_unique; eauto.
    + eapply (decodes_unique 14 doom_line_at dl); eauto. unfold doom_line_at. congruence.
    + eapply (decodes_unique 10 doom_thing_at dt); eauto. unfold doom_thing_at. congruence.
  - f_equal. f_equal.
    + eapply (decodes_unique 4 vertex_at dv); eauto. unfold vertex_at. congruence.
    + eapply (decodes_unique 26 sector_at ds); eauto. intros; eapply sector_at_unique; eauto.
    + eapply (decodes_unique 30 side_at dd); eauto. intros; eapply side_at_unique; eauto.
    + eapply (decodes_unique 16 hexen_line_at dl); eauto. unfold hexen_line_at. congruence.
    + eapply (decodes_unique 20 hexen_thing_at dt); eauto. unfold hexen_thing_at. congruence.
Qed.

Definition decode_rest (fmt : map_format) (V : list bare_vertex) (Sc : list bare_sector) (D : list bare_side)
    (fl ft : outcome bytes) : outcome bare_map :=
  if format_eqb fmt Doom then
    let* buf := fl in
    let* lines := nom_to_result "LINEDEFS lump" buf (doom_linedefs_lump buf) in
    let* buf := ft in
    let* things := nom_to_result "THINGS lump" buf (doom_things_lump buf) in
    Ok (BMDoom (mk_bmap V Sc D lines things))
  else
    let* buf := fl in
    let* lines := nom_to_result "LINEDEFS lump" buf (hexen_linedefs_lump buf) in
    let* buf := ft in
    let* things := nom_to_result "THINGS lump" buf (hexen_things_lump buf) in
    Ok (BMHexen (mk_bmap V Sc D lines things)).

Definition decode_all (fmt : map_format) (fv fs fd fl ft : outcome bytes) : outcome bare_map :=
  let* buf := fv in
  let* V := nom_to_result "VERTEXES lump" buf (vertexes_lump buf) in
  let* buf := fs in
  let* Sc := nom_to_result "SECTORS lump" buf (sectors_lump buf) in
  let* buf := fd in
  let* D := nom_to_result "SIDEDEFS lump" buf (sidedefs_lump buf) in
  decode_rest fmt V Sc D fl ft.

Lemma obind_obind : forall {A B C} (m : outcome A) (f : A -> outcome B) (g : B -> outcome C),
  obind (obind m f) g = obind m (fun a => obind (f a) g).
Proof. intros A B C [a|e|p] f g; reflexivity. Qed.

Lemma obind_ext : forall {A B} (m : outcome A) (f g : A -> outcome B), (forall a, f a = g a) -> obind m f = obind m g.
Proof. intros A B [a|e|p] f g H; cbn; auto. Qed.

Lemma parse_doom_map_alt : forall w b, parse_doom_map w b =
  decode_all (b_format b) (fetch w b VERTEXES) (fetch w b SECTORS) (fetch w b SIDEDEFS)
    (fetch w b LINEDEFS) (fetch w b THINGS).
Proof.
  intros w b. unfold parse_doom_map, decode_all, decode_rest, fetch. cbn [lump_index lump_string].
  rewrite obind_obind. apply obind_ext; intros vi. apply obind_ext; intros bv. apply obind_ext; intros V.
  rewrite obind_obind. apply obind_ext; intros si. apply obind_ext; intros bs. apply obind_ext; intros Sc.
  rewrite obind_obind. apply obind_ext; intros di. apply obind_ext; intros bd. apply obind_ext; intros D.
  destruct (format_eqb (b_format b) Doom);
    (rewrite obind_obind; apply obind_ext; intros li; apply obind_ext; intros bl; apply obind_ext; intros L;
     rewrite obind_obind; reflexivity).
Qed.

Lemma format_eqb_spec : forall a b, format_eqb a b = true <-> a = b.
Proof. intros [] []; cbn; split; congruence. Qed.

Lemma decode_all_ok : forall b dv ds dd dl dt, exists bm,
  decode_all (b_format b) (Ok dv) (Ok ds) (Ok dd) (Ok dl) (Ok dt) = Ok bm /\ decoded_by b dv ds dd dl dt bm.
Proof.
  intros b dv ds dd dl dt. unfold decode_all, decode_rest. cbn [obind].
  destruct (vertexes_decode dv) as (r1 & V & -> & HV). cbn [nom_to_result obind].
  destruct (sectors_decode ds) as (r2 & Sc & -> & HS). cbn [nom_to_result obind].
  destruct (sides_decode dd) as (r3 & D & -> & HD). cbn [nom_to_result obind].
  destruct (format_eqb (b_format b) Doom) eqn:F.
  - apply format_eqb_spec in F.
    destruct (doom_lines_decode dl) as (r4 & L & -> & HL). cbn [nom_to_result obind].
    destruct (doom_things_decode dt) as (r5 & T & -> & HT). cbn [nom_to_result obind].
    eexists; split; [reflexivity|]. cbn. auto 10.
  - assert (b_format b <> Doom) by (intros HH; apply format_eqb_spec in HH; congruence).
    destruct (hexen_lines_decode dl) as (r4 & L & -> & HL). cbn [nom_to_result obind].
    destruct (hexen_things_decode dt) as (r5 & T & -> & HT). cbn [nom_to_result obind].
    eexists; split; [reflexivity|]. cbn. auto 10.
Qed.

Inductive bad := BMissing | BUnreadable.
Definition bad_outcome (o : outcome bytes) (f : lump) (x : bad) : Prop :=
  match x with
  | BMissing => o = Err (MissingMapLump (lump_string f))
  | BUnreadable => exists p, o = Panic p
  end.

Lemma decode_first_bad : forall b (g : lump -> outcome bytes) pre f post x,
  reading_order = pre ++ f :: post -> (forall h, In h pre -> exists d, g h = Ok d) -> bad_outcome (g f) f x ->
  match x with
  | BMissing => decode_all (b_format b) (g VERTEXES) (g SECTORS) (g SIDEDEFS) (g LINEDEFS) (g THINGS)
                = Err (MissingMapLump (lump_string f))
  | BUnreadable => exists p, decode_all (b_format b) (g VERTEXES) (g SECTORS) (g SIDEDEFS) (g LINEDEFS) (g THINGS)
                = Panic p
  end.
Proof.
  intros b g pre f post x Hpre Hok Hbad. unfold reading_order in Hpre.
  assert (Hcase : (pre = [] /\ f = VERTEXES) \/ (pre = [VERTEXES] /\ f = SECTORS)
    \/ (pre = [VERTEXES; SECTORS] /\ f = SIDEDEFS) \/ (pre = [VERTEXES; SECTORS; SIDEDEFS] /\ f = LINEDEFS)
    \/ (pre = [VERTEXES; SECTORS; SIDEDEFS; LINEDEFS] /\ f = THINGS)).
  { destruct pre as [|a1 [|a2 [|a3 [|a4 [|a5 [|a6 pre]]]]]]; cbn in Hpre; injection Hpre; intros; subst; try discriminate; auto 10. }
  clear Hpre.
  assert (K : forall o : outcome bare_map,
            (forall k : bytes -> outcome bare_map, o = obind (g f) k -> 
             match x with BMissing => o = Err (MissingMapLump (lump_string f)) | BUnreadable => exists p, o = Panic p end)).
  { intros o k ->. destruct x; cbn in Hbad; [rewrite Hbad; reflexivity|]. destruct Hbad as [p ->]. exists p. reflexivity. }
  unfold decode_all, decode_rest.
  repeat destruct Hcase as [Hcase|Hcase]; destruct Hcase as [-> ->]; cbn [In] in Hok.
  - eapply K. reflexivity.
  - destruct (Hok VERTEXES ltac:(tauto)) as [dv ->]. cbn [obind].
    destruct (vertexes_decode dv) as (r1 & V & -> & HV). cbn [nom_to_result obind]. eapply K. reflexivity.
  - destruct (Hok VERTEXES ltac:(tauto)) as [dv ->]. cbn [obind].
    destruct (vertexes_decode dv) as (r1 & V & -> & HV). cbn [nom_to_result obind].
    destruct (Hok SECTORS ltac:(tauto)) as [ds ->]. cbn [obind].
    destruct (sectors_decode ds) as (r2 & Sc & -> & HS). cbn [nom_to_result obind]. eapply K. reflexivity.
  - destruct (Hok VERTEXES ltac:(tauto)) as [dv ->]. cbn [obind].
    destruct (vertexes_decode dv) as (r1 & V & -> & HV). cbn [nom_to_result obind].
    destruct (Hok SECTORS ltac:(tauto)) as [ds ->]. cbn [obind].
    destruct (sectors_decode ds) as (r2 & Sc & -> & HS). cbn [nom_to_result obind].
    destruct (Hok SIDEDEFS ltac:(tauto)) as [dd ->]. cbn [obind].
    destruct (sides_decode dd) as (r3 & D & -> & HD). cbn [nom_to_result obind].
    destruct (format_eqb (b_format b) Doom); eapply K; reflexivity.
  - destruct (Hok VERTEXES ltac:(tauto)) as [dv ->]. cbn [obind].
    destruct (vertexes_decode dv) as (r1 & V & -> & HV). cbn [nom_to_result obind].
    destruct (Hok SECTORS ltac:(tauto)) as [ds ->]. cbn [obind].
    destruct (sectors_decode ds) as (r2 & Sc & -> & HS). cbn [nom_to_result obind].
    destruct (Hok SIDEDEFS ltac:(tauto)) as [dd ->]. cbn [obind].
    destruct (sides_decode dd) as (r3 & D & -> & HD). cbn [nom_to_result obind].
    destruct (Hok LINEDEFS ltac:(tauto)) as [dl ->]. cbn [obind].
    destruct (format_eqb (b_format b) Doom).
    + destruct (doom_lines_decode dl) as (r4 & L & -> & HL). cbn [nom_to_result obind]. eapply K; reflexivity.
    + destruct (hexen_lines_decode dl) as (r4 & L & -> & HL). cbn [nom_to_result obind]. eapply K; reflexivity.
Qed.

(** The first failing stage, if any. *)
Lemma first_bad : forall w b, unsigned_entries w -> forall l,
  (forall f, In f l -> exists d, lump_data w b f d /\ fetch w b f = Ok d)
  \/ (exists pre f post x, l = pre ++ f :: post
      /\ (forall h, In h pre -> exists d, lump_data w b h d /\ fetch w b h = Ok d)
      /\ (forall d, ~ lump_data w b f d)
      /\ (x = BMissing <-> lump_index f b = None) /\ bad_outcome (fetch w b f) f x).
Proof.
  intros w b Hu. induction l as [|f l IH]; [left; intros f []|].
  destruct (fetch_cases w b f Hu) as [(d & Hd & Ef)|[(Hn & Hno & Ef)|(Hn & Hno & Ef)]].
  - destruct IH as [IH|(pre & g & post & x & -> & Hpre & Hrest)].
    + left. intros g [<-|Hg]; eauto.
    + right. exists (f :: pre), g, post, x. split; [reflexivity|]. split; [|exact Hrest].
      intros h [<-|Hh]; eauto.
  - right. exists [], f, l, BMissing. split; [reflexivity|]. split; [intros h []|]. split; [exact Hno|].
    split; [tauto|exact Ef].
  - right. exists [], f, l, BUnreadable. split; [reflexivity|]. split; [intros h []|]. split; [exact Hno|].
    split; [split; [discriminate|contradiction]|exact Ef].
Qed.

Lemma lump_data_unique : forall w b f d d', lump_data w b f d -> lump_data w b f d' -> d = d'.
Proof.
  intros w b f d d' (k & e & A & B & C) (k' & e' & A' & B' & C').
  rewrite A in A'. injection A' as <-. rewrite B in B'. injection B' as <-. eapply entry_data_unique; eauto.
Qed.

Lemma parse_doom_map_cases : forall w b, unsigned_entries w ->
  (exists bm, map_decoded w b bm /\ parse_doom_map w b = Ok bm)
  \/ (exists f, first_unreadable_lump w b f /\ lump_index f b = None
        /\ parse_doom_map w b = Err (MissingMapLump (lump_string f)))
  \/ (exists f p, first_unreadable_lump w b f /\ lump_index f b <> None /\ parse_doom_map w b = Panic p).
Proof.
  intros w b Hu. rewrite parse_doom_map_alt.
  destruct (first_bad w b Hu reading_order) as [HA|(pre & f & post & x & Hl & Hpre & Hno & Hx & Hbad)].
  - left.
    destruct (HA VERTEXES ltac:(cbn; tauto)) as (dv & Hv & ->).
    destruct (HA SECTORS ltac:(cbn; tauto)) as (ds & Hs & ->).
    destruct (HA SIDEDEFS ltac:(cbn; tauto)) as (dd & Hd & ->).
    destruct (HA LINEDEFS ltac:(cbn; tauto)) as (dl & Hl & ->).
    destruct (HA THINGS ltac:(cbn; tauto)) as (dt & Ht & ->).
    destruct (decode_all_ok b dv ds dd dl dt) as (bm & Ebm & Hbm).
    exists bm. split; [|exact Ebm]. exists dv, ds, dd, dl, dt. tauto.
  - assert (HF : first_unreadable_lump w b f).
    { split; [|exact Hno]. exists pre, post. split; [exact Hl|]. intros g Hg. destruct (Hpre g Hg) as (d & Hd & _). eauto. }
    pose proof (decode_first_bad b (fetch w b) pre f post x Hl) as H.
    specialize (H (fun h Hh => match Hpre h Hh with ex_intro _ d (conj _ E) => ex_intro _ d E end) Hbad).
    right. destruct x.
    + left. exists f. split; [exact HF|]. split; [apply Hx; reflexivity|exact H].
    + right. destruct H as [p Hp]. exists f, p. split; [exact HF|]. split; [|exact Hp].
      intros HN. apply Hx in HN. discriminate.
Qed.

Lemma map_decoded_unique : forall w b m m', map_decoded w b m -> map_decoded w b m' -> m = m'.
Proof.
  intros w b m m' (dv & ds & dd & dl & dt & A1 & A2 & A3 & A4 & A5 & A)
    (dv' & ds' & dd' & dl' & dt' & B1 & B2 & B3 & B4 & B5 & B).
  rewrite (lump_data_unique _ _ _ _ _ B1 A1), (lump_data_unique _ _ _ _ _ B2 A2),
    (lump_data_unique _ _ _ _ _ B3 A3), (lump_data_unique _ _ _ _ _ B4 A4),
    (lump_data_unique _ _ _ _ _ B5 A5) in B.
  eapply (decoded_by_unique b dv ds dd dl dt); [exact A|exact B].
Qed.

Lemma decoded_readable : forall w b m f, map_decoded w b m -> In f reading_order -> exists d, lump_data w b f d.
Proof.
  intros w b m f (dv & ds & dd & dl & dt & A1 & A2 & A3 & A4 & A5 & _) Hf.
  cbn in Hf. decompose [or] Hf; subst; try contradiction; eauto.
Qed.

Lemma first_unreadable_unique : forall w b f g, first_unreadable_lump w b f -> first_unreadable_lump w b g -> f = g.
Proof.
  intros w b f g ((p & q & E & H) & N) ((p' & q' & E' & H') & N').
  rewrite E in E'. clear E. revert p' E' H'. induction p as [|a p IH]; intros [|a' p'] E' H'; cbn in E'; injection E'; intros; subst.
  - reflexivity.
  - exfalso. destruct (H' a' (or_introl eq_refl)) as [d Hd]. exact (N d Hd).
  - exfalso. destruct (H g (or_introl eq_refl)) as [d Hd]. exact (N' d Hd).
  - eapply IH; eauto. intros h Hh; apply H; right; auto. intros h Hh; apply H'; right; auto.
Qed.

Lemma first_unreadable_not_decoded : forall w b m f, map_decoded w b m -> first_unreadable_lump w b f -> False.
Proof.
  intros w b m f Hm ((p & q & E & _) & N).
  destruct (decoded_readable w b m f Hm) as [d Hd]; [rewrite E; apply in_or_app; right; left; auto|]. exact (N d Hd).
Qed.

Lemma parse_doom_map_ok : forall w b bm, unsigned_entries w -> parse_doom_map w b = Ok bm <-> map_decoded w b bm.
Proof.
  intros w b bm Hu.
  destruct (parse_doom_map_cases w b Hu) as [(m & Hm & ->)|[(f & Hf & _ & ->)|(f & p & Hf & _ & ->)]].
  - split; [intros E; injection E as <-; auto|]. intros H. f_equal. eapply map_decoded_unique; eauto.
  - split; [discriminate|]. intros H. exfalso. eapply first_unreadable_not_decoded; eauto.
  - split; [discriminate|]. intros H. exfalso. eapply first_unreadable_not_decoded; eauto.
Qed.

Lemma parse_doom_map_err : forall w b e, unsigned_entries w -> parse_doom_map w b = Err e <->
  exists f, first_unreadable_lump w b f /\ lump_index f b = None /\ e = MissingMapLump (lump_string f).
Proof.
  intros w b e Hu.
  destruct (parse_doom_map_cases w b Hu) as [(m & Hm & ->)|[(f & Hf & Hn & ->)|(f & p & Hf & Hn & ->)]].
  - split; [discriminate|]. intros (g & Hg & _). exfalso. eapply first_unreadable_not_decoded; eauto.
  - split; [intros E; injection E as <-; eauto|]. intros (g & Hg & _ & ->).
    rewrite (first_unreadable_unique _ _ _ _ Hf Hg). reflexivity.
  - split; [discriminate|]. intros (g & Hg & Hgn & _). exfalso.
    rewrite (first_unreadable_unique _ _ _ _ Hf Hg) in Hn. contradiction.
Qed.

Lemma parse_doom_map_panic : forall w b, unsigned_entries w -> (exists p, parse_doom_map w b = Panic p) <->
  exists f, first_unreadable_lump w b f /\ lump_index f b <> None.
Proof.
  intros w b Hu.
  destruct (parse_doom_map_cases w b Hu) as [(m & Hm & ->)|[(f & Hf & Hn & ->)|(f & p & Hf & Hn & ->)]].
  - split; [intros [p H]; discriminate|]. intros (g & Hg & _). exfalso. eapply first_unreadable_not_decoded; eauto.
  - split; [intros [p H]; discriminate|]. intros (g & Hg & Hgn). exfalso.
    rewrite (first_unreadable_unique _ _ _ _ Hf Hg) in Hn. contradiction.
  - split; eauto.
Qed.

Lemma in_maps_of : forall its b, In b (maps_of its) -> In (WMap b) its.
Proof.
  induction its as [|x its IH]; cbn [maps_of]; intros b H; [destruct H|].
  destruct x as [b'| | | ]; try (right; auto; fail). destruct H as [<-|H]; [left; auto|right; auto].
Qed.

Lemma iter_map_ok : forall w b, In b (iter_maps w) -> block_ok (directory w) b.
Proof.
  intros w b H. apply in_maps_of in H. destruct (iter_items_ok w _ H) as (i & Hb & _). exact Hb.
Qed.

Lemma lump_data_of_bounds : forall w b f k, block_ok (directory w) b -> lump_index f b = Some k ->
  (forall e, In e (directory w) -> in_bounds (buffer w) e) -> unsigned_entries w -> exists d, lump_data w b f d.
Proof.
  intros w b f k Hb Hk HB Hu. destruct (block_index_entry _ _ _ _ Hb Hk) as (e & He & _).
  destruct (unsigned_nth _ _ _ Hu He) as [U1 U2].
  destruct (extract_slice_cases e (buffer w) U1 U2) as [(Hin & d & Hd & _)|(Hn & _)].
  - exists d, k, e. auto.
  - exfalso. apply Hn, HB. eapply nth_error_In; eauto.
Qed.

Lemma parse_reported_map : forall w b, unsigned_entries w -> (forall e, In e (directory w) -> in_bounds (buffer w) e) ->
  In b (iter_maps w) ->
  (forall f, In f reading_order -> lump_index f b <> None) <-> exists bm, parse_doom_map w b = Ok bm.
Proof.
  intros w b Hu HB Hin. pose proof (iter_map_ok w b Hin) as Hb. split.
  - intros Hall. destruct (parse_doom_map_cases w b Hu) as [(m & _ & E)|[(f & Hf & Hn & _)|(f & p & Hf & Hn & _)]].
    + eauto.
    + exfalso. apply (Hall f); auto. destruct Hf as ((pre & post & -> & _) & _). apply in_or_app; right; left; auto.
    + exfalso. destruct (lump_index f b) as [k|] eqn:Ek; [|congruence].
      destruct (lump_data_of_bounds w b f k Hb Ek HB Hu) as [d Hd]. destruct Hf as [_ N]. exact (N d Hd).
  - intros [bm Hbm] f Hf. apply parse_doom_map_ok in Hbm; auto.
    destruct (decoded_readable _ _ _ f Hbm Hf) as (d & k & e & Hk & _). congruence.
Qed.

(** ** The archive variant *)

Definition afetch (m : arch_map) (f : lump) : outcome bytes :=
  let* e := require (arch_lump f m) (lump_string f) in Ok (en_data e).

Lemma parse_archive_alt : forall m, parse_doom_map_from_archive m =
  decode_all (a_format m) (afetch m VERTEXES) (afetch m SECTORS) (afetch m SIDEDEFS)
    (afetch m LINEDEFS) (afetch m THINGS).
Proof.
  intros m. unfold parse_doom_map_from_archive, decode_all, decode_rest, afetch. cbn [arch_lump lump_string].
  rewrite obind_obind. apply obind_ext; intros vi. cbn [obind]. apply obind_ext; intros V.
  rewrite obind_obind. apply obind_ext; intros si. cbn [obind]. apply obind_ext; intros Sc.
  rewrite obind_obind. apply obind_ext; intros di. cbn [obind]. apply obind_ext; intros D.
  destruct (format_eqb (a_format m) Doom);
    (rewrite obind_obind; apply obind_ext; intros li; cbn [obind]; apply obind_ext; intros L;
     rewrite obind_obind; reflexivity).
Qed.

Lemma archive_parse_same : forall w b m, unsigned_entries w -> archived_map w b m ->
  parse_doom_map_from_archive m = parse_doom_map w b.
Proof.
  intros w b m Hu (Hf & _ & _ & Ho). rewrite parse_archive_alt, parse_doom_map_alt, Hf.
  assert (E : forall f, afetch m f = fetch w b f).
  { intros f. specialize (Ho f). unfold afetch, fetch. destruct (lump_index f b) as [k|], (arch_lump f m) as [e|]; cbn in Ho; try contradiction; cbn [require obind]; [|reflexivity].
    destruct Ho as (de & Hk & _ & Hd & _). symmetry. apply entry_slice_ok; eauto. }
  rewrite !E. reflexivity.
Qed.

Lemma concat_maps : forall w xs parts, Forall2 (archived w) xs parts ->
  forall m, In (IMap m) (concat parts) <-> exists b, In (WMap b) xs /\ archived_map w b m.
Proof.
  intros w xs parts H m. induction H as [|x its xs parts Ha H IH]; cbn [concat].
  - split; [intros []|intros (b & [] & _)].
  - rewrite in_app_iff, IH. destruct Ha as [b m' Hm|k e|k e|k e en Hc]; cbn [In].
    + split.
      * intros [[E|[]]|(b' & Hb & Hm')].
        -- injection E as ->. exists b. auto.
        -- exists b'. auto.
      * intros (b' & [E|Hb] & Hm').
        -- injection E as ->. left; left. f_equal. eapply archived_map_unique; eauto.
        -- right. eauto.
    + split; [intros [[]|(b & Hb & Hm)]; eauto|]. intros (b & [E|Hb] & Hm); [discriminate|eauto].
    + split; [intros [[]|(b & Hb & Hm)]; eauto|]. intros (b & [E|Hb] & Hm); [discriminate|eauto].
    + split; [intros [[E|[]]|(b & Hb & Hm)]; [discriminate|eauto]|].
      intros (b & [E|Hb] & Hm); [discriminate|eauto].
Qed.

Lemma maps_of_in : forall its b, In (WMap b) its -> In b (maps_of its).
Proof.
  induction its as [|x its IH]; cbn [maps_of]; intros b H; [destruct H|].
  destruct H as [->|H]; [left; auto|]. destruct x; auto. right; auto.
Qed.

Lemma archive_maps_parse : forall w a, unsigned_entries w -> to_archive w = Ok a ->
  (forall m, In (IMap m) (contents a) ->
     exists b, In b (iter_maps w) /\ archived_map w b m /\ parse_doom_map_from_archive m = parse_doom_map w b)
  /\ (forall b, In b (iter_maps w) ->
     exists m, In (IMap m) (contents a) /\ archived_map w b m /\ parse_doom_map_from_archive m = parse_doom_map w b).
Proof.
  intros w a Hu Ha. apply to_archive_ok in Ha; auto. destruct Ha as (_ & parts & HF & Hc). rewrite Hc.
  pose proof (concat_maps _ _ _ HF) as HM. split.
  - intros m Hm. apply HM in Hm. destruct Hm as (b & Hb & Hm).
    exists b. split; [apply maps_of_in; exact Hb|]. split; [exact Hm|apply archive_parse_same; auto].
  - intros b Hb. apply in_maps_of in Hb. apply In_nth_error in Hb. destruct Hb as [k Hk].
    destruct (nth_error parts k) as [p|] eqn:E.
    + pose proof (Forall2_nth _ _ _ _ _ _ HF Hk E) as Hp. inversion Hp as [b' m Hm|?|?|?]; subst.
      exists m. split; [apply HM; exists b; split; [eapply nth_error_In; eauto|exact Hm]|].
      split; [exact Hm|apply archive_parse_same; auto].
    + apply nth_error_None in E. apply Forall2_length' in HF.
      assert (k < length (iter w))%nat by (apply nth_error_Some; congruence). lia.
Qed.
