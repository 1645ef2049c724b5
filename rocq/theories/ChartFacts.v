(** Proofs about the chart command (C75-C80). *)

From Coq Require Import String List ZArith QArith Bool Lia ZifyBool.
From Verif Require Import Base BaseFacts ParseWad ArchiveWad ParseMap SpecLumps Float SpecFloat64 FloatFacts MapModel SpecMapModel
  MapFacts SectorPolys SpecSector SectorFacts MapSectorFacts Actors Chart SpecRoute DilateFacts SpecChart.
Import ListNotations.
Local Open Scope Z_scope.

(** ** Computations that succeed iff a condition holds *)

Definition decides {A} (E : panic -> Prop) (Q : Prop) (P : A -> Prop) (r : outcome A) : Prop :=
  match r with
  | Ok a => P a /\ Q
  | Panic p => E p /\ ~ Q
  | Err _ => False
  end.

Lemma decides_weaken : forall {A} (E : panic -> Prop) (Q Q' : Prop) (P P' : A -> Prop) r,
  decides E Q P r -> (Q <-> Q') -> (forall a, Q -> P a -> P' a) -> decides E Q' P' r.
Proof. intros A E Q Q' P P' [a|e|p] H HQ HP; cbn in *; try tauto. destruct H. split; [auto|tauto]. Qed.

Lemma decides_bind : forall {A B} E (Q1 Q2 : Prop) (P1 : A -> Prop) (P2 : B -> Prop) m k,
  decides E Q1 P1 m -> (forall a, Q1 -> P1 a -> decides E Q2 P2 (k a)) -> decides E (Q1 /\ Q2) P2 (obind m k).
Proof.
  intros A B E Q1 Q2 P1 P2 [a|e|p] k H K; cbn in *; try tauto.
  destruct H as [H1 H2]. specialize (K a H2 H1). destruct (k a); cbn in *; tauto.
Qed.

Lemma decides_bind_ok : forall {A B} E Q (P1 : A -> Prop) (P2 : B -> Prop) m k,
  decides E Q P1 m -> (forall a, Q -> P1 a -> exists b, k a = Ok b /\ P2 b) -> decides E Q P2 (obind m k).
Proof.
  intros A B E Q P1 P2 [a|e|p] k H K; cbn in *; try tauto.
  destruct H as [H1 H2]. destruct (K a H2 H1) as (b & -> & Hb). cbn. auto.
Qed.

Lemma decides_omap : forall {A B} E (Q : A -> Prop) (P : A -> B -> Prop) f l,
  (forall x, In x l -> decides E (Q x) (P x) (f x)) ->
  decides E (forall x, In x l -> Q x) (Forall2 P l) (omap f l).
Proof.
  intros A B E Q P f l. induction l as [|x l IH]; intros H; cbn [omap].
  - cbn. split; [constructor|intros _ []].
  - eapply decides_weaken.
    + eapply decides_bind; [apply H; left; reflexivity|]. intros y _ Hy. cbn beta.
      eapply decides_bind_ok; [apply IH; intros; apply H; right; assumption|].
      intros ys _ Hys. eexists. split; [reflexivity|]. instantiate (1 := Forall2 P (x :: l)). constructor; assumption.
    + cbn [In]. split; [intros [H1 H2] z [<-|Hz]; auto|]. intros G. split; [apply G|intros; apply G]; auto.
    + auto.
Qed.

Lemma decides_ok : forall {A} E (P : A -> Prop) a, P a -> decides E True P (Ok a).
Proof. intros. cbn. auto. Qed.

(** ** Paths *)

Lemma strokes_lines : forall {N} (others : list (N * N)) a f rest,
  strokes_from (Some a) (map (fun v => LineTo (fst v) (snd v)) others ++ LineTo (fst f) (snd f) :: rest)
  = combine (a :: others) (others ++ [f]) ++ strokes_from (Some f) rest.
Proof.
  intros N. induction others as [|[x y] others IH]; intros a [fx fy] rest.
  - reflexivity.
  - pose proof (IH (x, y) (fx, fy) rest) as G. cbn [fst snd] in G. cbn [map app strokes_from fst snd]. rewrite G. reflexivity.
Qed.

Lemma outlines_path_spec : forall {N} (os : list (list (N * N))), ~ In [] os ->
  exists d, outlines_path os = Ok d /\ strokes d = flat_map edges_of os.
Proof.
  intros N os H. unfold outlines_path, strokes.
  assert (G : exists parts, omap outline_path os = Ok parts
    /\ forall pen, strokes_from pen (concat parts) = flat_map edges_of os).
  { induction os as [|o os IH].
    - exists []. split; reflexivity.
    - destruct o as [|[fx fy] others]; [destruct H; left; reflexivity|].
      destruct IH as (parts & E & S); [intros F; apply H; right; exact F|].
      cbn [omap outline_path obind]. rewrite E. cbn [obind]. eexists. split; [reflexivity|]. intros pen.
      cbn [concat app flat_map edges_of strokes_from]. rewrite <- app_assoc. cbn [app].
      pose proof (strokes_lines others (fx, fy) (fx, fy) (concat parts)) as L. cbn [fst snd] in L. rewrite L, S. reflexivity. }
  destruct G as (parts & E & S). rewrite E. cbn [obind]. eexists. split; [reflexivity|apply S].
Qed.

(** ** Things *)

Lemma actor_numbers : forall a d, In a doom2_actors -> a_doomednum a = Some d -> 0 <= d < 2 ^ 31.
Proof.
  assert (H : forallb (fun a => match a_doomednum a with Some d => (0 <=? d) && (d <? 2 ^ 31) | None => true end) doom2_actors = true)
    by (vm_compute; reflexivity).
  intros a d Ha Hd. rewrite forallb_forall in H. specialize (H a Ha). rewrite Hd in H. lia.
Qed.

Lemma actor_radii : forall a, In a doom2_actors -> 0 <= a_radius a < 32768.
Proof.
  assert (H : forallb (fun a => (0 <=? a_radius a) && (a_radius a <? 32768)) doom2_actors = true) by (vm_compute; reflexivity).
  intros a Ha. rewrite forallb_forall in H. specialize (H a Ha). lia.
Qed.

Lemma as_u32_i16 : forall z, is_i16 z -> as_u32 z = if z <? 0 then z + 2 ^ 32 else z.
Proof.
  intros z H. unfold as_u32, is_i16 in *. change 4294967296 with (2 ^ 32).
  destruct (Z.ltb_spec z 0).
  - symmetry. apply Z.mod_unique_pos with (-1); lia.
  - apply Z.mod_small. lia.
Qed.

Lemma lookup_num : forall num a, is_i16 num -> In a doom2_actors ->
  match a_doomednum a with Some den => den =? as_u32 num | None => false end = true <-> a_doomednum a = Some num.
Proof.
  intros num a Hn Ha. pose proof (actor_numbers a) as B. rewrite as_u32_i16 by exact Hn. unfold is_i16 in Hn.
  destruct (a_doomednum a) as [d|]; [|split; discriminate]. specialize (B d Ha eq_refl).
  destruct (Z.ltb_spec num 0); split; intros H1; try (injection H1 as ->); try lia. f_equal. lia.
Qed.

Lemma first_with_in : forall {A} (P : A -> Prop) l t, first_with P l t -> In t l /\ P t.
Proof. intros A P l t (i & H & Hp & _). eauto using nth_error_In. Qed.

Lemma look_style : forall num, is_i16 num ->
  thing_style num (fst (thing_look (as_u32 num))) (snd (thing_look (as_u32 num))).
Proof.
  intros num Hn. unfold thing_look, lookup_thing_type.
  destruct (find _ doom2_actors) as [a|] eqn:F.
  - left. exists a. rewrite find_first in F. split; [|split; [reflexivity|]].
    + destruct F as (i & H & Hp & Hj). exists i. split; [exact H|].
      split; [apply lookup_num; eauto using nth_error_In|].
      intros j u L Hu C. apply (Hj j u L Hu). apply lookup_num; eauto using nth_error_In.
    + cbn [fst]. destruct (a_category a); constructor; discriminate.
  - right. rewrite find_none_all in F. split; [|split; reflexivity].
    intros a Ha C. apply lookup_num in C; [|exact Hn|exact Ha]. rewrite F in C by exact Ha. discriminate.
Qed.

Lemma style_radius : forall num fill r, is_i16 num -> thing_style num fill r -> r = snd (thing_look (as_u32 num)).
Proof.
  intros num fill r Hn H. pose proof (look_style num Hn) as G.
  destruct H as [(a & Fa & -> & _)|(Na & -> & _)], G as [(a' & Fa' & E & _)|(Na' & E & _)].
  - rewrite E. destruct Fa as (i & Hi & Pi & Ji), Fa' as (i' & Hi' & Pi' & Ji').
    destruct (Nat.lt_trichotomy i i') as [L|[->|L]].
    + exfalso. exact (Ji' i a L Hi Pi).
    + congruence.
    + exfalso. exact (Ji i' a' L Hi' Pi').
  - apply first_with_in in Fa. destruct Fa as [Ia Pa]. exfalso. exact (Na' a Ia Pa).
  - apply first_with_in in Fa'. destruct Fa' as [Ia Pa]. exfalso. exact (Na a' Ia Pa).
  - congruence.
Qed.

Lemma look_radius : forall num, 0 <= snd (thing_look num) < 32768.
Proof.
  intros num. unfold thing_look, lookup_thing_type. destruct (find _ doom2_actors) as [a|] eqn:F; cbn [snd]; [|lia].
  apply actor_radii. apply find_some in F. tauto.
Qed.

Ltac nodup := repeat first [apply NoDup_nil | apply NoDup_cons; [cbn [In]; intuition discriminate|]].

(** ** In-memory maps *)

Lemma decides_omap2 : forall {A A' B} E (R : A -> A' -> Prop) (Q : A -> Prop) (P : A -> B -> Prop) f l l',
  Forall2 R l l' -> (forall x y, In x l -> R x y -> decides E (Q x) (P x) (f y)) ->
  decides E (forall x, In x l -> Q x) (Forall2 P l) (omap f l').
Proof.
  intros A A' B E R Q P f l l' F. induction F as [|x y l l' Hxy F IH]; intros H; cbn [omap].
  - cbn. split; [constructor|intros _ []].
  - eapply decides_weaken.
    + eapply decides_bind; [eapply H; [left; reflexivity|exact Hxy]|]. intros z _ Hz. cbn beta.
      eapply decides_bind_ok; [apply IH; intros; apply H; [right|]; assumption|].
      intros ys _ Hys. eexists. split; [reflexivity|]. instantiate (1 := Forall2 P (x :: l)). constructor; assumption.
    + cbn [In]. split; [intros [H1 H2] w [<-|Hw]; auto|]. intros G. split; [apply G|intros; apply G]; auto.
    + auto.
Qed.

Lemma map_item : forall {A B} (g : A -> B) l z b, item_at (map g l) z b <-> exists a, item_at l z a /\ b = g a.
Proof.
  intros A B g l z b. unfold item_at. rewrite nth_error_map. destruct (nth_error l (Z.to_nat z)); cbn [option_map].
  - split; [intros [H [= <-]]; eauto|]. intros (a' & [H [= <-]] & ->). auto.
  - split; [intros [_ H]; discriminate|]. intros (a' & [_ H] & _). discriminate.
Qed.
Lemma map_has : forall {A B} (g : A -> B) l z, has_item (map g l) z <-> has_item l z.
Proof. intros. unfold has_item. rewrite map_length. tauto. Qed.

Lemma look_up_map : forall {A B} (g : A -> B) l z, is_i16 z -> Z.of_nat (length l) <= 2 ^ 63 ->
  decides (eq PIndex) (has_item l z) (fun b => exists a, item_at l z a /\ b = g a) (index (map g l) (as_usize z)).
Proof.
  intros A B g l z Hz Hl. pose proof (index_i16 (map g l) z Hz) as H. rewrite map_length in H. specialize (H Hl).
  destruct (index (map g l) (as_usize z)); cbn; [|assumption|].
  - destruct H as (H1 & H2 & _). rewrite map_item in H1. rewrite map_has in H2. auto.
  - rewrite map_has in H. intuition.
Qed.

Lemma conv_lines_rel : forall ls i, Forall2 (fun l l' => exists j, l' = conv_line j l) ls (conv_lines i ls).
Proof. induction ls as [|l ls IH]; intros i; cbn [conv_lines]; constructor; eauto. Qed.

Lemma conv_lines_in : forall ls i l', In l' (conv_lines i ls) -> exists j l, In l ls /\ l' = conv_line j l.
Proof.
  induction ls as [|l ls IH]; intros i l' H; cbn [conv_lines] in H; [destruct H|].
  destruct H as [<-|H]; [exists i, l; cbn; auto|]. apply IH in H. destruct H as (j & k & Hk & ->). exists j, k. cbn; auto.
Qed.

Lemma in_conv_lines : forall ls i l, In l ls -> exists j, In (conv_line j l) (conv_lines i ls).
Proof.
  induction ls as [|x ls IH]; intros i l H; [destruct H|]. cbn [conv_lines In].
  destruct H as [<-|H]; [eauto|]. destruct (IH (i + 1) l H) as (j & Hj). eauto.
Qed.

Section MapChart.
  Variable b : doom_map.
  Hypothesis Hb : map_valid b.
  Hypothesis Hsz : small_map b.
  Local Notation m := (conv_map b).

  Lemma line_i16 : forall l, In l (m_lines b) -> line_valid l.
  Proof using Hb. intros l Hl. destruct Hb as (_ & H & _). rewrite Forall_forall in H. auto. Qed.
  Lemma side_i16 : forall z sd, item_at (m_sides b) z sd -> is_i16 (sd_sector sd).
  Proof using Hb.
    intros z sd Hl. destruct Hb as (_ & _ & H & _). rewrite Forall_forall in H. apply item_at_in in Hl.
    apply H in Hl. destruct Hl as (_ & _ & _ & _ & _ & Hl). exact Hl.
  Qed.

  Lemma face_lookup : forall z, is_i16 z -> z <> -1 ->
    decides (eq PIndex) (exists sec, faces b z sec) (fun s => exists sec, faces b z sec /\ s = conv_sector sec)
      (let* f := oopt (map_side m) (conv_ref z) in
       match f with Some s => map_sector m (si_sector s) | None => Panic PUnwrap end).
  Proof using Hb Hsz.
    intros z Hz Hn. unfold conv_ref. replace (z =? -1) with false by lia. cbn [negb oopt].
    destruct Hsz as (_ & Hs & Hc).
    pose proof (look_up_map conv_side (m_sides b) z Hz Hs) as L. unfold map_side. cbn [conv_map g_sides].
    destruct (index _ (as_usize z)) as [s|e|p]; cbn [decides obind] in *; [|contradiction|].
    - destruct L as ((sd & Hsd & ->) & _). unfold map_sector. cbn [conv_map g_sectors conv_side si_sector].
      eapply decides_weaken; [apply look_up_map; [eapply side_i16; exact Hsd|exact Hc]|..].
      + split.
        * intros H. apply has_item_item in H. destruct H as (sec & Hsec). exists sec, sd. auto.
        * intros (sec & sd' & H1 & H2). rewrite (item_at_inj _ _ _ _ Hsd H1). eapply item_at_has; exact H2.
      + cbn beta. intros a _ (sec & Hsec & ->). exists sec. split; [exists sd; auto|reflexivity].
    - destruct L as [-> L]. split; [reflexivity|]. intros (sec & sd & H1 & _). apply L. eapply item_at_has; exact H1.
  Qed.

  Definition line_refs (l : doom_line) : Prop :=
    has_item (m_vertices b) (dl_v0 l) /\ has_item (m_vertices b) (dl_v1 l)
    /\ (dl_front l <> -1 -> dl_back l <> -1 -> (exists f, faces b (dl_front l) f) /\ (exists k, faces b (dl_back l) k)).

  Definition stepped (l : doom_line) (cs : list string) : Prop :=
    (cs = [] /\ ~ (dl_front l <> -1 /\ dl_back l <> -1 /\ can_step b l))
    \/ (cs = ["step"%string] /\ dl_front l <> -1 /\ dl_back l <> -1 /\ can_step b l).

  Lemma faces_inj : forall z s s', faces b z s -> faces b z s' -> s = s'.
  Proof.
    intros z s s' (sd & H1 & H2) (sd' & H1' & H2'). pose proof (item_at_inj _ _ _ _ H1 H1'). subst sd'.
    exact (item_at_inj _ _ _ _ H2 H2').
  Qed.

  Lemma step_class_spec : forall j l, In l (m_lines b) ->
    decides (eq PIndex)
      (dl_front l <> -1 -> dl_back l <> -1 -> (exists f, faces b (dl_front l) f) /\ (exists k, faces b (dl_back l) k))
      (stepped l) (step_class m (conv_line j l)).
  Proof using Hb Hsz.
    intros j l Hl. destruct (line_i16 l Hl) as (_ & _ & _ & _ & _ & Hf & Hk).
    unfold step_class, is_two_sided, bound_front, bound_back. cbn [conv_line ln_front ln_back]. rewrite !conv_ref_some.
    destruct (Z.eqb_spec (dl_front l) (-1)) as [F|F]; cbn [negb andb].
    { cbn. split; [left; split; [reflexivity|tauto]|intros; tauto]. }
    destruct (Z.eqb_spec (dl_back l) (-1)) as [K|K]; cbn [negb andb].
    { cbn. split; [left; split; [reflexivity|tauto]|intros; tauto]. }
    pose proof (face_lookup (dl_front l) Hf F) as LF. pose proof (face_lookup (dl_back l) Hk K) as LK.
    destruct (oopt (map_side m) (conv_ref (dl_front l))) as [f|e|p]; cbn [obind] in *; [|cbn in *; tauto..].
    destruct (match f with Some s => map_sector m (si_sector s) | None => Panic PUnwrap end) as [fs|e|p]; cbn [obind] in *; [|cbn in *; tauto..].
    destruct (oopt (map_side m) (conv_ref (dl_back l))) as [k|e|p]; cbn [obind] in *; [|cbn in *; tauto..].
    destruct (match k with Some s => map_sector m (si_sector s) | None => Panic PUnwrap end) as [ks|e|p]; cbn [obind] in *; [|cbn in *; tauto..].
    cbn [decides] in *. destruct LF as [(fsec & Ff & ->) _], LK as [(ksec & Fk & ->) _].
    split; [|intros _ _; split; eauto]. cbn [conv_sector ms_floor ms_ceil].
    match goal with |- stepped l (if ?c then _ else _) => destruct c eqn:C end.
    - right. split; [reflexivity|]. split; [exact F|]. split; [exact K|].
      exists fsec, ksec. split; [exact Ff|]. split; [exact Fk|]. split; [lia|]. split; [lia|].
      intros lo hi [-> | ->] [-> | ->]; lia.
    - left. split; [reflexivity|]. intros (_ & _ & (f' & k' & Ff' & Fk' & H1 & H2 & H3)).
      rewrite (faces_inj _ _ _ Ff Ff'), (faces_inj _ _ _ Fk Fk') in C.
      pose proof (H3 (Z.max (sc_floor f') (sc_floor k')) (Z.min (sc_ceil f') (sc_ceil k')) ltac:(lia) ltac:(lia)). lia.
  Qed.

  Lemma sides_class_sided : forall f k c, sides_class (f =? -1) (k =? -1) = c <-> sided f k c.
  Proof.
    intros f k c. unfold sides_class. destruct (Z.eqb_spec f (-1)), (Z.eqb_spec k (-1)); cbn [andb orb]; split;
      try (intros <-; constructor; tauto); intros H; inversion H; subst; tauto || reflexivity.
  Qed.

  Lemma conv_predicates : forall j l, In l (m_lines b) ->
    (has_special (conv_line j l) = true <-> dl_special l <> 0)
    /\ (blocks_player (conv_line j l) = true <-> Z.odd (dl_flags l) = true).
  Proof using Hb.
    intros j l Hl. apply In_nth_error in Hl. destruct Hl as (k & Hk).
    destruct (line_predicates b (conv_map b) k l (conv_line (0 + Z.of_nat k) l) Hb (from_bare_conv b) Hk) as (_ & _ & H).
    { cbn [conv_map g_lines]. rewrite conv_lines_nth, Hk. reflexivity. }
    exact H.
  Qed.

  Lemma f64_i16 : forall z, is_i16 z -> int_valued (f64_of_Z z) z.
  Proof. intros z H. apply of_Z_valued, i16_i53, H. Qed.

  Lemma vertex_i16 : forall z v, item_at (m_vertices b) z v -> is_i16 (vx v) /\ is_i16 (vy v).
  Proof using Hb.
    intros z v Hv. destruct Hb as (_ & _ & _ & H & _). rewrite Forall_forall in H. apply item_at_in in Hv. apply H in Hv. exact Hv.
  Qed.

  Lemma map_line_spec : forall j l, In l (m_lines b) ->
    decides (eq PIndex) (line_refs l) (line_drawn b int_valued l) (map_line_shape m (conv_line j l)).
  Proof using Hb Hsz.
    intros j l Hl. destruct (line_i16 l Hl) as (H0 & H1 & _). destruct Hsz as (Hv & _ & _).
    unfold map_line_shape, bound_start, bound_end, map_vertex. cbn [conv_map g_vertices conv_line ln_start ln_end].
    unfold line_refs. eapply decides_bind; [apply look_up_map; assumption|]. intros p0 _ (v0 & I0 & ->). cbn beta.
    eapply decides_bind; [apply look_up_map; assumption|]. intros p1 _ (v1 & I1 & ->). cbn beta.
    eapply decides_bind_ok; [exact (step_class_spec j l Hl)|]. intros st _ Hst. eexists. split; [reflexivity|].
    exists v0, v1. eexists. split; [exact I0|]. split; [exact I1|].
    apply vertex_i16 in I0, I1. destruct I0 as [I0 J0], I1 as [I1 J1].
    split; [unfold line_between; cbn [conv_vertex px py]; do 4 eexists; split; [reflexivity|]; repeat split; apply f64_i16; assumption|].
    destruct (conv_predicates j l Hl) as [HS HB].
    change (mk_line j (as_usize (dl_v0 l)) (as_usize (dl_v1 l)) (as_u32 (dl_flags l)) (as_usize (dl_special l)) (as_u32 (dl_tag l)) (conv_ref (dl_front l)) (conv_ref (dl_back l))) with (conv_line j l).
    cbn [conv_line ln_front ln_back]. rewrite !conv_ref_some, !negb_involutive.
    pose proof (sides_class_sided (dl_front l) (dl_back l)) as SC.
    remember (sides_class (dl_front l =? -1) (dl_back l =? -1)) as sc eqn:Esc.
    assert (Nsc : sc = "zero-sided"%string \/ sc = "one-sided"%string \/ sc = "two-sided"%string).
    { subst sc. unfold sides_class. destruct (_ && _); [auto|]. destruct (_ || _); auto. }
    remember (has_special (conv_line j l)) as sp eqn:Esp. remember (blocks_player (conv_line j l)) as bl eqn:Ebl.
    clear Esp Ebl Esc. split.
    - destruct Nsc as [->|[->| ->]], sp, bl, Hst as [[-> _]|[-> _]]; cbn [app]; nodup.
    - intros c. rewrite !in_app_iff. cbn [In]. split.
      + intros [[<-|[<-|[]]]|[Hc|[Hc|Hc]]].
        * constructor.
        * apply lc_sides. apply SC. reflexivity.
        * destruct sp; [|destruct Hc]. destruct Hc as [<-|[]]. apply lc_special. tauto.
        * destruct bl; [|destruct Hc]. destruct Hc as [<-|[]]. apply lc_blocking. tauto.
        * destruct Hst as [[-> _]|[-> (F & K & S)]]; [destruct Hc|]. destruct Hc as [<-|[]]. apply lc_step; assumption.
      + intros H. destruct H as [|c H|H|H|F K S].
        * auto.
        * apply SC in H. auto.
        * apply HS in H. rewrite H. cbn; auto.
        * apply HB in H. rewrite H. cbn; auto.
        * destruct Hst as [[_ N]|[-> _]]; [tauto|]. cbn; auto 6.
  Qed.

  Lemma indices_iff : m_sectors b <> [] -> (forall l, In l (m_lines b) -> line_refs l) -> forall k,
    m_indices_exist m k <-> forall l id, In l (m_lines b) -> id = dl_front l \/ id = dl_back l -> id = -1 \/ has_item (m_sides b) id.
  Proof using Hb Hsz.
    intros Hne Hl k. destruct Hsz as (Hv & Hs & Hc).
    assert (HI : forall (z : Z) (l : list bare_side), is_i16 z -> Z.of_nat (length l) <= 2 ^ 63 -> has_item l (as_usize z) <-> has_item l z).
    { intros z l Hz Hlen. rewrite as_usize_val by exact Hz. unfold has_item, is_i16 in *. destruct (z <? 0) eqn:E; lia. }
    assert (HJ : forall (z : Z) (l : list bare_vertex), is_i16 z -> has_item l z -> has_item l (as_usize z)).
    { intros z l Hz H. rewrite as_usize_val by exact Hz. unfold has_item, is_i16 in *. destruct (z <? 0) eqn:E; lia. }
    unfold m_indices_exist. cbn [conv_map g_lines g_sides g_vertices]. split.
    - intros (H & _) l id Hin Hid. destruct (Z.eq_dec id (-1)) as [E|E]; [left; exact E|right].
      destruct (in_conv_lines _ 0 _ Hin) as (j & Hj). destruct (line_i16 l Hin) as (_ & _ & _ & _ & _ & Hf & Hk).
      specialize (H _ (as_usize id) Hj). rewrite map_has in H.
      assert (I : is_i16 id) by (destruct Hid as [-> | ->]; assumption).
      apply (HI id _ I Hs). apply H. cbn [conv_line ln_front ln_back]. unfold conv_ref.
      destruct Hid as [Hid|Hid]; rewrite <- Hid; replace (id =? -1) with false by lia; auto.
    - intros H. split.
      + intros l' h Hl' Hh. apply conv_lines_in in Hl'. destruct Hl' as (j & l & Hin & ->). rewrite map_has.
        cbn [conv_line ln_front ln_back] in Hh. destruct (line_i16 l Hin) as (_ & _ & _ & _ & _ & Hf & Hk). unfold conv_ref in Hh.
        destruct Hh as [Hh|Hh].
        * destruct (Z.eqb_spec (dl_front l) (-1)) as [E|E]; [discriminate|]. injection Hh as <-. apply HI; auto.
          destruct (H l (dl_front l) Hin); tauto.
        * destruct (Z.eqb_spec (dl_back l) (-1)) as [E|E]; [discriminate|]. injection Hh as <-. apply HI; auto.
          destruct (H l (dl_back l) Hin); tauto.
      + intros l' Hl' _. apply conv_lines_in in Hl'. destruct Hl' as (j & l & Hin & ->). rewrite !map_has.
        destruct (line_i16 l Hin) as (H0 & H1 & _). destruct (Hl l Hin) as (R0 & R1 & _).
        cbn [conv_line ln_start ln_end]. split; apply HJ; assumption.
  Qed.

  Lemma sector_outlines : forall s,
    decides (eq PIndex) (m_indices_exist m s) (fun os => ~ In [] os) (map_sector_to_polygons m s).
  Proof.
    intros s. destruct (map_sector_spec m s) as [HY HN].
    assert (D : m_indices_exist m s \/ ~ m_indices_exist m s).
    { pose proof (m_collect_spec m s (g_lines m) [] [] indexed_nil) as H. pose proof (all_ok_exist m s) as Hae.
      destruct (ofold _ _ _) as [[edges vm]| |p]; [left|contradiction|right]; tauto. }
    destruct D as [D|D].
    - destruct (HY D) as (os & vss & lss & -> & L1 & L2 & Ho & _). cbn. split; [|exact D].
      intros C. apply In_nth_error in C. destruct C as (k & Hk).
      assert (Lk : (k < length os)%nat) by (apply nth_error_Some; congruence).
      destruct (nth_error vss k) as [vs|] eqn:E1; [|apply nth_error_None in E1; lia].
      destruct (nth_error lss k) as [ls|] eqn:E2; [|apply nth_error_None in E2; lia].
      destruct (Ho k [] vs ls Hk E1 E2) as [H _]. cbn in H. lia.
    - rewrite (HN D). cbn. auto.
  Qed.

  Definition hits (k : nat) (l : doom_line) : Prop :=
    (exists sd, item_at (m_sides b) (dl_back l) sd /\ sd_sector sd = Z.of_nat k) /\ dl_special l <> 0 /\ dl_tag l = 0.

  Lemma implicit_tag_spec : forall k ls i, (forall l, In l ls -> In l (m_lines b)) -> Z.of_nat k < 2 ^ 63 ->
    (forall l, In l ls -> dl_back l = -1 \/ has_item (m_sides b) (dl_back l)) ->
    exists r, implicit_tag m (Z.of_nat k) (conv_lines i ls) = Ok r /\ (r = true <-> exists l, In l ls /\ hits k l).
  Proof using Hb Hsz.
    intros k ls i Hin Hk. revert i. induction ls as [|l ls IH]; intros i Hr; cbn [conv_lines implicit_tag].
    { exists false. split; [reflexivity|]. split; [discriminate|]. intros (l & [] & _). }
    assert (Hl : In l (m_lines b)) by (apply Hin; left; reflexivity).
    destruct (line_i16 l Hl) as (_ & _ & _ & _ & HT & _ & HK). destruct Hsz as (_ & Hs & _).
    destruct (conv_predicates i l Hl) as [HS _].
    assert (HT0 : ln_tag (conv_line i l) =? 0 = true <-> dl_tag l = 0).
    { cbn [conv_line ln_tag]. rewrite as_u32_i16 by exact HT. unfold is_i16 in HT. destruct (Z.ltb_spec (dl_tag l) 0); lia. }
    assert (HB : exists bk, bound_back m (conv_line i l) = Ok bk
       /\ (match bk with Some sd => si_sector sd =? Z.of_nat k | None => false end = true
          <-> exists sd, item_at (m_sides b) (dl_back l) sd /\ sd_sector sd = Z.of_nat k)).
    { unfold bound_back, map_side. cbn [conv_line ln_back conv_map g_sides]. unfold conv_ref.
      destruct (Z.eqb_spec (dl_back l) (-1)) as [E|E]; cbn [negb oopt].
      - exists None. split; [reflexivity|]. split; [discriminate|]. intros (sd & [H _] & _). lia.
      - destruct (Hr l (or_introl eq_refl)) as [C|C]; [tauto|].
        pose proof (look_up_map conv_side (m_sides b) (dl_back l) HK Hs) as L.
        destruct (index _ (as_usize (dl_back l))) as [s|e|p]; cbn [decides obind] in *; [|contradiction|tauto].
        destruct L as ((sd & Hsd & ->) & _). eexists. split; [reflexivity|]. cbn [conv_side si_sector].
        pose proof (side_i16 _ _ Hsd) as Is. rewrite as_usize_val by exact Is. unfold is_i16 in Is.
        split.
        + intros H. exists sd. split; [exact Hsd|]. destruct (Z.ltb_spec (sd_sector sd) 0); lia.
        + intros (sd' & Hsd' & H). rewrite (item_at_inj _ _ _ _ Hsd Hsd') in *. destruct (Z.ltb_spec (sd_sector sd') 0); lia. }
    destruct HB as (bk & -> & HB). cbn [obind].
    destruct (match bk with Some sd => si_sector sd =? Z.of_nat k | None => false end
              && (has_special (conv_line i l) && (ln_tag (conv_line i l) =? 0))) eqn:C.
    - exists true. split; [reflexivity|]. split; [|reflexivity]. intros _. exists l. split; [left; reflexivity|].
      apply andb_true_iff in C. destruct C as [C1 C2]. apply andb_true_iff in C2. unfold hits. tauto.
    - destruct (IH (fun l' H => Hin l' (or_intror H)) (i + 1) (fun l' H => Hr l' (or_intror H))) as (r & E & Hr').
      exists r. split; [exact E|]. rewrite Hr'. split.
      + intros (l' & H1 & H2). exists l'. split; [right; exact H1|exact H2].
      + intros (l' & [<-|H1] & H2); [|eauto]. exfalso. destruct H2 as (H2 & H3 & H4).
        apply HB in H2. apply HS in H3. apply HT0 in H4. rewrite H2, H3, H4 in C. discriminate.
  Qed.

  Definition xy (p : point) : f64 * f64 := (px p, py p).

  Lemma sector_shape_spec : forall k sec, nth_error (m_sectors b) k = Some sec ->
    (forall l, In l (m_lines b) -> line_refs l) ->
    decides (eq PIndex)
      (forall l id, In l (m_lines b) -> id = dl_front l \/ id = dl_back l -> id = -1 \/ has_item (m_sides b) id)
      (fun s => exists outlines, map_sector_to_polygons m (Z.of_nat k) = Ok outlines
         /\ sector_drawn b (map (map xy) outlines) k sec s)
      (map_sector_shape m (k, conv_sector sec)).
  Proof using Hb Hsz.
    intros k sec Hsec Hl. unfold map_sector_shape.
    assert (Hne : m_sectors b <> []) by (intros E; rewrite E in Hsec; destruct k; discriminate).
    assert (Hk : Z.of_nat k < 2 ^ 63).
    { assert (k < length (m_sectors b))%nat by (apply nth_error_Some; congruence). destruct Hsz as (_ & _ & H1). lia. }
    assert (Hsv : sector_valid sec).
    { destruct Hb as (_ & _ & _ & _ & H). rewrite Forall_forall in H. apply H. eauto using nth_error_In. }
    eapply decides_weaken with (P := fun s => exists outlines, map_sector_to_polygons m (Z.of_nat k) = Ok outlines
         /\ sector_drawn b (map (map xy) outlines) k sec s); [|apply indices_iff; assumption|auto].
    pose proof (sector_outlines (Z.of_nat k)) as D.
    destruct (map_sector_to_polygons m (Z.of_nat k)) as [os|e|p]; cbn [obind]; [|contradiction|exact D].
    destruct D as [D1 D2].
    destruct (outlines_path_spec (map (map xy) os)) as (d & Ed & Sd).
    { intros C. apply in_map_iff in C. destruct C as (o & Eo & Ho). destruct o; [auto|discriminate]. }
    change (fun p : point => (px p, py p)) with xy. rewrite Ed. cbn [obind].
    pose proof (proj1 (indices_iff Hne Hl (Z.of_nat k)) D2) as Hr.
    destruct (implicit_tag_spec k (m_lines b) 0 (fun l H => H) Hk) as (r & Er & Hr'); [intros l Hin; eapply Hr; [exact Hin|auto]|].
    cbn [conv_map g_lines]. change (implicit_tag (conv_map b)) with (implicit_tag m). rewrite Er. cbn [obind].
    split; [|exact D2]. exists os. split; [reflexivity|]. unfold sector_drawn. do 4 eexists. split; [reflexivity|].
    split; [exact Sd|]. destruct Hsv as (_ & _ & _ & _ & SL & ST & SG). cbn [conv_sector ms_tag ms_light ms_special].
    split; [|split; [apply (pattern_mod 8); lia|]].
    - intros t. destruct (Z.eqb_spec (as_u32 (sc_tag sec)) 0) as [E|E]; cbn [negb].
      + split; [discriminate|]. intros [H _]. exfalso. rewrite as_u32_i16 in E by exact SG. unfold is_i16 in SG. destruct (Z.ltb_spec (sc_tag sec) 0); lia.
      + split.
        * intros [= <-]. split; [intros H; rewrite H in E; apply E; reflexivity|]. apply (pattern_mod 32); lia.
        * intros [_ (H & q & ->)]. f_equal. unfold as_u32. change 4294967296 with (2 ^ 32). symmetry. apply Z.mod_unique_pos with (- q); lia.
    - assert (H9 : (as_u32 (sc_type sec) =? 9) = true <-> sc_type sec = 9).
      { rewrite as_u32_i16 by exact ST. unfold is_i16 in ST. destruct (Z.ltb_spec (sc_type sec) 0); lia. }
      assert (HU : r = true <-> untagged_special b k).
      { rewrite Hr'. unfold hits, untagged_special. split.
        - intros (l & H1 & (sd & H2 & H3) & H4 & H5). exists l, sd. auto.
        - intros (l & sd & H1 & H2 & H3 & H4 & H5). exists l. split; [exact H1|]. split; [eauto|auto]. }
      clear - H9 HU. split.
      + destruct (as_u32 (sc_type sec) =? 9), r; cbn [app]; nodup.
      + intros c. rewrite !in_app_iff. cbn [In]. split.
        * intros [[<-|[]]|[Hc|Hc]].
          -- constructor.
          -- destruct (as_u32 (sc_type sec) =? 9); [|destruct Hc]. destruct Hc as [<-|[]]. apply sk_secret. tauto.
          -- destruct r; [|destruct Hc]. destruct Hc as [<-|[]]. apply sk_implicit. tauto.
        * intros H. destruct H as [|H|H]; [auto|..].
          -- apply H9 in H. rewrite H. cbn; auto.
          -- apply HU in H. rewrite H. cbn; auto.
  Qed.
End MapChart.

Lemma enumerate_rel : forall {A B} (g : A -> B) l i,
  Forall2 (fun x y => y = (fst x, g (snd x)) /\ nth_error l (fst x - i) = Some (snd x) /\ (i <= fst x)%nat)
    (enumerate_from i l) (enumerate_from i (map g l)).
Proof.
  intros A B g l. assert (G : forall l' pre i, l = pre ++ l' ->
    Forall2 (fun x y => y = (fst x, g (snd x)) /\ nth_error l (fst x - i) = Some (snd x) /\ (i <= fst x)%nat)
    (enumerate_from (i + length pre) l') (enumerate_from (i + length pre) (map g l'))).
  { induction l' as [|x l' IH]; intros pre i E; cbn [map enumerate_from]; constructor.
    - cbn [fst snd]. split; [reflexivity|]. split; [|lia]. replace (i + length pre - i)%nat with (length pre) by lia.
      rewrite E, nth_error_app2, Nat.sub_diag by lia. reflexivity.
    - specialize (IH (pre ++ [x]) i). rewrite app_length in IH. cbn [length] in IH.
      replace (S (i + length pre)) with (i + (length pre + 1))%nat by lia. apply IH. rewrite <- app_assoc. exact E. }
  intros i. specialize (G l [] i eq_refl). cbn [length] in G. rewrite Nat.add_0_r in G. exact G.
Qed.

Lemma enumerate_in : forall {A} (l : list A) k x, In (k, x) (enumerate l) <-> nth_error l k = Some x.
Proof.
  intros A l. unfold enumerate. assert (G : forall (l : list A) i k x, In (k, x) (enumerate_from i l) <-> (i <= k)%nat /\ nth_error l (k - i) = Some x).
  { clear l. induction l as [|y l IH]; intros i k x; cbn [enumerate_from In].
    - split; [intros []|]. intros [_ H]. destruct (k - i)%nat; discriminate.
    - rewrite IH. split.
      + intros [[= <- <-]|[H1 H2]]; [rewrite Nat.sub_diag; auto|]. split; [lia|].
        replace (k - i)%nat with (S (k - S i)) by lia. exact H2.
      + intros [H1 H2]. destruct (Nat.eq_dec i k) as [->|N].
        * left. rewrite Nat.sub_diag in H2. cbn in H2. congruence.
        * right. split; [lia|]. replace (k - i)%nat with (S (k - S i)) in H2 by lia. exact H2. }
  intros k x. rewrite G, Nat.sub_0_r. intuition lia.
Qed.

Lemma enumerate_nth : forall {A} (l : list A) k x, nth_error l k = Some x -> nth_error (enumerate l) k = Some (k, x).
Proof.
  intros A l. unfold enumerate. assert (G : forall (l : list A) i k (x : A), nth_error l k = Some x -> nth_error (enumerate_from i l) k = Some ((i + k)%nat, x)).
  { clear l. induction l as [|y l IH]; intros i [|k] x H; cbn [nth_error enumerate_from] in *; try discriminate.
    - rewrite Nat.add_0_r. congruence.
    - rewrite (IH (S i) k x H). do 2 f_equal. lia. }
  intros k x H. apply (G l 0%nat k x H).
Qed.

Lemma enumerate_length : forall {A} (l : list A), length (enumerate l) = length l.
Proof.
  intros A l. unfold enumerate. generalize 0%nat. induction l as [|x l IH]; intros i; cbn [enumerate_from length]; auto.
Qed.

Lemma thing_shape_drawn : forall t, thing_valid t -> thing_drawn int_valued t (map_thing_shape (conv_thing t)).
Proof.
  intros t (Hx & Hy & _ & Hn & _). unfold thing_drawn, map_thing_shape. cbn [conv_thing th_num th_point px py].
  pose proof (look_style (dt_num t) Hn) as S. pose proof (look_radius (as_u32 (dt_num t))) as R.
  destruct (thing_look (as_u32 (dt_num t))) as [fill r]. cbn [fst snd] in *.
  exists fill, r. split; [exact S|]. unfold square_about. do 2 eexists. split; [rewrite (Z.mul_comm 2 r); reflexivity|].
  cbn [fst snd]. unfold is_i16 in *. rewrite !of_Z_sub by lia. split; apply of_Z_valued; lia.
Qed.

Theorem chart_decides : forall b, map_valid b -> small_map b ->
  decides (eq PIndex) (chart_refs b)
    (fun d => exists ls ts ss, d_shapes d = ls ++ ts ++ ss
       /\ Forall2 (line_drawn b int_valued) (m_lines b) ls
       /\ Forall2 (thing_drawn int_valued) (m_things b) ts
       /\ length ss = length (m_sectors b)
       /\ forall k sec s, nth_error (m_sectors b) k = Some sec -> nth_error ss k = Some s ->
            exists outlines, map_sector_to_polygons (conv_map b) (Z.of_nat k) = Ok outlines
              /\ sector_drawn b (map (map (fun p => (px p, py p))) outlines) k sec s)
    (map_as_svg (conv_map b)).
Proof.
  intros b Hb Hsz. unfold map_as_svg.
  match goal with |- decides _ _ ?P _ => eapply (decides_weaken _ _ _ P P) end.
  - eapply decides_bind.
    + eapply decides_omap2 with (l := m_lines b); [apply conv_lines_rel|].
      intros l l' Hl (j & ->). apply map_line_spec; assumption.
    + intros ls Hl Hls. cbn beta zeta. eapply decides_bind_ok.
      * eapply decides_omap2 with (l := enumerate (m_sectors b))
          (Q := fun _ => forall l id, In l (m_lines b) -> id = dl_front l \/ id = dl_back l -> id = -1 \/ has_item (m_sides b) id)
          (P := fun x s => exists outlines, map_sector_to_polygons (conv_map b) (Z.of_nat (fst x)) = Ok outlines
                  /\ sector_drawn b (map (map xy) outlines) (fst x) (snd x) s); [apply enumerate_rel|].
        intros x y Hin HR. destruct x as [k sec]. destruct HR as (-> & Hn & _). cbn [fst snd] in *. apply enumerate_in in Hin. apply sector_shape_spec; assumption.
      * intros ss _ Hss. eexists. split; [reflexivity|]. cbn [d_shapes].
        exists ls, (map map_thing_shape (g_things (conv_map b))), ss. split; [reflexivity|]. split; [exact Hls|].
        split; [|split].
        -- destruct Hb as (HT & _). cbn [conv_map g_things]. rewrite map_map. eapply Forall2_map_r; [exact HT|].
           intros t Ht. apply thing_shape_drawn, Ht.
        -- apply Forall2_len in Hss. rewrite enumerate_length in Hss. symmetry. exact Hss.
        -- intros k sec s H1 H2. apply enumerate_nth in H1.
           destruct (Forall2_nth_l _ _ _ _ _ Hss H1) as (s' & H3 & H4). 
           assert (Es : Some s = Some s') by (transitivity (nth_error ss k); [symmetry; exact H2|exact H3]).
           injection Es as ->. exact H4.
  - unfold chart_refs, line_refs. split.
    + intros [H1 H2]. split; [intros l Hl; destruct (H1 l Hl); tauto|]. split; [intros l Hl; destruct (H1 l Hl) as (_ & _ & H); exact H|].
      intros Hne. destruct (m_sectors b) as [|sec ss] eqn:E; [congruence|]. apply (H2 (0%nat, sec)). apply enumerate_in. reflexivity.
    + intros (H1 & H2 & H3). split; [intros l Hl; destruct (H1 l Hl); specialize (H2 l Hl); tauto|].
      intros [k sec] Hin. apply enumerate_in in Hin. apply H3. intros E. rewrite E in Hin. destruct k; discriminate.
  - intros d _ H. exact H.
Qed.

Lemma chart_spec : forall b m, map_valid b -> small_map b -> from_bare b = Ok m ->
  (chart_refs b -> exists d ls ts ss, map_as_svg m = Ok d /\ d_shapes d = ls ++ ts ++ ss
     /\ Forall2 (line_drawn b int_valued) (m_lines b) ls
     /\ Forall2 (thing_drawn int_valued) (m_things b) ts
     /\ length ss = length (m_sectors b)
     /\ forall k sec s, nth_error (m_sectors b) k = Some sec -> nth_error ss k = Some s ->
          exists outlines, map_sector_to_polygons m (Z.of_nat k) = Ok outlines
            /\ sector_drawn b (map (map (fun p => (px p, py p))) outlines) k sec s)
  /\ (~ chart_refs b -> map_as_svg m = Panic PIndex).
Proof.
  intros b m Hb Hsz Hm. rewrite from_bare_conv in Hm. injection Hm as <-.
  pose proof (chart_decides b Hb Hsz) as D. destruct (map_as_svg (conv_map b)) as [d|e|p]; cbn [decides] in D; [|contradiction|].
  - destruct D as [(ls & ts & ss & D) R]. split; [|tauto]. intros _. exists d, ls, ts, ss. split; [reflexivity|exact D].
  - destruct D as [<- D]. tauto.
Qed.

(** ** The view box *)

Lemma bbox_exact : forall b, map_valid b -> m_vertices b <> [] ->
  exists x0 y0 x1 y1, map_bbox (conv_map b) = mk_rect (f64_of_Z x0) (f64_of_Z y0) (f64_of_Z (x1 - x0)) (f64_of_Z (y1 - y0))
    /\ is_i16 x0 /\ is_i16 y0 /\ is_i16 x1 /\ is_i16 y1
    /\ tight vx (m_vertices b) x0 x1 /\ tight vy (m_vertices b) y0 y1.
Proof.
  intros b (_ & _ & _ & HV & _) Hne.
  unfold map_bbox, conv_map. cbn [g_vertices].
  set (g := fun v => (vx v, vy v)).
  assert (EP : map (fun v => mk_point (px v) (py v)) (map conv_vertex (m_vertices b)) = map conv_point (map g (m_vertices b)))
    by (rewrite !map_map; reflexivity).
  unfold vertex in *. rewrite EP. clear EP.
  destruct (m_vertices b) as [|v vs] eqn:Ev; [congruence|]. cbn [map].
  destruct (from_points_int (g v) (map g vs)) as (x0 & y0 & x1 & y1 & _ & H2 & H3 & E & I0 & I1 & I2 & I3).
  { change (g v :: map g vs) with (map g (v :: vs)). apply Forall_forall. intros q Hq. apply in_map_iff in Hq.
    destruct Hq as (w & <- & Hw). rewrite Forall_forall in HV. destruct (HV _ Hw). cbn. auto. }
  exists x0, y0, x1, y1. split; [exact E|].
  change (g v :: map g vs) with (map g (v :: vs)) in H2, H3. rewrite tight_map in H2, H3.
  repeat (split; [assumption|]). assumption.
Qed.

Lemma neg_valued : forall f z, int_valued f z -> int_valued (f64_neg f) (- z).
Proof.
  intros [s|s| |s p e] z; cbn; try tauto; try lia. destruct s, (0 <=? e); cbn [negb]; lia.
Qed.

Lemma chart_view : forall b m d, map_valid b -> from_bare b = Ok m -> map_as_svg m = Ok d -> m_vertices b <> [] ->
  exists x0 y0 x1 y1, tight vx (m_vertices b) x0 x1 /\ tight vy (m_vertices b) y0 y1
    /\ view_is int_valued (d_view d) (x0, - y1, x1 - x0, y1 - y0)
    /\ forall v, In v (m_vertices b) -> visible (x0, - y1, x1 - x0, y1 - y0) (d_scale d) (vx v, vy v).
Proof.
  intros b m d Hb Hm Hd Hne. rewrite from_bare_conv in Hm. injection Hm as <-.
  destruct (bbox_exact b Hb Hne) as (x0 & y0 & x1 & y1 & E & I0 & I1 & I2 & I3 & HX & HY).
  exists x0, y0, x1, y1. split; [exact HX|]. split; [exact HY|].
  unfold map_as_svg in Hd. rewrite E in Hd.
  apply obind_ok in Hd. destruct Hd as (ls & _ & Hd). apply obind_ok in Hd. destruct Hd as (ss & _ & [= <-]).
  cbn [d_view d_scale r_x r_y r_w r_h]. split.
  - unfold view_is, is_i16 in *. split; [apply of_Z_valued; lia|]. split; [|split; apply of_Z_valued; lia].
    unfold r_max_y. cbn [r_y r_h]. apply neg_valued. rewrite of_Z_add by lia. replace (y0 + (y1 - y0)) with y1 by lia. apply of_Z_valued. lia.
  - intros v Hv. destruct HX as [HX _], HY as [HY _]. specialize (HX v Hv). specialize (HY v Hv). unfold visible. cbn [fst snd]. lia.
Qed.

Lemma chart_view_empty : forall b m d, from_bare b = Ok m -> map_as_svg m = Ok d -> m_vertices b = [] ->
  view_is int_valued (d_view d) (0, 0, 0, 0).
Proof.
  intros b m d Hm Hd E. unfold map_as_svg in Hd. rewrite (bbox_empty b m Hm E) in Hd.
  apply obind_ok in Hd. destruct Hd as (ls & _ & Hd). apply obind_ok in Hd. destruct Hd as (ss & _ & [= <-]).
  cbn. auto.
Qed.
