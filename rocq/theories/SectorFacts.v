(** Proofs about [BareBinaryMap::sector_to_polygons]. *)

From Coq Require Import String List ZArith Bool Lia ZifyBool.
From Verif Require Import Base BaseFacts ParseMap SpecLumps Float MapModel SpecMapModel MapFacts SectorPolys SpecSector.
Import ListNotations.
Local Open Scope Z_scope.

(** ** The hash map *)

Lemma vmap_push_get : forall vm v e w,
  vmap_get (vmap_push vm v e) w =
  if v =? w then Some (match vmap_get vm w with Some es => es ++ [e] | None => [e] end) else vmap_get vm w.
Proof.
  induction vm as [|[k es] vm IH]; intros v e w; cbn [vmap_push vmap_get].
  - destruct (Z.eqb_spec v w); reflexivity.
  - destruct (Z.eqb_spec k v) as [->|Hk]; cbn [vmap_get].
    + destruct (Z.eqb_spec v w); reflexivity.
    + rewrite IH. destruct (Z.eqb_spec k w) as [->|Hw]; [|reflexivity].
      destruct (Z.eqb_spec v w); [lia|reflexivity].
Qed.

(** Pairs of endpoints, and the hash map indexes them. *)
Definition touches (p : Z * Z) (v : Z) : Prop := fst p = v \/ snd p = v.
Definition indexed (E : list (Z * Z)) (vm : vmap) : Prop :=
  (forall v es, vmap_get vm v = Some es -> es <> [] /\ forall e, In e es <-> exists p, nth_error E e = Some p /\ touches p v)
  /\ (forall v, vmap_get vm v = None -> forall p, In p E -> ~ touches p v).

Lemma indexed_nil : indexed [] [].
Proof. split; [discriminate|]. intros v _ p []. Qed.

Lemma indexed_push : forall E vm a b, indexed E vm ->
  indexed (E ++ [(a, b)]) (vmap_push (vmap_push vm a (length E)) b (length E)).
Proof.
  intros E vm a b (H1 & H2).
  assert (Hnth : forall e p, nth_error (E ++ [(a, b)]) e = Some p <-> nth_error E e = Some p \/ (e = length E /\ p = (a, b))).
  { intros e p. destruct (Nat.lt_trichotomy e (length E)) as [H|[H|H]].
    - rewrite nth_error_app1 by lia. split; [auto|]. intros [H'|[H' _]]; [auto|lia].
    - subst e. rewrite nth_error_app2, Nat.sub_diag by lia. cbn. rewrite (proj2 (nth_error_None E (length E))) by lia.
      split; [intros [= <-]; auto|]. intros [H'|[_ ->]]; [discriminate|reflexivity].
    - rewrite nth_error_app2 by lia. destruct (e - length E)%nat as [|[|n]] eqn:E'; cbn; [lia| |];
        (split; [discriminate|]; intros [H'|[H' _]]; [|lia]).
      all: assert (nth_error E e <> None) by congruence; rewrite nth_error_Some in *; lia. }
  split.
  - intros v es. rewrite !vmap_push_get. destruct (Z.eqb_spec b v) as [<-|Hb].
    + intros [= <-].
      assert (K : forall e, In e (match vmap_get vm b with Some es => es | None => [] end) <-> exists p, nth_error E e = Some p /\ touches p b).
      { intros e. destruct (vmap_get vm b) as [es|] eqn:G; [apply H1, G|]. split; [intros []|].
        intros (p & Hp & Ht). eapply H2; eauto using nth_error_In. }
      assert (KE : forall e, (exists p, nth_error (E ++ [(a, b)]) e = Some p /\ touches p b) <->
                 In e (match vmap_get vm b with Some es => es | None => [] end) \/ e = length E).
      { intros e. rewrite K. split.
        - intros (p & Hp & Ht). apply Hnth in Hp. destruct Hp as [Hp|[-> ->]]; [left; eauto|auto].
        - intros [(p & Hp & Ht)| ->]; [exists p; rewrite Hnth; auto|]. exists (a, b). rewrite Hnth. unfold touches; cbn; auto. }
      destruct (Z.eqb_spec a b) as [Ha|Ha].
      * split; [destruct (vmap_get vm b) as [[|]|]; discriminate|]. intros e. rewrite KE.
        destruct (vmap_get vm b); rewrite !in_app_iff; cbn [In]; intuition.
      * destruct (vmap_get vm b) as [es|].
        -- split; [destruct es; discriminate|]. intros e. rewrite KE, in_app_iff. cbn [In]. intuition.
        -- split; [discriminate|]. intros e. rewrite KE. cbn [In]. intuition.
    + destruct (Z.eqb_spec a v) as [<-|Ha].
      * intros [= <-].
        assert (K : forall e, In e (match vmap_get vm a with Some es => es | None => [] end) <-> exists p, nth_error E e = Some p /\ touches p a).
        { intros e. destruct (vmap_get vm a) as [es|] eqn:G; [apply H1, G|]. split; [intros []|].
          intros (p & Hp & Ht). eapply H2; eauto using nth_error_In. }
        assert (KE : forall e, (exists p, nth_error (E ++ [(a, b)]) e = Some p /\ touches p a) <->
                   In e (match vmap_get vm a with Some es => es | None => [] end) \/ e = length E).
        { intros e. rewrite K. split.
          - intros (p & Hp & Ht). apply Hnth in Hp. destruct Hp as [Hp|[-> ->]]; [left; eauto|auto].
          - intros [(p & Hp & Ht)| ->]; [exists p; rewrite Hnth; auto|]. exists (a, b). rewrite Hnth. unfold touches; cbn; auto. }
        destruct (vmap_get vm a) as [es|].
        -- split; [destruct es; discriminate|]. intros e. rewrite KE, in_app_iff. cbn [In]. intuition.
        -- split; [discriminate|]. intros e. rewrite KE. cbn [In]. intuition.
      * intros G. destruct (H1 _ _ G) as (Hne & HE). split; [exact Hne|]. intros e. rewrite HE. split; intros (p & Hp & Ht).
        -- exists p. rewrite Hnth. auto.
        -- apply Hnth in Hp. destruct Hp as [Hp|[-> ->]]; [eauto|]. unfold touches in Ht; cbn in Ht. lia.
  - intros v. rewrite !vmap_push_get. destruct (Z.eqb_spec b v); [discriminate|]. destruct (Z.eqb_spec a v); [discriminate|].
    intros G p Hp Ht. apply in_app_or in Hp. destruct Hp as [Hp|[<-|[]]]; [eapply H2; eauto|].
    unfold touches in Ht; cbn in Ht. lia.
Qed.

(** ** Collecting the edges *)

Lemma as_usize_nat : forall z, 0 <= z < 2 ^ 64 -> as_usize z = z.
Proof. intros z H. unfold as_usize. apply Z.mod_small. lia. Qed.

Lemma pattern_usize : forall z w, 0 <= w < 2 ^ 64 -> pattern_of 64 z w <-> as_usize z = w.
Proof.
  intros z w Hw. unfold pattern_of, as_usize. change 18446744073709551616 with (2 ^ 64). split.
  - intros (_ & k & ->). symmetry. apply Z.mod_unique_pos with (-k); lia.
  - intros <-. split; [apply Z.mod_pos_bound; lia|]. exists (- (z / 2 ^ 64)).
    rewrite (Z.div_mod z (2 ^ 64)) at 2 by lia. lia.
Qed.

Lemma index_i16 : forall {A} (l : list A) z, is_i16 z -> Z.of_nat (length l) <= 2 ^ 63 ->
  match index l (as_usize z) with
  | Ok a => item_at l z a /\ has_item l z /\ as_usize z = z
  | Panic p => p = PIndex /\ ~ has_item l z
  | Err _ => False
  end.
Proof.
  intros A l z Hz Hl. rewrite as_usize_val by exact Hz. unfold is_i16 in Hz. unfold index, item_at, has_item, zlen.
  destruct (Z.ltb_spec z 0).
  - replace (z + 2 ^ 64 <? Z.of_nat (length l)) with false by lia. rewrite andb_false_r. split; [reflexivity|lia].
  - destruct ((0 <=? z) && (z <? Z.of_nat (length l))) eqn:E; [|split; [reflexivity|lia]].
    destruct (nth_error l (Z.to_nat z)) eqn:E2; [repeat split; try assumption; lia|].
    apply nth_error_None in E2. lia.
Qed.

Lemma item_at_inj : forall {A} (l : list A) z a b, item_at l z a -> item_at l z b -> a = b.
Proof. unfold item_at. intros A l z a b [_ H] [_ H']. congruence. Qed.
Lemma item_at_in : forall {A} (l : list A) z a, item_at l z a -> In a l.
Proof. intros A l z a [_ H]. eauto using nth_error_In. Qed.
Lemma item_at_has : forall {A} (l : list A) z a, item_at l z a -> has_item l z.
Proof.
  intros A l z a [H0 H]. unfold has_item. assert (nth_error l (Z.to_nat z) <> None) by congruence.
  rewrite nth_error_Some in *. lia.
Qed.

Definition ends (e : edge) : Z * Z := (e_v0 e, e_v1 e).
Definition ref_ok {A} (l : list A) (id : Z) : Prop := id = -1 \/ has_item l id.

Section Collect.
  Context {L T : Type} (ops : line_ops L) (m : binary_map L T) (s : Z).
  Hypothesis Hs : 0 <= s < 2 ^ 64.
  Hypothesis Hm : i16_indices ops m.

  Definition verts_ok (l : L) : Prop :=
    has_item (m_vertices m) (fst (lo_vertices ops l)) /\ has_item (m_vertices m) (snd (lo_vertices ops l)).
  Definition borders0 (l : L) : Prop :=
    (side_in m s (fst (lo_sides ops l)) \/ side_in m s (snd (lo_sides ops l))) /\ ~ same_sector_both_sides ops m l.

  Lemma add_side_spec : forall l edges vm id,
    In l (m_lines m) -> is_i16 id -> indexed (map ends edges) vm ->
    match bare_add_side ops m s l (edges, vm) id with
    | Ok (edges', vm') =>
        ref_ok (m_sides m) id /\ indexed (map ends edges') vm' /\
        ((~ side_in m s id /\ edges' = edges)
         \/ (side_in m s id /\ verts_ok l /\
             edges' = edges ++ [mk_edge (fst (lo_vertices ops l)) (snd (lo_vertices ops l)) false]))
    | Panic p => p = PIndex /\ (~ ref_ok (m_sides m) id \/ (side_in m s id /\ ~ verts_ok l))
    | Err _ => False
    end.
  Proof.
    intros l edges vm id Hl Hid Hix. destruct Hm as (Hls & Hsd & Hlv & Hlsd). unfold bare_add_side.
    destruct (Z.eqb_spec id (-1)) as [->|Hne].
    { split; [left; reflexivity|]. split; [exact Hix|]. left. split; [|reflexivity].
      intros (sd & (H & _) & _). lia. }
    pose proof (index_i16 (m_sides m) id Hid Hlsd) as H1. destruct (index (m_sides m) (as_usize id)) as [sd| |p]; cbn [obind].
    2: contradiction.
    2: { destruct H1 as (-> & H1). split; [reflexivity|]. left. intros [H|H]; [lia|contradiction]. }
    destruct H1 as (Hi & Hh & Hu).
    assert (Hin : side_in m s id <-> as_usize (sd_sector sd) = s).
    { split.
      - intros (sd' & Hi' & Hp). rewrite (item_at_inj _ _ _ _ Hi Hi'). apply pattern_usize; assumption.
      - intros H. exists sd. split; [exact Hi|]. apply pattern_usize; assumption. }
    destruct (Z.eqb_spec (as_usize (sd_sector sd)) s) as [Es|Es].
    2: { split; [right; exact Hh|]. split; [exact Hix|]. left. split; [tauto|reflexivity]. }
    specialize (Hls l Hl). unfold verts_ok. destruct (lo_vertices ops l) as [v0 v1]; cbn [fst snd] in *.
    destruct Hls as (H16a & H16b & _).
    pose proof (index_i16 (m_vertices m) v0 H16a Hlv) as Hv0.
    destruct (index (m_vertices m) (as_usize v0)); cbn [obind]; [|contradiction|].
    2: { destruct Hv0 as (-> & Hv0). split; [reflexivity|]. right. tauto. }
    pose proof (index_i16 (m_vertices m) v1 H16b Hlv) as Hv1.
    destruct (index (m_vertices m) (as_usize v1)); cbn [obind]; [|contradiction|].
    2: { destruct Hv1 as (-> & Hv1). split; [reflexivity|]. right. tauto. }
    destruct Hv0 as (_ & Hv0 & ->), Hv1 as (_ & Hv1 & ->).
    split; [right; exact Hh|]. split.
    - rewrite app_length, Nat.add_sub, map_app. cbn [map ends e_v0 e_v1]. unfold ends at 2. cbn [e_v0 e_v1].
      rewrite <- (map_length ends edges). apply indexed_push. exact Hix.
    - right. tauto.
  Qed.

  Definition line_edge (l : L) : edge := mk_edge (fst (lo_vertices ops l)) (snd (lo_vertices ops l)) false.

  Lemma both_sides_in : forall f b, side_in m s f -> side_in m s b ->
    exists x y, item_at (m_sides m) f x /\ item_at (m_sides m) b y /\ sd_sector x = sd_sector y.
  Proof.
    intros f b (x & Hx & Px) (y & Hy & Py). exists x, y. split; [exact Hx|]. split; [exact Hy|].
    destruct Hm as (_ & Hsd & _). pose proof (Hsd x (item_at_in _ _ _ Hx)) as Ix. pose proof (Hsd y (item_at_in _ _ _ Hy)) as Iy.
    unfold is_i16, pattern_of in *. destruct Px as (_ & k & Px), Py as (_ & k' & Py). lia.
  Qed.

  Lemma add_line_spec : forall l edges vm,
    In l (m_lines m) -> indexed (map ends edges) vm ->
    match bare_add_line ops m s (edges, vm) l with
    | Ok (edges', vm') =>
        ref_ok (m_sides m) (fst (lo_sides ops l)) /\ ref_ok (m_sides m) (snd (lo_sides ops l))
        /\ (borders0 l -> verts_ok l)
        /\ indexed (map ends edges') vm'
        /\ ((borders0 l /\ edges' = edges ++ [line_edge l]) \/ (~ borders0 l /\ edges' = edges))
    | Panic p =>
        p = PIndex /\ (~ ref_ok (m_sides m) (fst (lo_sides ops l)) \/ ~ ref_ok (m_sides m) (snd (lo_sides ops l))
                       \/ (borders0 l /\ ~ verts_ok l))
    | Err _ => False
    end.
  Proof.
    intros l edges vm Hl Hix. destruct (proj1 Hm l Hl) as (_ & _ & Hf & Hb).
    assert (Hlsd : Z.of_nat (length (m_sides m)) <= 2 ^ 63) by apply Hm.
    pose proof (add_side_spec l edges vm) as HA. pose proof (fun e v => add_side_spec l e v) as HB.
    assert (Hbd : borders0 l <-> (side_in m s (fst (lo_sides ops l)) \/ side_in m s (snd (lo_sides ops l)))
                  /\ ~ (exists x y, item_at (m_sides m) (fst (lo_sides ops l)) x /\ item_at (m_sides m) (snd (lo_sides ops l)) y /\ sd_sector x = sd_sector y))
      by reflexivity.
    set (Bd := borders0 l) in *. clearbody Bd. unfold bare_add_line.
    assert (Hvs : lo_vertices ops l = (fst (lo_vertices ops l), snd (lo_vertices ops l))) by (destruct (lo_vertices ops l); reflexivity).
    pose proof (both_sides_in (fst (lo_sides ops l)) (snd (lo_sides ops l))) as Hbs.
    unfold line_edge.
    set (new1 := mk_edge (fst (lo_vertices ops l)) (snd (lo_vertices ops l)) false) in *.
    set (vs := lo_vertices ops l) in *. clearbody vs new1.
    destruct (lo_sides ops l) as [f b]; cbn [fst snd] in *.
    assert (Hskip : match (if negb (f =? -1) && negb (b =? -1) then
                   let* f0 := index (m_sides m) (as_usize f) in
                   let* b0 := index (m_sides m) (as_usize b) in Ok (sd_sector f0 =? sd_sector b0)
                 else Ok false) with
             | Ok k => (k = true -> ref_ok (m_sides m) f /\ ref_ok (m_sides m) b) /\
                       (k = true <-> exists x y, item_at (m_sides m) f x /\ item_at (m_sides m) b y /\ sd_sector x = sd_sector y)
             | Panic p => p = PIndex /\ (~ ref_ok (m_sides m) f \/ ~ ref_ok (m_sides m) b)
             | Err _ => False end).
    { destruct (Z.eqb_spec f (-1)) as [->|Hf1]; cbn [negb andb].
      { split; [discriminate|]. split; [discriminate|]. intros (x & y & (H & _) & _). lia. }
      destruct (Z.eqb_spec b (-1)) as [->|Hb1]; cbn [negb andb].
      { split; [discriminate|]. split; [discriminate|]. intros (x & y & _ & (H & _) & _). lia. }
      pose proof (index_i16 (m_sides m) f Hf Hlsd) as H1. destruct (index (m_sides m) (as_usize f)) as [x| |p]; cbn [obind].
      2: contradiction. 2: { destruct H1 as (-> & H1). split; [reflexivity|]. left. intros [|]; [lia|contradiction]. }
      pose proof (index_i16 (m_sides m) b Hb Hlsd) as H2. destruct (index (m_sides m) (as_usize b)) as [y| |p]; cbn [obind].
      2: contradiction. 2: { destruct H2 as (-> & H2). split; [reflexivity|]. right. intros [|]; [lia|contradiction]. }
      destruct H1 as (H1 & H1' & _), H2 as (H2 & H2' & _). split; [intros _; split; right; assumption|].
      rewrite Z.eqb_eq. split; [intros E; exists x, y; auto|]. intros (x' & y' & Hx & Hy & E).
      rewrite (item_at_inj _ _ _ _ H1 Hx), (item_at_inj _ _ _ _ H2 Hy). exact E. }
    destruct (if negb (f =? -1) && negb (b =? -1) then _ else _) as [k| |p]; cbn [obind].
    2: contradiction. 2: tauto.
    set (Same := exists x y, item_at (m_sides m) f x /\ item_at (m_sides m) b y /\ sd_sector x = sd_sector y) in *.
    clearbody Same.
    destruct Hskip as (Hr & Hk). destruct k.
    { destruct (Hr eq_refl) as (Hrf & Hrb). split; [exact Hrf|]. split; [exact Hrb|].
      split; [tauto|]. split; [exact Hix|]. right. split; [tauto|reflexivity]. }
    assert (Hns : ~ Same) by (rewrite <- Hk; discriminate).
    specialize (HA f Hl Hf Hix).
    destruct (bare_add_side ops m s l (edges, vm) f) as [[edges1 vm1]| |p]; cbn [obind]; [|contradiction|].
    2: { destruct HA as (-> & HA). split; [reflexivity|]. tauto. }
    destruct HA as (HAr & HAi & HA). specialize (HB edges1 vm1 b Hl Hb HAi).
    destruct (bare_add_side ops m s l (edges1, vm1) b) as [[edges2 vm2]| |p]; cbn [obind]; [|contradiction|].
    2: { destruct HB as (-> & HB). split; [reflexivity|]. tauto. }
    destruct HB as (HBr & HBi & HB).
    split; [exact HAr|]. split; [exact HBr|]. split; [tauto|]. split; [exact HBi|].
    destruct HA as [(HA & ->)|(HA & HAv & ->)], HB as [(HB & ->)|(HB & HBv & ->)].
    - right. split; [tauto|reflexivity].
    - left. split; [tauto|reflexivity].
    - left. split; [tauto|reflexivity].
    - exfalso. tauto.
  Qed.

  Inductive selected (P : L -> Prop) : list L -> list L -> Prop :=
  | sel_nil : selected P [] []
  | sel_keep : forall l ls bl, P l -> selected P ls bl -> selected P (l :: ls) (l :: bl)
  | sel_skip : forall l ls bl, ~ P l -> selected P ls bl -> selected P (l :: ls) bl.

  Lemma selected_in : forall P ls bl, selected P ls bl -> forall l, In l bl <-> In l ls /\ P l.
  Proof using.
    clear Hs Hm.
    induction 1 as [|l ls bl Hp _ IH|l ls bl Hp _ IH]; intros x; cbn [In].
    - tauto.
    - rewrite IH. split; [intros [<-|H]; tauto|tauto].
    - rewrite IH. split; [tauto|]. intros ([<-|H] & H'); tauto.
  Qed.

  Lemma collect_spec : forall lines edges vm,
    incl lines (m_lines m) -> indexed (map ends edges) vm ->
    match ofold (bare_add_line ops m s) lines (edges, vm) with
    | Ok (edges', vm') =>
        (forall l, In l lines -> ref_ok (m_sides m) (fst (lo_sides ops l)) /\ ref_ok (m_sides m) (snd (lo_sides ops l))
                                 /\ (borders0 l -> verts_ok l))
        /\ indexed (map ends edges') vm'
        /\ exists bl, edges' = edges ++ map line_edge bl /\ selected borders0 lines bl
    | Panic p =>
        p = PIndex /\ ~ (forall l, In l lines -> ref_ok (m_sides m) (fst (lo_sides ops l)) /\ ref_ok (m_sides m) (snd (lo_sides ops l))
                                 /\ (borders0 l -> verts_ok l))
    | Err _ => False
    end.
  Proof.
    induction lines as [|l lines IH]; intros edges vm Hin Hix; cbn [ofold].
    { split; [intros l []|]. split; [exact Hix|]. exists []. cbn [map]. rewrite app_nil_r. split; [reflexivity|constructor]. }
    pose proof (add_line_spec l edges vm (Hin l (or_introl eq_refl)) Hix) as H1.
    destruct (bare_add_line ops m s (edges, vm) l) as [[edges1 vm1]| |p]; cbn [obind]; [|contradiction|].
    2: { destruct H1 as (-> & H1). split; [reflexivity|]. intros H. specialize (H l (or_introl eq_refl)). tauto. }
    destruct H1 as (Hf & Hb & Hv & Hix1 & He1).
    specialize (IH edges1 vm1 (fun x H => Hin x (or_intror H)) Hix1).
    destruct (ofold _ _ _) as [[edges2 vm2]| |p]; [|contradiction|].
    2: { destruct IH as (-> & IH). split; [reflexivity|]. intros H. apply IH. intros l' Hl'. apply H. right. exact Hl'. }
    destruct IH as (Hall & Hix2 & bl & -> & Hsel).
    split; [intros l' [<-|Hl']; [tauto|apply Hall, Hl']|]. split; [exact Hix2|].
    destruct He1 as [(Hbl & ->)|(Hbl & ->)].
    - exists (l :: bl). rewrite <- app_assoc. split; [reflexivity|]. constructor; assumption.
    - exists bl. split; [reflexivity|]. constructor; assumption.
  Qed.

  Lemma collect_in : forall bl, selected borders0 (m_lines m) bl -> forall p, In p (map ends (map line_edge bl)) <->
    exists l, In l (m_lines m) /\ borders0 l /\ p = lo_vertices ops l.
  Proof using.
    clear Hs Hm.
    intros bl Hb p. rewrite map_map. rewrite in_map_iff. split.
    - intros (l & <- & H). apply (selected_in _ _ _ Hb) in H. exists l. split; [apply H|]. split; [apply H|].
      unfold ends, line_edge. cbn. destruct (lo_vertices ops l); reflexivity.
    - intros (l & H & H' & ->). exists l. split; [unfold ends, line_edge; cbn; destruct (lo_vertices ops l); reflexivity|].
      apply (selected_in _ _ _ Hb). auto.
  Qed.
End Collect.

(** ** Tracing *)

Lemma seen_in_spec : forall seen v, seen_in seen v = true <-> In v seen.
Proof.
  intros seen v. unfold seen_in. rewrite existsb_exists. split.
  - intros (x & H & E). apply Z.eqb_eq in E. subst. exact H.
  - intros H. exists v. split; [exact H|apply Z.eqb_refl].
Qed.
Lemma seen_in_false : forall seen v, seen_in seen v = false <-> ~ In v seen.
Proof. intros seen v. rewrite <- seen_in_spec. destruct (seen_in seen v); split; congruence. Qed.

Definition vert (E : list (Z * Z)) (v : Z) : Prop := exists p, In p E /\ touches p v.
Definition linked (E : list (Z * Z)) (a b : Z) : Prop := exists p, In p E /\ (p = (a, b) \/ p = (b, a)).

Lemma vert_bound : forall E seen, NoDup seen -> (forall v, In v seen -> vert E v) -> (length seen <= 2 * length E)%nat.
Proof.
  intros E seen Hnd Hv.
  assert (Hi : incl seen (map fst E ++ map snd E)).
  { intros v H. destruct (Hv v H) as (p & Hp & [<-|<-]); apply in_or_app; [left|right]; apply in_map; exact Hp. }
  pose proof (NoDup_incl_length Hnd Hi) as H. rewrite app_length, !map_length in H. lia.
Qed.

Lemma first_unseen_spec : forall edges seen,
  match first_unseen edges seen with
  | Some v => vert (map ends edges) v /\ ~ In v seen
  | None => forall v, vert (map ends edges) v -> In v seen
  end.
Proof.
  induction edges as [|e edges IH]; intros seen; cbn [first_unseen map].
  - intros v (p & [] & _).
  - destruct (seen_in seen (e_v0 e)) eqn:E0; cbn [negb].
    2: { apply seen_in_false in E0. split; [|exact E0]. exists (ends e). split; [left; reflexivity|left; reflexivity]. }
    destruct (seen_in seen (e_v1 e)) eqn:E1; cbn [negb].
    2: { apply seen_in_false in E1. split; [|exact E1]. exists (ends e). split; [left; reflexivity|right; reflexivity]. }
    apply seen_in_spec in E0, E1. specialize (IH seen). destruct (first_unseen edges seen) as [v|].
    + destruct IH as ((p & Hp & Ht) & Hn). split; [|exact Hn]. exists p. split; [right; exact Hp|exact Ht].
    + intros v (p & [<-|Hp] & Ht); [destruct Ht as [<-|<-]; assumption|]. apply IH. exists p. auto.
Qed.

Lemma update_nth_map : forall {A B} (g : A -> B) (f : A -> A) l n x, (forall a, g (f a) = g a) ->
  nth_error l n = Some x -> exists l', update_nth n f l = Some l' /\ map g l' = map g l.
Proof.
  intros A B g f l. induction l as [|y l IH]; intros n x Hf Hn; destruct n; cbn in Hn; try discriminate; cbn [update_nth].
  - eexists. split; [reflexivity|]. cbn. rewrite Hf. reflexivity.
  - destruct (IH n x Hf Hn) as (l' & -> & E). eexists. split; [reflexivity|]. cbn. rewrite E. reflexivity.
Qed.

Lemma follow_edge_spec : forall es edges seen v,
  (forall e, In e es -> exists p, nth_error (map ends edges) e = Some p /\ touches p v) -> In v seen ->
  exists edges' pushed, follow_edge es edges seen = Ok (edges', pushed) /\ map ends edges' = map ends edges
    /\ (pushed = [] \/ exists w, pushed = [w] /\ ~ In w seen /\ linked (map ends edges) v w).
Proof.
  induction es as [|e es IH]; intros edges seen v Hes Hv; cbn [follow_edge].
  { exists edges, []. auto. }
  destruct (Hes e (or_introl eq_refl)) as (p & Hp & Ht). rewrite nth_error_map in Hp.
  unfold index_nat. destruct (nth_error edges e) as [ed|] eqn:Ee; [|discriminate]. cbn [option_map] in Hp. injection Hp as <-. cbn [obind].
  destruct (e_done ed).
  { apply IH; [|exact Hv]. intros e' H. apply Hes. right. exact H. }
  unfold write_at. rewrite (proj2 (Z.leb_le _ _)), Nat2Z.id by lia.
  destruct (update_nth_map ends (fun x => mk_edge (e_v0 x) (e_v1 x) true) edges e ed (fun a => eq_refl) Ee) as (l' & -> & El). cbn [obind].
  eexists _, _. split; [reflexivity|]. split; [exact El|].
  assert (Hin : In (ends ed) (map ends edges)) by (apply in_map; eauto using nth_error_In).
  destruct (seen_in seen (e_v0 ed)) eqn:E0; cbn [negb].
  - destruct (seen_in seen (e_v1 ed)) eqn:E1; cbn [negb]; [left; reflexivity|]. right. exists (e_v1 ed).
    apply seen_in_false in E1. split; [reflexivity|]. split; [exact E1|]. exists (ends ed). split; [exact Hin|].
    destruct Ht as [<-|<-]; [left; reflexivity|]. contradiction.
  - right. exists (e_v0 ed). apply seen_in_false in E0. split; [reflexivity|]. split; [exact E0|]. exists (ends ed).
    split; [exact Hin|]. destruct Ht as [<-|<-]; [contradiction|]. right; reflexivity.
Qed.

Lemma path_snoc : forall {A} (R : A -> A -> Prop) l a b, path R (l ++ [a]) -> R a b -> path R ((l ++ [a]) ++ [b]).
Proof.
  intros A R l a b H Hab k x y Hx Hy. destruct (Nat.lt_trichotomy (S k) (length (l ++ [a]))) as [Hk|[Hk|Hk]].
  - rewrite nth_error_app1 in Hx, Hy by lia. eapply H; eauto.
  - rewrite nth_error_app1 in Hx by lia. rewrite nth_error_app2, Hk, Nat.sub_diag in Hy by lia. injection Hy as <-.
    rewrite app_length in Hk. cbn [length] in Hk. rewrite nth_error_app2 in Hx by lia.
    replace (k - length l)%nat with O in Hx by lia. injection Hx as <-. exact Hab.
  - rewrite nth_error_app2 in Hy by lia. destruct (S k - length (l ++ [a]))%nat as [|[|]] eqn:E; cbn in Hy; try discriminate; lia.
Qed.
Lemma path_one : forall {A} (R : A -> A -> Prop) a, path R [a].
Proof. intros A R a [|[|k]] x y Hx Hy; cbn in Hy; discriminate. Qed.

Section Trace.
  Variable E : list (Z * Z).
  Variable vm : vmap.
  Hypothesis Hix : indexed E vm.

  Definition trace_inv (seen0 : list Z) (st : trace_state) : Prop :=
    map ends (t_edges st) = E /\ NoDup (t_seen st) /\ (forall v, In v (t_seen st) -> vert E v)
    /\ t_seen st = seen0 ++ t_outline st /\ path (linked E) (t_outline st)
    /\ (t_next st = [] \/ exists w, t_next st = [w] /\ vert E w /\ ~ In w (t_seen st)
          /\ (t_outline st = [] \/ exists o a, t_outline st = o ++ [a] /\ linked E a w)).

  Lemma visit_spec : forall seen0 edges outline w,
    trace_inv seen0 (mk_trace edges (seen0 ++ outline) outline [w]) ->
    exists st', ofold (visit_vertex vm) [w] (mk_trace edges (seen0 ++ outline) outline []) = Ok st' /\ trace_inv seen0 st'
      /\ t_outline st' = outline ++ [w].
  Proof.
    intros seen0 edges outline w (He & Hnd & Hv & _ & Hp & Hn). cbn [t_edges t_seen t_outline t_next] in *.
    destruct Hn as [Hn|(w' & [= <-] & Hw & Hws & Hl)]; [discriminate|].
    cbn [ofold visit_vertex]. rewrite (proj2 (seen_in_false _ _) Hws).
    destruct (vmap_get vm w) as [es|] eqn:G.
    2: { exfalso. destruct Hw as (p & Hpn & Ht). eapply (proj2 Hix); eauto. }
    destruct (proj1 Hix _ _ G) as (_ & Hes).
    destruct (follow_edge_spec es edges ((seen0 ++ outline) ++ [w]) w) as (edges' & pushed & -> & He' & Hpush).
    { intros e H. rewrite He. apply Hes, H. } { apply in_or_app. right. left. reflexivity. }
    cbn [obind]. eexists. split; [reflexivity|]. split; [|reflexivity].
    unfold trace_inv; cbn [t_edges t_seen t_outline t_next].
    split; [congruence|]. split.
    { apply NoDup_rev in Hnd. rewrite <- (rev_involutive (_ ++ [w])). apply NoDup_rev. rewrite rev_app_distr. cbn [rev app].
      constructor; [rewrite <- in_rev; exact Hws|exact Hnd]. }
    split. { intros v H. apply in_app_or in H. destruct H as [H|[<-|[]]]; auto. }
    split; [rewrite app_assoc; reflexivity|]. split.
    { destruct Hl as [->|(o & a & -> & Hl)]; [apply path_one|apply path_snoc; assumption]. }
    destruct Hpush as [->|(x & -> & Hx & Hlk)]; [left; reflexivity|]. right. exists x. rewrite He in Hlk. cbn [app].
    split; [reflexivity|]. split; [|split; [exact Hx|right; eauto]].
    destruct Hlk as (p & Hp1 & [->| ->]); eexists; (split; [exact Hp1|]); unfold touches; cbn; auto.
  Qed.

  Lemma trace_outline_spec : forall fuel seen0 st, trace_inv seen0 st ->
    (2 * length E - length (t_seen st) < fuel)%nat ->
    exists st', trace_outline fuel vm st = Ok st' /\ trace_inv seen0 st' /\ t_next st' = []
      /\ (t_next st <> [] -> t_outline st' <> []) /\ (t_outline st <> [] -> t_outline st' <> []).
  Proof.
    induction fuel as [|fuel IH]; intros seen0 st Hinv Hfuel; [lia|]. cbn [trace_outline].
    destruct st as [edges seen outline next]. pose proof Hinv as Hinv'.
    destruct Hinv' as (He & Hnd & Hv & Hse & Hp & Hn). cbn [t_edges t_seen t_outline t_next] in *.
    destruct Hn as [->|(w & -> & Hw & Hws & Hl)].
    { eexists. split; [reflexivity|]. split; [exact Hinv|]. cbn. split; [reflexivity|]. split; [congruence|auto]. }
    subst seen. destruct (visit_spec seen0 edges outline w Hinv) as (st1 & -> & Hinv1 & Ho1). cbn [obind].
    destruct (IH seen0 st1 Hinv1) as (st' & -> & Hinv2 & Hnx & _ & Ho2).
    { pose proof Hinv1 as (_ & Hnd1 & Hv1 & Hs1 & _). pose proof (vert_bound E _ Hnd1 Hv1) as HB.
      rewrite Hs1, Ho1, !app_length in *. cbn [length] in *. lia. }
    exists st'. split; [reflexivity|]. split; [exact Hinv2|]. split; [exact Hnx|].
    assert (Hne : t_outline st1 <> []) by (rewrite Ho1; destruct outline; discriminate). auto.
  Qed.

  Lemma trace_all_spec : forall fuel inner edges seen outlines,
    map ends edges = E -> NoDup seen -> (forall v, In v seen -> vert E v) ->
    seen = concat outlines -> ~ In [] outlines -> Forall (path (linked E)) outlines ->
    (2 * length E - length seen < fuel)%nat -> (2 * length E < inner)%nat ->
    exists outlines', trace_all fuel inner vm edges seen outlines = Ok outlines'
      /\ NoDup (concat outlines') /\ (forall v, In v (concat outlines') <-> vert E v)
      /\ ~ In [] outlines' /\ Forall (path (linked E)) outlines'.
  Proof.
    induction fuel as [|fuel IH]; intros inner edges seen outlines He Hnd Hv Hc Hne Hp Hf Hin; [lia|].
    cbn [trace_all].
    assert (Hdone : (forall v, vert E v -> In v seen) ->
      exists outlines', Ok outlines = Ok outlines'
      /\ NoDup (concat outlines') /\ (forall v, In v (concat outlines') <-> vert E v)
      /\ ~ In [] outlines' /\ Forall (path (linked E)) outlines').
    { intros Hall. exists outlines. subst seen. split; [reflexivity|]. split; [exact Hnd|]. split; [|auto].
      intros v. split; auto. }
    pose proof (first_unseen_spec edges seen) as Hu. rewrite He in Hu.
    destruct edges as [|e0 edges0]; [apply Hdone; rewrite <- He; intros v (p & [] & _)|].
    set (edges := e0 :: edges0) in *. clearbody edges.
    destruct (first_unseen edges seen) as [v|]; [|apply Hdone, Hu]. destruct Hu as (Hv1 & Hv2).
    destruct (trace_outline_spec inner seen (mk_trace edges seen [] [v])) as (st' & -> & Hinv & Hnx & Ho & _).
    { unfold trace_inv; cbn [t_edges t_seen t_outline t_next]. rewrite app_nil_r.
      repeat split; auto; [intros [|k] x y Hx; discriminate|]. right. exists v. auto. }
    { cbn. lia. }
    cbn [obind]. destruct Hinv as (He' & Hnd' & Hvs' & Hs' & Hp' & _).
    specialize (Ho ltac:(discriminate)). destruct (t_outline st') as [|o os] eqn:Eo; [congruence|]. rewrite <- Eo in *.
    apply IH; auto.
    - rewrite Hs', concat_app, <- Hc. cbn [concat]. rewrite app_nil_r. reflexivity.
    - intros H. apply in_app_or in H. destruct H as [H|[H|[]]]; [auto|congruence].
    - apply Forall_app. split; [exact Hp|]. constructor; [exact Hp'|constructor].
    - pose proof (vert_bound E _ Hnd' Hvs') as HB. rewrite Hs', app_length, Eo in *. cbn [length] in *. lia.
  Qed.
End Trace.

Lemma bare_sector_spec : forall {L T} (ops : line_ops L) (m : binary_map L T) s,
  0 <= s < 2 ^ 64 -> i16_indices ops m ->
  (indices_exist ops m s ->
     exists outlines, bare_sector_to_polygons ops m s = Ok outlines
       /\ NoDup (concat outlines) /\ (forall v, In v (concat outlines) <-> border_vertex ops m s v)
       /\ ~ In [] outlines /\ Forall (path (joined ops m s)) outlines)
  /\ (~ indices_exist ops m s -> bare_sector_to_polygons ops m s = Panic PIndex).
Proof.
  intros L T ops m s Hs Hm. unfold bare_sector_to_polygons.
  pose proof (collect_spec ops m s Hs Hm (m_lines m) [] [] (fun x H => H) indexed_nil) as H.
  assert (Hex : indices_exist ops m s <->
    (forall l, In l (m_lines m) -> ref_ok (m_sides m) (fst (lo_sides ops l)) /\ ref_ok (m_sides m) (snd (lo_sides ops l))
                                 /\ (borders0 ops m s l -> verts_ok ops m l))).
  { unfold indices_exist, border_vertex, borders, borders0, verts_ok, ref_ok. split.
    - intros (H1 & H2) l Hl. split; [apply (H1 l); auto|]. split; [apply (H1 l); auto|].
      intros Hb. split; apply H2; exists l; auto.
    - intros H1. split.
      + intros l id Hl [->| ->]; apply (H1 l Hl).
      + intros v (l & (Hl & Hb) & [->| ->]); apply (H1 l Hl); exact Hb. }
  destruct (ofold _ _ _) as [[edges vm]| |p]; cbn [obind]; [|contradiction|].
  2: { destruct H as (-> & H). split; [|reflexivity]. tauto. }
  destruct H as (Hok & Hix & bl & E & Hsel). cbn [app] in E.
  assert (Hn := collect_in ops m s bl Hsel). rewrite <- E in Hn. split; [|tauto]. intros _.
  destruct (trace_all_spec (map ends edges) vm Hix (2 * length edges + 2) (2 * length edges + 2) edges [] [])
    as (outlines & -> & H1 & H2 & H3 & H4); auto; try (rewrite map_length; cbn [length]; lia).
  { constructor. } { intros v []. }
  exists outlines. split; [reflexivity|]. split; [exact H1|]. split; [|split; [exact H3|]].
  - intros v. rewrite H2. unfold vert, border_vertex, borders. split.
    + intros (p & Hp & Ht). apply Hn in Hp. destruct Hp as (l & Hl & Hb & ->). exists l. unfold borders0 in Hb. split; [tauto|].
      destruct Ht; auto.
    + intros (l & (Hl & Hb) & Hv). exists (lo_vertices ops l). split; [apply Hn; exists l; auto|]. destruct Hv; [left|right]; auto.
  - eapply Forall_impl; [|exact H4]. intros o Hp k a b Ha Hb. destruct (Hp k a b Ha Hb) as (p & Hin & Hpab).
    apply Hn in Hin. destruct Hin as (l & Hl & Hbd & ->). exists l. split; [split; [exact Hl|exact Hbd]|].
    destruct Hpab as [-> | ->]; cbn; auto.
Qed.
