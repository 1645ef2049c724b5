(** The outlines of a sector are the left walks around it. *)

From Coq Require Import List ZArith Bool Lia Sorted.
From Verif Require Import Base BaseFacts Float SpecFloat64 FloatFacts FloatOrder MapFacts Geometry MapModel Sweep Compute SectorPolys SpecSector SectorFacts LoopFacts MapSectorFacts
  SpecShape ShapeFacts SpecOrder OrderFacts SpecIntersect SpecTurn IntersectFacts TurnFacts TurnFacts2 TurnFacts3 TurnFacts4.
Import ListNotations.
Local Open Scope Z_scope.

Lemma selected_sorted : forall {L} (P : L -> Prop) ls bl, selected P ls bl ->
  exists ps, StronglySorted lt ps /\ Forall2 (fun p l => nth_error ls p = Some l) ps bl
    /\ (forall p l, nth_error ls p = Some l -> P l -> In p ps).
Proof.
  intros L P ls bl H. induction H as [|l ls bl Hp _ (ps & Hs & HF & Hc)|l ls bl Hp _ (ps & Hs & HF & Hc)].
  - exists []. split; [constructor|]. split; [constructor|]. intros [|p] l H; discriminate.
  - exists (0%nat :: map S ps). split; [|split].
    + constructor.
      * clear - Hs. induction Hs; cbn [map]; constructor; [assumption|]. rewrite Forall_map. eapply Forall_impl; [|eassumption]. cbn. lia.
      * apply Forall_map, Forall_forall. intros; lia.
    + constructor; [reflexivity|]. clear - HF. induction HF; cbn [map]; constructor; assumption.
    + intros [|p] l' H HP; [now left|]. right. apply in_map. eapply Hc; eassumption.
  - exists (map S ps). split; [|split].
    + clear - Hs. induction Hs; cbn [map]; constructor; [assumption|]. rewrite Forall_map. eapply Forall_impl; [|eassumption]. cbn. lia.
    + clear - HF. induction HF; cbn [map]; constructor; assumption.
    + intros [|p] l' H HP; [cbn in H; congruence|]. apply in_map. eapply Hc; eassumption.
Qed.

Lemma short_opp : forall a b, short (vsub a b) -> short (vsub b a).
Proof.
  intros [a b] [c d] [[H1 H2] H3]. unfold vsub, short, within in *. cbn [fst snd] in *. split; [split; lia|].
  intros E. apply H3. injection E as E1 E2. f_equal; lia.
Qed.

Lemma sorted_mono : forall l e e', StronglySorted lt l -> (e <= e')%nat -> (e' < length l)%nat -> (nth e l 0 <= nth e' l 0)%nat.
Proof.
  induction l as [|a l IH]; intros e e' HS H L'; [cbn in L'; lia|]. apply StronglySorted_inv in HS. destruct HS as [HS F].
  destruct e, e'; cbn [nth]; try lia.
  - rewrite Forall_forall in F. assert (Q : (a < nth e' l 0)%nat); [|lia]. apply F, nth_In. cbn in L'. lia.
  - apply IH; [assumption|lia|cbn in L'; lia].
Qed.

Section Outlines.
Variables (m : gmap) (s : Z) (place : handle -> Z * Z) (edges0 : list medge) (vm : vmap) (bl : list line) (ps : list nat).
Hypothesis SB : short_border m s place.
Hypothesis Hix : indexed (map mends edges0) vm.
Hypothesis Hbl : Forall2 (edge_of m s) bl edges0.
Hypothesis Hps : Forall2 (fun p l => nth_error (g_lines m) p = Some l) ps bl.
Hypothesis Hsort : StronglySorted lt ps.
Hypothesis Hbd : forall l, In l bl -> m_borders m s l.
Hypothesis Hall : forall p l, nth_error (g_lines m) p = Some l -> m_borders m s l -> In p ps.

Local Notation no := (line_no ps).

Lemma ps_nodup : NoDup ps.
Proof using Hsort.
  clear - Hsort. induction Hsort as [|a l H IH F]; [constructor|]. constructor; [|now apply IH].
  intros Hin. rewrite Forall_forall in F. apply F in Hin. lia.
Qed.

Lemma edge_line : forall e ed, nth_error edges0 e = Some ed ->
  exists l, nth_error (g_lines m) (no e) = Some l /\ m_borders m s l /\ edge_of m s l ed /\ nth_error ps e = Some (no e).
Proof using Hbl Hps Hbd.
  intros e ed H. destruct (Forall2_nth _ _ _ _ _ Hbl H) as (l & Hl & He). destruct (Forall2_nth _ _ _ _ _ Hps Hl) as (p & Hp & Hpl).
  exists l. unfold line_no. rewrite (nth_error_nth _ _ _ Hp). split; [exact Hpl|]. split; [apply Hbd; eauto using nth_error_In|]. auto.
Qed.

Lemma line_edge : forall p l, nth_error (g_lines m) p = Some l -> m_borders m s l ->
  exists e ed, nth_error edges0 e = Some ed /\ no e = p /\ edge_of m s l ed.
Proof using Hbl Hps Hall.
  intros p l H B. destruct (In_nth_error _ _ (Hall _ _ H B)) as (e & He).
  destruct (Forall2_nth_l _ _ _ _ _ Hps He) as (l' & Hl & E). destruct (Forall2_nth_l _ _ _ _ _ Hbl Hl) as (ed & Hed & Ho).
  assert (l' = l) by congruence. subst l'. exists e, ed. split; [assumption|]. split; [|assumption].
  unfold line_no. now apply nth_error_nth.
Qed.

Definition placed (v : vref) : Prop :=
  item_at (g_vertices m) (vr_ix v) (vr_pt v) /\ at_z (vr_pt v) (place (vr_ix v)) /\ within (2 ^ 24) (place (vr_ix v)).

Lemma edge_placed : forall e ed, nth_error edges0 e = Some ed ->
  placed (me_v0 ed) /\ placed (me_v1 ed) /\ short (vsub (place (vr_ix (me_v1 ed))) (place (vr_ix (me_v0 ed)))) /\ me_done ed = false.
Proof using Hbl Hps Hbd SB.
  intros e ed H. destruct (edge_line _ _ H) as (l & Hl & B & (E0 & E1 & V0 & V1 & D & _) & _).
  destruct (SB l (nth_error_In _ _ Hl) B) as ((W0 & A0) & (W1 & A1) & S). unfold MapSectorFacts.vref_at in *. unfold placed. rewrite E0, E1 in *. auto 8.
Qed.

Lemma short_ne : forall a b, short (vsub a b) -> a <> b.
Proof using. intros [a b] [c d] [_ H] E. apply H. injection E as <- <-. unfold vsub. cbn. f_equal; lia. Qed.

Lemma far_placed : forall e ed ix, nth_error edges0 e = Some ed -> touches (mends ed) ix ->
  placed (far_end ed ix) /\ short (vsub (place (vr_ix (far_end ed ix))) (place ix)).
Proof using Hbl Hps Hbd SB.
  intros e ed ix H E. destruct (edge_placed _ _ H) as (A & B & C & _). unfold far_end.
  destruct (Z.eqb_spec (vr_ix (me_v0 ed)) ix) as [Q|Q].
  - split; [exact B|]. now rewrite <- Q.
  - destruct E as [E|E]; cbn [mends fst snd] in E; [contradiction|]. split; [exact A|]. rewrite <- E. now apply short_opp.
Qed.

(** Open lines are open edges. *)
Lemma open_edge : forall walked v p w, (forall e, In e walked -> (e < length edges0)%nat) ->
  open_line m s (map no walked) v p w ->
  exists e ed, nth_error edges0 e = Some ed /\ no e = p /\ touches (mends ed) v /\ vr_ix (far_end ed v) = w /\ ~ In e walked.
Proof using Hbl Hps Hall Hbd SB Hsort.
  intros walked v p w HW ((l & Hl & B & J) & NI). destruct (line_edge _ _ Hl B) as (e & ed & He & Hn & Ho).
  exists e, ed. destruct (edge_placed _ _ He) as (_ & _ & Sh & _). apply short_ne in Sh.
  destruct Ho as (E0 & E1 & _). split; [assumption|]. split; [assumption|]. unfold touches, mends, far_end. cbn [fst snd]. rewrite E0, E1 in Sh. rewrite E0.
  split; [rewrite E1; tauto|]. split.
  - destruct J as [[J1 J2]|[J1 J2]].
    + rewrite J1, Z.eqb_refl. congruence.
    + destruct (Z.eqb_spec (ln_start l) v); congruence.
  - intros Hi. apply NI. rewrite <- Hn. now apply in_map.
Qed.

Lemma edge_open : forall walked v e ed, (forall e, In e walked -> (e < length edges0)%nat) ->
  nth_error edges0 e = Some ed -> touches (mends ed) v -> ~ In e walked -> open_line m s (map no walked) v (no e) (vr_ix (far_end ed v)).
Proof using Hbl Hps Hbd SB Hsort.
  intros walked v e ed HW He T NI. destruct (edge_line _ _ He) as (l & Hl & B & (E0 & E1 & _) & _). split.
  - exists l. split; [assumption|]. split; [assumption|]. unfold touches, mends in T. cbn [fst snd] in T. unfold far_end. rewrite E0, E1 in T. rewrite E0.
    destruct (Z.eqb_spec (ln_start l) v); [auto|]. destruct T; [contradiction|auto].
  - intros Hi. apply in_map_iff in Hi. destruct Hi as (e' & E & Hi). apply NI.
    assert (e' = e); [|congruence]. eapply (line_no_inj m s edges0 bl ps Hbl Hps ps_nodup); eauto.
    now apply nth_error_lt in He.
Qed.

Lemma same_place : forall u v, placed u -> placed v -> point_eqb (vr_pt u) (vr_pt v) = true <-> place (vr_ix u) = place (vr_ix v).
Proof using.
  intros u v (_ & A & WA) (_ & B & WB). destruct (at_z_vint _ _ A WA) as [A1 A2]. destruct (at_z_vint _ _ B WB) as [B1 B2]. unfold point_eqb.
  rewrite andb_true_iff, (eq_int _ _ _ _ A1 B1), (eq_int _ _ _ _ A2 B2), !Z.eqb_eq.
  destruct (place (vr_ix u)), (place (vr_ix v)). cbn [fst snd]. split; [intros [-> ->]; reflexivity|intros [= -> ->]; auto].
Qed.

Lemma walk_left : forall fuel i edges first outline used prev next walked edges' outline' used',
  walk fuel vm i edges (vr_pt first :: outline) used prev next = Ok (edges', outline', used') ->
  state_of edges0 walked edges -> In i walked -> (forall e, In e walked -> (e < length edges0)%nat) ->
  placed first -> placed prev -> placed next -> (exists ed, In ed edges0 /\ touches (mends ed) (vr_ix next)) ->
  short (vsub (place (vr_ix next)) (place (vr_ix prev))) ->
  exists rest vs, used' = used ++ rest /\ outline' = vr_pt first :: outline ++ map vr_pt vs
    /\ Forall placed vs
    /\ state_of edges0 (walked ++ rest) edges' /\ (forall e, In e rest -> (e < length edges0)%nat)
    /\ left_walk m s place (vr_ix first) (map no walked) (vr_ix prev) (vr_ix next) (map no rest) (map vr_ix vs).
Proof using Hbl Hps Hall Hbd SB Hsort Hix.
  induction fuel as [|fuel IH]; intros i edges first outline used prev next walked edges' outline' used' W S Hi HW F P N TN SH; [discriminate W|].
  cbn [walk] in W. cbn [index_nat nth_error obind] in W.
  destruct (point_eqb (vr_pt next) (vr_pt first)) eqn:EF.
  { injection W as <- <- <-. exists [], []. rewrite !app_nil_r. cbn [map]. rewrite ?app_nil_r. repeat split; auto. { intros ? []. }
    apply lw_closed. now apply same_place. }
  assert (NF : place (vr_ix next) <> place (vr_ix first)).
  { intros Q. apply (same_place _ _ N F) in Q. congruence. }
  destruct Hix as [HI1 HI2].
  destruct (vmap_get vm (vr_ix next)) as [es|] eqn:EV; [|discriminate W]. destruct (HI1 _ _ EV) as [_ HE]. clear HI1 HI2.
  assert (HEX : forall e, In e es -> exists ed, nth_error edges e = Some ed).
  { intros e He. apply HE in He. destruct He as (p & H & _). rewrite nth_error_map in H. rewrite (S e).
    destruct (nth_error edges0 e); [|discriminate]. cbn. eauto. }
  assert (EL : forall e ed, nth_error edges0 e = Some ed ->
     (touches (mends ed) (vr_ix next) /\ ~ In e walked <-> eligible i edges es (e, after walked e ed))).
  { intros e ed H. unfold eligible. cbn [fst snd]. rewrite (S e), H, HE. cbn [after me_done option_map].
    destruct (edge_placed _ _ H) as (_ & _ & _ & D). rewrite D. cbn [orb].
    assert (Q : existsb (Nat.eqb e) walked = false <-> ~ In e walked).
    { rewrite <- existsb_in. destruct (existsb (Nat.eqb e) walked); split; congruence. }
    rewrite Q, nth_error_map, H. cbn [option_map]. split.
    - intros [T NI]. split; [eauto|]. split; [congruence|]. auto.
    - intros ((p & E & T) & _ & _ & NI). injection E as <-. auto. }
  assert (EL' : forall e x, eligible i edges es (e, x) -> exists ed, nth_error edges0 e = Some ed /\ x = after walked e ed).
  { intros e x (_ & _ & H & _). cbn [fst snd] in H. rewrite (S e) in H. destruct (nth_error edges0 e); [|discriminate].
    cbn in H. injection H as <-. eauto. }
  destruct (consider_all i edges next (p_sub (vr_pt next) (vr_pt prev)) es f64_nan HEX) as [(E & NE)|(c & cs & E & EC)]; rewrite E in W; cbn [obind] in W.
  { cbn [cl_edge] in W. injection W as <- <- <-. exists [], [next]. rewrite !app_nil_r. cbn [map]. repeat split; auto. { intros ? []. }
    apply lw_stuck; [assumption|].
    intros p w H. destruct (open_edge _ _ _ _ HW H) as (e & ed & H1 & _ & H2 & _ & H3). apply (NE (e, after walked e ed)). apply EL; auto. }
  set (u := p_sub (vr_pt next) (vr_pt prev)) in *.
  assert (IU : vint u (vsub (place (vr_ix next)) (place (vr_ix prev)))).
  { destruct P as (_ & P & WP), N as (_ & N & WN). apply sub_vint; auto; now apply at_z_vint. }
  assert (FE : forall e ed ix, far_end (after walked e ed) ix = far_end ed ix) by reflexivity.
  assert (VEC : forall e ed, nth_error edges0 e = Some ed -> touches (mends ed) (vr_ix next) ->
     placed (far_end ed (vr_ix next)) /\ short (vsub (place (vr_ix (far_end ed (vr_ix next)))) (place (vr_ix next)))
     /\ vint (edge_vec next (e, after walked e ed)) (vsub (place (vr_ix (far_end ed (vr_ix next)))) (place (vr_ix next)))).
  { intros e ed H T. destruct (far_placed _ _ _ H T) as [F1 F2].
    split; [assumption|]. split; [assumption|]. unfold edge_vec. cbn [snd]. rewrite FE.
    destruct F1 as (_ & F1 & F3), N as (_ & N & WN). apply sub_vint; auto; now apply at_z_vint. }
  assert (VALID : forall x, In x (c :: cs) -> valid (edge_vec next) x).
  { intros [e x] Hx. apply EC in Hx. destruct (EL' _ _ Hx) as (ed & H & ->).
    apply EL in Hx; [|assumption]. destruct (VEC e ed H) as (_ & V1 & V2); [apply Hx|]. eexists. split; eassumption. }
  pose proof (leftmost_all (edge_vec next) u _ IU SH cs c (VALID c (or_introl eq_refl))
                (proj2 (Forall_forall _ _) (fun x Hx => VALID x (or_intror Hx)))) as [L1 L2].
  set (w := fold_left (next_best (edge_vec next) u) cs c) in *. destruct w as [e x].
  pose proof (proj1 (EC _) L1) as Hw. destruct (EL' _ _ Hw) as (ed & H & ->). apply EL in Hw; [|assumption]. destruct Hw as [T NI].
  unfold hold in W. cbn [cl_edge cl_vertex fst snd] in W.
  destruct (set_done edges e) as [edges1|?|?] eqn:SD; cbn [obind] in W; [|discriminate W..].
  rewrite FE in W. destruct (VEC e ed H T) as (V1 & V2 & V3).
  assert (HWe : forall e', In e' (walked ++ [e]) -> (e' < length edges0)%nat).
  { intros e' He'. apply in_app_or in He'. destruct He' as [He'|[<-|[]]]; [now apply HW|]. now apply nth_error_lt in H. }
  change (vr_pt first :: outline) with ([vr_pt first] ++ outline) in W. rewrite <- app_assoc in W. cbn [app] in W.
  destruct (IH _ _ _ _ _ _ _ (walked ++ [e]) _ _ _ W) as (rest & vs & Q1 & Q2 & Q3 & Q4 & Q5 & Q6); auto.
  - eapply set_done_state; eassumption.
  - apply in_or_app. now left.
  - exists ed. split; [eauto using nth_error_In|]. unfold far_end, touches, mends. cbn [fst snd]. destruct (Z.eqb (vr_ix (me_v0 ed)) (vr_ix next)); tauto.
  - exists (e :: rest), (next :: vs). split; [rewrite Q1, <- app_assoc; reflexivity|].
    split; [rewrite Q2; cbn [map]; rewrite <- app_assoc; reflexivity|]. split; [now constructor|].
    split; [rewrite <- app_assoc in Q4; exact Q4|].
    split; [intros e' [<-|He']; [now apply nth_error_lt in H|now apply Q5]|].
    cbn [map]. eapply lw_step; [assumption|apply edge_open; eassumption| |].
    + intros p' w' O. destruct (open_edge _ _ _ _ HW O) as (e' & ed' & H1 & _ & H2 & <- & H3).
      destruct (VEC e' ed' H1 H2) as (V1' & V2' & V3').
      eapply L2; [apply EC; apply (EL e' ed'); auto|exact V3|exact V3'].
    + rewrite map_app in Q6. exact Q6.
Qed.

Lemma no_mono : forall e e', (e <= e')%nat -> (e' < length edges0)%nat -> (no e <= no e')%nat.
Proof using Hbl Hps Hsort.
  intros e e' H L. unfold line_no. pose proof (Forall2_len _ _ _ Hbl). pose proof (Forall2_len _ _ _ Hps).
  apply sorted_mono; [assumption..|]. clear - H0 H1 L. lia.
Qed.

Definition kept (ws : list (list vref * list nat)) : list (list point * list nat) :=
  map (fun w => (map vr_pt (fst w), snd w)) (filter (fun w => (2 <? length (fst w))%nat) ws).
Definition as_lines (w : list vref * list nat) : list handle * list nat := (map vr_ix (fst w), map no (snd w)).

Lemma starts_left : forall n k edges outs walked edges' outs', (k + n = length edges0)%nat ->
  ofold (start_edge vm) (seq k n) (edges, outs) = Ok (edges', outs') ->
  state_of edges0 walked edges -> (forall e, In e walked -> (e < length edges0)%nat) -> (forall e, (e < k)%nat -> In e walked) ->
  exists ws, outs' = outs ++ kept ws /\ Forall (fun w => Forall placed (fst w)) ws /\ sector_walks m s place (map no walked) (map as_lines ws).
Proof using Hbl Hps Hall Hbd SB Hsort Hix.
  induction n as [|n IH]; intros k edges outs walked edges' outs' HK H S HW HD; cbn [seq ofold] in H.
  - injection H as <- <-. exists []. rewrite app_nil_r. split; [reflexivity|]. split; [constructor|]. apply sw_done.
    intros p a b (l & Hl & B & _). destruct (line_edge _ _ Hl B) as (e & ed & He & <- & _). apply in_map, HD. apply nth_error_lt in He. lia.
  - unfold start_edge at 1 in H. destruct (nth_error_ex edges0 k) as (ed & Hed); [lia|].
    unfold index_nat in H. rewrite (S k), Hed in H. cbn [option_map obind after me_done me_v0 me_v1] in H.
    destruct (edge_placed _ _ Hed) as (P0 & P1 & Sh & D). rewrite D in H. cbn [orb] in H.
    destruct (existsb (Nat.eqb k) walked) eqn:EK; cbn [obind] in H.
    { apply existsb_in in EK. apply (IH (Datatypes.S k) _ _ walked) in H; auto; [lia|].
      intros e He. destruct (Nat.eq_dec e k); [now subst|]. apply HD. lia. }
    assert (NK : ~ In k walked) by (rewrite <- existsb_in; congruence). clear EK.
    destruct (set_done edges k) as [edges1|?|?] eqn:SD; cbn [obind] in H; [|discriminate H..].
    destruct (walk _ _ _ _ _ _ _ _) as [[[edges2 outline] used]|?|?] eqn:W; cbn [obind] in H; [|discriminate H..].
    assert (Lk : (k < length edges0)%nat) by lia.
    destruct (walk_left _ _ _ _ _ _ _ _ (walked ++ [k]) _ _ _ W) as (rest & vs & Q1 & Q2 & Q3 & Q4 & Q5 & Q6); auto.
    + eapply set_done_state; eassumption.
    + apply in_or_app. right. now left.
    + intros e He. apply in_app_or in He. destruct He as [He|[<-|[]]]; auto.
    + exists ed. split; [eauto using nth_error_In|]. unfold touches, mends. cbn. tauto.
    + apply (IH (Datatypes.S k) _ _ ((walked ++ [k]) ++ rest)) in H; [|lia|exact Q4| |].
      2: { intros e He. apply in_app_or in He. destruct He as [He|He]; [|auto]. apply in_app_or in He. destruct He as [He|[<-|[]]]; auto. }
      2: { intros e He. apply in_or_app. left. apply in_or_app. destruct (Nat.eq_dec e k); [subst; right; now left|]. left. apply HD. lia. }
      destruct H as (ws & R1 & R2 & R3). exists ((me_v0 ed :: vs, k :: rest) :: ws). split; [|split].
      * rewrite R1. subst outline used. cbn [app]. unfold kept. cbn [filter fst]. cbn [length]. rewrite map_length.
        destruct (2 <? Datatypes.S (length vs))%nat; [|reflexivity]. rewrite <- app_assoc. reflexivity.
      * constructor; [|assumption]. cbn [fst]. now constructor.
      * cbn [map as_lines fst snd]. destruct (edge_line _ _ Hed) as (l & Hl & B & (E0 & E1 & _) & _).
        unfold as_lines at 1. cbn [fst snd map]. rewrite E0 in *. rewrite E1 in *.
        apply sw_next; auto.
        -- intros Hin. apply in_map_iff in Hin. destruct Hin as (e' & E & Hi). apply NK.
           assert (e' = k); [|congruence]. eapply (line_no_inj m s edges0 bl ps Hbl Hps ps_nodup); eauto.
        -- intros p' a b (l' & Hl' & B' & _) NI. destruct (line_edge _ _ Hl' B') as (e & ed' & He & <- & _).
           apply no_mono; [|now apply nth_error_lt in He]. destruct (Nat.lt_ge_cases e k); [|assumption].
           exfalso. apply NI, in_map, HD. assumption.
        -- rewrite map_app in Q6. exact Q6.
        -- rewrite <- app_assoc, map_app in R3. exact R3.
Qed.
End Outlines.

Lemma sector_left : forall m s place, m_indices_exist m s -> short_border m s place ->
  exists outlines walks, map_sector_to_polygons m s = Ok outlines /\ sector_walks m s place [] walks
    /\ Forall2 (Forall2 (item_at (g_vertices m))) (filter (fun vs => (2 <? length vs)%nat) (map fst walks)) outlines.
Proof.
  intros m s place HI SB. destruct (proj1 (map_sector_spec m s) HI) as (outlines & _ & _ & HO & _). exists outlines.
  pose proof HO as HO'. unfold map_sector_to_polygons, map_polygons_traced in HO'.
  pose proof (m_collect_spec m s (g_lines m) [] [] indexed_nil) as H.
  destruct (ofold _ (g_lines m) _) as [[edges vm]| |p]; cbn [obind] in HO'; [|discriminate HO'..].
  destruct H as (Hok & Hix & bl & new & E & Hsel & Hnew). cbn [app] in E. subst new.
  destruct (selected_sorted _ _ _ Hsel) as (ps & Hsort & Hps & Hall).
  assert (Hbd : forall l, In l bl -> m_borders m s l) by (intros l Hl; apply (selected_in _ _ _ Hsel), Hl).
  destruct (ofold _ (seq _ _) _) as [[edges' outs]| |p] eqn:EO; cbn [obind] in HO'; [|discriminate HO'..]. injection HO' as <-.
  destruct (starts_left m s place edges vm bl ps SB Hix Hnew Hps Hsort Hbd Hall (length edges) 0 edges [] [] edges' outs) as (ws & Q1 & Q2 & Q3); auto.
  - intros e. destruct (nth_error edges e) as [[]|]; [|reflexivity]. cbn. unfold after. cbn. now rewrite orb_false_r.
  - intros e [].
  - intros e He. lia.
  - exists (map (as_lines ps) ws). split; [assumption|]. split; [exact Q3|]. subst outs. cbn [app]. unfold kept.
    clear - Q2. induction Q2 as [|w ws P _ IH]; cbn [map filter]; [constructor|].
    destruct w as [vs u]. cbn [as_lines fst snd] in *. unfold as_lines at 1. cbn [fst snd]. rewrite map_length.
    destruct (2 <? length vs)%nat; [|exact IH]. cbn [map]. constructor; [|exact IH]. cbn [fst].
    clear - P. induction P as [|v vs H _ IH]; constructor; [apply H|exact IH].
Qed.
