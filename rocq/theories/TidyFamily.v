(** A contour traced along kept sides, with the holes in it, the holes listed with those and
    so on, goes round each place once or not at all. *)

From Coq Require Import List ZArith QArith Bool Lia Lqa Arith Permutation Sorted.
From Verif Require Import Base Float Sweep Compute SpecShape SpecOrder SpecIntersect SpecTurn SpecHandle SpecTidy SpecCompute
  OrderFacts TurnFacts3 TurnSamples TidyGeo TidyParity TidySetup TidyLine TidySweep TidyFacts TidyCorner TidyPair TidyNext TidyWalk TidyTrace TidyWinding TidySimple TidyCover.
Import ListNotations.
Local Open Scope Z_scope.

(** From an edge to the one right below it. *)
Lemma next_edge : forall zs b s x e, lr s -> lr b -> In e (edges zs) -> next_below zs b s -> (xl s == x)%Q -> (xl b < x)%Q ->
  b2z (under e s) = b2z (passes_below e x (yat b x)) + b2z (same_ends e b).
Proof.
  intros zs b s x e Ls Lb He (US & HM) X C. pose proof US as US'. apply under_iff in US'. destruct US' as [[B1 B2] B3].
  assert (Yx : forall e0, (yat e0 x == yat e0 (xl s))%Q) by (intros e0; unfold yat; rewrite X; reflexivity).
  assert (LE : (yat b (xl s) <= yl s)%Q) by (destruct B3 as [H|[H _]]; [lra|]; rewrite <- H, yat_left, H; lra).
  pose proof (edges_lr zs 0 e He) as Le.
  destruct (same_ends e b) eqn:SE.
  - pose proof SE as SE'. apply same_ends_iff in SE'. destruct SE' as [SE1 SE2].
    rewrite (under_same e b s SE1 SE2), US. rewrite (bool_iff _ _ (passes_iff e _ _ Le)); [reflexivity|].
    intros (_ & _ & H). unfold yat, slope in H. rewrite SE1, SE2 in H. lra.
  - cbn [b2z]. rewrite Z.add_0_r. f_equal. apply eq_true_iff_eq. rewrite passes_iff by assumption. split.
    + intros U. destruct (HM e He U) as [H|H]; [congruence|]. apply under_iff in U. destruct U as [[U1 U2] _].
      split; [lra|]. split; [lra|]. rewrite !Yx. destruct H as [H|(_ & H & _)]; [exact H|lra].
    + intros (H1 & H2 & H3). rewrite !Yx in H3. apply under_iff. split; [split; lra|]. left. lra.
Qed.

Lemma next_edge_start : forall zs b s e, lr s -> lr b -> In e (edges zs) -> next_below zs b s -> (xl b == xl s)%Q ->
  b2z (under e s) = b2z (under e b) + b2z (same_ends e b).
Proof.
  intros zs b s e Ls Lb He (US & HM) CE. pose proof US as US'. apply under_iff in US'. destruct US' as [[B1 B2] B3].
  assert (LE : (yat b (xl s) <= yl s)%Q) by (destruct B3 as [H|[H _]]; [lra|]; rewrite <- H, yat_left, H; lra).
  pose proof (lr_sloped b _ Lb B1 B2) as Sb. pose proof (edges_lr zs 0 e He) as Le.
  destruct (same_ends e b) eqn:SE.
  - pose proof SE as SE'. apply same_ends_iff in SE'. destruct SE' as [SE1 SE2].
    rewrite (under_same e b s SE1 SE2), US, (under_same e b b SE1 SE2). rewrite (bool_iff _ _ (under_iff b b)); [reflexivity|].
    intros (_ & [H|[_ H]]); [rewrite yat_left in H; lra|]. unfold orient in H. lia.
  - cbn [b2z]. rewrite Z.add_0_r. f_equal. apply eq_true_iff_eq. split.
    + intros U. destruct (HM e He U) as [H|H]; [congruence|]. apply under_iff in U. destruct U as [[U1 U2] _].
      apply under_iff. rewrite CE. split; [split; assumption|].
      destruct H as [H|(H & _ & H')]; [left; rewrite <- CE in H; rewrite <- CE; now rewrite yat_left in H|right]. split; [exact H|].
      apply orient_slope; auto. apply (lr_sloped e _ Le U1 U2).
    + intros U. apply under_iff in U. rewrite CE in U. destruct U as [[U1 U2] U3]. apply under_iff. split; [split; assumption|].
      pose proof (lr_sloped e _ Le U1 U2) as Se.
      destruct U3 as [U3|[U3 U4]].
      * left. rewrite <- CE, yat_left in LE. lra.
      * destruct B3 as [B3|[B3 B4]].
        -- left. rewrite <- CE in B3 |- *. rewrite yat_left in B3. rewrite <- U3 in B3 |- *. now rewrite yat_left.
        -- right. split; [congruence|]. rewrite orient_cross in U4, B4 |- *. rewrite <- U3 in B4.
           assert (D1 : rightward (dir (e_left e) (e_right e))) by (now apply dir_rightward).
           assert (D2 : rightward (dir (e_left e) (e_right b))) by (rewrite U3; now apply dir_rightward).
           assert (D3 : rightward (dir (e_left e) (e_right s))) by (rewrite U3, B3; now apply dir_rightward).
           now apply (cross_trans_strict _ (dir (e_left e) (e_right b))).
Qed.

Section Family.
Variables (zs : list corners) (modes : list polygon_mode) (S : list bseg) (ks : list packet) (act sw : list bseg) (I : list bend).
Notation n := (length modes).
Notation E := (edges zs).
Notation eg := (eg (edges zs)).
Hypothesis (D : drawn E S) (V : inv zs S modes [] ks act sw) (Polys : forall s, In s S -> (e_poly (eg s) < n)%nat).
Hypothesis (PI : Permutation (flat_map (sides_of modes ks) sw) I).
Hypothesis (NE : covered modes zs).

Notation src := (src zs).
Notation dst := (dst zs).
Notation face := (face zs).
Notation walk := (walk zs S I).
Notation first := (first zs).
Notation wface := (wface zs).
Notation under_side := (under_side zs S).

Lemma next_total : forall C b s, (forall d : bend, In d C -> In (fst d) S) -> Permutation (map dst C) (map src C) ->
  In b S -> In s S -> next_below zs (eg b) (eg s) -> WR zs C s = WL zs C b.
Proof using D.
  clear V. intros C b s CS CB Hb Hs NB. unfold WL. assert (Lb : lr (eg b)) by (now apply (seg_spec _ _ D)). assert (Ls : lr (eg s)) by (now apply (seg_spec _ _ D)).
  pose proof (proj1 NB) as U. apply under_iff in U. destruct U as [[B1 B2] _].
  assert (InE : forall d : bend, In d C -> In (eg (fst d)) E) by (intros d Hd; now apply (seg_spec _ _ D), CS).
  destruct (Qlt_le_dec (xl (eg b)) (xl (eg s))) as [G|G].
  - rewrite (wind_along zs S D C CS CB b (xl (eg s)) Hb (lr_sloped _ _ Lb B1 B2) G B2). unfold WR, wind, WS. rewrite <- total_add. apply total_ext.
    intros d Hd. apply (next_edge zs); auto. reflexivity.
  - unfold WR, WS. rewrite <- total_add. apply total_ext. intros d Hd. apply (next_edge_start zs); auto. lra.
Qed.

Lemma walk_wface : forall C T, (forall d : bend, In d C -> In (fst d) S) -> Permutation (map dst C) (map src C) -> walk T ->
  forall d d', In d T -> In d' T -> wface C d = wface C d'.
Proof using D V Polys PI NE.
  intros C T CS CB (e & l & -> & A1 & A2 & Ch & _).
  assert (X : forall m c, chain zs S I c m -> In c I -> forall d, In d m -> wface C d = wface C c).
  { induction m as [|y m IH]; intros c Cm Ic d Hd; [destruct Hd|]. destruct Cm as (C1 & C2).
    assert (Y : wface C y = wface C c) by (apply (next_wind zs modes S ks act sw I D V Polys PI NE); auto).
    destruct Hd as [<-|Hd]; [exact Y|]. rewrite (IH y); auto. apply C1. }
  assert (G : forall d, In d (e :: l) -> wface C d = wface C e) by (intros d [<-|Hd]; [reflexivity|]; now apply (X l e)).
  intros d d' H1 H2. now rewrite (G d), (G d').
Qed.

Section Root.
Variables (e : bend) (l : list bend).
Notation v := (src e).
Hypothesis (W : walk (e :: l)) (F : first (e :: l)) (ND : NoDup (e :: l)) (Left : 0 < corner zs e l).

(** The walks of the holes, directly or indirectly. *)
Inductive family : list bend -> Prop :=
| fam_root : family (e :: l)
| fam_hole : forall T e' l' b, family T -> walk (e' :: l') -> first (e' :: l') -> NoDup (e' :: l') -> corner zs e' l' < 0 ->
    In (b, LeftEnd) T -> under_side b (fst (last l' e')) -> family (e' :: l').

Lemma fam_walk : forall T, family T -> walk T.
Proof using W. intros T H. destruct H; assumption. Qed.

Lemma lex_le_trans : forall a b c, lex_z a b <> Gt -> lex_z b c <> Gt -> lex_z a c <> Gt.
Proof using. clear. intros a b c. rewrite !lex_gt, !lex_lt. lia. Qed.

Lemma under_left : forall b s, under_side b s -> lex_z (e_left (eg b)) (e_left (eg s)) <> Gt.
Proof using. clear. intros b s (_ & _ & _ & H & _). destruct H as [->|(-> & _)]; [discriminate|]. rewrite lex_refl. discriminate. Qed.

Lemma fam_min : forall T, family T -> forall d, In d T -> lex_z v (src d) <> Gt /\ lex_z v (dst d) <> Gt.
Proof using D V Polys PI NE W F.
  intros T H. induction H as [|T e' l' b HT IH W' F' N' C' Hb U].
  - intros d Hd. split; [exact (min_src zs e l F d Hd)|exact (min_dst zs S I e l W F d Hd)].
  - assert (M : lex_z v (src e') <> Gt).
    { destruct (IH _ Hb) as (M & _). unfold TidyNext.src in M at 2. cbn [fst snd end_z] in M. apply (lex_le_trans _ _ _ M).
      rewrite <- (z_left_v zs modes S ks act sw I D V Polys PI NE e' l' W' F'). apply under_left. exact U. }
    intros d Hd. split; apply (lex_le_trans _ _ _ M); [exact (min_src zs e' l' F' d Hd)|exact (min_dst zs S I e' l' W' F' d Hd)].
Qed.

Lemma right_of : forall d : bend, In (fst d) S -> e_left (eg (fst d)) = v -> lex_z v (e_right (eg (fst d))) = Lt.
Proof using D. intros d Hd <-. now apply (seg_spec _ _ D). Qed.

(** The sides that start or end in the first corner lie above the first. *)
Lemma fam_above : forall T, family T -> forall d, In d T -> src d = v \/ dst d = v ->
  d = e \/ (e_left (eg (fst d)) = v /\ 0 < orient v (dst e) (e_right (eg (fst d)))).
Proof using D V Polys PI NE W F Left.
  pose proof (proj1 (W_parts zs S I e l W)) as Se. pose proof (e_left_v zs S I e l W) as Le.
  assert (Re : dst e = e_right (eg (fst e))) by (unfold TidyNext.dst; now rewrite Se).
  intros T H. induction H as [|T e' l' b HT IH W' F' N' C' Hb U]; intros d Hd Q.
  - destruct Q as [Q|Q]; [left; exact (only_src zs S I e l W d Hd Q)|right].
    apply (only_dst zs S I e l W d Hd) in Q. subst d. split; [exact (z_left_v zs modes S ks act sw I D V Polys PI NE e l W F)|].
    unfold corner in Left. replace (e_right (eg (fst (last l e)))) with (src (last l e)); [exact Left|].
    unfold TidyNext.src. now rewrite (z_right zs modes S ks act sw I D V Polys PI NE e l W F).
  - right. pose proof (fam_min _ (fam_hole T e' l' b HT W' F' N' C' Hb U)) as Min.
    pose proof (z_left_v zs modes S ks act sw I D V Polys PI NE e' l' W' F') as Lz. pose proof (z_right zs modes S ks act sw I D V Polys PI NE e' l' W' F') as Sz.
    pose proof (e_left_v zs S I e' l' W') as Le'. pose proof (proj1 (W_parts zs S I e' l' W')) as Se'.
    assert (V' : src e' = v).
    { destruct (Min e' (or_introl eq_refl)) as (M & _). assert (M2 : lex_z (src e') v <> Gt).
      { destruct Q as [<-|<-]; [exact (min_src zs e' l' F' d Hd)|exact (min_dst zs S I e' l' W' F' d Hd)]. }
      rewrite lex_gt, lex_lt in M, M2. destruct (src e'), v; cbn in *. f_equal; lia. }
    rewrite V' in *.
    assert (At : d = e' \/ d = last l' e').
    { rewrite <- V' in Q. destruct Q as [Q|Q]; [left; exact (only_src zs S I e' l' W' d Hd Q)|right; exact (only_dst zs S I e' l' W' d Hd Q)]. }
    set (z := last l' e') in *. assert (Zin : In z (e' :: l')) by (apply z_in).
    assert (Sz' : In (fst z) S) by (now apply (T_S zs modes S ks act sw I D V Polys PI NE e' l' W')).
    assert (Se'' : In (fst e') S) by (apply (T_S zs modes S ks act sw I D V Polys PI NE e' l' W'); now left).
    assert (Se0 : In (fst e) S) by (apply (T_S zs modes S ks act sw I D V Polys PI NE e l W); now left).
    destruct U as (U1 & _ & _ & U & _). rewrite Lz in U.
    assert (Ub : e_left (eg b) = v /\ 0 < orient v (e_right (eg b)) (e_right (eg (fst z)))).
    { destruct U as [U|U]; [exfalso|exact U]. destruct (proj1 (fam_min T HT (b, LeftEnd) Hb)). unfold TidyNext.src at 2. cbn [fst snd end_z].
      apply lex_gt. exact U. }
    destruct Ub as (Ub1 & Ub2).
    assert (Az : 0 < orient v (dst e) (e_right (eg (fst z)))).
    { destruct (IH (b, LeftEnd) Hb) as [X|(_ & X)].
      - left. unfold TidyNext.src at 1. exact Ub1.
      - rewrite Re. replace (fst e) with b by (now rewrite <- X). exact Ub2.
      - cbn [fst] in X. apply (turn_trans v (dst e) (e_right (eg b))); [rewrite Re; now apply right_of| |now apply right_of|lia|exact Ub2].
        apply (right_of (b, LeftEnd)); assumption. }
    destruct At as [-> | ->]; (split; [assumption|]); [|exact Az].
    apply (turn_trans v (dst e) (e_right (eg (fst z)))); [rewrite Re; now apply right_of|now apply right_of|now apply right_of|lia|].
    unfold corner in C'. rewrite V' in C'. replace (dst e') with (e_right (eg (fst e'))) in C' by (unfold TidyNext.dst; now rewrite Se').
    replace (src (last l' e')) with (e_right (eg (fst z))) in C' by (fold z; unfold TidyNext.src; now rewrite Sz).
    unfold orient in C' |- *. lia.
Qed.

Lemma fam_face : forall T, family T -> forall d i, In d T -> face d i = face e i.
Proof using D V Polys PI NE W F.
  intros T H. induction H as [|T e' l' b HT IH W' F' N' C' Hb U]; intros d i Hd.
  - apply (walk_face zs S I (e :: l)); [exact W|exact Hd|now left].
  - rewrite <- (IH (b, LeftEnd) i Hb). transitivity (face (last l' e') i).
    + apply (walk_face zs S I (e' :: l')); [exact W'|exact Hd|apply z_in].
    + unfold TidyNext.face. rewrite (z_right zs modes S ks act sw I D V Polys PI NE e' l' W' F'). cbn [fst snd]. symmetry. apply U.
Qed.

Variable C : list bend.
Hypothesis (CN : NoDup C) (CB : Permutation (map dst C) (map src C)) (CF : forall d, In d C -> exists T, family T /\ In d T) (Ce : In e C).

Lemma fam_I : forall d, In d C -> In d I.
Proof using W CF. intros d Hd. destruct (CF d Hd) as (T & HT & H). apply (walk_in zs S I T d (fam_walk T HT) H). Qed.
Lemma fam_S : forall d : bend, In d C -> In (fst d) S.
Proof using D V Polys PI NE W CF. intros d Hd. apply (kept_seg zs modes S ks act sw I D V Polys PI NE). now apply fam_I. Qed.
Lemma fam_last : forall d, In d C -> last_edge zs (eg (fst d)).
Proof using D V Polys PI NE W CF. intros d Hd. apply fam_I in Hd. now apply (kept_iff zs modes S ks act sw I D V Polys PI NE) in Hd. Qed.

Lemma fam_wface : forall T, family T -> forall d, In d T -> wface C d = wface C e.
Proof using D V Polys PI NE W F CB CF.
  intros T H. induction H as [|T e' l' b HT IH W' F' N' C' Hb U]; intros d Hd.
  - apply (walk_wface C (e :: l) fam_S CB W); [exact Hd|now left].
  - rewrite <- (IH (b, LeftEnd) Hb). transitivity (wface C (last l' e')).
    + apply (walk_wface C (e' :: l') fam_S CB W'); [exact Hd|apply z_in].
    + unfold TidySimple.wface. rewrite (z_right zs modes S ks act sw I D V Polys PI NE e' l' W' F'). cbn [fst snd].
      apply (next_total C b _ fam_S CB); [apply U| |apply U]. apply (T_S zs modes S ks act sw I D V Polys PI NE e' l' W'), z_in.
Qed.

Lemma root_wface : wface C e = 1.
Proof using D V Polys PI NE W F Left CN CB CF Ce.
  pose proof (proj1 (W_parts zs S I e l W)) as Se. pose proof (e_left_v zs S I e l W) as Le. pose proof (fam_S e Ce) as Ie.
  assert (Re : dst e = e_right (eg (fst e))) by (unfold TidyNext.dst; now rewrite Se).
  pose proof (here_e zs modes S ks act sw I D V Polys PI NE e l W) as He.
  rewrite (wface_src zs S D C e Ie), (wcc_eq zs S D C fam_S CB v (fst e) He).
  assert (Fl : floor zs C v = 0).
  { apply total_zero. intros d Hd. replace (lower_right v (eg (fst d))) with false; [reflexivity|]. symmetry. apply not_true_iff_false. intros Q.
    apply lower_right_iff in Q. destruct Q as (Q1 & Q2 & Q3). destruct (CF d Hd) as (T & HT & H). destruct (fam_min T HT d H) as (M1 & M2).
    assert (M : lex_z v (e_left (eg (fst d))) <> Gt).
    { unfold TidyNext.src in M1 at 2. unfold TidyNext.dst in M2. destruct (snd d); [exact M1|exact M2]. }
    rewrite <- Zle_Qle in Q1. rewrite lex_gt, lex_lt in M.
    assert (X : fst (e_left (eg (fst d))) = fst v) by lia. rewrite <- X, yat_left in Q3. rewrite <- Zlt_Qlt in Q3. lia. }
  rewrite Fl. destruct (in_split _ _ Ce) as (a & b & Q).
  assert (N : forall d, In d (a ++ b) -> (if inc v (eg (fst d)) && (bef v (eg (fst d)) (eg (fst e)) || same_ends (eg (fst d)) (eg (fst e))) then eta v (eg (fst d)) else 0) = 0).
  { intros d Hd. assert (Cd : In d C) by (rewrite Q; apply in_app_iff in Hd; apply in_app_iff; cbn; tauto).
    destruct (inc v (eg (fst d))) eqn:Ic; [|reflexivity]. cbn [andb]. destruct (CF d Cd) as (T & HT & H).
    assert (X : src d = v \/ dst d = v).
    { unfold inc, at_left, at_right in Ic. rewrite orb_true_iff, !same_z_iff in Ic. unfold TidyNext.src at 1, TidyNext.dst at 1. destruct (snd d); cbn [end_z other_z]; tauto. }
    destruct (fam_above T HT d H X) as [->|(X1 & X2)].
    - exfalso. rewrite Q in CN. apply NoDup_remove_2 in CN. contradiction.
    - replace (bef v (eg (fst d)) (eg (fst e))) with false; [replace (same_ends (eg (fst d)) (eg (fst e))) with false; [reflexivity|]|].
      + symmetry. apply not_true_iff_false. intros SE. apply same_ends_iff in SE. destruct SE as (_ & SE). rewrite Re, SE in X2. unfold orient in X2. lia.
      + symmetry. apply not_true_iff_false. unfold bef. rewrite !at_left_here by assumption. unfold out. rewrite !at_left_here by assumption.
        rewrite Re in X2. unfold orient in X2. unfold vcross, vsub. cbn [fst snd]. lia. }
  unfold ring. rewrite Q at 1. rewrite total_app, total_cons, (total_zero zs a), (total_zero zs b).
  - unfold sg. rewrite Se, (proj2 He), (proj2 (same_ends_iff _ _)) by auto. rewrite orb_true_r. cbn [andb]. unfold eta. rewrite at_left_here by exact Le. lia.
  - intros d Hd. apply N, in_or_app. now right.
  - intros d Hd. apply N, in_or_app. now left.
Qed.

Lemma fam_one_side : forall s, In (s, LeftEnd) C -> In (s, RightEnd) C -> False.
Proof using D V Polys PI NE W F CF.
  intros s H1 H2. apply (faces_differ zs modes S ks act sw I D V Polys PI NE s); [now apply fam_I|]. intros i.
  destruct (CF _ H1) as (T1 & F1 & I1), (CF _ H2) as (T2 & F2 & I2). now rewrite (fam_face T1 F1 _ i I1), (fam_face T2 F2 _ i I2).
Qed.

Lemma fam_side : forall d, In d C -> WS zs C (fst d) = sg d.
Proof using D V Polys PI NE W F CN CF.
  intros d Hd. unfold WS. destruct (in_split _ _ Hd) as (a & b & Q).
  assert (N : forall f, In f (a ++ b) -> same_ends (eg (fst f)) (eg (fst d)) = false).
  { intros f Hf. assert (Tf : In f C) by (rewrite Q; apply in_app_iff in Hf; apply in_app_iff; cbn; tauto).
    apply not_true_iff_false. intros SE. assert (X : fst f = fst d).
    { apply (last_same zs S D); [now apply fam_S|now apply fam_S|now apply fam_last|now apply fam_last|exact SE]. }
    rewrite Q in CN. apply NoDup_remove_2 in CN. apply CN.
    destruct d as [s x], f as [t y]. cbn [fst] in X. subst t. destruct x, y; try exact Hf; exfalso; now apply (fam_one_side s). }
  rewrite Q at 1. rewrite total_app, total_cons, (total_zero zs a), (total_zero zs b).
  - rewrite (proj2 (same_ends_iff _ _)) by auto. cbn. lia.
  - intros f Hf. rewrite N by (apply in_or_app; now right). reflexivity.
  - intros f Hf. rewrite N by (apply in_or_app; now left). reflexivity.
Qed.

Lemma fam_between : forall x y, between x -> wind zs C x y = 0 \/ wind zs C x y = 1.
Proof using D V Polys PI NE W F Left CN CB CF Ce.
  intros x y B. destruct (wind_highest zs S D C fam_S CB x y B) as [(H & _)|(b & B1 & _ & _ & H)]; [now left|].
  rewrite H. destruct (CF b B1) as (T & HT & Hb). pose proof (fam_wface T HT b Hb) as Q. rewrite root_wface in Q. unfold TidySimple.wface in Q.
  pose proof (fam_side b B1) as WSd. unfold sg in WSd. destruct (snd b); [right; exact Q|left]. unfold WL. lia.
Qed.

Lemma fam_wind : forall x y, wind zs C x y = 0 \/ wind zs C x y = 1.
Proof using D V Polys PI NE W F Left CN CB CF Ce.
  intros x y. destruct (nudge E x y) as (x' & y' & B & H); [apply edges_lr|].
  replace (wind zs C x y) with (wind zs C x' y'); [now apply fam_between|].
  apply total_ext. intros d Hd. now rewrite H by (now apply (seg_spec _ _ D), fam_S).
Qed.
End Root.
End Family.
