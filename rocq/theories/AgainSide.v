(** The contours of an overlay have their region on their left. *)

From Coq Require Import List ZArith QArith Bool Lia Lqa Arith Permutation Sorted.
From Verif Require Import Base Float Contours Sweep Compute SpecShape SpecOrder SpecIntersect SpecTurn SpecHandle SpecTidy SpecOverlay SpecCompute ContainerFacts
  SweepFacts TraceFacts ComputeFacts OrderFacts TidyGeo TidyParity TidySetup TidyLine TidyPackets TidySweep TidyFacts TidyCorner TidyPair TidyNext TidyWalk
  TidyTrace TidyContours TidyWinding TidySimple TidyFamily TidyArea TidyShapes TidyOverlay TidyRegions TidyBorders TidyStart OverlayFacts.
Import ListNotations.
Local Open Scope Z_scope.

Lemma wind_inside : forall zs S C t x y, drawn (edges zs) S -> (forall d : bend, In d C -> In (fst d) S) -> Permutation (map (dst zs) C) (map (src zs) C) ->
  In t S -> inside_edge (eg (edges zs) t) x y -> WR zs C t = wind zs C x y.
Proof.
  intros zs S C t x y D CS CB Ht (u & U0 & U1 & X & Y). rewrite !inject_sub in X, Y. set (g := eg (edges zs) t) in *.
  assert (L : lr g) by (now apply (seg_spec _ _ D)).
  destruct (Z_lt_le_dec (fst (e_left g)) (fst (e_right g))) as [Sl|V].
  - assert (S' : sloped g) by exact Sl. pose proof (sloped_q g S') as Q.
    rewrite (wind_along zs S D C CS CB t x Ht S') by (fold g; nra). fold g.
    apply total_ext. intros d Hd. f_equal. apply eq_true_iff_eq. rewrite !passes_iff by (now apply (seg_spec _ _ D), CS).
    assert (E : (y == yat g x)%Q). { unfold yat. rewrite X, Y, <- (slope_eq g S'). ring. }
    rewrite E. tauto.
  - unfold lr in L. apply lex_lt in L. assert (V' : fst (e_left g) = fst (e_right g)) by lia.
    assert (Q : (yl g < yr g)%Q) by (rewrite <- Zlt_Qlt; lia).
    apply total_ext. intros d Hd. f_equal. symmetry. apply upright_passes; auto.
    + now apply (seg_spec _ _ D), CS.
    + apply (pairs_related _ _ D); auto.
    + fold g. rewrite X, <- V'. ring.
    + fold g. nra.
    + fold g. nra.
Qed.

Section Beside.
Variables (zs : list corners) (modes : list polygon_mode) (r : polygon) (S : list bseg) (ks : list packet) (act sw : list bseg)
  (I : list bend) (Ts : list (list bend)).
Notation eg := (eg (edges zs)).
Hypothesis (O : overlaid zs modes r S ks act sw I Ts) (NE : covered modes zs).
Notation src := (src zs).
Notation dst := (dst zs).

Let D := o_drawn _ _ _ _ _ _ _ _ _ O.
Let V := o_inv _ _ _ _ _ _ _ _ _ O.
Let Polys := o_polys _ _ _ _ _ _ _ _ _ O.
Let PI := o_kept _ _ _ _ _ _ _ _ _ O.

Lemma region_side : forall z i js x y j l e, has_corners r z -> outer r i -> region_of r i js -> In j js -> nth_error z j = Some l ->
  In e (edges zs) -> inside_edge e x y ->
  (In (e_left e, e_right e) (sides l) -> goes_round z js x y = 0) /\ (In (e_right e, e_left e) (sides l) -> goes_round z js x y = 1).
Proof using O NE.
  intros z i js x y j l e0 H Oi (J1 & J2) Hj Hl He Ins.
  destruct (outer_walk zs modes r S ks act sw I Ts O NE i Oi) as (c & e & l0 & A1 & A2 & A3 & A4 & A5 & A6 & _).
  assert (Hi : (i < length r)%nat) by (apply nth_error_Some; congruence).
  assert (G : forall j T, nth_error Ts j = Some T -> nth j Ts [] = T) by (intros ? T Q; now apply nth_error_nth).
  pose proof (rz_is zs modes r S ks act sw I Ts O z H) as Z0.
  set (C := concat (map (fun j => nth j Ts []) js)).
  assert (GW : goes_round z js x y = wind zs C x y).
  { rewrite Z0. apply (goes_wind zs modes r S ks act sw I Ts O NE). intros k Hk. apply J2 in Hk. now apply (region_len zs modes r S ks act sw I Ts O i). }
  pose proof (o_walks _ _ _ _ _ _ _ _ _ O) as Ws. rewrite Forall_forall in Ws.
  assert (CN : NoDup C) by (apply concat_pick; [exact (o_once _ _ _ _ _ _ _ _ _ O)|exact J1]).
  assert (CB : Permutation (map dst C) (map src C)).
  { apply (walks_dst zs S I). apply Forall_forall. intros T HT. apply in_map_iff in HT. destruct HT as (k & <- & Hk). apply J2 in Hk.
    apply Ws, nth_In. rewrite (len_T zs modes r S ks act sw I Ts O). now apply (region_len zs modes r S ks act sw I Ts O i). }
  assert (CF : forall d, In d C -> exists T, family zs S I e l0 T /\ In d T).
  { intros d Hd. apply in_concat in Hd. destruct Hd as (T & HT & Hd). apply in_map_iff in HT. destruct HT as (k & <- & Hk). apply J2 in Hk.
    destruct (region_family zs modes r S ks act sw I Ts O NE i e l0 Oi A2 k Hk) as (T & HT & FT). rewrite (G _ _ HT) in Hd. eauto. }
  assert (Ce : In e C).
  { apply in_concat. exists (e :: l0). split; [|now left]. apply in_map_iff. exists i. split; [now apply G|]. apply J2. constructor. }
  assert (CS : forall d, In d C -> In (fst d) S) by (intros d Hd; apply (fam_S zs modes S ks act sw I D V Polys PI NE e l0 A3 C CF d Hd)).
  assert (Main : forall d, In d C -> e_left (eg (fst d)) = e_left e0 -> e_right (eg (fst d)) = e_right e0 -> wface zs C d = 1 /\ WS zs C (fst d) = sg d /\ WR zs C (fst d) = goes_round z js x y).
  { intros d Hd E1 E2. split; [|split].
    - destruct (CF d Hd) as (T & FT & HT).
      rewrite (fam_wface zs modes S ks act sw I D V Polys PI NE e l0 A3 A4 C CB CF T FT d HT).
      apply (root_wface zs modes S ks act sw I D V Polys PI NE e l0 A3 A4 A6 C CN CB CF Ce).
    - apply (fam_side zs modes S ks act sw I D V Polys PI NE e l0 A3 A4 C CN CF d Hd).
    - rewrite GW. apply (wind_inside zs S C (fst d) x y D CS CB (CS d Hd)). unfold inside_edge in *. now rewrite E1, E2. }
  rewrite Z0, nth_error_map in Hl. destruct (nth_error Ts j) as [T|] eqn:HT; [|discriminate Hl]. injection Hl as <-.
  assert (WT : walk zs S I T) by (eapply Ws, nth_error_In; exact HT).
  assert (TC : forall d, In d T -> In d C). { intros d Hd. apply in_concat. exists T. split; [|exact Hd]. apply in_map_iff. exists j. split; [now apply G|exact Hj]. }
  pose proof (edges_lr zs 0 e0 He) as L0.
  rewrite (walk_sides zs S I _ WT). split; intros Q; apply in_map_iff in Q; destruct Q as ((s & w) & Q & Hd); injection Q as Q1 Q2;
    pose proof (TC _ Hd) as Cd; assert (Ls : lr (eg s)) by (apply (seg_spec _ _ D), (CS _ Cd)); unfold lr in L0, Ls;
    unfold TidyNext.src, TidyNext.dst in Q1, Q2; cbn [fst snd] in Q1, Q2; destruct w; cbn [end_z other_z] in Q1, Q2;
    try (exfalso; rewrite Q1, Q2 in Ls; apply lex_gt in Ls; congruence).
  - destruct (Main _ Cd Q1 Q2) as (M1 & M2 & M3). cbn [wface fst snd] in *. unfold wface, sg, WL in *. cbn [fst snd] in *. lia.
  - destruct (Main _ Cd Q2 Q1) as (M1 & M2 & M3). unfold wface, sg, WL in *. cbn [fst snd] in *. lia.
Qed.
End Beside.

Lemma overlay_beside : forall std fuel polys op zs, std_laws std -> sorts std -> overlayable polys zs -> (2 * length (edges zs) <= fuel)%nat ->
  forall r rz, compute std fuel polys op = Ok r -> has_corners r rz -> forall i js j l e x y, outer r i -> region_of r i js -> In j js -> nth_error rz j = Some l ->
  In e (edges zs) -> inside_edge e x y ->
  (In (e_left e, e_right e) (sides l) -> goes_round rz js x y = 0) /\ (In (e_right e, e_left e) (sides l) -> goes_round rz js x y = 1).
Proof.
  intros std fuel polys op zs SL SO OV HF r rz C H i js j l e x y Oi J Hj Hl He Ins.
  destruct (have std fuel polys op zs SL SO OV HF r C) as (S & ks & act & sw & I & Ts & O).
  apply (region_side zs _ r S ks act sw I Ts O (proj2 (proj2 (proj2 OV))) rz i js x y j l e); assumption.
Qed.
