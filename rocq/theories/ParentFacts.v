(** A hole is listed with the contour straight below its beginning. *)

From Coq Require Import List ZArith QArith Bool Lia Lqa Arith Permutation Sorted.
From Verif Require Import Base Float Contours Sweep Compute SpecShape SpecOrder SpecIntersect SpecTurn SpecHandle SpecTidy SpecOverlay SpecCompute ContainerFacts
  SweepFacts TraceFacts ComputeFacts OrderFacts TidyGeo TidyParity TidySetup TidyLine TidyPackets TidySweep TidyFacts TidyCorner TidyPair TidyNext TidyWalk
  TidyTrace TidyContours TidyWinding TidySimple TidyArea TidyShapes TidyOverlay TidyRegions TidyBorders TidyStart OverlayFacts.
From Verif Require Import FollowFacts.
From Verif Require Import SpecParent.
Import ListNotations.
Local Open Scope Z_scope.

(** No edge ends right after [X]. *)
Lemma clear_right : forall (E : list edge) (X : Q), exists x0, (X < x0)%Q /\ forall e, In e E -> ((X < xl e)%Q -> (x0 <= xl e)%Q) /\ ((X < xr e)%Q -> (x0 <= xr e)%Q).
Proof.
  intros E X. induction E as [|e E (x0 & H0 & H)]; [exists (X + 1)%Q; split; [lra|contradiction]|].
  assert (Less : forall x1 v, (X < x1)%Q -> exists x2, (X < x2)%Q /\ (x2 <= x1)%Q /\ ((X < v)%Q -> (x2 <= v)%Q)).
  { intros x1 v H1. destruct (Qlt_le_dec X v) as [Hv|Hv]; [|exists x1; split; [exact H1|]; split; [lra|intros; lra]].
    destruct (Qlt_le_dec x1 v) as [L|L]; [exists x1|exists v]; (split; [assumption|]); split; try lra; intros; lra. }
  destruct (Less x0 (xl e) H0) as (x1 & A1 & A2 & A3). destruct (Less x1 (xr e) A1) as (x2 & B1 & B2 & B3).
  exists x2. split; [exact B1|]. intros f [<-|Hf].
  - split; intros Hx; [specialize (A3 Hx)|specialize (B3 Hx)]; lra.
  - destruct (H f Hf) as (F1 & F2). split; intros Hx; [specialize (F1 Hx)|specialize (F2 Hx)]; lra.
Qed.

Lemma yat_alike : forall e f x, e_left e = e_left f -> e_right e = e_right f -> yat e x = yat f x.
Proof. intros e f x H1 H2. unfold yat, slope. now rewrite H1, H2. Qed.

Lemma sight : forall zs s b, sloped s -> lr b -> In s (edges zs) -> (forall e f, In e (edges zs) -> In f (edges zs) -> related e f) -> In b (edges zs) ->
  next_below zs b s -> looks_down_on zs (e_left s) (e_right s) (e_left b) (e_right b).
Proof.
  intros zs s b Ss Lb Is Rel Ib (U & HM). destruct (clear_right (edges zs) (xl s)) as (x0 & X0 & Cl). exists x0. split; [exact X0|]. intros x Xl Xr.
  pose proof (sloped_q s Ss) as Qs. pose proof (proj2 (Cl s Is) Qs) as Xs. pose proof U as U'. apply under_iff in U'. destruct U' as ((B1 & B2) & B3).
  pose proof (lr_sloped b _ Lb B1 B2) as Sb. pose proof (proj2 (Cl b Ib) B2) as Xb.
  exists (yat s x), (yat b x). split; [apply on_sloped; [exact Ss|lra|lra]|]. split; [apply on_sloped; [exact Sb|lra|lra]|]. split.
  - destruct B3 as [B3|(B3 & B4)].
    + destruct (Rel b s Ib Is) as [(R1 & R2)|A]; [rewrite (yat_alike _ _ _ R1 R2), yat_left in B3; lra|].
      apply (same_side_strict b s (xl s) x A Sb Ss); try lra. rewrite yat_left. exact B3.
    + apply fan; auto; [now apply orient_slope|]. rewrite B3. lra.
  - intros e y'' Ie On (Y1 & Y2). destruct (Z_lt_le_dec (fst (e_left e)) (fst (e_right e))) as [Se|Ve].
    2: { assert (Le : lr e) by (now apply (edges_lr zs 0)). unfold lr in Le. apply lex_lt in Le. assert (Q : fst (e_left e) = fst (e_right e)) by lia.
      destruct On as (t & _ & _ & Q1 & _). rewrite Q, Z.sub_diag in Q1. rewrite <- Q in Q1. change (inject_Z 0) with 0%Q in Q1. assert (E1 : (x == xl e)%Q) by (rewrite Q1; ring).
      assert (Hx : (xl s < xl e)%Q) by lra. apply (proj1 (Cl e Ie)) in Hx. lra. }
    destruct (on_inv e x y'' Se On) as (E1 & E2 & E3). rewrite E3 in Y1, Y2.
    assert (El : (xl e <= xl s)%Q) by (destruct (Qlt_le_dec (xl s) (xl e)) as [G|]; [apply (proj1 (Cl e Ie)) in G; lra|assumption]).
    assert (Er : (xl s < xr e)%Q) by lra. pose proof (proj2 (Cl e Ie) Er) as Er'.
    destruct (under e s) eqn:Ue.
    + destruct (HM e Ie Ue) as [SE|[Lo|(L1 & L2 & L3)]].
      * apply same_ends_iff in SE. destruct SE as (S1 & S2). rewrite (yat_alike _ _ _ S1 S2) in Y1. lra.
      * destruct (Rel e b Ie Ib) as [(R1 & R2)|A]; [rewrite (yat_alike _ _ _ R1 R2) in Lo; lra|].
        pose proof (same_side e b (xl s) x A Se Sb) as G. assert (yat e x <= yat b x)%Q by (apply G; lra). lra.
      * pose proof (fan_le e b x Se Sb L1 L3 ltac:(lra)). lra.
    + destruct (Q_dec (yat e (xl s)) (yl s)) as [[G|G]|G].
      * assert (under e s = true) by (apply under_iff; split; [split; assumption|now left]). congruence.
      * destruct (Rel s e Is Ie) as [(R1 & R2)|A]; [rewrite <- (yat_alike _ _ _ R1 R2), yat_left in G; lra|].
        pose proof (same_side s e (xl s) x A Ss Se) as K. assert (yat s x <= yat e x)%Q by (apply K; try lra; rewrite yat_left; lra). lra.
      * destruct (Rel s e Is Ie) as [(R1 & R2)|A]; [rewrite <- (yat_alike _ _ _ R1 R2) in Y2; lra|].
        destruct (level s e (xl s) A Ss Se) as (v & V1 & V2 & V3 & V4); try lra; [rewrite yat_left; lra|].
        assert (v = e_left s) by (destruct V1 as [->| ->]; [reflexivity|lra]). subst v.
        assert (EQ : e_left e = e_left s) by (destruct V2 as [V2|V2]; [congruence|rewrite V2 in El, Er; lra]).
        assert (NS : ~ (slope e < slope s)%Q).
        { intros K. apply orient_slope in K; auto. assert (under e s = true) by (apply under_iff; split; [split; assumption|right; split; assumption]). congruence. }
        assert (yat s x <= yat e x)%Q. { unfold yat. rewrite EQ. assert (slope s <= slope e)%Q by lra. nra. } lra.
Qed.

(** *** Two edges seen from the same place are the same *)
Lemma sight_once : forall zs p q e e', In e (edges zs) -> In e' (edges zs) -> (fst p < fst q) -> sloped e -> sloped e' -> related e e' ->
  looks_down_on zs p q (e_left e) (e_right e) -> looks_down_on zs p q (e_left e') (e_right e') -> e_left e = e_left e' /\ e_right e = e_right e'.
Proof.
  intros zs p q e e' Ie Ie' Pq Se Se' Rel (x1 & A1 & A2) (x2 & B1 & B2). destruct Rel as [R|A]; [exact R|exfalso].
  assert (exists x, (inject_Z (fst p) < x)%Q /\ (x < x1)%Q /\ (x < x2)%Q /\ (x < inject_Z (fst p + 1))%Q) as (x & X0 & X1 & X2 & X3).
  { set (f := inject_Z (fst p)) in *. assert (F : (f < inject_Z (fst p + 1))%Q) by (unfold f; rewrite <- Zlt_Qlt; lia).
    destruct (Qlt_le_dec x1 x2); [destruct (Qlt_le_dec x1 (inject_Z (fst p + 1))); [exists ((f + x1) / 2)%Q|exists ((f + inject_Z (fst p + 1)) / 2)%Q]|
      destruct (Qlt_le_dec x2 (inject_Z (fst p + 1))); [exists ((f + x2) / 2)%Q|exists ((f + inject_Z (fst p + 1)) / 2)%Q]];
      repeat split; first [apply Qlt_shift_div_l; [reflexivity|lra]|apply Qlt_shift_div_r; [reflexivity|lra]]. }
  destruct (A2 x X0 X1) as (y & y' & Y1 & Y2 & Y3 & Y4). destruct (B2 x X0 X2) as (z & z' & Z1 & Z2 & Z3 & Z4).
  set (s := mk_edge 0 p q). assert (Ss : sloped s) by exact Pq.
  destruct (on_inv s x y Ss Y1) as (_ & _ & Qy). destruct (on_inv s x z Ss Z1) as (_ & _ & Qz).
  pose proof (Y4 e' z' Ie' Z2) as N1. pose proof (Z4 e y' Ie Y2) as N2.
  assert (Q : (y' == z')%Q). { destruct (Q_dec y' z') as [[G|G]|G]; [exfalso; apply N1; split; lra|exfalso; apply N2; split; lra|exact G]. }
  destruct (apart_end e e' x y' A Y2) as (v & _ & _ & V & _).
  { apply (on_proper e' x z'); [reflexivity|now symmetry|exact Z2]. }
  rewrite V in X0, X3. rewrite <- Zlt_Qlt in X0, X3. lia.
Qed.

Section Parent.
Variables (zs : list corners) (modes : list polygon_mode) (r : polygon) (S : list bseg) (ks : list packet) (act sw : list bseg)
  (I : list bend) (Ts : list (list bend)).
Notation eg := (eg (edges zs)).
Hypothesis (O : overlaid zs modes r S ks act sw I Ts) (NE : covered modes zs).
Notation src := (src zs).
Notation dst := (dst zs).

Let D := o_drawn _ _ _ _ _ _ _ _ _ O.
Let V := o_inv _ _ _ _ _ _ _ _ _ O.
Let Polys := o_polys _ _ _ _ _ _ _ _ _ O.
Let PI := o_kept _ _ _ _ _ _ _ _ _ O.

Lemma all_related : forall e f, In e (edges zs) -> In f (edges zs) -> related e f.
Proof using O.
  intros e f He Hf. destruct (edge_seg _ _ D f Hf) as (s & Hs & <-). now apply (edges_related _ _ D).
Qed.

Lemma hole_above : forall z i c l h lh, has_corners r z -> nth_error r i = Some c -> In h (c_holes c) -> nth_error z i = Some l -> nth_error z h = Some lh ->
  lies_above zs lh l.
Proof using O NE.
  intros z i c l h lh H Hc Hh Hl Hlh.
  destruct (walk_at zs modes r S ks act sw I Ts O i c z l H Hc Hl) as (e & t & HT & -> & W & _).
  destruct (hole_walk zs modes r S ks act sw I Ts O NE i c h _ Hc HT Hh) as (e1 & t1 & b & A1 & W1 & F1 & N1 & Co & Hb & (U1 & _ & _ & _ & U2)).
  rewrite (rz_is zs modes r S ks act sw I Ts O z H), nth_error_map, A1 in Hlh. injection Hlh as <-.
  pose proof (z_left_v zs modes S ks act sw I D V Polys PI NE e1 t1 W1 F1) as Lz. pose proof (z_right zs modes S ks act sw I D V Polys PI NE e1 t1 W1 F1) as Rz.
  set (s := fst (last t1 e1)) in *. assert (Qs : src (last t1 e1) = e_right (eg s)) by (unfold TidyNext.src; rewrite Rz; reflexivity).
  assert (Is : In (last t1 e1) I).
  { apply (walk_in zs S I (e1 :: t1) _ W1). clear. revert e1. induction t1 as [|d t1 IH]; intros e1; [now left|]. rewrite last_cons. right. apply IH. }
  apply (kept_iff zs modes S ks act sw I D V Polys PI NE) in Is. destruct Is as (Is & _). fold s in Is.
  destruct (seg_spec _ _ D s Is) as (_ & _ & Ls & Es). destruct (seg_spec _ _ D b U1) as (_ & _ & Lb & Eb).
  assert (Le1 : lex_z (src e1) (dst e1) = Lt).
  { pose proof W1 as (x & y & Q & Le & Ie & _). injection Q as <- <-. apply (kept_iff zs modes S ks act sw I D V Polys PI NE) in Ie. destruct Ie as (Ie & _).
    destruct (seg_spec _ _ D _ Ie) as (_ & _ & Q & _). unfold TidyNext.src, TidyNext.dst. rewrite Le. exact Q. }
  assert (Ss : sloped (eg s)).
  { unfold sloped. unfold lr in Ls. unfold corner in Co. rewrite Qs in Co. rewrite <- Lz in Co, Le1. clear - Ls Co Le1. apply lex_lt in Ls, Le1. unfold orient in Co.
    destruct (Z_lt_le_dec (fst (e_left (eg s))) (fst (e_right (eg s)))); [assumption|exfalso]. nia. }
  assert (Ed : hd (0, 0) (map src (e1 :: t1)) = e_left (eg s)) by (cbn [map hd]; now rewrite Lz).
  assert (La : last (map src (e1 :: t1)) (0, 0) = e_right (eg s)).
  { rewrite <- Qs. clear. revert e1. induction t1 as [|d t1 IH]; intros e1; [reflexivity|]. specialize (IH d). rewrite last_cons. exact IH. }
  change (lies_above zs (map src (e1 :: t1)) (map src (e :: t))). unfold lies_above. rewrite Ed, La. split; [exact Ss|]. exists (e_left (eg b)), (e_right (eg b)).
  pose proof U2 as (Ub & _). apply under_iff in Ub. destruct Ub as ((B1 & B2) & _). pose proof (lr_sloped (eg b) _ Lb B1 B2) as Sb.
  split; [|split; [exact Sb|]].
  - rewrite (walk_sides zs S I _ W). apply in_map_iff. exists (b, LeftEnd). split; [reflexivity|exact Hb].
  - apply sight; auto. exact all_related.
Qed.

Lemma same_line : forall (z : corners) i j l l' (d : (Z * Z) * (Z * Z)), NoDup (flat_map sides z) -> nth_error z i = Some l -> nth_error z j = Some l' ->
  In d (sides l) -> In d (sides l') -> i = j.
Proof using.
  clear. intros z i j l l' d N Hi Hj H H'. rewrite flat_map_concat_map in N.
  apply (concat_disjoint _ (map sides z) i j [] d N).
  - rewrite (nth_error_nth (map sides z) i [] (x := sides l)); [exact H|]. now rewrite nth_error_map, Hi.
  - rewrite (nth_error_nth (map sides z) j [] (x := sides l')); [exact H'|]. now rewrite nth_error_map, Hj.
Qed.

Lemma right_side : forall z a b, has_corners r z -> In (a, b) (flat_map sides z) -> (fst a < fst b)%Z -> exists e, In e (edges zs) /\ e_left e = a /\ e_right e = b.
Proof using O NE.
  intros z a b H Hs L. apply (sides_kept zs modes r S ks act sw I Ts O NE z a b H) in Hs. destruct Hs as (e & He & _ & x & y & _ & [(-> & -> & _)|(-> & -> & _)]).
  - exists e. auto.
  - exfalso. pose proof (edges_lr zs 0 e He) as Le. apply lex_lt in Le. lia.
Qed.

Lemma parent_iff : forall z i c l h ch lh, has_corners r z -> nth_error r i = Some c -> nth_error r h = Some ch -> nth_error z i = Some l -> nth_error z h = Some lh ->
  In h (c_holes c) <-> c_external ch = false /\ lies_above zs lh l.
Proof using O NE.
  intros z i c l h ch lh H Hc Hch Hl Hlh. split.
  - intros Hh. split; [|now apply (hole_above z i c l h lh)].
    destruct (hole_spec zs modes r S ks act sw I Ts O i c h Hc Hh) as (ch' & X & Y). congruence.
  - intros (Ex & P & a & b & Ab & Lab & Dn). destruct (o_holes _ _ _ _ _ _ _ _ _ O) as (_ & _ & A). destruct (A h ch Hch Ex) as (j & cj & Hj & Hin).
    assert (exists lj, nth_error z j = Some lj) as (lj & Hlj).
    { destruct (nth_error z j) eqn:Q; [eauto|]. apply nth_error_None in Q. assert (j < length r)%nat by (apply nth_error_Some; congruence).
      pose proof (Forall2_len _ _ _ H). lia. }
    destruct (hole_above z j cj lj h lh H Hj Hin Hlj Hlh) as (_ & a' & b' & Ab' & Lab' & Dn').
    assert (F : forall k lk s, nth_error z k = Some lk -> In s (sides lk) -> In s (flat_map sides z)).
    { intros k lk s0 Hk Hs. apply in_flat_map. exists lk. split; [now apply nth_error_In in Hk|exact Hs]. }
    destruct (right_side z a b H (F i l _ Hl Ab) Lab) as (e & Ie & <- & <-). destruct (right_side z a' b' H (F j lj _ Hlj Ab') Lab') as (e' & Ie' & <- & <-).
    destruct (sight_once zs _ _ e e' Ie Ie' P Lab Lab' (all_related e e' Ie Ie') Dn Dn') as (Q1 & Q2). rewrite <- Q1, <- Q2 in Ab'.
    assert (i = j) by (apply (same_line z i j l lj _ (sides_once zs modes r S ks act sw I Ts O NE z H) Hl Hlj Ab Ab')). subst j. congruence.
Qed.
End Parent.

Lemma overlay_parents : forall std fuel polys op zs, std_laws std -> sorts std -> overlayable polys zs -> (2 * length (edges zs) <= fuel)%nat ->
  forall r rz, compute std fuel polys op = Ok r -> has_corners r rz -> forall i c l h ch lh,
  nth_error r i = Some c -> nth_error rz i = Some l -> nth_error r h = Some ch -> nth_error rz h = Some lh ->
  In h (c_holes c) <-> c_external ch = false /\ lies_above zs lh l.
Proof.
  intros std fuel polys op zs SL SO OV HF r rz C H i c l h ch lh H1 H2 H3 H4.
  destruct (have std fuel polys op zs SL SO OV HF r C) as (S & ks & act & sw & I & Ts & O).
  exact (parent_iff zs _ r S ks act sw I Ts O (modes_plain polys zs OV) rz i c l h ch lh H H1 H3 H2 H4).
Qed.
