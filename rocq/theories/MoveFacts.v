(** Polygons moved elsewhere are overlaid the same. *)

From Coq Require Import List ZArith QArith Bool Lia Lqa Arith Permutation Sorted.
From Verif Require Import Base Float Contours Sweep Compute SpecShape SpecOrder SpecIntersect SpecTurn SpecHandle SpecTidy SpecOverlay SpecCompute ContainerFacts
  SweepFacts TraceFacts ComputeFacts OrderFacts TidyGeo TidyParity TidySetup TidyOverlay TidyRegions TidyBorders TidyStart OverlayFacts HoleOrder FollowLines FollowFacts SpecFollow MoveGeo SpecMove.
Import ListNotations.
Local Open Scope Z_scope.

Lemma itself : forall zs, same_polygons (fun i => i) zs zs.
Proof.
  intros zs. split; [reflexivity|]. split; [auto|]. split; [auto|]. replace (map (numbered (fun i => i)) (edges zs)) with (edges zs); [apply Permutation_refl|].
  rewrite <- (map_id (edges zs)) at 1. apply map_ext. intros [k a b]. reflexivity.
Qed.

Section Twice.
Variables (std std' : std_impl) (fuel fuel' : nat) (polys polys' : input) (op op' : boolean_op) (zs : list corners) (d : Z * Z).
Local Notation zs' := (moved d zs).
Local Notation mv := (moved_point d).
Local Notation me := (moved_edge d).
Hypothesis (SL : std_laws std) (SO : sorts std) (OV : overlayable polys zs) (HF : (2 * length (edges zs) <= fuel)%nat).
Hypothesis (SL' : std_laws std') (SO' : sorts std') (OV' : overlayable polys' zs') (HF' : (2 * length (edges zs') <= fuel')%nat).
Hypothesis (HM : map snd polys' = map snd polys).
Variables (r r' : polygon) (rz rz' : corners).
Hypothesis (C : compute std fuel polys op = Ok r) (C' : compute std' fuel' polys' op' = Ok r') (H : has_corners r rz) (H' : has_corners r' rz').

Lemma move_lines : rz' = moved_lines d rz.
Proof using SL SO OV HF SL' SO' OV' HF' HM C C' H H'.
  apply (overlay_determined std' fuel' polys' op' zs' SL' SO' OV' HF' r' rz' C' H').
  - apply mv_followed. exact (overlay_followed std fuel polys op zs SL SO OV HF r rz C H).
  - rewrite HM. pose proof (proj2 (overlay_sides std fuel polys op zs SL SO OV HF r rz C H)) as S. intros a b. rewrite mv_flat. split.
    + intros I. apply in_map_iff in I. destruct I as ([u v] & E & I). cbn [fst snd] in E. pose proof (f_equal fst E) as E1. pose proof (f_equal snd E) as E2. cbn [fst snd] in E1, E2. subst a b.
      apply S in I. destruct I as (e & He & K). exists (me e). split; [rewrite mv_edges; now apply in_map|now apply mv_kept_sides].
    + intros (e' & He & K). rewrite mv_edges in He. apply in_map_iff in He. destruct He as (e & <- & He).
      assert (X : exists u v, a = mv u /\ b = mv v) by (destruct K as (_ & x & y & _ & [(-> & -> & _)|(-> & -> & _)]); [exists (e_left e), (e_right e)|exists (e_right e), (e_left e)]; split; reflexivity).
      destruct X as (u & v & -> & ->). rewrite (mv_kept_sides d) in K. apply in_map_iff. exists (u, v). split; [reflexivity|]. apply S. exists e. split; [exact He|]. exact K.
Qed.

Lemma move_at : forall i l, nth_error rz i = Some l -> nth_error rz' i = Some (map mv l).
Proof using SL SO OV HF SL' SO' OV' HF' HM C C' H H'. intros i l Hl. rewrite move_lines. unfold moved_lines. now apply map_nth_error. Qed.
Lemma move_len : length r' = length r.
Proof using SL SO OV HF SL' SO' OV' HF' HM C C' H H'.
  pose proof H as A. pose proof H' as B. apply Forall2_len in A, B. rewrite move_lines in B. unfold moved_lines in B. rewrite map_length in B. clear - A B. lia.
Qed.
Lemma line_at : forall i c, nth_error r i = Some c -> exists l, nth_error rz i = Some l.
Proof using H. intros i c Hc. destruct (nth_error rz i) eqn:E; [eauto|]. apply nth_error_None in E. apply nth_lt in Hc. apply Forall2_len in H. clear - E Hc H. lia. Qed.
Lemma line_at' : forall i c, nth_error r' i = Some c -> exists l, nth_error rz i = Some l.
Proof using SL SO OV HF SL' SO' OV' HF' HM C C' H H'. intros i c Hc. apply nth_lt in Hc. rewrite move_len in Hc. destruct (nth_error r i) as [c0|] eqn:E; [now apply (line_at i c0)|]. apply nth_error_None in E. lia. Qed.

Lemma move_external : forall i c c', nth_error r i = Some c -> nth_error r' i = Some c' -> c_external c' = c_external c.
Proof using SL SO OV HF SL' SO' OV' HF' HM C C' H H'.
  intros i c c' Hc Hc'. destruct (line_at i c Hc) as (l & Hl). pose proof (move_at i l Hl) as Hl'.
  destruct (overlay_shapes std fuel polys op zs SL SO OV HF r rz C H i c l 0%Q 0%Q Hc Hl) as (A & B).
  destruct (overlay_shapes std' fuel' polys' op' zs' SL' SO' OV' HF' r' rz' C' H' i c' (map mv l) 0%Q 0%Q Hc' Hl') as (A' & B'). rewrite mv_area in A', B'.
  destruct (c_external c), (c_external c'); auto; [destruct (A eq_refl), (B' eq_refl)|destruct (A' eq_refl), (B eq_refl)]; exfalso; clear - H0 H2; lia.
Qed.

Lemma move_from : forall i c c', nth_error r i = Some c -> nth_error r' i = Some c' -> c_from c' = c_from c.
Proof using SL SO OV HF SL' SO' OV' HF' HM C C' H H'.
  intros i c c' Hc Hc'. destruct (line_at i c Hc) as (l & Hl). pose proof (move_at i l Hl) as Hl'.
  assert (L : length (c_from c) = length polys).
  { destruct (have std fuel polys op zs SL SO OV HF r C) as (S & ks & act & sw & I & Ts & O). rewrite <- (map_length snd polys). eapply (from_length zs _ r S ks act sw I Ts O); eassumption. }
  assert (L' : length (c_from c') = length polys).
  { destruct (have std' fuel' polys' op' zs' SL' SO' OV' HF' r' C') as (S & ks & act & sw & I & Ts & O). rewrite <- (map_length snd polys), <- HM. eapply (from_length zs' _ r' S ks act sw I Ts O); eassumption. }
  assert (N : length polys' = length polys) by (rewrite <- (map_length snd polys'), HM; apply map_length).
  apply nth_ext_error. intros k. destruct (le_gt_dec (length polys) k) as [G|G].
  { transitivity (@None bool); [apply nth_error_None; lia|symmetry; apply nth_error_None; lia]. }
  assert (F : starts_leftmost l).
  { eapply (proj2 (proj2 (overlay_followed std fuel polys op zs SL SO OV HF r rz C H))). now apply nth_error_In in Hl. }
  destruct l as [|a t] eqn:El; [destruct F|]. destruct (corner_side (a :: t) a (or_introl eq_refl)) as (b & Hb).
  assert (Hb' : In (mv a, mv b) (sides (map mv (a :: t)))) by (rewrite mv_sides; apply in_map_iff; exists (a, b); split; [reflexivity|exact Hb]).
  pose proof (in_flat rz (a :: t) _ (nth_error_In _ _ Hl) Hb) as X. apply (overlay_sides std fuel polys op zs SL SO OV HF r rz C H) in X.
  destruct X as (e & He & KE & x & y & Ins & K). pose proof (shift d x y) as Sh.
  assert (He' : In (me e) (edges zs')) by (rewrite mv_edges; now apply in_map).
  assert (KE' : kept_edge (map snd polys') zs' (me e)) by (rewrite HM; now apply mv_kept).
  assert (Ins' : inside_edge (me e) (x + inject_Z (fst d))%Q (y + inject_Z (snd d))%Q) by (now apply (mv_inside d e x y _ _ Sh)).
  destruct (overlay_from std fuel polys op zs SL SO OV HF r rz C H i c (a :: t) e x y k Hc Hl He KE Ins G) as (U1 & U2).
  destruct (overlay_from std' fuel' polys' op' zs' SL' SO' OV' HF' r' rz' C' H' i c' (map mv (a :: t)) (me e) _ _ k Hc' Hl' He' KE' Ins' ltac:(lia)) as (U1' & U2').
  destruct K as [(Q1 & Q2 & _)|(Q1 & Q2 & _)]; rewrite Q1, Q2 in Hb, Hb'; rewrite Q1 in U1, U2, U1', U2'.
  - eapply some_true; [rewrite L'; exact G|rewrite L; exact G|apply U1'; exact Hb'|apply U1; exact Hb|]. now apply (mv_above d zs e k x y).
  - eapply some_true; [rewrite L'; exact G|rewrite L; exact G|apply U2'; exact Hb'|apply U2; exact Hb|]. now apply (mv_below d zs k x y).
Qed.

Lemma move_neighbours : forall i c c', nth_error r i = Some c -> nth_error r' i = Some c' -> c_neighbors c' = c_neighbors c.
Proof using SL SO OV HF SL' SO' OV' HF' HM C C' H H'.
  intros i c c' Hc Hc'. destruct (compute_neighbors std fuel polys op r SL C) as (L & _). destruct (compute_neighbors std' fuel' polys' op' r' SL' C') as (L' & _).
  specialize (L c (nth_error_In _ _ Hc)). specialize (L' c' (nth_error_In _ _ Hc')). rewrite move_len in L'.
  destruct (line_at i c Hc) as (l & Hl). pose proof (move_at i l Hl) as Hl'. apply nth_ext_error. intros j. destruct (le_gt_dec (length r) j) as [G|G].
  { transitivity (@None bool); [apply nth_error_None; lia|symmetry; apply nth_error_None; lia]. }
  destruct (nth_error r j) as [cj|] eqn:Ej; [|apply nth_error_None in Ej; clear - Ej G; lia]. destruct (line_at j cj Ej) as (l2 & H2). pose proof (move_at j l2 H2) as H2'.
  assert (G1 : (j < length (c_neighbors c'))%nat) by lia. assert (G2 : (j < length (c_neighbors c))%nat) by lia.
  eapply some_true; [exact G1|exact G2|apply (overlay_neighbours std' fuel' polys' op' zs' SL' SO' OV' HF' r' rz' C' H' i j c' _ _ Hc' Hl' H2')
    |apply (overlay_neighbours std fuel polys op zs SL SO OV HF r rz C H i j c l l2 Hc Hl H2)|].
  rewrite !mv_sides. split.
  - intros (a & b & A & B). apply in_map_iff in A, B. destruct A as ([u v] & A & IA), B as ([u' v'] & B & IB). cbn [fst snd] in A, B. injection A as <- <-. pose proof (f_equal fst B) as B1. pose proof (f_equal snd B) as B2. cbn [fst snd] in B1, B2. apply mv_inj in B1, B2. subst u' v'. eauto.
  - intros (a & b & A & B). exists (mv a), (mv b). split; apply in_map_iff; [exists (a, b)|exists (b, a)]; (split; [reflexivity|assumption]).
Qed.

Lemma move_parent : forall i j c c' h, nth_error r i = Some c -> In h (c_holes c) -> nth_error r' j = Some c' -> In h (c_holes c') -> i = j.
Proof using SL SO OV HF SL' SO' OV' HF' HM C C' H H'.
  intros i j c c' h Hc Hh Hc' Hh'. destruct (line_at i c Hc) as (l & Hl). destruct (line_at' j c' Hc') as (l' & Hl'). pose proof (move_at j l' Hl') as Hm'.
  destruct (proj1 (proj2 (compute_hole_lists std fuel polys op r SL C)) i c h Hc Hh) as (_ & ch & Hch & _). destruct (line_at h ch Hch) as (lh & Hlh). pose proof (move_at h lh Hlh) as Hmh.
  destruct (have std fuel polys op zs SL SO OV HF r C) as (S1 & ks1 & act1 & sw1 & I1 & Ts1 & O1).
  destruct (have std' fuel' polys' op' zs' SL' SO' OV' HF' r' C') as (S2 & ks2 & act2 & sw2 & I2 & Ts2 & O2).
  destruct (hole_parent zs _ r S1 ks1 act1 sw1 I1 Ts1 O1 rz i c l h lh H Hc Hh Hl Hlh) as (eb & es & A1 & A2 & A3 & A4 & A5).
  destruct (hole_parent zs' _ r' S2 ks2 act2 sw2 I2 Ts2 O2 rz' j c' _ h _ H' Hc' Hh' Hm' Hmh) as (eb' & es' & B1 & B2 & B3 & B4 & B5).
  rewrite mv_edges in B1. apply in_map_iff in B1. destruct B1 as (b0 & <- & B1).
  pose proof (overlay_followed std fuel polys op zs SL SO OV HF r rz C H) as W.
  assert (F : starts_leftmost lh) by (apply (proj2 (proj2 W)), (nth_error_In _ _ Hlh)).
  assert (X3 : mv (e_left es) = e_left es') by (rewrite <- B3, <- A3; destruct lh; [destruct F|reflexivity]).
  assert (X4 : mv (e_right es) = e_right es').
  { rewrite <- B4, <- A4. clear - F. destruct lh as [|a t]; [destruct F|]. clear F. revert a. induction t as [|b t IH]; intros a; [reflexivity|]. apply (IH b). }
  set (es0 := mk_edge (SpecTidy.e_poly es') (e_left es) (e_right es)).
  assert (E0 : es' = me es0) by (unfold es0, moved_edge; cbn; rewrite X3, X4; now destruct es').
  rewrite E0 in B2. apply mv_next in B2.
  assert (AL : alike eb b0) by (apply (next_below_same (fun i => i) zs zs (itself zs) eb es b0 es0 A1 B1); [split; reflexivity|exact A2|exact B2]).
  destruct AL as (L1 & L2). cbn [moved_edge e_left e_right] in B5. rewrite mv_sides in B5. apply in_map_iff in B5. destruct B5 as ([u v] & B5 & B6). cbn [fst snd] in B5.
  pose proof (f_equal fst B5) as E1. pose proof (f_equal snd B5) as E2. cbn [fst snd] in E1, E2. apply mv_inj in E1, E2. subst u v. rewrite <- L1, <- L2 in B6.
  assert (Q : l = l') by (apply (nodup_line rz l l' (e_left eb, e_right eb) (proj1 (proj2 W))); auto; eapply nth_error_In; eassumption).
  subst l'. pose proof (well_nodup rz W) as N. rewrite NoDup_nth_error in N. apply N; [now apply nth_lt in Hl|congruence].
Qed.

Lemma move_holes : forall i c c', nth_error r i = Some c -> nth_error r' i = Some c' -> c_holes c' = c_holes c.
Proof using SL SO OV HF SL' SO' OV' HF' HM C C' H H'.
  intros i c c' Hc Hc'. pose proof (compute_hole_lists std fuel polys op r SL C) as (_ & P1 & P2).
  pose proof (compute_hole_lists std' fuel' polys' op' r' SL' C') as (_ & P1' & P2'). apply asc_same.
  - apply (holes_ascend std' fuel' polys' op' r' c' C'). eapply nth_error_In; eassumption.
  - apply (holes_ascend std fuel polys op r c C). eapply nth_error_In; eassumption.
  - intros h. split; intros Hh.
    + destruct (P1' i c' h Hc' Hh) as (_ & ch' & Hch' & X & _). destruct (nth_error r h) as [ch|] eqn:Hch.
      2:{ apply nth_error_None in Hch. apply nth_lt in Hch'. rewrite move_len in Hch'. clear - Hch Hch'. lia. }
      rewrite (move_external h ch ch' Hch Hch') in X. destruct (P2 h ch Hch X) as (j & cj & Hj & Hhj).
      pose proof (move_parent j i cj c' h Hj Hhj Hc' Hh) as ->. rewrite Hc in Hj. injection Hj as <-. exact Hhj.
    + destruct (P1 i c h Hc Hh) as (_ & ch & Hch & X & _). destruct (nth_error r' h) as [ch'|] eqn:Hch'.
      2:{ apply nth_error_None in Hch'. apply nth_lt in Hch. rewrite move_len in Hch'. clear - Hch Hch'. lia. }
      rewrite <- (move_external h ch ch' Hch Hch') in X. destruct (P2' h ch' Hch' X) as (j & cj & Hj & Hhj).
      pose proof (move_parent i j c cj h Hc Hh Hj Hhj) as <-. rewrite Hc' in Hj. injection Hj as <-. exact Hhj.
Qed.

Lemma move_free : rz' = moved_lines d rz /\ forall i c c', nth_error r i = Some c -> nth_error r' i = Some c' ->
  c_holes c' = c_holes c /\ c_external c' = c_external c /\ c_neighbors c' = c_neighbors c /\ c_from c' = c_from c.
Proof using SL SO OV HF SL' SO' OV' HF' HM C C' H H'.
  split; [exact move_lines|]. intros i c c' Hc Hc'. split; [now apply (move_holes i)|]. split; [now apply (move_external i)|]. split; [now apply (move_neighbours i)|now apply (move_from i)].
Qed.
End Twice.
