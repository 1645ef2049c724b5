(** Overlaying the regions of an overlay changes nothing. *)

From Coq Require Import List ZArith QArith Bool Lia Lqa Arith Permutation Sorted.
From Verif Require Import Base Float Contours Sweep Compute SpecShape SpecOrder SpecIntersect SpecTurn SpecHandle SpecTidy SpecOverlay SpecCompute ContainerFacts
  SweepFacts TraceFacts ComputeFacts OrderFacts TidyGeo TidyParity TidySetup TidyShapes TidyRegions TidyBorders TidyStart OverlayFacts HoleOrder FollowLines FollowFacts ParentFacts
  SpecParent SpecFollow.
From Verif Require Import SpecAgain AgainSide AgainEdges AgainFacts.
Import ListNotations.
Local Open Scope Z_scope.

Section Second.
Variables (std std' : std_impl) (fuel fuel' : nat) (polys polys' : input) (op op' : boolean_op) (zs : list corners).
Hypothesis (SL : std_laws std) (SO : sorts std) (OV : overlayable polys zs) (HF : (2 * length (edges zs) <= fuel)%nat) (RM : roomy zs).
Variables (r : polygon) (rz : corners).
Hypothesis (C : compute std fuel polys op = Ok r) (H : has_corners r rz).
Variables (outs : list nat) (jss : list (list nat)).
Hypothesis (N : NoDup outs) (Outs : forall i, In i outs <-> outer r i) (F : Forall2 (region_of r) outs jss).
Notation zs' := (map (map (fun j => nth j rz [])) jss).
Notation modes' := (map snd polys').
Notation in_k := (within_region r rz outs jss).

Hypothesis (SL' : std_laws std') (SO' : sorts std') (HC : Forall2 (fun p z => has_corners (fst p) z) polys' zs') (HF' : (2 * length (edges zs') <= fuel')%nat).
Hypothesis (NE : covered modes' zs') (NI : ~ In RemoveInterior modes').
Variables (r' : polygon) (rz' : corners).

Lemma again_ok : overlayable polys' zs'.
Proof using SL SO OV HF RM C H N Outs F HC NE.
  split; [exact HC|]. split; [|split; [|exact NE]].
  - apply (again_tidy std fuel polys op zs SL SO OV HF r rz C H outs jss N Outs F).
  - apply (again_compact std fuel polys op zs SL SO OV HF r rz C H outs jss N Outs F RM).
Qed.

Hypothesis (C' : compute std' fuel' polys' op' = Ok r') (H' : has_corners r' rz').

Let side_e := side_edge std fuel polys op zs SL SO OV HF r rz C H.
Let above := above_iff std fuel polys op zs SL SO OV HF r rz C H outs jss N Outs F.
Let below := below_iff std fuel polys op zs SL SO OV HF r rz C H outs jss N Outs F.

Lemma modes_again : length modes' = length jss.
Proof using HC. rewrite map_length, (Forall2_len _ _ _ HC), map_length. reflexivity. Qed.
Lemma in_lt : forall k s, in_k k s -> (k < length modes')%nat.
Proof using HC. intros k s (i & js & j & l & _ & K & _). rewrite modes_again. now apply nth_lt in K. Qed.
Lemma place_one : forall (P : nat -> Prop) k, (k < length modes')%nat -> P k -> kept_place modes' P.
Proof using NI. intros P k L X. split; [eauto|]. intros i _ Q. apply NI. now apply nth_error_In in Q. Qed.

Lemma sides_again : forall a b, In (a, b) (flat_map sides rz) <-> exists e', In e' (edges zs') /\ kept_sides modes' zs' e' a b.
Proof using SL SO OV HF C H N Outs F HC NE NI.
  intros a b. split.
  - intros X. destruct (some_region std fuel polys op zs SL SO OV HF r rz C H outs jss Outs F _ X) as (k & W). destruct (side_e a b X) as (e & He & Q).
    assert (I' : In (mk_edge k (e_left e) (e_right e)) (edges zs')).
    { apply (again_edge std fuel polys op zs SL SO OV HF r rz C H outs jss Outs F); [exact He|]. destruct Q as [(-> & ->)|(-> & ->)]; auto. }
    destruct (last_of _ _ I') as (f & F1 & F2 & F3). cbn in F3. assert (A : alike f e) by exact F2. exists f. split; [exact F1|]. split.
    { apply is_kept; [exact NE|exact F1|]. intros g Hg Ag. apply F3; [exact Hg|]. destruct Ag, F2. split; congruence. }
    eexists _, _. split; [apply (middle f)|].
    pose proof (middle f) as M. assert (M' : forall x y, inside_edge f x y -> inside_edge e x y) by (intros x y; destruct A as (A1 & A2); unfold inside_edge; rewrite A1, A2; auto).
    destruct A as (A1 & A2). destruct Q as [(Qa & Qb)|(Qa & Qb)]; [left|right]; (split; [congruence|]; split; [congruence|]).
    + apply (place_one _ k (in_lt _ _ W)). apply (above k e f _ _ He (conj A1 A2) (M' _ _ M)). now rewrite <- Qa, <- Qb.
    + apply (place_one _ k (in_lt _ _ W)). apply (below k e _ _ He (M' _ _ M)). now rewrite <- Qa, <- Qb.
  - intros (e' & He' & _ & x & y & Ins & K). destruct (edge_again std fuel polys op zs SL SO OV HF r rz C H outs jss Outs F e' He') as (e & He & A & _).
    assert (Ins' : inside_edge e x y) by (destruct A as (A1 & A2); unfold inside_edge in *; rewrite <- A1, <- A2; exact Ins).
    destruct K as [(-> & -> & (k & _ & K) & _)|(-> & -> & (k & _ & K) & _)].
    + apply (above k e e' x y He A Ins') in K. destruct A as (-> & ->). exact (region_in r rz outs jss k _ K).
    + apply (below k e x y He Ins') in K. destruct A as (-> & ->). exact (region_in r rz outs jss k _ K).
Qed.

Lemma again_lines : rz' = rz.
Proof using SL SO OV HF RM C H N Outs F SL' SO' HC HF' NE NI C' H'.
  apply (overlay_determined std' fuel' polys' op' zs' SL' SO' again_ok HF' r' rz' C' H' rz); [|exact sides_again].
  exact (overlay_followed std fuel polys op zs SL SO OV HF r rz C H).
Qed.

Lemma again_len : length r' = length r.
Proof using SL SO OV HF RM C H N Outs F SL' SO' HC HF' NE NI C' H'.
  pose proof H as A. pose proof H' as B. apply Forall2_len in A, B. rewrite again_lines in B. congruence.
Qed.
Lemma some_line : forall i c, nth_error r i = Some c -> exists l, nth_error rz i = Some l.
Proof using H.
  intros i c Hc. destruct (nth_error rz i) eqn:E; [eauto|]. apply nth_error_None in E. apply nth_lt in Hc. pose proof (Forall2_len _ _ _ H) as X. clear - E Hc X. lia.
Qed.
Lemma other : forall i c, nth_error r i = Some c -> exists c', nth_error r' i = Some c'.
Proof using SL SO OV HF RM C H N Outs F SL' SO' HC HF' NE NI C' H'.
  intros i c Hc. destruct (nth_error r' i) eqn:E; [eauto|]. apply nth_error_None in E. apply nth_lt in Hc. rewrite again_len in E. clear - E Hc. lia.
Qed.
Lemma other' : forall i c', nth_error r' i = Some c' -> exists c, nth_error r i = Some c.
Proof using SL SO OV HF RM C H N Outs F SL' SO' HC HF' NE NI C' H'.
  intros i c Hc. destruct (nth_error r i) eqn:E; [eauto|]. apply nth_error_None in E. apply nth_lt in Hc. rewrite again_len in Hc. clear - E Hc. lia.
Qed.

Lemma again_external : forall i c c', nth_error r i = Some c -> nth_error r' i = Some c' -> c_external c' = c_external c.
Proof using SL SO OV HF RM C H N Outs F SL' SO' HC HF' NE NI C' H'.
  intros i c c' Hc Hc'. destruct (some_line i c Hc) as (l & Hl). assert (Hl' : nth_error rz' i = Some l) by (now rewrite again_lines).
  apply (external_same std std' fuel fuel' polys polys' op op' zs zs' SL SO OV HF SL' SO' again_ok HF' r r' rz rz' C C' H H' i i c c' l Hc Hl Hc' Hl').
Qed.

Lemma again_neighbours : forall i c c', nth_error r i = Some c -> nth_error r' i = Some c' -> c_neighbors c' = c_neighbors c.
Proof using SL SO OV HF RM C H N Outs F SL' SO' HC HF' NE NI C' H'.
  intros i c c' Hc Hc'. destruct (compute_neighbors std fuel polys op r SL C) as (L & _). destruct (compute_neighbors std' fuel' polys' op' r' SL' C') as (L' & _).
  specialize (L c (nth_error_In _ _ Hc)). specialize (L' c' (nth_error_In _ _ Hc')). rewrite again_len in L'.
  destruct (some_line i c Hc) as (l & Hl). assert (Hl' : nth_error rz' i = Some l) by (now rewrite again_lines).
  apply (nth_ext_error (c_neighbors c') (c_neighbors c)). intros j. destruct (le_gt_dec (length r) j) as [G|G].
  - transitivity (@None bool); [apply nth_error_None; lia|symmetry; apply nth_error_None; lia].
  - destruct (nth_error r j) as [cj|] eqn:Ej; [|apply nth_error_None in Ej; clear - Ej G; lia].
    destruct (some_line j cj Ej) as (l2 & H2). assert (H2' : nth_error rz' j = Some l2) by (now rewrite again_lines).
    pose proof (neighbour_same std std' fuel fuel' polys polys' op op' zs zs' SL SO OV HF SL' SO' again_ok HF' r r' rz rz' C C' H H' i i c c' l Hc Hl Hc' Hl' j l2 H2 H2') as X.
    assert (G1 : (j < length (c_neighbors c'))%nat) by lia. assert (G2 : (j < length (c_neighbors c))%nat) by lia.
    eapply some_true; [exact G1|exact G2|reflexivity|reflexivity|exact X].
Qed.

(** The first edge below is the first among fewer edges. *)
Lemma above_again : forall lh l, lies_above zs lh l -> lies_above zs' lh l.
Proof using SL SO OV HF C H Outs F.
  intros lh l (P & a & b & Hs & Lab & x0 & X0 & Dn). split; [exact P|]. exists a, b. split; [exact Hs|]. split; [exact Lab|]. exists x0. split; [exact X0|].
  intros x X1 X2. destruct (Dn x X1 X2) as (y & y' & Y1 & Y2 & Y3 & Y4). exists y, y'. repeat (split; [assumption|]).
  intros e' y'' He' On. destruct (edge_again std fuel polys op zs SL SO OV HF r rz C H outs jss Outs F e' He') as (e & He & (A1 & A2) & _).
  rewrite A1, A2 in On. now apply (Y4 e y'' He).
Qed.

Lemma hole_stays : forall i c c' h, nth_error r i = Some c -> nth_error r' i = Some c' -> In h (c_holes c) -> In h (c_holes c').
Proof using SL SO OV HF RM C H N Outs F SL' SO' HC HF' NE NI C' H'.
  intros i c c' h Hc Hc' Hh. destruct (proj1 (proj2 (compute_hole_lists std fuel polys op r SL C)) i c h Hc Hh) as (_ & ch & Hch & Ex & _).
  destruct (other h ch Hch) as (ch' & Hch'). destruct (some_line i c Hc) as (l & Hl). destruct (some_line h ch Hch) as (lh & Hlh).
  apply (overlay_parents std fuel polys op zs SL SO OV HF r rz C H i c l h ch lh Hc Hl Hch Hlh) in Hh.
  rewrite <- again_lines in Hl, Hlh.
  apply (overlay_parents std' fuel' polys' op' zs' SL' SO' again_ok HF' r' rz' C' H' i c' l h ch' lh Hc' Hl Hch' Hlh).
  split; [now rewrite (again_external h ch ch' Hch Hch')|]. apply above_again, Hh.
Qed.

Lemma one_parent : forall i j c c' h, nth_error r' i = Some c -> nth_error r' j = Some c' -> In h (c_holes c) -> In h (c_holes c') -> i = j.
Proof using SL' C'.
  intros i j c c' h Hi Hj Hh Hh'. destruct (compute_hole_lists std' fuel' polys' op' r' SL' C') as (ND & _).
  apply (concat_disjoint _ (map c_holes r') i j [] h ND).
  - rewrite (nth_error_nth (map c_holes r') i [] (x := c_holes c)); [exact Hh|]. now rewrite nth_error_map, Hi.
  - rewrite (nth_error_nth (map c_holes r') j [] (x := c_holes c')); [exact Hh'|]. now rewrite nth_error_map, Hj.
Qed.

Lemma again_holes : forall i c c', nth_error r i = Some c -> nth_error r' i = Some c' -> c_holes c' = c_holes c.
Proof using SL SO OV HF RM C H N Outs F SL' SO' HC HF' NE NI C' H'.
  intros i c c' Hc Hc'. apply asc_same.
  - apply (holes_ascend std' fuel' polys' op' r' c' C'). eapply nth_error_In; eassumption.
  - apply (holes_ascend std fuel polys op r c C). eapply nth_error_In; eassumption.
  - intros h. split; [|now apply (hole_stays i c c')]. intros Hh.
    destruct (proj1 (proj2 (compute_hole_lists std' fuel' polys' op' r' SL' C')) i c' h Hc' Hh) as (_ & ch' & Hch' & Ex & _).
    destruct (other' h ch' Hch') as (ch & Hch). rewrite (again_external h ch ch' Hch Hch') in Ex.
    destruct (proj2 (proj2 (compute_hole_lists std fuel polys op r SL C)) h ch Hch Ex) as (j & cj & Hj & Hhj).
    destruct (other j cj Hj) as (cj' & Hj'). pose proof (hole_stays j cj cj' h Hj Hj' Hhj) as X. pose proof (one_parent j i cj' c' h Hj' Hc' X Hh) as ->. congruence.
Qed.

Lemma again_from : forall j c' k i, nth_error r' j = Some c' -> nth_error outs k = Some i -> nth_error (c_from c') k = Some true <-> in_region r i j.
Proof using SL SO OV HF RM C H N Outs F SL' SO' HC HF' NE NI C' H'.
  intros j c' k i Hc' Hk. destruct (other' j c' Hc') as (c & Hc). destruct (some_line j c Hc) as (l & Hl). assert (Hl' : nth_error rz' j = Some l) by (now rewrite again_lines).
  assert (W : starts_leftmost l).
  { eapply (proj2 (proj2 (overlay_followed std fuel polys op zs SL SO OV HF r rz C H))). now apply nth_error_In in Hl. }
  destruct l as [|a t] eqn:El; [destruct W|]. rewrite <- El in *. clear W. assert (La : In a l) by (rewrite El; now left). destruct (corner_side l a La) as (b & Hb).
  pose proof (in_flat rz' l _ (nth_error_In _ _ Hl') Hb) as X'. apply (overlay_sides std' fuel' polys' op' zs' SL' SO' again_ok HF' r' rz' C' H') in X'.
  destruct X' as (e' & He' & KE & x & y & Ins & K).
  destruct (edge_again std fuel polys op zs SL SO OV HF r rz C H outs jss Outs F e' He') as (e & He & A & _).
  assert (Ins' : inside_edge e x y) by (destruct A as (A1 & A2); unfold inside_edge in *; rewrite <- A1, <- A2; exact Ins).
  assert (Lk : (k < length polys')%nat).
  { rewrite <- (map_length snd polys'), modes_again. apply nth_lt in Hk. now rewrite <- (Forall2_len _ _ _ F). }
  assert (Main : in_k k (a, b) <-> in_region r i j).
  { split.
    - intros (i2 & js & j2 & l2 & K1 & K2 & K3 & (_ & K4) & K5 & K6 & K7). rewrite Hk in K1. injection K1 as <-. apply K4 in K5.
      replace j with j2; [exact K5|]. apply (same_line rz j2 j l2 l (a, b)); auto. apply (overlay_sides std fuel polys op zs SL SO OV HF r rz C H).
    - intros R. destruct (f2_left _ _ _ _ _ _ _ F Hk) as (js & Q1 & Q2). exists i, js, j, l. repeat (split; [assumption|]). split; [apply Outs; now apply nth_error_In in Hk|].
      split; [exact Q2|]. split; [now apply Q2|]. auto. }
  destruct (overlay_from std' fuel' polys' op' zs' SL' SO' again_ok HF' r' rz' C' H' j c' l e' x y k Hc' Hl' He' KE Ins Lk) as (U1 & U2).
  rewrite <- Main. destruct K as [(Qa & Qb & _)|(Qa & Qb & _)].
  - rewrite (U1 ltac:(now rewrite <- Qa, <- Qb)), (above k e e' x y He A Ins'). destruct A as (<- & <-). now rewrite Qa, Qb.
  - rewrite (U2 ltac:(now rewrite <- Qa, <- Qb)), (below k e x y He Ins'). destruct A as (<- & <-). now rewrite Qa, Qb.
Qed.
End Second.

Lemma overlay_again : forall std std' fuel fuel' polys polys' op op' zs zs',
  std_laws std -> sorts std -> overlayable polys zs -> (2 * length (edges zs) <= fuel)%nat -> roomy zs ->
  forall r rz outs, compute std fuel polys op = Ok r -> has_corners r rz -> regions_are r rz outs zs' ->
  std_laws std' -> sorts std' -> Forall2 (fun p z => has_corners (fst p) z) polys' zs' -> (2 * length (edges zs') <= fuel')%nat ->
  covered (map snd polys') zs' -> ~ In RemoveInterior (map snd polys') ->
  exists r', compute std' fuel' polys' op' = Ok r' /\ has_corners r' rz /\ forall j c c', nth_error r j = Some c -> nth_error r' j = Some c' ->
    c_holes c' = c_holes c /\ c_external c' = c_external c /\ c_neighbors c' = c_neighbors c
    /\ forall k i, nth_error outs k = Some i -> nth_error (c_from c') k = Some true <-> in_region r i j.
Proof.
  intros std std' fuel fuel' polys polys' op op' zs zs' SL SO OV HF RM r rz outs C H (N & Outs & F) SL' SO' HC HF' NE NI.
  apply (pick_all _ _ _ (region_of r) (map (fun j => nth j rz []))) in F. destruct F as (jss & F & ->).
  pose proof (again_ok std fuel polys polys' op zs SL SO OV HF RM r rz C H outs jss N Outs F HC NE) as OV'.
  destruct (overlay_ends std' fuel' polys' op' _ SL' SO' OV' HF') as (r' & rz' & C' & H').
  pose proof (again_lines std std' fuel fuel' polys polys' op op' zs SL SO OV HF RM r rz C H outs jss N Outs F SL' SO' HC HF' NE NI r' rz' C' H') as Q.
  exists r'. split; [exact C'|]. split; [now rewrite <- Q|]. intros j c c' Hc Hc'. split; [|split; [|split]].
  - exact (again_holes std std' fuel fuel' polys polys' op op' zs SL SO OV HF RM r rz C H outs jss N Outs F SL' SO' HC HF' NE NI r' rz' C' H' j c c' Hc Hc').
  - exact (again_external std std' fuel fuel' polys polys' op op' zs SL SO OV HF RM r rz C H outs jss N Outs F SL' SO' HC HF' NE NI r' rz' C' H' j c c' Hc Hc').
  - exact (again_neighbours std std' fuel fuel' polys polys' op op' zs SL SO OV HF RM r rz C H outs jss N Outs F SL' SO' HC HF' NE NI r' rz' C' H' j c c' Hc Hc').
  - intros k i Hk. exact (again_from std std' fuel fuel' polys polys' op op' zs SL SO OV HF RM r rz C H outs jss N Outs F SL' SO' HC HF' NE NI r' rz' C' H' j c' k i Hc' Hk).
Qed.
