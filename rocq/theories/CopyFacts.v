(** Polygons given more than once are overlaid as if given once. *)

From Coq Require Import List ZArith QArith Bool Lia Lqa Arith Permutation Sorted.
From Verif Require Import Base Float Contours Sweep Compute SpecShape SpecOrder SpecIntersect SpecTurn SpecHandle SpecTidy SpecOverlay SpecCompute ContainerFacts
  SweepFacts TraceFacts ComputeFacts OrderFacts TidyGeo TidyParity TidySetup TidyOverlay TidyRegions TidyBorders TidyStart TidyWalk OverlayFacts HoleOrder FollowLines FollowFacts SpecFollow SpecCopies.
Import ListNotations.
Local Open Scope Z_scope.

Definition renumbered (k : nat) (e : edge) : edge := mk_edge k (e_left e) (e_right e).
Lemma polygon_renumbered : forall k i z, polygon_edges k z = map (renumbered k) (polygon_edges i z).
Proof.
  intros k i z. unfold polygon_edges. induction (flat_map sides z) as [|s l IH]; [reflexivity|]. cbn [flat_map]. rewrite map_app, <- IH. f_equal. unfold left_to_right. destruct (lex_z (fst s) (snd s)); reflexivity.
Qed.
Lemma polygon_poly : forall k z e, In e (polygon_edges k z) -> e_poly e = k.
Proof.
  intros k z e I. unfold polygon_edges in I. apply in_flat_map in I. destruct I as (s & _ & I). unfold left_to_right in I. destruct (lex_z (fst s) (snd s)); cbn in I; intuition (subst; reflexivity).
Qed.
Lemma in_edges_from : forall zs n e, In e (edges_from n zs) <-> exists k z, nth_error zs k = Some z /\ In e (polygon_edges (n + k) z).
Proof.
  induction zs as [|c zs IH]; intros n e; cbn [edges_from]; [split; [intros []|intros ([|k] & z & E & _); discriminate]|]. rewrite in_app_iff, IH. split.
  - intros [I|(k & z & E & I)]; [exists 0%nat, c; split; [reflexivity|now rewrite Nat.add_0_r]|]. exists (S k), z. split; [exact E|]. now rewrite Nat.add_succ_r.
  - intros ([|k] & z & E & I); cbn [nth_error] in E; [left; injection E as <-; now rewrite Nat.add_0_r in I|]. right. exists k, z. split; [exact E|]. now rewrite Nat.add_succ_r in I.
Qed.
Lemma in_edges : forall zs e, In e (edges zs) <-> exists z, nth_error zs (e_poly e) = Some z /\ In e (polygon_edges (e_poly e) z).
Proof.
  intros zs e. unfold edges. rewrite in_edges_from. cbn [Nat.add]. split; [|intros (z & E & I); eauto]. intros (k & z & E & I). pose proof (polygon_poly _ _ _ I) as <-. eauto.
Qed.
Definition passing (x y : Q) (z : corners) : nat := length (filter (fun e => passes_below e x y) (polygon_edges 0 z)).
Lemma passing_any : forall k x y z, length (filter (fun e => passes_below e x y) (polygon_edges k z)) = passing x y z.
Proof. intros k x y z. unfold passing. rewrite (polygon_renumbered k 0), <- filter_map_length. reflexivity. Qed.
Lemma crossings_from : forall zs n k x y, length (filter (fun e => (e_poly e =? n + k)%nat && passes_below e x y) (edges_from n zs)) = match nth_error zs k with Some z => passing x y z | None => 0%nat end.
Proof.
  assert (None_ : forall zs n k x y, (k < n)%nat -> filter (fun e => (e_poly e =? k)%nat && passes_below e x y) (edges_from n zs) = []).
  { intros zs n k x y L. assert (X : forall e, In e (edges_from n zs) -> (e_poly e =? k)%nat = false) by (intros e I; apply Nat.eqb_neq; apply in_edges_from in I; destruct I as (j & z & _ & I); apply polygon_poly in I; lia).
    induction (edges_from n zs) as [|e l IH]; [reflexivity|]. cbn [filter]. rewrite X by now left. cbn [andb]. apply IH. intros f F. apply X. now right. }
  induction zs as [|c zs IH]; intros n k x y; cbn [edges_from]; [destruct k; reflexivity|]. rewrite filter_app, app_length. destruct k as [|k].
  - rewrite Nat.add_0_r, (None_ zs (S n) n) by lia. cbn [length nth_error]. rewrite Nat.add_0_r, <- (passing_any n). f_equal. apply filter_ext_in. intros e I. apply polygon_poly in I. now rewrite I, Nat.eqb_refl.
  - rewrite Nat.add_succ_r. change (S (n + k))%nat with (S n + k)%nat. rewrite IH. cbn [nth_error]. replace (filter _ (polygon_edges n c)) with (@nil edge); [reflexivity|]. symmetry.
    assert (X : forall e, In e (polygon_edges n c) -> (e_poly e =? S n + k)%nat = false) by (intros e I; apply Nat.eqb_neq; apply polygon_poly in I; lia).
    induction (polygon_edges n c) as [|e l IHl]; [reflexivity|]. cbn [filter]. rewrite X by now left. cbn [andb]. apply IHl. intros f F. apply X. now right.
Qed.
Lemma crossings_nth : forall zs k x y, crossings zs k x y = match nth_error zs k with Some z => passing x y z | None => 0%nat end.
Proof. intros zs k x y. unfold crossings, edges. apply (crossings_from zs 0). Qed.
Lemma has_nth : forall zs k e, has_edge zs k e <-> exists z, nth_error zs k = Some z /\ exists f, In f (polygon_edges 0 z) /\ alike f e.
Proof.
  intros zs k e. unfold has_edge. split.
  - intros (f & F & <- & L & R). apply in_edges in F. destruct F as (z & E & I). exists z. split; [exact E|]. rewrite (polygon_renumbered _ 0) in I. apply in_map_iff in I. destruct I as (f0 & Q & I). exists f0. split; [exact I|]. rewrite <- Q in L, R. now split.
  - intros (z & E & f & I & L & R). exists (renumbered k f). split; [|repeat split; assumption]. apply in_edges. exists z. cbn [renumbered e_poly]. split; [exact E|]. rewrite (polygon_renumbered k 0). now apply in_map.
Qed.

Section Same.
Variables (src : nat -> nat) (zs zs' : list corners) (modes modes' : list polygon_mode).
Hypothesis (SP : copies src zs zs') (Len : length modes = length zs) (Len' : length modes' = length zs').
Hypothesis (HM : forall i, (i < length zs')%nat -> nth_error modes' i = Some RemoveInterior <-> nth_error modes (src i) = Some RemoveInterior).

Lemma below_same : forall i x y, (i < length zs')%nat -> inner_below zs' i x y <-> inner_below zs (src i) x y.
Proof using SP. intros i x y Hi. unfold inner_below. rewrite !crossings_nth. now rewrite (proj2 (proj1 SP i Hi)). Qed.
Lemma has_same : forall i e e', (i < length zs')%nat -> alike e' e -> has_edge zs' i e' <-> has_edge zs (src i) e.
Proof using SP.
  intros i e e' Hi (A1 & A2). rewrite !has_nth, (proj2 (proj1 SP i Hi)). split; intros (z & E & f & I & L & R); exists z; (split; [exact E|]); exists f; (split; [exact I|]); split; congruence.
Qed.
Lemma above_same : forall i e e' x y, (i < length zs')%nat -> alike e' e -> inner_above zs' e' i x y <-> inner_above zs e (src i) x y.
Proof using SP. intros i e e' x y Hi A. unfold inner_above. now rewrite (has_same i e e' Hi A), (below_same i x y Hi). Qed.
Lemma edge_there : forall e, In e (edges zs) -> exists e', In e' (edges zs') /\ alike e' e.
Proof using SP.
  clear Len Len' HM. intros e He. pose proof (edges_poly _ _ _ He) as P. destruct (proj2 SP (e_poly e)) as (i & Hi & Q); [lia|].
  assert (X : has_edge zs' i e) by (apply (has_same i e e Hi); [split; reflexivity|]; rewrite Q; exists e; auto). destruct X as (f & F & _ & L & R). exists f. split; [exact F|now split].
Qed.
Lemma edge_back : forall e', In e' (edges zs') -> exists e, In e (edges zs) /\ alike e e'.
Proof using SP.
  clear Len Len' HM. intros e He. pose proof (edges_poly _ _ _ He) as P. assert (Hi : (e_poly e < length zs')%nat) by lia.
  assert (X : has_edge zs (src (e_poly e)) e) by (apply (has_same _ e e Hi); [split; reflexivity|]; exists e; auto). destruct X as (f & F & _ & L & R). exists f. split; [exact F|now split].
Qed.
Lemma place_same : forall (P P' : nat -> Prop), (forall i, (i < length zs')%nat -> P' i <-> P (src i)) -> (forall i, (length zs <= i)%nat -> ~ P i) -> (forall i, (length zs' <= i)%nat -> ~ P' i) ->
  kept_place modes' P' <-> kept_place modes P.
Proof using SP Len Len' HM.
  intros P P' H N N'. unfold kept_place. rewrite Len, Len'. destruct SP as (R & On). split; intros ((i & H1 & H2) & H3).
  - split; [exists (src i); split; [now apply R|now apply H]|]. intros k Hk. destruct (le_gt_dec (length zs) k) as [G|G]; [now destruct (N k G)|].
    destruct (On k G) as (j & J & <-). intros Q. apply (H3 j); [now apply H|now apply HM].
  - split; [destruct (On i H1) as (j & J & <-); exists j; split; [exact J|now apply H]|]. intros k Hk. destruct (le_gt_dec (length zs') k) as [G|G]; [now destruct (N' k G)|]. intros Q. apply (H3 (src k)); [now apply H|now apply HM].
Qed.
Lemma next_below_same : forall b s b' s', In b (edges zs) -> In b' (edges zs') -> alike s s' -> next_below zs b s -> next_below zs' b' s' -> alike b b'.
Proof using SP.
  clear Len Len' HM. intros b s b' s' Hb Hb' As (U & N) (U' & N'). destruct (edge_back b' Hb') as (b0 & B0 & A0). destruct (edge_there b Hb) as (b1 & B1 & A1).
  assert (Us : forall e, under e s = under e s') by (intros e; destruct As as (S1 & S2); unfold under; now rewrite S1, S2).
  assert (Ua : forall e f t, alike e f -> under e t = under f t) by (intros e f t (S1 & S2); unfold under; now rewrite S1, S2).
  destruct (N b0 B0) as [X|X].
  { rewrite Us, (Ua _ _ _ A0). exact U'. }
  { apply same_ends_iff in X. destruct X, A0. split; congruence. }
  destruct (N' b1 B1) as [Y|Y].
  { rewrite <- Us, (Ua _ _ _ A1). exact U. }
  { apply same_ends_iff in Y. destruct Y as (Y1 & Y2), A1. split; congruence. }
  exfalso. eapply (lower_not s s' b0 b b' b1); [exact As|exact A0|apply alike_sym; exact A1|exact X|exact Y].
Qed.

Hypothesis (NE : covered modes zs) (NE' : covered modes' zs').
Lemma kept_below_same : forall x y, kept_place modes' (fun i => inner_below zs' i x y) <-> kept_place modes (fun i => inner_below zs i x y).
Proof using SP Len Len' HM. intros x y. apply place_same; [intros i Hi; now apply below_same|intros i Hi; now apply none_below|intros i Hi; now apply none_below]. Qed.
Lemma kept_above_same : forall e e' x y, alike e' e -> kept_place modes' (fun i => inner_above zs' e' i x y) <-> kept_place modes (fun i => inner_above zs e i x y).
Proof using SP Len Len' HM. intros e e' x y A. apply place_same; [intros i Hi; now apply above_same|intros i Hi; now apply none_above|intros i Hi; now apply none_above]. Qed.
Lemma kept_sides_same : forall a b, (exists e, In e (edges zs) /\ kept_sides modes zs e a b) <-> (exists e', In e' (edges zs') /\ kept_sides modes' zs' e' a b).
Proof using SP Len Len' HM NE NE'.
  intros a b. split.
  - intros (e & He & _ & x & y & Ins & K). destruct (edge_there e He) as (e1 & E1 & A1). destruct (last_of _ _ E1) as (f & F1 & F2 & F3).
    assert (A : alike f e) by (destruct F2, A1; split; congruence). exists f. split; [exact F1|]. split.
    { apply is_kept; [exact NE'|exact F1|]. intros g Hg Ag. apply F3; [exact Hg|]. destruct Ag, F2. split; congruence. }
    exists x, y. destruct A as (A2 & A3). split; [unfold inside_edge in *; now rewrite A2, A3|].
    rewrite (kept_above_same e f x y (conj A2 A3)), kept_below_same, A2, A3. exact K.
  - intros (e' & He & _ & x & y & Ins & K). destruct (edge_back e' He) as (e0 & E0 & A0). destruct (last_of _ _ E0) as (f & F1 & F2 & F3).
    exists f. split; [exact F1|]. split.
    { apply is_kept; [exact NE|exact F1|]. intros g Hg Ag. apply F3; [exact Hg|]. destruct Ag, F2. split; congruence. }
    exists x, y. assert (A : alike e' f) by (destruct F2, A0; split; congruence). destruct A as (A1 & A2).
    split; [unfold inside_edge in *; rewrite <- A1, <- A2; exact Ins|].
    rewrite <- (kept_above_same f _ x y (conj A1 A2)), <- kept_below_same, <- A1, <- A2. exact K.
Qed.
End Same.

Section Twice.
Variables (std std' : std_impl) (fuel fuel' : nat) (polys polys' : input) (op op' : boolean_op) (zs zs' : list corners) (src : nat -> nat).
Hypothesis (SL : std_laws std) (SO : sorts std) (OV : overlayable polys zs) (HF : (2 * length (edges zs) <= fuel)%nat).
Hypothesis (SL' : std_laws std') (SO' : sorts std') (OV' : overlayable polys' zs') (HF' : (2 * length (edges zs') <= fuel')%nat).
Hypothesis (SP : copies src zs zs').
Hypothesis (HM : forall i, (i < length polys')%nat -> nth_error (map snd polys') i = Some RemoveInterior <-> nth_error (map snd polys) (src i) = Some RemoveInterior).
Variables (r r' : polygon) (rz rz' : corners).
Hypothesis (C : compute std fuel polys op = Ok r) (C' : compute std' fuel' polys' op' = Ok r') (H : has_corners r rz) (H' : has_corners r' rz').

Lemma len_polys : length (map snd polys) = length zs.
Proof using OV. symmetry. now apply modes_len. Qed.
Lemma len_polys' : length (map snd polys') = length zs'.
Proof using OV'. symmetry. now apply modes_len. Qed.
Lemma modes_same : forall i, (i < length zs')%nat -> nth_error (map snd polys') i = Some RemoveInterior <-> nth_error (map snd polys) (src i) = Some RemoveInterior.
Proof using OV' HM. intros i Hi. apply HM. rewrite <- len_polys', map_length in Hi. exact Hi. Qed.

Lemma kept_same : forall a b, (exists e, In e (edges zs) /\ kept_sides (map snd polys) zs e a b)
  <-> (exists e', In e' (edges zs') /\ kept_sides (map snd polys') zs' e' a b).
Proof using OV OV' SP HM.
  apply (kept_sides_same src); [exact SP|exact len_polys|exact len_polys'|exact modes_same|apply OV|apply OV'].
Qed.

Lemma lines_same : rz' = rz.
Proof using SL SO OV HF SL' SO' OV' HF' SP HM C C' H H'.
  symmetry. apply (overlay_determined std fuel polys op zs SL SO OV HF r rz C H).
  - apply (overlay_followed std' fuel' polys' op' zs' SL' SO' OV' HF' r' rz' C' H').
  - intros a b. rewrite (kept_same a b). apply (overlay_sides std' fuel' polys' op' zs' SL' SO' OV' HF' r' rz' C' H').
Qed.

Variables (i j : nat) (c c' : contour) (l : list (Z * Z)).
Hypothesis (Hc : nth_error r i = Some c) (Hl : nth_error rz i = Some l) (Hc' : nth_error r' j = Some c') (Hl' : nth_error rz' j = Some l).

Lemma external_same : c_external c' = c_external c.
Proof using SL SO OV HF SL' SO' OV' HF' C C' H H' Hc Hl Hc' Hl'.
  destruct (overlay_shapes std fuel polys op zs SL SO OV HF r rz C H i c l 0%Q 0%Q Hc Hl) as (A & B).
  destruct (overlay_shapes std' fuel' polys' op' zs' SL' SO' OV' HF' r' rz' C' H' j c' l 0%Q 0%Q Hc' Hl') as (A' & B').
  destruct (c_external c), (c_external c'); auto; [destruct (A eq_refl), (B' eq_refl)|destruct (A' eq_refl), (B eq_refl)]; exfalso; clear - H0 H2; lia.
Qed.

Lemma from_same : forall k, (k < length polys')%nat -> nth_error (c_from c') k = nth_error (c_from c) (src k).
Proof using SL SO OV HF SL' SO' OV' HF' SP HM C C' H H' Hc Hl Hc' Hl'.
  intros k Hk'. assert (Hs : (k < length zs')%nat) by (rewrite <- len_polys', map_length; exact Hk').
  pose proof (proj1 (proj1 SP k Hs)) as Hkz. assert (Hk : (src k < length polys)%nat) by (rewrite <- (map_length snd polys), len_polys; exact Hkz).
  assert (L : length (c_from c) = length zs).
  { destruct (have std fuel polys op zs SL SO OV HF r C) as (S & ks & act & sw & I & Ts & O). rewrite <- len_polys. eapply (from_length zs _ r S ks act sw I Ts O); eassumption. }
  assert (L' : length (c_from c') = length zs').
  { destruct (have std' fuel' polys' op' zs' SL' SO' OV' HF' r' C') as (S & ks & act & sw & I & Ts & O). rewrite <- len_polys'. eapply (from_length zs' _ r' S ks act sw I Ts O); eassumption. }
  assert (F : starts_leftmost l).
  { eapply (proj2 (proj2 (overlay_followed std fuel polys op zs SL SO OV HF r rz C H))). now apply nth_error_In in Hl. }
  destruct l as [|a t] eqn:El; [destruct F|]. destruct (corner_side (a :: t) a (or_introl eq_refl)) as (b & Hb).
  pose proof (in_flat rz (a :: t) _ (nth_error_In _ _ Hl) Hb) as X. pose proof (in_flat rz' (a :: t) _ (nth_error_In _ _ Hl') Hb) as X'.
  apply (overlay_sides std fuel polys op zs SL SO OV HF r rz C H) in X. apply (overlay_sides std' fuel' polys' op' zs' SL' SO' OV' HF' r' rz' C' H') in X'.
  destruct X as (e & He & KE & x & y & Ins & K), X' as (e' & He' & KE' & x' & y' & Ins' & K').
  assert (LR : lex_z (e_left e) (e_right e) = Lt) by (now apply edges_lr in He). assert (LR' : lex_z (e_left e') (e_right e') = Lt) by (now apply edges_lr in He').
  assert (A : (a = e_left e /\ b = e_right e /\ a = e_left e' /\ b = e_right e') \/ (a = e_right e /\ b = e_left e /\ a = e_right e' /\ b = e_left e')).
  { destruct K as [(K1 & K2 & _)|(K1 & K2 & _)], K' as [(K1' & K2' & _)|(K1' & K2' & _)]; auto; exfalso; apply lex_gt in LR'; congruence. }
  assert (AL : alike e' e) by (destruct A as [(?&?&?&?)|(?&?&?&?)]; split; congruence).
  assert (Ins2 : inside_edge e' x y) by (destruct AL as (A1 & A2); unfold inside_edge in *; rewrite A1, A2; exact Ins).
  destruct (overlay_from std fuel polys op zs SL SO OV HF r rz C H i c (a :: t) e x y (src k) Hc Hl He KE Ins Hk) as (U1 & U2).
  destruct (overlay_from std' fuel' polys' op' zs' SL' SO' OV' HF' r' rz' C' H' j c' (a :: t) e' x y k Hc' Hl' He' KE' Ins2 Hk') as (U1' & U2').
  destruct A as [(Q1 & Q2 & Q3 & Q4)|(Q1 & Q2 & Q3 & Q4)].
  - eapply some_true; [rewrite L'; exact Hs|rewrite L; exact Hkz|apply U1'|apply U1|]; [congruence|congruence|].
    now apply (above_same src zs zs' SP).
  - eapply some_true; [rewrite L'; exact Hs|rewrite L; exact Hkz|apply U2'|apply U2|]; [congruence|congruence|].
    now apply (below_same src zs zs' SP).
Qed.

Lemma neighbour_same : forall i2 l2, nth_error rz i2 = Some l2 -> nth_error rz' i2 = Some l2 ->
  nth_error (c_neighbors c') i2 = Some true <-> nth_error (c_neighbors c) i2 = Some true.
Proof using SL SO OV HF SL' SO' OV' HF' C C' H H' Hc Hl Hc' Hl'.
  intros i2 l2 H2 H2'. rewrite (overlay_neighbours std fuel polys op zs SL SO OV HF r rz C H i i2 c l l2 Hc Hl H2).
  rewrite (overlay_neighbours std' fuel' polys' op' zs' SL' SO' OV' HF' r' rz' C' H' j i2 c' l l2 Hc' Hl' H2'). reflexivity.
Qed.
End Twice.

Section Result.
Variables (std std' : std_impl) (fuel fuel' : nat) (polys polys' : input) (op op' : boolean_op) (zs zs' : list corners) (src : nat -> nat).
Hypothesis (SL : std_laws std) (SO : sorts std) (OV : overlayable polys zs) (HF : (2 * length (edges zs) <= fuel)%nat).
Hypothesis (SL' : std_laws std') (SO' : sorts std') (OV' : overlayable polys' zs') (HF' : (2 * length (edges zs') <= fuel')%nat).
Hypothesis (SP : copies src zs zs').
Hypothesis (HM : forall i, (i < length polys')%nat -> nth_error (map snd polys') i = Some RemoveInterior <-> nth_error (map snd polys) (src i) = Some RemoveInterior).
Variables (r r' : polygon) (rz rz' : corners).
Hypothesis (C : compute std fuel polys op = Ok r) (C' : compute std' fuel' polys' op' = Ok r') (H : has_corners r rz) (H' : has_corners r' rz').

Lemma same_lines : rz' = rz.
Proof using SL SO OV HF SL' SO' OV' HF' SP HM C C' H H'.
  exact (lines_same std std' fuel fuel' polys polys' op op' zs zs' src SL SO OV HF SL' SO' OV' HF' SP HM r r' rz rz' C C' H H').
Qed.

Lemma at_lines : forall i c, nth_error r i = Some c -> exists l, nth_error rz i = Some l.
Proof using H.
  intros i c Hc. destruct (nth_error rz i) eqn:E; [eauto|]. apply nth_error_None in E. apply nth_lt in Hc. apply Forall2_len in H. clear - E Hc H. lia.
Qed.
Lemma at_lines' : forall i c, nth_error r' i = Some c -> exists l, nth_error rz i = Some l.
Proof using SL SO OV HF SL' SO' OV' HF' SP HM C C' H H'.
  intros i c Hc. rewrite <- same_lines. destruct (nth_error rz' i) eqn:E; [eauto|]. apply nth_error_None in E. apply nth_lt in Hc. apply Forall2_len in H'. clear - E Hc H'. lia.
Qed.
Lemma len_same : length r' = length r.
Proof using SL SO OV HF SL' SO' OV' HF' SP HM C C' H H'.
  pose proof H as A. pose proof H' as B. apply Forall2_len in A, B. rewrite same_lines in B. clear - A B. lia.
Qed.

Lemma same_external : forall i c c', nth_error r i = Some c -> nth_error r' i = Some c' -> c_external c' = c_external c.
Proof using SL SO OV HF SL' SO' OV' HF' SP HM C C' H H'.
  intros i c c' Hc Hc'. destruct (at_lines i c Hc) as (l & Hl). assert (Hl' : nth_error rz' i = Some l) by (now rewrite same_lines).
  apply (external_same std std' fuel fuel' polys polys' op op' zs zs' SL SO OV HF SL' SO' OV' HF' r r' rz rz' C C' H H' i i c c' l Hc Hl Hc' Hl').
Qed.

(** A hole has the same parent in both. *)
Lemma same_parent : forall i j c c' h, nth_error r i = Some c -> In h (c_holes c) -> nth_error r' j = Some c' -> In h (c_holes c') -> i = j.
Proof using SL SO OV HF SL' SO' OV' HF' SP HM C C' H H'.
  intros i j c c' h Hc Hh Hc' Hh'. destruct (at_lines i c Hc) as (l & Hl). destruct (at_lines' j c' Hc') as (l' & Hl').
  destruct (proj1 (proj2 (compute_hole_lists std fuel polys op r SL C)) i c h Hc Hh) as (_ & ch & Hch & _). destruct (at_lines h ch Hch) as (lh & Hlh).
  destruct (have std fuel polys op zs SL SO OV HF r C) as (S1 & ks1 & act1 & sw1 & I1 & Ts1 & O1).
  destruct (have std' fuel' polys' op' zs' SL' SO' OV' HF' r' C') as (S2 & ks2 & act2 & sw2 & I2 & Ts2 & O2).
  destruct (hole_parent zs _ r S1 ks1 act1 sw1 I1 Ts1 O1 rz i c l h lh H Hc Hh Hl Hlh) as (eb & es & A1 & A2 & A3 & A4 & A5).
  rewrite <- same_lines in Hl', Hlh.
  destruct (hole_parent zs' _ r' S2 ks2 act2 sw2 I2 Ts2 O2 rz' j c' l' h lh H' Hc' Hh' Hl' Hlh) as (eb' & es' & B1 & B2 & B3 & B4 & B5).
  assert (AL : alike eb eb').
  { apply (next_below_same src zs zs' SP eb es eb' es' A1 B1); [|exact A2|exact B2]. split; congruence. }
  destruct AL as (L1 & L2). rewrite <- L1, <- L2 in B5. rewrite same_lines in Hl'.
  pose proof (overlay_followed std fuel polys op zs SL SO OV HF r rz C H) as W.
  assert (Q : l = l') by (apply (nodup_line rz l l' (e_left eb, e_right eb) (proj1 (proj2 W))); auto; eapply nth_error_In; eassumption).
  subst l'. pose proof (well_nodup rz W) as N. rewrite NoDup_nth_error in N. apply N; [now apply nth_lt in Hl|congruence].
Qed.

Lemma same_holes : forall i c c', nth_error r i = Some c -> nth_error r' i = Some c' -> c_holes c' = c_holes c.
Proof using SL SO OV HF SL' SO' OV' HF' SP HM C C' H H'.
  intros i c c' Hc Hc'. pose proof (compute_hole_lists std fuel polys op r SL C) as (_ & P1 & P2).
  pose proof (compute_hole_lists std' fuel' polys' op' r' SL' C') as (_ & P1' & P2'). apply asc_same.
  - apply (holes_ascend std' fuel' polys' op' r' c' C'). eapply nth_error_In; eassumption.
  - apply (holes_ascend std fuel polys op r c C). eapply nth_error_In; eassumption.
  - intros h. split; intros Hh.
    + destruct (P1' i c' h Hc' Hh) as (_ & ch' & Hch' & X & _). destruct (nth_error r h) as [ch|] eqn:Hch.
      2:{ apply nth_error_None in Hch. apply nth_lt in Hch'. rewrite len_same in Hch'. clear - Hch Hch'. lia. }
      rewrite (same_external h ch ch' Hch Hch') in X. destruct (P2 h ch Hch X) as (j & cj & Hj & Hhj).
      pose proof (same_parent j i cj c' h Hj Hhj Hc' Hh) as ->. rewrite Hc in Hj. injection Hj as <-. exact Hhj.
    + destruct (P1 i c h Hc Hh) as (_ & ch & Hch & X & _). destruct (nth_error r' h) as [ch'|] eqn:Hch'.
      2:{ apply nth_error_None in Hch'. apply nth_lt in Hch. rewrite len_same in Hch'. clear - Hch Hch'. lia. }
      rewrite <- (same_external h ch ch' Hch Hch') in X. destruct (P2' h ch' Hch' X) as (j & cj & Hj & Hhj).
      pose proof (same_parent i j c cj h Hc Hh Hj Hhj) as <-. rewrite Hc' in Hj. injection Hj as <-. exact Hhj.
Qed.

Lemma same_neighbours : forall i c c', nth_error r i = Some c -> nth_error r' i = Some c' -> c_neighbors c' = c_neighbors c.
Proof using SL SO OV HF SL' SO' OV' HF' SP HM C C' H H'.
  intros i c c' Hc Hc'. destruct (compute_neighbors std fuel polys op r SL C) as (L & _). destruct (compute_neighbors std' fuel' polys' op' r' SL' C') as (L' & _).
  specialize (L c (nth_error_In _ _ Hc)). specialize (L' c' (nth_error_In _ _ Hc')). rewrite len_same in L'.
  destruct (at_lines i c Hc) as (l & Hl). assert (Hl' : nth_error rz' i = Some l) by (now rewrite same_lines).
  apply (nth_ext_error (c_neighbors c') (c_neighbors c)). intros j. destruct (le_gt_dec (length r) j) as [G|G].
  - transitivity (@None bool); [apply nth_error_None; lia|symmetry; apply nth_error_None; lia].
  - destruct (nth_error r j) as [cj|] eqn:Ej; [|apply nth_error_None in Ej; clear - Ej G; lia].
    destruct (at_lines j cj Ej) as (l2 & H2). assert (H2' : nth_error rz' j = Some l2) by (now rewrite same_lines).
    pose proof (neighbour_same std std' fuel fuel' polys polys' op op' zs zs' SL SO OV HF SL' SO' OV' HF' r r' rz rz' C C' H H' i i c c' l Hc Hl Hc' Hl' j l2 H2 H2') as X.
    assert (G1 : (j < length (c_neighbors c'))%nat) by lia. assert (G2 : (j < length (c_neighbors c))%nat) by lia.
    eapply some_true; [exact G1|exact G2|reflexivity|reflexivity|exact X].
Qed.

Lemma copies_free : rz' = rz /\ forall i c c', nth_error r i = Some c -> nth_error r' i = Some c' ->
  c_holes c' = c_holes c /\ c_external c' = c_external c /\ c_neighbors c' = c_neighbors c
  /\ forall k, (k < length polys')%nat -> nth_error (c_from c') k = nth_error (c_from c) (src k).
Proof using SL SO OV HF SL' SO' OV' HF' SP HM C C' H H'.
  split; [exact same_lines|]. intros i c c' Hc Hc'. split; [now apply (same_holes i)|]. split; [now apply (same_external i)|]. split; [now apply (same_neighbours i)|].
  destruct (at_lines i c Hc) as (l & Hl). assert (Hl' : nth_error rz' i = Some l) by (now rewrite same_lines). 
  exact (from_same std std' fuel fuel' polys polys' op op' zs zs' src SL SO OV HF SL' SO' OV' HF' SP HM r r' rz rz' C C' H H' i i c c' l Hc Hl Hc' Hl').
Qed.
End Result.
