(** Polygons that do not overlap, put together, are overlaid the same. *)

From Coq Require Import List ZArith QArith Bool Lia Lqa Arith Permutation Sorted.
From Verif Require Import Base Float Contours Sweep Compute SpecShape SpecOrder SpecIntersect SpecTurn SpecHandle SpecTidy SpecOverlay SpecCompute ContainerFacts
  SweepFacts TraceFacts ComputeFacts OrderFacts TidyGeo TidyParity TidySetup TidyOverlay TidyRegions TidyBorders TidyStart TidyWalk OverlayFacts HoleOrder FollowLines FollowFacts SpecFollow SpecJoin.
Import ListNotations.
Local Open Scope Z_scope.

(** Counting by the numbers of polygons. *)
Fixpoint total (f : nat -> nat) (n : nat) : nat := match n with O => 0%nat | S m => (total f m + f m)%nat end.
Lemma total_ext : forall f h n, (forall i, (i < n)%nat -> f i = h i) -> total f n = total h n.
Proof. intros f h. induction n as [|n IH]; intros H; [reflexivity|]. cbn [total]. rewrite IH by (intros; apply H; lia). rewrite H by lia. reflexivity. Qed.
Lemma total_add : forall f h n, total (fun i => f i + h i)%nat n = (total f n + total h n)%nat.
Proof. intros f h. induction n as [|n IH]; [reflexivity|]. cbn [total]. rewrite IH. lia. Qed.
Lemma total_zero : forall n, total (fun _ => 0%nat) n = 0%nat.
Proof. induction n as [|n IH]; [reflexivity|]. cbn [total]. lia. Qed.
Lemma total_at : forall k m n, (k < n)%nat -> total (fun i => if (k =? i)%nat then m else 0%nat) n = m.
Proof.
  intros k m. induction n as [|n IH]; intros H; [lia|]. cbn [total]. destruct (Nat.eqb_spec k n) as [->|N]; [|rewrite IH; lia].
  rewrite (total_ext _ (fun _ => 0%nat)), total_zero; [reflexivity|]. intros i I. destruct (Nat.eqb_spec n i); [lia|reflexivity].
Qed.
Lemma total_filter : forall (p : edge -> bool) n l, (forall e, In e l -> (e_poly e < n)%nat) -> length (filter p l) = total (fun i => length (filter (fun e => (e_poly e =? i)%nat && p e) l)) n.
Proof.
  intros p n. induction l as [|e l IH]; intros H; [symmetry; apply total_zero|]. cbn [filter].
  rewrite (total_ext _ (fun i => (if (e_poly e =? i)%nat then (if p e then 1 else 0) else 0) + length (filter (fun e => (e_poly e =? i)%nat && p e) l))%nat).
  2:{ intros i _. destruct (e_poly e =? i)%nat, (p e); reflexivity. }
  rewrite total_add, total_at by (apply H; now left). rewrite <- IH by (intros f F; apply H; now right). destruct (p e); reflexivity.
Qed.
Lemma odd_one : forall f n i, (i < n)%nat -> Nat.odd (f i) = true -> (forall j, (j < n)%nat -> j <> i -> Nat.odd (f j) = false) -> Nat.odd (total f n) = true.
Proof.
  assert (Zero : forall f n, (forall j, (j < n)%nat -> Nat.odd (f j) = false) -> Nat.odd (total f n) = false).
  { intros f. induction n as [|n IH]; intros H; [reflexivity|]. cbn [total]. rewrite Nat.odd_add, IH by (intros; apply H; lia). rewrite H by lia. reflexivity. }
  intros f. induction n as [|n IH]; intros i I O H; [lia|]. cbn [total]. rewrite Nat.odd_add. destruct (Nat.eq_dec i n) as [->|N].
  - rewrite O, Zero; [reflexivity|]. intros j J. apply H; lia.
  - rewrite (IH i) by (try lia; auto; intros; apply H; lia). rewrite (H n) by lia. reflexivity.
Qed.
Lemma odd_some : forall f n, Nat.odd (total f n) = true -> exists i, (i < n)%nat /\ Nat.odd (f i) = true.
Proof.
  intros f. induction n as [|n IH]; intros H; [discriminate|]. cbn [total] in H. rewrite Nat.odd_add in H. destruct (Nat.odd (f n)) eqn:O; [exists n; split; [lia|exact O]|]. rewrite xorb_false_r in H. destruct (IH H) as (i & I & X). exists i. split; [lia|exact X].
Qed.

Section Same.
Variables (into : nat -> nat) (zs zs' : list corners) (modes modes' : list polygon_mode).
Hypothesis (SP : joined into zs zs') (T' : tidy zs') (Len : length modes = length zs) (Len' : length modes' = length zs').
Hypothesis (HM : forall i, (i < length zs)%nat -> nth_error modes' (into i) = Some RemoveInterior <-> nth_error modes i = Some RemoveInterior).

Lemma edge_there : forall e, In e (edges zs) -> In (numbered into e) (edges zs').
Proof using SP. intros e H. destruct SP as (_ & _ & P & _). apply (Permutation_in _ (Permutation_sym P)). now apply in_map. Qed.
Lemma edge_back : forall e', In e' (edges zs') -> exists e, In e (edges zs) /\ e' = numbered into e.
Proof using SP. intros e' H. destruct SP as (_ & _ & P & _). apply (Permutation_in _ P) in H. apply in_map_iff in H. destruct H as (e & <- & He). eauto. Qed.
Lemma poly_in : forall e, In e (edges zs) -> (e_poly e < length zs)%nat.
Proof using. clear. intros e He. apply edges_poly in He. lia. Qed.

Lemma crossings_same : forall k x y, crossings zs' k x y = total (fun i => if (into i =? k)%nat then crossings zs i x y else 0%nat) (length zs).
Proof using SP.
  intros k x y. unfold crossings at 1. destruct SP as (_ & _ & P & _). rewrite (filter_perm _ _ _ _ P), <- filter_map_length. rewrite (total_filter _ (length zs)) by exact poly_in.
  apply total_ext. intros i _. cbn [numbered e_poly]. destruct (Nat.eqb_spec (into i) k) as [Q|Q].
  - unfold crossings. f_equal. apply filter_ext. intros e. destruct (Nat.eqb_spec (e_poly e) i) as [->|N]; [|reflexivity]. cbn [andb]. rewrite Q, Nat.eqb_refl. reflexivity.
  - replace (filter _ (edges zs)) with (@nil edge); [reflexivity|]. symmetry. clear P. induction (edges zs) as [|e l IH]; [reflexivity|]. cbn [filter]. destruct (Nat.eqb_spec (e_poly e) i) as [->|N]; cbn [andb]; [|exact IH]. rewrite (proj2 (Nat.eqb_neq _ _) Q). cbn [andb]. exact IH.
Qed.
Lemma below_same : forall k x y, inner_below zs' k x y <-> exists i, (i < length zs)%nat /\ into i = k /\ inner_below zs i x y.
Proof using SP.
  intros k x y. unfold inner_below at 1. rewrite crossings_same. split.
  - intros O. apply odd_some in O. destruct O as (i & I & O). exists i. split; [exact I|]. destruct (Nat.eqb_spec (into i) k) as [Q|Q]; [|discriminate]. now split.
  - intros (i & I & Q & O). apply (odd_one _ _ i I); [now rewrite Q, Nat.eqb_refl|]. intros j J N. destruct (Nat.eqb_spec (into j) k) as [Q'|Q']; [|reflexivity].
    destruct (Nat.odd (crossings zs j x y)) eqn:E; [|reflexivity]. exfalso. destruct SP as (_ & _ & _ & A). apply (proj1 (A i j I J (not_eq_sym N) ltac:(congruence)) x y). now split.
Qed.
Lemma has_same : forall k e e', alike e' e -> has_edge zs' k e' <-> exists i, (i < length zs)%nat /\ into i = k /\ has_edge zs i e.
Proof using SP.
  intros k e e' (A1 & A2). split.
  - intros (f & F1 & F2 & F3 & F4). destruct (edge_back f F1) as (g & G1 & ->). cbn [numbered e_poly e_left e_right] in *. exists (e_poly g). split; [now apply poly_in|]. split; [exact F2|]. exists g. repeat split; auto; congruence.
  - intros (i & I & Q & f & F1 & F2 & F3 & F4). exists (numbered into f). split; [now apply edge_there|]. cbn [numbered e_poly e_left e_right]. repeat split; congruence.
Qed.
Lemma pairs_nodup : forall l, (forall e, In e l -> lr e) -> ForallOrdPairs (fun e f => coincide e f \/ apart e f) l -> NoDup l.
Proof using.
  clear. intros l L F. induction F as [|e l Fe F IH]; constructor; [|apply IH; intros; apply L; now right]. intros I. rewrite Forall_forall in Fe. destruct (Fe e I) as [(_ & _ & N)|A]; [now apply N|].
  apply (TidySetup.apart_ends e e (L e (or_introl eq_refl))) in A. assert (X : same_ends e e = true) by (apply same_ends_iff; split; reflexivity). congruence.
Qed.
Lemma map_once : forall {A B} (f : A -> B) l a b, NoDup (map f l) -> In a l -> In b l -> f a = f b -> a = b.
Proof using.
  clear. intros A B f. induction l as [|c l IH]; intros a b N Ia Ib E; [destruct Ia|]. cbn [map] in N. inversion N as [|? ? N1 N2]; subst. destruct Ia as [<-|Ia], Ib as [<-|Ib]; auto; exfalso; apply N1; [rewrite E|rewrite <- E]; now apply in_map.
Qed.
Lemma twice_has : forall i j e, (i < length zs)%nat -> (j < length zs)%nat -> i <> j -> into i = into j -> has_edge zs i e -> has_edge zs j e -> False.
Proof using SP T'.
  intros i j e _ _ N Q (f & F & <- & L & R) (g & G & <- & L' & R'). apply N. f_equal. apply (map_once (numbered into) (edges zs)); auto.
  - destruct SP as (_ & _ & P & _). apply (Permutation_NoDup P). apply pairs_nodup; [|apply T']. intros h Hh. now apply edges_lr in Hh.
  - unfold numbered. rewrite Q. f_equal; congruence.
Qed.
Lemma above_same : forall k e e' x y, In e (edges zs) -> inside_edge e x y -> alike e' e -> inner_above zs' e' k x y <-> exists i, (i < length zs)%nat /\ into i = k /\ inner_above zs e i x y.
Proof using SP T'.
  intros k e e' x y He Ins A. pose proof (proj2 (proj2 (proj2 SP))) as D. unfold inner_above at 1. rewrite (has_same k e e' A), below_same.
  assert (Dec : forall i, inner_below zs i x y \/ ~ inner_below zs i x y) by (intros i; unfold inner_below; destruct (Nat.odd (crossings zs i x y)); [now left|now right]).
  split.
  - intros [((i & I & Q & E) & N)|(N & i & I & Q & B)].
    + exists i. split; [exact I|]. split; [exact Q|]. left. split; [exact E|]. intros B. apply N. eauto.
    + exists i. split; [exact I|]. split; [exact Q|]. right. split; [|exact B]. intros E. apply N. eauto.
  - intros (i & I & Q & [(E & N)|(N & B)]).
    + left. split; [eauto|]. intros (j & J & Qj & B). destruct (Nat.eq_dec i j) as [<-|Nij]; [now apply N|]. pose proof (D i j I J Nij ltac:(congruence)) as (D1 & D2).
      assert (Nj : has_edge zs j e -> False) by (intros X; apply (twice_has i j e); auto; congruence).
      apply (D2 e x y He Ins). split; [left; now split|right; now split].
    + right. split; [|eauto]. intros (j & J & Qj & E). destruct (Nat.eq_dec i j) as [<-|Nij]; [now apply N|]. pose proof (D i j I J Nij ltac:(congruence)) as (D1 & D2).
      destruct (Dec j) as [Bj|Bj]; [now apply (D1 x y)|]. apply (D2 e x y He Ins). split; [right; now split|left; now split].
Qed.
Lemma place_same : forall (P P' : nat -> Prop), (forall k, P' k <-> exists i, (i < length zs)%nat /\ into i = k /\ P i) -> (forall i, (length zs <= i)%nat -> ~ P i) ->
  kept_place modes' P' <-> kept_place modes P.
Proof using SP Len Len' HM.
  intros P P' H N. unfold kept_place. rewrite Len, Len'. destruct SP as (R & On & _). split; intros ((i & H1 & H2) & H3).
  - split; [apply H in H2; destruct H2 as (j & J & _ & Pj); eauto|]. intros k Hk. destruct (le_gt_dec (length zs) k) as [G|G]; [now destruct (N k G)|]. intros Q. apply (H3 (into k)); [apply H; eauto|now apply HM].
  - split; [exists (into i); split; [now apply R|apply H; eauto]|]. intros k Hk. apply H in Hk. destruct Hk as (j & J & <- & Pj). intros Q. apply (H3 j Pj). now apply HM.
Qed.
Lemma next_below_same : forall b s b' s', In b (edges zs) -> In b' (edges zs') -> alike s s' -> next_below zs b s -> next_below zs' b' s' -> alike b b'.
Proof using SP.
  clear Len Len' HM. intros b s b' s' Hb Hb' As (U & N) (U' & N'). destruct (edge_back b' Hb') as (b0 & B0 & Q0). assert (A0 : alike b0 b') by (rewrite Q0; split; reflexivity). pose proof (edge_there b Hb) as B1. set (b1 := numbered into b) in *. assert (A1 : alike b1 b) by (split; reflexivity).
  assert (Us : forall e, under e s = under e s') by (intros e; destruct As as (S1 & S2); unfold under; now rewrite S1, S2).
  assert (Ua : forall e f t, alike e f -> under e t = under f t) by (intros e f t (S1 & S2); unfold under; now rewrite S1, S2).
  destruct (N b0 B0) as [X|X].
  { rewrite Us, (Ua _ _ _ A0). exact U'. }
  { apply same_ends_iff in X. destruct X, A0. split; congruence. }
  destruct (N' b1 B1) as [Y|Y].
  { rewrite <- Us, (Ua _ _ _ A1). exact U. }
  { apply same_ends_iff in Y. destruct Y as (Y1 & Y2), A1. split; congruence. }
  exfalso. eapply (lower_not s s' b0 b b' b1); [exact As|exact A0|apply alike_sym; exact A1|exact X|exact Y].
Qed.

Hypothesis (NE : covered modes zs) (NE' : covered modes' zs').
Lemma kept_below_same : forall x y, kept_place modes' (fun i => inner_below zs' i x y) <-> kept_place modes (fun i => inner_below zs i x y).
Proof using SP Len Len' HM. intros x y. apply place_same; [intros k; apply below_same|intros i Hi; now apply none_below]. Qed.
Lemma kept_above_same : forall e e' x y, In e (edges zs) -> inside_edge e x y -> alike e' e -> kept_place modes' (fun i => inner_above zs' e' i x y) <-> kept_place modes (fun i => inner_above zs e i x y).
Proof using SP T' Len Len' HM. intros e e' x y He Ins A. apply place_same; [intros k; now apply above_same|intros i Hi; now apply none_above]. Qed.
Lemma kept_sides_same : forall a b, (exists e, In e (edges zs) /\ kept_sides modes zs e a b) <-> (exists e', In e' (edges zs') /\ kept_sides modes' zs' e' a b).
Proof using SP T' Len Len' HM NE NE'.
  intros a b. split.
  - intros (e & He & _ & x & y & Ins & K). pose proof (edge_there e He) as E1. set (e1 := numbered into e) in *. assert (A1 : alike e1 e) by (split; reflexivity). destruct (last_of _ _ E1) as (f & F1 & F2 & F3).
    assert (A : alike f e) by (destruct F2, A1; split; congruence). exists f. split; [exact F1|]. split.
    { apply is_kept; [exact NE'|exact F1|]. intros g Hg Ag. apply F3; [exact Hg|]. destruct Ag, F2. split; congruence. }
    exists x, y. destruct A as (A2 & A3). split; [unfold inside_edge in *; now rewrite A2, A3|].
    rewrite (kept_above_same e f x y He Ins (conj A2 A3)), kept_below_same, A2, A3. exact K.
  - intros (e' & He & _ & x & y & Ins & K). destruct (edge_back e' He) as (e0 & E0 & Q0). assert (A0 : alike e0 e') by (rewrite Q0; split; reflexivity). destruct (last_of _ _ E0) as (f & F1 & F2 & F3).
    exists f. split; [exact F1|]. split.
    { apply is_kept; [exact NE|exact F1|]. intros g Hg Ag. apply F3; [exact Hg|]. destruct Ag, F2. split; congruence. }
    exists x, y. assert (A : alike e' f) by (destruct F2, A0; split; congruence). destruct A as (A1 & A2).
    assert (Inf : inside_edge f x y) by (unfold inside_edge in *; rewrite <- A1, <- A2; exact Ins). split; [exact Inf|].
    rewrite <- (kept_above_same f _ x y F1 Inf (conj A1 A2)), <- kept_below_same, <- A1, <- A2. exact K.
Qed.
End Same.

Section Twice.
Variables (std std' : std_impl) (fuel fuel' : nat) (polys polys' : input) (op op' : boolean_op) (zs zs' : list corners) (into : nat -> nat).
Hypothesis (SL : std_laws std) (SO : sorts std) (OV : overlayable polys zs) (HF : (2 * length (edges zs) <= fuel)%nat).
Hypothesis (SL' : std_laws std') (SO' : sorts std') (OV' : overlayable polys' zs') (HF' : (2 * length (edges zs') <= fuel')%nat).
Hypothesis (SP : joined into zs zs').
Hypothesis (HM : forall i, (i < length polys)%nat -> nth_error (map snd polys') (into i) = Some RemoveInterior <-> nth_error (map snd polys) i = Some RemoveInterior).
Variables (r r' : polygon) (rz rz' : corners).
Hypothesis (C : compute std fuel polys op = Ok r) (C' : compute std' fuel' polys' op' = Ok r') (H : has_corners r rz) (H' : has_corners r' rz').

Lemma len_polys : length (map snd polys) = length zs.
Proof using OV. symmetry. now apply modes_len. Qed.
Lemma len_polys' : length (map snd polys') = length zs'.
Proof using OV'. symmetry. now apply modes_len. Qed.
Lemma modes_same : forall i, (i < length zs)%nat -> nth_error (map snd polys') (into i) = Some RemoveInterior <-> nth_error (map snd polys) i = Some RemoveInterior.
Proof using OV HM. intros i Hi. apply HM. rewrite <- len_polys, map_length in Hi. exact Hi. Qed.

Lemma kept_same : forall a b, (exists e, In e (edges zs) /\ kept_sides (map snd polys) zs e a b)
  <-> (exists e', In e' (edges zs') /\ kept_sides (map snd polys') zs' e' a b).
Proof using OV OV' SP HM.
  apply (kept_sides_same into); [exact SP|apply OV'|exact len_polys|exact len_polys'|exact modes_same|apply OV|apply OV'].
Qed.

Lemma lines_same : rz' = rz.
Proof using SL SO OV HF SL' SO' OV' HF' SP HM C C' H H'.
  symmetry. apply (overlay_determined std fuel polys op zs SL SO OV HF r rz C H).
  - apply (overlay_followed std' fuel' polys' op' zs' SL' SO' OV' HF' r' rz' C' H').
  - intros a b. rewrite (kept_same a b). apply (overlay_sides std' fuel' polys' op' zs' SL' SO' OV' HF' r' rz' C' H').
Qed.

Variables (i j : nat) (c c' : contour) (l : list (Z * Z)).
Hypothesis (Hc : nth_error r i = Some c) (Hl : nth_error rz i = Some l) (Hc' : nth_error r' j = Some c') (Hl' : nth_error rz' j = Some l).

Lemma external_same : c_external c' = c_external c.
Proof using SL SO OV HF SL' SO' OV' HF' C C' H H' Hc Hl Hc' Hl'.
  destruct (overlay_shapes std fuel polys op zs SL SO OV HF r rz C H i c l 0%Q 0%Q Hc Hl) as (A & B).
  destruct (overlay_shapes std' fuel' polys' op' zs' SL' SO' OV' HF' r' rz' C' H' j c' l 0%Q 0%Q Hc' Hl') as (A' & B').
  destruct (c_external c), (c_external c'); auto; [destruct (A eq_refl), (B' eq_refl)|destruct (A' eq_refl), (B eq_refl)]; exfalso; clear - H0 H2; lia.
Qed.

Lemma from_same : forall k, (k < length polys')%nat -> nth_error (c_from c') k = Some true <-> exists i, (i < length polys)%nat /\ into i = k /\ nth_error (c_from c) i = Some true.
Proof using SL SO OV HF SL' SO' OV' HF' SP HM C C' H H' Hc Hl Hc' Hl'.
  intros k Hk'.
  assert (F : starts_leftmost l).
  { eapply (proj2 (proj2 (overlay_followed std fuel polys op zs SL SO OV HF r rz C H))). now apply nth_error_In in Hl. }
  destruct l as [|a t] eqn:El; [destruct F|]. destruct (corner_side (a :: t) a (or_introl eq_refl)) as (b & Hb).
  pose proof (in_flat rz (a :: t) _ (nth_error_In _ _ Hl) Hb) as X. pose proof (in_flat rz' (a :: t) _ (nth_error_In _ _ Hl') Hb) as X'.
  apply (overlay_sides std fuel polys op zs SL SO OV HF r rz C H) in X. apply (overlay_sides std' fuel' polys' op' zs' SL' SO' OV' HF' r' rz' C' H') in X'.
  destruct X as (e & He & KE & x & y & Ins & K), X' as (e' & He' & KE' & x' & y' & Ins' & K').
  assert (LR : lex_z (e_left e) (e_right e) = Lt) by (now apply edges_lr in He). assert (LR' : lex_z (e_left e') (e_right e') = Lt) by (now apply edges_lr in He').
  assert (A : (a = e_left e /\ b = e_right e /\ a = e_left e' /\ b = e_right e') \/ (a = e_right e /\ b = e_left e /\ a = e_right e' /\ b = e_left e')).
  { destruct K as [(K1 & K2 & _)|(K1 & K2 & _)], K' as [(K1' & K2' & _)|(K1' & K2' & _)]; auto; exfalso; apply lex_gt in LR'; congruence. }
  assert (AL : alike e' e) by (destruct A as [(?&?&?&?)|(?&?&?&?)]; split; congruence).
  assert (Ins2 : inside_edge e' x y) by (destruct AL as (A1 & A2); unfold inside_edge in *; rewrite A1, A2; exact Ins).
  destruct (overlay_from std' fuel' polys' op' zs' SL' SO' OV' HF' r' rz' C' H' j c' (a :: t) e' x y k Hc' Hl' He' KE' Ins2 Hk') as (U1' & U2').
  assert (LL : length polys = length zs) by (rewrite <- (map_length snd polys); apply len_polys).
  destruct A as [(Q1 & Q2 & Q3 & Q4)|(Q1 & Q2 & Q3 & Q4)].
  - rewrite U1' by congruence. rewrite (above_same into zs zs' SP (proj1 (proj2 OV')) k e e' x y He Ins AL), LL. split; intros (i0 & I0 & E0 & X0); exists i0; (split; [exact I0|]; split; [exact E0|]); (rewrite <- LL in I0; destruct (overlay_from std fuel polys op zs SL SO OV HF r rz C H i c (a :: t) e x y i0 Hc Hl He KE Ins I0) as (U1 & U2)); apply U1; auto; congruence.
  - rewrite U2' by congruence. rewrite (below_same into zs zs' SP k x y), LL. split; intros (i0 & I0 & E0 & X0); exists i0; (split; [exact I0|]; split; [exact E0|]); (rewrite <- LL in I0; destruct (overlay_from std fuel polys op zs SL SO OV HF r rz C H i c (a :: t) e x y i0 Hc Hl He KE Ins I0) as (U1 & U2)); apply U2; auto; congruence.
Qed.

Lemma neighbour_same : forall i2 l2, nth_error rz i2 = Some l2 -> nth_error rz' i2 = Some l2 ->
  nth_error (c_neighbors c') i2 = Some true <-> nth_error (c_neighbors c) i2 = Some true.
Proof using SL SO OV HF SL' SO' OV' HF' C C' H H' Hc Hl Hc' Hl'.
  intros i2 l2 H2 H2'. rewrite (overlay_neighbours std fuel polys op zs SL SO OV HF r rz C H i i2 c l l2 Hc Hl H2).
  rewrite (overlay_neighbours std' fuel' polys' op' zs' SL' SO' OV' HF' r' rz' C' H' j i2 c' l l2 Hc' Hl' H2'). reflexivity.
Qed.
End Twice.

Section Result.
Variables (std std' : std_impl) (fuel fuel' : nat) (polys polys' : input) (op op' : boolean_op) (zs zs' : list corners) (into : nat -> nat).
Hypothesis (SL : std_laws std) (SO : sorts std) (OV : overlayable polys zs) (HF : (2 * length (edges zs) <= fuel)%nat).
Hypothesis (SL' : std_laws std') (SO' : sorts std') (OV' : overlayable polys' zs') (HF' : (2 * length (edges zs') <= fuel')%nat).
Hypothesis (SP : joined into zs zs').
Hypothesis (HM : forall i, (i < length polys)%nat -> nth_error (map snd polys') (into i) = Some RemoveInterior <-> nth_error (map snd polys) i = Some RemoveInterior).
Variables (r r' : polygon) (rz rz' : corners).
Hypothesis (C : compute std fuel polys op = Ok r) (C' : compute std' fuel' polys' op' = Ok r') (H : has_corners r rz) (H' : has_corners r' rz').

Lemma same_lines : rz' = rz.
Proof using SL SO OV HF SL' SO' OV' HF' SP HM C C' H H'.
  exact (lines_same std std' fuel fuel' polys polys' op op' zs zs' into SL SO OV HF SL' SO' OV' HF' SP HM r r' rz rz' C C' H H').
Qed.

Lemma at_lines : forall i c, nth_error r i = Some c -> exists l, nth_error rz i = Some l.
Proof using H.
  intros i c Hc. destruct (nth_error rz i) eqn:E; [eauto|]. apply nth_error_None in E. apply nth_lt in Hc. apply Forall2_len in H. clear - E Hc H. lia.
Qed.
Lemma at_lines' : forall i c, nth_error r' i = Some c -> exists l, nth_error rz i = Some l.
Proof using SL SO OV HF SL' SO' OV' HF' SP HM C C' H H'.
  intros i c Hc. rewrite <- same_lines. destruct (nth_error rz' i) eqn:E; [eauto|]. apply nth_error_None in E. apply nth_lt in Hc. apply Forall2_len in H'. clear - E Hc H'. lia.
Qed.
Lemma len_same : length r' = length r.
Proof using SL SO OV HF SL' SO' OV' HF' SP HM C C' H H'.
  pose proof H as A. pose proof H' as B. apply Forall2_len in A, B. rewrite same_lines in B. clear - A B. lia.
Qed.

Lemma same_external : forall i c c', nth_error r i = Some c -> nth_error r' i = Some c' -> c_external c' = c_external c.
Proof using SL SO OV HF SL' SO' OV' HF' SP HM C C' H H'.
  intros i c c' Hc Hc'. destruct (at_lines i c Hc) as (l & Hl). assert (Hl' : nth_error rz' i = Some l) by (now rewrite same_lines).
  apply (external_same std std' fuel fuel' polys polys' op op' zs zs' SL SO OV HF SL' SO' OV' HF' r r' rz rz' C C' H H' i i c c' l Hc Hl Hc' Hl').
Qed.

(** A hole has the same parent in both. *)
Lemma same_parent : forall i j c c' h, nth_error r i = Some c -> In h (c_holes c) -> nth_error r' j = Some c' -> In h (c_holes c') -> i = j.
Proof using SL SO OV HF SL' SO' OV' HF' SP HM C C' H H'.
  intros i j c c' h Hc Hh Hc' Hh'. destruct (at_lines i c Hc) as (l & Hl). destruct (at_lines' j c' Hc') as (l' & Hl').
  destruct (proj1 (proj2 (compute_hole_lists std fuel polys op r SL C)) i c h Hc Hh) as (_ & ch & Hch & _). destruct (at_lines h ch Hch) as (lh & Hlh).
  destruct (have std fuel polys op zs SL SO OV HF r C) as (S1 & ks1 & act1 & sw1 & I1 & Ts1 & O1).
  destruct (have std' fuel' polys' op' zs' SL' SO' OV' HF' r' C') as (S2 & ks2 & act2 & sw2 & I2 & Ts2 & O2).
  destruct (hole_parent zs _ r S1 ks1 act1 sw1 I1 Ts1 O1 rz i c l h lh H Hc Hh Hl Hlh) as (eb & es & A1 & A2 & A3 & A4 & A5).
  rewrite <- same_lines in Hl', Hlh.
  destruct (hole_parent zs' _ r' S2 ks2 act2 sw2 I2 Ts2 O2 rz' j c' l' h lh H' Hc' Hh' Hl' Hlh) as (eb' & es' & B1 & B2 & B3 & B4 & B5).
  assert (AL : alike eb eb').
  { apply (next_below_same into zs zs' SP eb es eb' es' A1 B1); [|exact A2|exact B2]. split; congruence. }
  destruct AL as (L1 & L2). rewrite <- L1, <- L2 in B5. rewrite same_lines in Hl'.
  pose proof (overlay_followed std fuel polys op zs SL SO OV HF r rz C H) as W.
  assert (Q : l = l') by (apply (nodup_line rz l l' (e_left eb, e_right eb) (proj1 (proj2 W))); auto; eapply nth_error_In; eassumption).
  subst l'. pose proof (well_nodup rz W) as N. rewrite NoDup_nth_error in N. apply N; [now apply nth_lt in Hl|congruence].
Qed.

Lemma same_holes : forall i c c', nth_error r i = Some c -> nth_error r' i = Some c' -> c_holes c' = c_holes c.
Proof using SL SO OV HF SL' SO' OV' HF' SP HM C C' H H'.
  intros i c c' Hc Hc'. pose proof (compute_hole_lists std fuel polys op r SL C) as (_ & P1 & P2).
  pose proof (compute_hole_lists std' fuel' polys' op' r' SL' C') as (_ & P1' & P2'). apply asc_same.
  - apply (holes_ascend std' fuel' polys' op' r' c' C'). eapply nth_error_In; eassumption.
  - apply (holes_ascend std fuel polys op r c C). eapply nth_error_In; eassumption.
  - intros h. split; intros Hh.
    + destruct (P1' i c' h Hc' Hh) as (_ & ch' & Hch' & X & _). destruct (nth_error r h) as [ch|] eqn:Hch.
      2:{ apply nth_error_None in Hch. apply nth_lt in Hch'. rewrite len_same in Hch'. clear - Hch Hch'. lia. }
      rewrite (same_external h ch ch' Hch Hch') in X. destruct (P2 h ch Hch X) as (j & cj & Hj & Hhj).
      pose proof (same_parent j i cj c' h Hj Hhj Hc' Hh) as ->. rewrite Hc in Hj. injection Hj as <-. exact Hhj.
    + destruct (P1 i c h Hc Hh) as (_ & ch & Hch & X & _). destruct (nth_error r' h) as [ch'|] eqn:Hch'.
      2:{ apply nth_error_None in Hch'. apply nth_lt in Hch. rewrite len_same in Hch'. clear - Hch Hch'. lia. }
      rewrite <- (same_external h ch ch' Hch Hch') in X. destruct (P2' h ch' Hch' X) as (j & cj & Hj & Hhj).
      pose proof (same_parent i j c cj h Hc Hh Hj Hhj) as <-. rewrite Hc' in Hj. injection Hj as <-. exact Hhj.
Qed.

Lemma same_neighbours : forall i c c', nth_error r i = Some c -> nth_error r' i = Some c' -> c_neighbors c' = c_neighbors c.
Proof using SL SO OV HF SL' SO' OV' HF' SP HM C C' H H'.
  intros i c c' Hc Hc'. destruct (compute_neighbors std fuel polys op r SL C) as (L & _). destruct (compute_neighbors std' fuel' polys' op' r' SL' C') as (L' & _).
  specialize (L c (nth_error_In _ _ Hc)). specialize (L' c' (nth_error_In _ _ Hc')). rewrite len_same in L'.
  destruct (at_lines i c Hc) as (l & Hl). assert (Hl' : nth_error rz' i = Some l) by (now rewrite same_lines).
  apply (nth_ext_error (c_neighbors c') (c_neighbors c)). intros j. destruct (le_gt_dec (length r) j) as [G|G].
  - transitivity (@None bool); [apply nth_error_None; lia|symmetry; apply nth_error_None; lia].
  - destruct (nth_error r j) as [cj|] eqn:Ej; [|apply nth_error_None in Ej; clear - Ej G; lia].
    destruct (at_lines j cj Ej) as (l2 & H2). assert (H2' : nth_error rz' j = Some l2) by (now rewrite same_lines).
    pose proof (neighbour_same std std' fuel fuel' polys polys' op op' zs zs' SL SO OV HF SL' SO' OV' HF' r r' rz rz' C C' H H' i i c c' l Hc Hl Hc' Hl' j l2 H2 H2') as X.
    assert (G1 : (j < length (c_neighbors c'))%nat) by lia. assert (G2 : (j < length (c_neighbors c))%nat) by lia.
    eapply some_true; [exact G1|exact G2|reflexivity|reflexivity|exact X].
Qed.

Lemma joined_free : rz' = rz /\ forall i c c', nth_error r i = Some c -> nth_error r' i = Some c' ->
  c_holes c' = c_holes c /\ c_external c' = c_external c /\ c_neighbors c' = c_neighbors c
  /\ forall k, (k < length polys')%nat -> nth_error (c_from c') k = Some true <-> exists i, (i < length polys)%nat /\ into i = k /\ nth_error (c_from c) i = Some true.
Proof using SL SO OV HF SL' SO' OV' HF' SP HM C C' H H'.
  split; [exact same_lines|]. intros i c c' Hc Hc'. split; [now apply (same_holes i)|]. split; [now apply (same_external i)|]. split; [now apply (same_neighbours i)|].
  destruct (at_lines i c Hc) as (l & Hl). assert (Hl' : nth_error rz' i = Some l) by (now rewrite same_lines). 
  exact (from_same std std' fuel fuel' polys polys' op op' zs zs' into SL SO OV HF SL' SO' OV' HF' SP HM r r' rz rz' C C' H H' i i c c' l Hc Hl Hc' Hl').
Qed.
End Result.
