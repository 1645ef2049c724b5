(** Closed lines that do not cross: which of them lies in which, read off at an edge. *)

From Coq Require Import List ZArith QArith Bool Arith Lia Lqa Permutation.
From Verif Require Import Base Float SpecFloat64 SpecShape SpecOrder SpecIntersect SpecHandle SpecTidy SpecOverlay SpecHoles Geometry Sweep
  Contours Compute OrderFacts TidyGeo TidyParity TidySetup TidyLine TidyWinding TidyArea NestGeo.
Import ListNotations.
Local Open Scope Z_scope.

Lemma odd_sides : forall i x y t, Z.odd (zsum (map (side_sign x y) t)) = parity (fun e => passes_below e x y) (flat_map (left_to_right i) t).
Proof.
  intros i x y t. induction t as [|s t IH]; [reflexivity|]. cbn [map flat_map]. change (zsum (?a :: ?b)) with (a + zsum b). rewrite parity_app, <- IH, Z.odd_add. f_equal.
  destruct (left_cases i s) as [Q|(e & Q & _)]; rewrite Q; [rewrite (sign_flat i) by exact Q; reflexivity|]. rewrite (sign_edge i s e x y Q), parity_cons.
  destruct (passes_below e x y); [|reflexivity]. unfold dir. unfold left_to_right in Q. destruct (lex_z _ _); [discriminate|reflexivity..].
Qed.
Lemma odd_winding : forall i x y l, Z.odd (winding x y l) = parity (fun e => passes_below e x y) (polygon_edges i [l]).
Proof. intros i x y l. unfold polygon_edges. cbn [flat_map]. rewrite app_nil_r. apply odd_sides. Qed.

Lemma once_odd : forall l x y, goes_once 1 l -> inside_of l x y <-> Z.odd (winding x y l) = true.
Proof. intros l x y (_ & G). unfold inside_of. destruct (G x y) as [->| ->]; cbn; intuition lia. Qed.

Lemma part_parity : forall z i P, parity (fun e => of_poly i e && P e) (edges (map (fun l => [l]) z))
  = match nth_error z i with Some l => parity P (polygon_edges i [l]) | None => false end.
Proof.
  intros z i P. unfold edges.
  assert (G : forall z n, parity (fun e => of_poly i e && P e) (edges_from n (map (fun l => [l]) z))
    = if (n <=? i)%nat then match nth_error z (i - n) with Some l => parity P (polygon_edges i [l]) | None => false end else false).
  { clear z. induction z as [|l z IH]; intros n; [destruct (i - n)%nat, (n <=? i)%nat; reflexivity|]. cbn [map edges_from]. rewrite parity_app, IH.
    destruct (Nat.lt_trichotomy n i) as [L|[->|L]].
    - rewrite (parity_false _ (polygon_edges n [l])).
      + replace (S n <=? i)%nat with true by (symmetry; apply Nat.leb_le; lia). replace (n <=? i)%nat with true by (symmetry; apply Nat.leb_le; lia).
        replace (i - n)%nat with (S (i - S n)) by lia. rewrite xorb_false_l. reflexivity.
      + intros e He. apply polygon_edges_poly in He. destruct He as (Q & _). unfold of_poly. rewrite Q. replace (n =? i)%nat with false by (symmetry; apply Nat.eqb_neq; lia). reflexivity.
    - rewrite Nat.leb_refl, Nat.sub_diag. replace (S i <=? i)%nat with false by (symmetry; apply Nat.leb_gt; lia). cbn [nth_error]. rewrite xorb_false_r. apply parity_ext.
      intros e He. apply polygon_edges_poly in He. destruct He as (Q & _). unfold of_poly. rewrite Q, Nat.eqb_refl. reflexivity.
    - rewrite (parity_false _ (polygon_edges n [l])).
      + replace (S n <=? i)%nat with false by (symmetry; apply Nat.leb_gt; lia). replace (n <=? i)%nat with false by (symmetry; apply Nat.leb_gt; lia). reflexivity.
      + intros e He. apply polygon_edges_poly in He. destruct He as (Q & _). unfold of_poly. rewrite Q. replace (n =? i)%nat with false by (symmetry; apply Nat.eqb_neq; lia). reflexivity. }
  rewrite G, Nat.sub_0_r. reflexivity.
Qed.

Section Place.
Variable z : corners.
Notation zs := (map (fun l : list (Z * Z) => [l]) z).
Notation E := (edges zs).
Notation eg := (eg (edges zs)).
Variable S : list bseg.
Hypothesis (D : drawn E S) (F : ForallOrdPairs apart E) (CC : forall i l, nth_error z i = Some l -> goes_once 1 l)
  (NS : forall i j, i <> j -> has_inside z i j \/ has_inside z j i \/ separate z i j).
Notation poly s := (e_poly (eg s)).

Lemma above_own : forall s i, In s S -> LS zs (eg s) i = xorb (RS zs (eg s) i) (i =? poly s)%nat.
Proof using D F.
  intros s i Hs. unfold LS. f_equal. rewrite <- (own_parity zs S D s i Hs). apply parity_and_ext. intros f Hf.
  destruct (same_ends f (eg s)) eqn:SE; [|reflexivity]. apply (ends_eq z F f (eg s) Hf) in SE; [|now apply (seg_spec _ _ D)]. subst f. now rewrite Nat.leb_refl, Nat.eqb_refl.
Qed.

(** What is just below a segment and just above it. *)
Lemma sides_of_seg : forall s, In s S -> sloped (eg s) -> exists l sd x y0 y1,
  nth_error z (poly s) = Some l /\ In sd (sides l) /\ left_to_right (poly s) sd = [eg s]
  /\ (forall i m, nth_error z i = Some m -> (RS zs (eg s) i = true <-> inside_of m x y0) /\ (LS zs (eg s) i = true <-> inside_of m x y1)
      /\ winding x y1 m = winding x y0 m + if (i =? poly s)%nat then dir sd else 0).
Proof using D F CC NS.
  intros s Hs Sl. destruct (seg_spec _ _ D s Hs) as (_ & _ & Ls & Ie). destruct (ring_edge z (eg s) Ie) as (l & sd & H1 & H2 & H3).
  set (x := mid (fst (e_left (eg s)))).
  assert (X : spans (eg s) x) by (unfold sloped in Sl; split; [unfold x, mid; lra|apply mid_lt; lia]).
  destruct (across z S D F _ l sd (eg s) x H1 H2 H3 (mid_between _) X) as (y1 & Y).
  exists l, sd, x, (yat (eg s) x), y1. split; [exact H1|]. split; [exact H2|]. split; [exact H3|]. intros i m Hm.
  assert (R : RS zs (eg s) i = Z.odd (winding x (yat (eg s) x) m)).
  { unfold RS. rewrite (along_parity zs i (eg s) x Sl); [|intros e He; now apply (edges_related _ _ D)|apply X..].
    rewrite (part_parity z i (fun e => passes_below e x (yat (eg s) x))), Hm. symmetry. apply odd_winding. }
  split; [|split; [|now apply Y]].
  - rewrite R. symmetry. apply once_odd. eauto.
  - rewrite (above_own s i Hs), R, (once_odd m x y1 (CC i m Hm)), (Y i m Hm), Z.odd_add.
    destruct (Nat.eqb_spec i (poly s)) as [->|N]; [|reflexivity]. replace (Z.odd (dir sd)) with true; [reflexivity|].
    unfold dir. unfold left_to_right in H3. destruct (lex_z _ _); [discriminate|reflexivity..].
Qed.

Lemma out_of_range : forall e i, nth_error z i = None -> RS zs e i = false.
Proof using. clear. intros e i H. unfold RS. now rewrite part_parity, H. Qed.

Lemma below_lies : forall s j, In s S -> sloped (eg s) -> j <> poly s -> RS zs (eg s) j = true <-> lies_in z j (poly s).
Proof using D F CC NS.
  intros s j Hs Sl N. destruct (sides_of_seg s Hs Sl) as (l & sd & x & y0 & y1 & H1 & H2 & H3 & H4).
  destruct (nth_error z j) as [m|] eqn:Hm.
  2:{ rewrite (out_of_range _ j Hm). apply nth_error_None in Hm. split; [discriminate|]. intros (_ & L & _). lia. }
  destruct (H4 j m Hm) as (J1 & J2 & J3). destruct (H4 (poly s) l H1) as (K1 & K2 & K3). rewrite Nat.eqb_refl in K3.
  destruct (Nat.eqb_spec j (poly s)) as [|_]; [contradiction|].
  assert (Ds : dir sd = 1 \/ dir sd = -1) by (unfold dir; unfold left_to_right in H3; destruct (lex_z _ _); [discriminate|now left|now right]).
  destruct (CC _ _ H1) as (_ & G). unfold inside_of in *. rewrite J1. split.
  - intros I. split; [exact N|]. split; [apply nth_error_Some; congruence|]. split; [apply nth_error_Some; congruence|].
    destruct (NS j (poly s) N) as [Q|[Q|Q]]; [exact Q|exfalso..].
    + pose proof (Q l m H1 Hm x y0 I) as I1. assert (I2 : inside_of l x y1) by (apply (Q l m H1 Hm x y1); unfold inside_of; lia).
      unfold inside_of in *. destruct (G x y0), (G x y1); lia.
    + destruct (Z.eq_dec (winding x y0 l) 0) as [Z0|Z0].
      * apply (Q m l Hm H1 x y1). unfold inside_of. lia.
      * apply (Q m l Hm H1 x y0). unfold inside_of. lia.
  - intros (_ & _ & _ & Q). destruct (Z.eq_dec (winding x y0 l) 0) as [Z0|Z0].
    + assert (I : inside_of m x y1) by (apply (Q m l Hm H1 x y1); unfold inside_of; lia). unfold inside_of in I. lia.
    + apply (Q m l Hm H1 x y0). exact Z0.
Qed.

(** The inside is above the edges that go to the right. *)
Lemma above_dir : forall s l sd, In s S -> sloped (eg s) -> nth_error z (poly s) = Some l -> In sd (sides l) -> left_to_right (poly s) sd = [eg s] ->
  LS zs (eg s) (poly s) = (0 <? dir sd).
Proof using D F CC NS.
  intros s l sd Hs Sl Hl Hd He. set (x := mid (fst (e_left (eg s)))).
  assert (X : spans (eg s) x) by (unfold sloped in Sl; split; [unfold x, mid; lra|apply mid_lt; lia]).
  destruct (across z S D F _ l sd (eg s) x Hl Hd He (mid_between _) X) as (y1 & Y). specialize (Y _ _ Hl). rewrite Nat.eqb_refl in Y.
  rewrite (above_own s _ Hs), Nat.eqb_refl. unfold RS. rewrite (along_parity zs _ (eg s) x Sl); [|intros e He'; now apply (edges_related _ _ D)|apply X..].
  rewrite (part_parity z (poly s) (fun e => passes_below e x (yat (eg s) x))), Hl, <- odd_winding.
  destruct (CC _ _ Hl) as (_ & G).
  assert (Ds : dir sd = 1 \/ dir sd = -1) by (unfold dir; unfold left_to_right in He; destruct (lex_z _ _); [discriminate|now left|now right]).
  destruct (G x (yat (eg s) x)) as [Q1|Q1], (G x y1) as [Q2|Q2], Ds as [Q3|Q3]; try lia; rewrite Q1, Q3; reflexivity.
Qed.

Lemma has_sloped : forall i l, nth_error z i = Some l -> exists s, In s S /\ sloped (eg s) /\ poly s = i.
Proof using D CC.
  intros i l Hl. destruct (CC i l Hl) as ((x & y & W) & _). destruct (some_sloped z i l x y Hl W) as (sd & e & H1 & H2 & H3).
  destruct (edge_seg _ _ D e) as (s & Hs & Es); [apply (ring_side z i l sd e Hl H1); rewrite H2; now left|]. exists s. split; [exact Hs|]. rewrite Es. split; [exact H3|].
  destruct (left_cases i sd) as [Q|(f & Q & Q2)]; congruence.
Qed.

Lemma lies_asym : forall i j, lies_in z i j -> ~ lies_in z j i.
Proof using D F CC NS.
  intros i j (N & Li & Lj & H) (_ & _ & _ & H'). destruct (nth_error z i) as [a|] eqn:Ha; [|apply nth_error_None in Ha; lia].
  destruct (nth_error z j) as [b|] eqn:Hb; [|apply nth_error_None in Hb; lia].
  destruct (has_sloped i a Ha) as (s & Hs & Sl & Ps). destruct (sides_of_seg s Hs Sl) as (l & sd & x & y0 & y1 & H1 & H2 & H3 & H4). rewrite Ps in *.
  assert (l = a) by congruence. subst l. destruct (H4 i a Ha) as (_ & _ & A). destruct (H4 j b Hb) as (_ & _ & B). rewrite Nat.eqb_refl in A.
  destruct (Nat.eqb_spec j i) as [|_]; [congruence|].
  assert (Ds : dir sd = 1 \/ dir sd = -1) by (unfold dir; unfold left_to_right in H3; destruct (lex_z _ _); [discriminate|now left|now right]).
  specialize (H a b Ha Hb). specialize (H' b a Hb Ha). unfold inside_of in *. destruct (CC _ _ Ha) as (_ & G).
  pose proof (H x y0) as P1. pose proof (H' x y0) as P2. pose proof (H x y1) as P3. pose proof (H' x y1) as P4.
  destruct (G x y0) as [Q1|Q1], (G x y1) as [Q2|Q2]; lia.
Qed.
Lemma lies_trans : forall i j k, lies_in z i j -> lies_in z j k -> lies_in z i k.
Proof using D F CC NS.
  intros i j k A B. assert (N : i <> k) by (intros ->; exact (lies_asym _ _ A B)). destruct A as (_ & L1 & L2 & H1), B as (_ & _ & L3 & H2).
  split; [exact N|]. split; [exact L1|]. split; [exact L3|]. intros a c Ha Hc x y I. destruct (nth_error z j) as [b|] eqn:Hb; [|apply nth_error_None in Hb; lia].
  apply (H1 a b Ha Hb), (H2 b c Hb Hc), I.
Qed.
Lemma direct_unique : forall i i' j, directly_in z i j -> directly_in z i' j -> i = i'.
Proof using D F CC NS.
  intros i i' j (A1 & A2) (B1 & B2). destruct (Nat.eq_dec i i') as [Q|Q]; [exact Q|exfalso]. apply (lies_asym i i'); [apply B2; auto|apply A2; auto].
Qed.
Lemma direct_chain : forall i j k, directly_in z i j -> lies_in z k j <-> k = i \/ lies_in z k i.
Proof using D F CC NS.
  intros i j k (A1 & A2). split; [|intros [->|H]; [exact A1|now apply (lies_trans k i j)]]. intros H. destruct (Nat.eq_dec k i); auto.
Qed.
End Place.
