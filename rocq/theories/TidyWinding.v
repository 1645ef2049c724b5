(** How often closed walks along the edges of tidy polygons go round a place. *)

From Coq Require Import List ZArith QArith Bool Lia Lqa Arith Permutation.
From Verif Require Import Base Float Sweep Compute SpecShape SpecOrder SpecIntersect SpecTurn SpecHandle SpecTidy
  OrderFacts TidyGeo TidyParity TidySetup TidyLine TidyFacts TidyCorner TidyPair TidyNext.
Import ListNotations.
Local Open Scope Z_scope.
Notation b2z := Z.b2z.

(** *** One edge *)

Lemma along_edge : forall e t x, lr e -> sloped t -> related e t -> (xl t < x)%Q -> (x < xr t)%Q ->
  b2z (under e t) - b2z (passes_below e x (yat t x)) = b2z (region t x (e_right e)) - b2z (region t x (e_left e)).
Proof.
  intros e t x L S R X1 X2. pose proof (no_flow e t x L S R X1 X2) as F.
  assert (N1 : under e t = true -> region t x (e_left e) = true -> False).
  { intros U G. apply under_iff in U. apply region_iff in G. lra. }
  assert (N2 : passes_below e x (yat t x) = true -> region t x (e_right e) = true -> False).
  { intros U G. apply passes_iff in U; [|exact L]. apply region_iff in G. lra. }
  destruct (under e t), (passes_below _ _ _), (region t x (e_left e)), (region t x (e_right e)); cbn in F |- *; try reflexivity; try discriminate F; exfalso; auto.
Qed.

Lemma flow_edge_z : forall v e, lr e -> clean v e ->
  b2z (lower_left v e) - b2z (lower_right v e) - b2z (from_below v e) = b2z (straight_below v (e_right e)) - b2z (straight_below v (e_left e)).
Proof.
  intros v e L C. pose proof (flow_edge v e L C) as F.
  assert (N1 : lower_right v e = true -> straight_below v (e_right e) = true -> False).
  { unfold lower_right, straight_below. rewrite !andb_true_iff, Z.leb_le, !Z.ltb_lt, Z.eqb_eq. lia. }
  assert (N2 : lower_left v e = true -> straight_below v (e_left e) = true -> False).
  { unfold lower_left, straight_below. rewrite !andb_true_iff, Z.leb_le, !Z.ltb_lt, Z.eqb_eq. lia. }
  assert (N3 : from_below v e = true -> straight_below v (e_right e) = true -> False).
  { unfold from_below, straight_below, at_right. rewrite !andb_true_iff, same_z_iff, Z.ltb_lt. intros (-> & _). lia. }
  assert (N4 : from_below v e = true -> lower_right v e = true -> False).
  { unfold from_below, lower_right, at_right. rewrite !andb_true_iff, same_z_iff, !Z.eqb_eq, Z.leb_le, !Z.ltb_lt. intros (-> & _). lia. }
  assert (N5 : from_below v e = true -> lower_left v e = true -> False).
  { unfold from_below, lower_left, at_right. rewrite !andb_true_iff, same_z_iff, !Z.eqb_eq, Z.leb_le, !Z.ltb_lt. lia. }
  destruct (lower_left v e), (lower_right v e), (from_below v e), (straight_below v (e_left e)), (straight_below v (e_right e)); cbn in F |- *;
    try reflexivity; try discriminate F; exfalso; auto.
Qed.

Lemma start_edge_z : forall v e t, lr e -> lr t -> e_left t = v -> b2z (under e t) = b2z (lower_right v e) + b2z (inc v e && bef v e t).
Proof.
  intros v e t Le Lt H. rewrite (start_edge v e t Le Lt H).
  assert (N : lower_right v e = true -> inc v e && bef v e t = true -> False).
  { intros A B. apply andb_true_iff in B. destruct B as (_ & B). unfold bef in B. rewrite (at_left_here v t H) in B.
    destruct (at_left v e) eqn:Q; [|discriminate]. apply same_z_iff in Q. apply lower_right_iff in A. rewrite <- Q, yat_left in A. lra. }
  destruct (lower_right v e), (inc v e && bef v e t); try reflexivity. exfalso. auto.
Qed.

(** *** Sums over the sides of a walk *)

Definition sg (d : bend) : Z := match snd d with LeftEnd => 1 | RightEnd => -1 end.

Section Sums.
Variables (zs : list corners).
Notation eg := (eg (edges zs)).
Notation src := (src zs).
Notation dst := (dst zs).

Definition total (C : list bend) (f : edge -> Z) : Z := fold_right (fun d a => sg d * f (eg (fst d)) + a) 0 C.

Lemma total_cons : forall d C f, total (d :: C) f = sg d * f (eg (fst d)) + total C f.
Proof using. reflexivity. Qed.
Lemma total_app : forall C C' f, total (C ++ C') f = total C f + total C' f.
Proof using. intros C C' f. induction C as [|d C IH]; [reflexivity|]. cbn [app]. rewrite !total_cons, IH. lia. Qed.
Lemma total_ext : forall C f g, (forall d : bend, In d C -> f (eg (fst d)) = g (eg (fst d))) -> total C f = total C g.
Proof using.
  induction C as [|d C IH]; intros f g H; [reflexivity|]. rewrite !total_cons, (H d (or_introl eq_refl)), (IH f g); [reflexivity|].
  intros x Hx. apply H. now right.
Qed.
Lemma total_add : forall C f g, total C (fun e => f e + g e) = total C f + total C g.
Proof using. induction C as [|d C IH]; intros f g; [reflexivity|]. rewrite !total_cons, IH. lia. Qed.
Lemma total_sub : forall C f g, total C (fun e => f e - g e) = total C f - total C g.
Proof using. induction C as [|d C IH]; intros f g; [reflexivity|]. rewrite !total_cons, IH. lia. Qed.
Lemma total_zero : forall C f, (forall d : bend, In d C -> f (eg (fst d)) = 0) -> total C f = 0.
Proof using.
  intros C f H. rewrite (total_ext C f (fun _ => 0)) by exact H. induction C as [|d C IH]; [reflexivity|]. rewrite total_cons, IH by (intros; apply H; now right). lia.
Qed.
Lemma total_perm : forall C C' f, Permutation C C' -> total C f = total C' f.
Proof using. intros C C' f H. induction H; [reflexivity|rewrite !total_cons; lia|rewrite !total_cons; lia|lia]. Qed.

(** A walk comes into a region as often as it leaves it. *)
Lemma region_total : forall C (f : Z * Z -> bool), Permutation (map dst C) (map src C) ->
  total C (fun e => b2z (f (e_right e)) - b2z (f (e_left e))) = 0.
Proof using.
  intros C f H. set (sum := fold_right (fun p a => b2z (f p) + a) 0).
  assert (P : forall l m, Permutation l m -> sum l = sum m).
  { intros l m Q. induction Q; cbn; lia. }
  assert (T : total C (fun e => b2z (f (e_right e)) - b2z (f (e_left e))) = sum (map dst C) - sum (map src C)).
  { clear H P. induction C as [|[s x] C IH]; [reflexivity|]. rewrite total_cons, IH. unfold sg, TidyNext.dst, TidyNext.src.
    destruct x; cbn [map sum fold_right fst snd other_z end_z]; fold sum; lia. }
  rewrite T, (P _ _ H). lia.
Qed.
End Sums.

Section Around.
Variables (zs : list corners) (S : list bseg).
Notation E := (edges zs).
Notation eg := (eg (edges zs)).
Notation src := (src zs).
Notation dst := (dst zs).
Hypothesis (D : drawn E S).
Variable C : list bend.
Hypothesis (CS : forall d : bend, In d C -> In (fst d) S) (CB : Permutation (map dst C) (map src C)).
Notation total := (total zs C).

(** How often the walk goes round the place right of (below) an edge, and left of it. *)
Definition WR (s : bseg) : Z := total (fun e => b2z (under e (eg s))).
Definition WS (s : bseg) : Z := total (fun e => b2z (same_ends e (eg s))).
Definition WL (s : bseg) : Z := WR s + WS s.
(** And a point. *)
Definition wind (x y : Q) : Z := total (fun e => b2z (passes_below e x y)).

Lemma C_spec : forall d : bend, In d C -> lr (eg (fst d)) /\ In (eg (fst d)) E.
Proof using D CS. clear CB. intros d H. apply CS in H. split; now apply (seg_spec _ _ D). Qed.

Lemma wind_along : forall t x, In t S -> sloped (eg t) -> (xl (eg t) < x)%Q -> (x < xr (eg t))%Q -> WR t = wind x (yat (eg t) x).
Proof using D CS CB.
  intros t x Ht St X1 X2. enough (H : WR t - wind x (yat (eg t) x) = 0) by lia. unfold WR, wind. rewrite <- total_sub.
  rewrite <- (region_total zs C (region (eg t) x) CB). apply total_ext. intros d Hd. destruct (C_spec d Hd) as (L & I).
  apply along_edge; auto. now apply (edges_related _ _ D).
Qed.

Variable v : Z * Z.
Notation here := (here zs S v).
Notation stop := (stop zs S v).

Definition eta (e : edge) : Z := if at_left v e then 1 else -1.
Definition ring (P : edge -> bool) : Z := total (fun e => if inc v e && P e then eta e else 0).
Definition floor : Z := total (fun e => b2z (lower_right v e)).

Lemma ring_ext : forall P Q, (forall s, here s -> P (eg s) = Q (eg s)) -> ring P = ring Q.
Proof using CS.
  clear CB D. intros P Q H. apply total_ext. intros d Hd. destruct (inc v (eg (fst d))) eqn:I; [|reflexivity]. cbn [andb]. rewrite H; [reflexivity|]. split; auto.
Qed.

Lemma ring_all : ring (fun _ => true) = 0.
Proof using D CS CB.
  enough (H : - ring (fun _ => true) = 0) by lia. rewrite <- (region_total zs C (fun w => same_z w v) CB). unfold ring.
  transitivity (TidyWinding.total zs C (fun e => 0 - (if inc v e && true then eta e else 0))).
  { rewrite total_sub, (total_zero zs C (fun _ => 0)); [lia|auto]. }
  apply total_ext. intros d Hd. destruct (C_spec d Hd) as (L & _). unfold inc, eta. rewrite andb_true_r.
  unfold at_left, at_right. destruct (same_z (e_left _) v) eqn:E1, (same_z (e_right _) v) eqn:E2; try reflexivity.
  apply same_z_iff in E1, E2. unfold lr in L. rewrite E1, E2, lex_refl in L. discriminate.
Qed.

Lemma ring_add : forall P Q R, (forall s, here s -> b2z (P (eg s)) + b2z (Q (eg s)) = b2z (R (eg s))) -> ring P + ring Q = ring R.
Proof using CS.
  clear CB D. intros P Q R H. unfold ring. rewrite <- total_add. apply total_ext. intros d Hd. destruct (inc v (eg (fst d))) eqn:I; [|reflexivity]. cbn [andb].
  specialize (H (fst d) (conj (CS d Hd) I)). destruct (P _), (Q _), (R _); cbn in H; lia.
Qed.

Lemma flow_total : (forall e, In e E -> clean v e) -> total (fun e => b2z (lower_left v e)) = floor + total (fun e => b2z (from_below v e)).
Proof using D CS CB.
  intros Cl. enough (H : total (fun e => b2z (lower_left v e)) - floor - total (fun e => b2z (from_below v e)) = 0) by lia. unfold floor.
  rewrite <- !total_sub, <- (region_total zs C (straight_below v) CB). apply total_ext. intros d Hd. destruct (C_spec d Hd) as (L & I). apply flow_edge_z; auto.
Qed.

Lemma starts : forall t, here t -> e_left (eg t) = v -> WR t = floor + ring (fun e => bef v e (eg t)).
Proof using D CS.
  clear CB. intros t Ht HL. unfold WR, floor, ring. rewrite <- total_add. apply total_ext. intros d Hd. destruct (C_spec d Hd) as (L & I).
  rewrite (start_edge_z v _ (eg t) L); [|now apply (seg_spec _ _ D), Ht|exact HL]. f_equal.
  unfold eta, bef. rewrite (at_left_here v (eg t) HL). destruct (at_left v (eg (fst d))); [|rewrite andb_false_r; reflexivity].
  destruct (inc _ _ && _); reflexivity.
Qed.

Lemma ends : (forall e, In e E -> clean v e) -> forall t, here t -> e_right (eg t) = v -> WR t = floor - ring (fun e => bef v (eg t) e).
Proof using D CS CB.
  intros Cl t Ht HR. assert (It : In t S) by apply Ht. destruct (seg_spec _ _ D t It) as (_ & _ & Lt & _).
  pose proof (at_right_not v (eg t) Lt HR) as AT.
  assert (EB : forall e, (if inc v e && bef v (eg t) e then eta e else 0) = - b2z (inc v e && bef v (eg t) e)).
  { intros e. unfold bef, eta. rewrite AT. destruct (at_left v e); [rewrite andb_false_r; reflexivity|]. destruct (inc _ _ && _); reflexivity. }
  destruct (Z.eq_dec (fst (e_left (eg t))) (fst (e_right (eg t)))) as [U|U].
  - unfold ring. rewrite (total_zero zs C (fun e => if inc v e && bef v (eg t) e then eta e else 0)).
    + rewrite Z.sub_0_r. apply total_ext. intros d Hd. destruct (C_spec d Hd) as (L & I). f_equal.
      apply (upright_edge v _ (eg t)); auto. now apply (edges_related _ _ D).
    + intros d Hd. destruct (C_spec d Hd) as (L & I). rewrite EB.
      replace (inc v (eg (fst d)) && bef v (eg t) (eg (fst d))) with false; [reflexivity|]. symmetry.
      apply upright_edge; auto. now apply (edges_related _ _ D).
  - assert (St : sloped (eg t)) by (unfold lr in Lt; apply lex_lt in Lt; unfold sloped; lia).
    set (x := (xr (eg t) - (1 # 2))%Q).
    assert (Q2 : (xl (eg t) < x)%Q).
    { destruct (Qlt_le_dec (xl (eg t)) x) as [G|G]; [exact G|exfalso]. pose proof (proj2 (half (fst (e_left (eg t))) (fst (e_right (eg t)))) St) as Q1.
      assert (Q : (xl (eg t) == xr (eg t) - (1 # 2))%Q) by (unfold x in *; lra). unfold Qeq in Q. cbn in Q. lia. }
    rewrite (wind_along t x It St Q2) by (unfold x; lra).
    pose proof (flow_total Cl) as FT.
    set (A := fun e => at_right v e && negb (fst (e_left e) =? fst (e_right e)) && (0 <? orient (e_left e) (e_right e) (e_left (eg t)))).
    assert (W : wind x (yat (eg t) x) = total (fun e => b2z (lower_left v e)) + total (fun e => b2z (A e))).
    { rewrite <- total_add. apply total_ext. intros d Hd. destruct (C_spec d Hd) as (L & I). unfold x.
      rewrite (arrives (eg (fst d)) (eg t) L St) by (now apply (edges_related _ _ D)). rewrite HR. fold (A (eg (fst d))).
      assert (N : lower_left v (eg (fst d)) = true -> A (eg (fst d)) = true -> False).
      { intros B1 B2. unfold A in B2. rewrite !andb_true_iff, negb_true_iff, Z.eqb_neq in B2. destruct B2 as ((B2 & B3) & _). apply same_z_iff in B2.
        assert (Se : sloped (eg (fst d))) by (unfold lr in L; apply lex_lt in L; unfold sloped; lia).
        apply lower_left_iff in B1. rewrite <- B2, (yat_right _ Se) in B1. lra. }
      destruct (lower_left v _), (A _); try reflexivity. exfalso. auto. }
    assert (B : total (fun e => b2z (from_below v e)) + total (fun e => b2z (A e)) = - ring (fun e => bef v (eg t) e)).
    { rewrite <- total_add. unfold ring. transitivity (TidyWinding.total zs C (fun e => 0 - (if inc v e && bef v (eg t) e then eta e else 0))).
      2:{ rewrite total_sub, (total_zero zs C (fun _ => 0)); [lia|auto]. }
      apply total_ext. intros d Hd. destruct (C_spec d Hd) as (L & I). rewrite EB, <- (after_edge v (eg (fst d)) (eg t) L Lt St HR). fold (A (eg (fst d))).
      assert (N : from_below v (eg (fst d)) = true -> A (eg (fst d)) = true -> False).
      { unfold from_below, A. rewrite !andb_true_iff, negb_true_iff. intros (_ & X) ((_ & Y) & _). congruence. }
      destruct (from_below v _), (A _); try reflexivity. exfalso. auto. }
    lia.
Qed.

(** Clockwise of an edge at [v], and counter-clockwise of it. *)
Definition wcw (s : bseg) : Z := if at_left v (eg s) then WR s else WL s.
Definition wcc (s : bseg) : Z := if at_left v (eg s) then WL s else WR s.

Lemma same_ring : forall s, here s -> WS s = if at_left v (eg s) then ring (fun e => same_ends e (eg s)) else - ring (fun e => same_ends e (eg s)).
Proof using.
  clear CB CS D. intros s Hs.
  assert (H : forall e, b2z (same_ends e (eg s)) = if at_left v (eg s) then (if inc v e && same_ends e (eg s) then eta e else 0)
    else 0 - (if inc v e && same_ends e (eg s) then eta e else 0)).
  { intros e. destruct (same_ends e (eg s)) eqn:Q; [|rewrite andb_false_r; now destruct (at_left v (eg s))].
    rewrite (same_inc zs S v e s Hs Q). cbn [andb]. unfold eta. replace (at_left v e) with (at_left v (eg s)); [now destruct (at_left v (eg s))|].
    apply same_ends_iff in Q. unfold at_left. now rewrite (proj1 Q). }
  unfold WS, ring. destruct (at_left v (eg s)).
  - apply total_ext. intros d _. apply H.
  - transitivity (TidyWinding.total zs C (fun e => 0 - (if inc v e && same_ends e (eg s) then eta e else 0))).
    + apply total_ext. intros d _. apply H.
    + rewrite total_sub, (total_zero zs C (fun _ => 0)); [lia|auto].
Qed.

Lemma ring_split : forall s, here s -> ring (fun e => bef v e (eg s)) + ring (fun e => same_ends e (eg s)) + ring (fun e => bef v (eg s) e) = 0.
Proof using D CS CB.
  intros s Hs. rewrite <- ring_all. rewrite (ring_add _ _ (fun e => bef v e (eg s) || same_ends e (eg s))).
  - apply ring_add. intros t Ht. destruct (same_ends (eg t) (eg s)) eqn:SE.
    + destruct (bef_same zs v t s s SE) as (B1 & B2). rewrite B1, B2, bef_self. reflexivity.
    + destruct (bef_total zs S D v t s Ht Hs SE) as [B|B]; rewrite B, (bef_irr zs v _ _ B); reflexivity.
  - intros t Ht. destruct (same_ends (eg t) (eg s)) eqn:SE.
    + destruct (bef_same zs v t s s SE) as (B1 & B2). rewrite B1, bef_self. reflexivity.
    + destruct (bef v _ _); reflexivity.
Qed.

Lemma wcw_eq : forall s, here s -> wcw s = floor + ring (fun e => bef v e (eg s)).
Proof using D CS CB.
  intros s Hs. pose proof (corner_clean zs S D v s Hs) as Cl. pose proof (ring_split s Hs) as RS. pose proof (same_ring s Hs) as SR. unfold wcw, WL.
  destruct (here_cases zs S D v s Hs) as [(A & V & _)|(A & V & _)]; rewrite A in *.
  - now apply starts.
  - rewrite (ends Cl s Hs V). lia.
Qed.

Lemma wcc_eq : forall s, here s -> wcc s = floor + ring (fun e => bef v e (eg s) || same_ends e (eg s)).
Proof using D CS CB.
  intros s Hs. pose proof (wcw_eq s Hs) as W. pose proof (same_ring s Hs) as SR.
  assert (Q : wcc s = wcw s + if at_left v (eg s) then WS s else - WS s).
  { unfold wcc, wcw, WL. destruct (at_left v (eg s)); lia. }
  rewrite Q, W, <- Z.add_assoc. f_equal. rewrite <- (ring_add (fun e => bef v e (eg s)) (fun e => same_ends e (eg s)) (fun e => bef v e (eg s) || same_ends e (eg s))).
  - revert SR. destruct (at_left v (eg s)); lia.
  - intros t Ht. destruct (same_ends (eg t) (eg s)) eqn:SE.
    + destruct (bef_same zs v t s s SE) as (B1 & B2). rewrite B1, bef_self. reflexivity.
    + destruct (bef v _ _); reflexivity.
Qed.

Lemma prior_wind : forall t u, stop t -> stop u -> prior zs S v t u -> wcw t = wcc u.
Proof using D CS CB.
  intros t u St Su P. rewrite (wcw_eq t (proj1 St)), (wcc_eq u (proj1 Su)). f_equal.
  assert (ST_ : forall s, here s -> exists b, stop b /\ same_ends (eg s) (eg b) = true).
  { intros s Hs. destruct (last_exists zs S D s (proj1 Hs)) as (b & B1 & B2 & B3). exists b. split; [|exact B3]. split; [|exact B2].
    split; [exact B1|]. apply (same_inc zs S v (eg b) s Hs). now rewrite same_sym. }
  destruct P as [(P1 & P2)|(P1 & P2)].
  - apply ring_ext. intros s Hs. destruct (ST_ s Hs) as (b & Sb & B). destruct (bef_same zs v s b t B) as (-> & _), (bef_same zs v s b u B) as (-> & _).
    rewrite (same_trans _ _ (eg u) B). destruct (bef v (eg b) (eg t)) eqn:Q.
    + destruct (P2 b Sb Q) as [X| ->]; [rewrite X; reflexivity|]. symmetry. apply orb_true_iff. right. apply same_ends_iff. auto.
    + symmetry. apply orb_false_iff. split.
      * destruct (bef v (eg b) (eg u)) eqn:Q'; [|reflexivity]. rewrite (bef_trans zs S D v b u t) in Q; auto; [apply Sb|apply Su|apply St].
      * destruct (same_ends (eg b) (eg u)) eqn:Q'; [|reflexivity]. destruct (bef_same zs v b u t Q') as (Q1 & _). congruence.
  - transitivity (ring (fun _ => true)).
    + rewrite ring_all. unfold ring. apply total_zero. intros d Hd. destruct (inc v (eg (fst d))) eqn:I; [|reflexivity]. cbn [andb].
      destruct (ST_ (fst d) (conj (CS d Hd) I)) as (b & Sb & B). destruct (bef_same zs v (fst d) b t B) as (-> & _). now rewrite (P1 b Sb).
    + apply ring_ext. intros s Hs. destruct (ST_ s Hs) as (b & Sb & B). destruct (bef_same zs v s b u B) as (-> & _).
      rewrite (same_trans _ _ (eg u) B). destruct (P2 b Sb) as [X| ->]; [now rewrite X|]. symmetry. apply orb_true_iff. right. apply same_ends_iff. auto.
Qed.
End Around.

Section Points.
Variables (zs : list corners) (S : list bseg).
Notation E := (edges zs).
Notation eg := (eg (edges zs)).
Hypothesis (D : drawn E S).

Definition spans (e : edge) (x : Q) : Prop := (xl e < x /\ x < xr e)%Q.
Definition between (x : Q) : Prop := forall z : Z, ~ (x == inject_Z z)%Q.

Lemma passes_between : forall e x y, lr e -> between x -> passes_below e x y = true <-> spans e x /\ (yat e x < y)%Q.
Proof using.
  intros e x y L B. rewrite passes_iff by exact L. unfold spans. split.
  - intros (H1 & H2 & H3). split; [|exact H3]. split; [|exact H2]. destruct (Qlt_le_dec (xl e) x); [assumption|]. exfalso. apply (B (fst (e_left e))). lra.
  - intros ((H1 & H2) & H3). split; [lra|auto].
Qed.

Lemma level_same : forall a b x, In a S -> In b S -> between x -> spans (eg a) x -> spans (eg b) x -> (yat (eg a) x == yat (eg b) x)%Q -> same_ends (eg a) (eg b) = true.
Proof using D.
  intros a b x Ha Hb B (A1 & A2) (B1 & B2) Q. destruct (same_ends (eg a) (eg b)) eqn:SE; [reflexivity|exfalso].
  pose proof (pairs_apart _ _ D a b Ha Hb SE) as A.
  assert (Sa : sloped (eg a)) by (unfold sloped; rewrite Zlt_Qlt; lra). assert (Sb : sloped (eg b)) by (unfold sloped; rewrite Zlt_Qlt; lra).
  destruct (level (eg a) (eg b) x A Sa Sb) as (w & _ & _ & X & _); try lra. exact (B _ X).
Qed.

(** The highest segment of a list below a point, if there is one. *)
Lemma highest : forall (l : list bseg) x y, (forall s, In s l -> In s S) -> between x ->
  (forall s, In s l -> passes_below (eg s) x y = false)
  \/ exists b, In b l /\ passes_below (eg b) x y = true /\
       forall s, In s l -> passes_below (eg s) x y = passes_below (eg s) x (yat (eg b) x) || same_ends (eg s) (eg b).
Proof using D.
  intros l x y HS B. 
  assert (LR : forall s, In s l -> lr (eg s)) by (intros s Hs; now apply (seg_spec _ _ D), HS).
  assert (X : (forall s, In s l -> passes_below (eg s) x y = false)
    \/ exists b, In b l /\ passes_below (eg b) x y = true /\ forall s, In s l -> passes_below (eg s) x y = true -> (yat (eg s) x <= yat (eg b) x)%Q).
  { clear HS. induction l as [|a l IH]; [left; intros s []|].
    assert (La : lr (eg a)) by (apply LR; now left). specialize (IH (fun s H => LR s (or_intror H))).
    destruct (passes_below (eg a) x y) eqn:Pa.
    - right. destruct IH as [N|(b & B1 & B2 & B3)].
      + exists a. split; [now left|]. split; [exact Pa|]. intros s [<-|Hs] Ps; [lra|]. rewrite (N s Hs) in Ps. discriminate.
      + destruct (Qlt_le_dec (yat (eg b) x) (yat (eg a) x)) as [G|G].
        * exists a. split; [now left|]. split; [exact Pa|]. intros s [<-|Hs] Ps; [lra|]. specialize (B3 s Hs Ps). lra.
        * exists b. split; [now right|]. split; [exact B2|]. intros s [<-|Hs] Ps; [lra|auto].
    - destruct IH as [N|(b & B1 & B2 & B3)]; [left; intros s [<-|Hs]; auto|right].
      exists b. split; [now right|]. split; [exact B2|]. intros s [<-|Hs] Ps; [congruence|auto]. }
  destruct X as [N|(b & B1 & B2 & B3)]; [now left|right]. exists b. split; [exact B1|]. split; [exact B2|]. intros s Hs.
  apply eq_true_iff_eq. rewrite orb_true_iff. pose proof (LR s Hs) as Ls. pose proof (LR b B1) as Lb.
  apply passes_between in B2; auto. destruct B2 as (Sp & Hb). rewrite !passes_between by assumption. split.
  - intros (H1 & H2). destruct (Qlt_le_dec (yat (eg s) x) (yat (eg b) x)) as [G|G]; [left; auto|right].
    apply (level_same s b x); auto. assert ((yat (eg s) x <= yat (eg b) x)%Q); [|lra]. apply B3; auto. apply passes_between; auto.
  - intros [(H1 & H2)|H]; [split; [exact H1|lra]|]. apply same_ends_iff in H. destruct H as (H1 & H2).
    unfold spans, yat, slope in *. rewrite H1, H2. auto.
Qed.

Variable C : list bend.
Hypothesis (CS : forall d : bend, In d C -> In (fst d) S) (CB : Permutation (map (dst zs) C) (map (src zs) C)).

(** Round a point a walk goes as often as round the place above the highest edge below it. *)
Lemma wind_highest : forall x y, between x ->
  (wind zs C x y = 0 /\ forall d : bend, In d C -> passes_below (eg (fst d)) x y = false)
  \/ exists b : bend, In b C /\ spans (eg (fst b)) x /\ (yat (eg (fst b)) x < y)%Q /\ wind zs C x y = WL zs C (fst b).
Proof using D CS CB.
  intros x y B. destruct (highest (map fst C) x y) as [N|(b & B1 & B2 & B3)]; auto.
  - intros s Hs. apply in_map_iff in Hs. destruct Hs as (d & <- & Hd). auto.
  - left. assert (N' : forall d : bend, In d C -> passes_below (eg (fst d)) x y = false) by (intros d Hd; apply N, in_map; exact Hd).
    split; [|exact N']. apply total_zero. intros d Hd. now rewrite N'.
  - right. apply in_map_iff in B1. destruct B1 as (d & <- & Hd). exists d. split; [exact Hd|].
    assert (L : lr (eg (fst d))) by (apply (seg_spec _ _ D); auto). apply passes_between in B2 as B2'; auto. destruct B2' as ((X1 & X2) & Y).
    split; [split; assumption|]. split; [exact Y|]. unfold WL.
    assert (Sl : sloped (eg (fst d))) by (unfold sloped; rewrite Zlt_Qlt; lra).
    rewrite (wind_along zs S D C CS CB (fst d) x (CS d Hd) Sl X1 X2). unfold wind, WS. rewrite <- total_add.
    apply total_ext. intros f Hf. rewrite B3 by (apply in_map; exact Hf).
    destruct (same_ends (eg (fst f)) (eg (fst d))) eqn:SE; [|rewrite orb_false_r; cbn; lia].
    replace (passes_below (eg (fst f)) x (yat (eg (fst d)) x)) with false; [reflexivity|]. symmetry. apply not_true_iff_false. intros Q.
    apply passes_between in Q; [|apply (seg_spec _ _ D); auto|exact B]. destruct Q as (_ & Q). apply same_ends_iff in SE. destruct SE as (S1 & S2).
    unfold yat, slope in Q. rewrite S1, S2 in Q. lra.
Qed.
End Points.
