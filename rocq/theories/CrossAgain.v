(** Which contour a hole is listed with, and overlaying the regions again, for polygons that
    cross. *)

From Coq Require Import List ZArith QArith Bool Arith Lia Lqa Qfield.
From Verif Require Import Base Contours Sweep Compute SpecShape SpecOrder SpecIntersect SpecHandle SpecTidy SpecOverlay SpecCompute
  OrderFacts TidyGeo OverlayFacts ParentFacts CrossSamples CrossSetup CrossOverlay CrossCover SpecAgain AgainSide AgainOver SpecParent SpecCross.
Import ListNotations.
Local Open Scope Z_scope.

(** *** The points of a side are those of its parts *)

Lemma segment_swap : forall a b x y, on_segment a b x y -> on_segment b a x y.
Proof.
  intros [xa ya] [xb yb] x y (t & T1 & T2 & T3 & T4). cbn [fst snd] in *. exists (1 - t)%Q. cbn [fst snd]. unfold Zminus in *. rewrite !inject_Z_plus, !inject_Z_opp in *.
  repeat split; lra.
Qed.

(** A point between the ends [a] and [c] of a segment, as a ratio. *)
Lemma between_ratio : forall a b c, lex_z a b = Lt -> lex_z b c = Lt -> orient a b c = 0 -> exists s : Q, (0 < s)%Q /\ (s < 1)%Q
  /\ (inject_Z (fst b) == inject_Z (fst a) + s * inject_Z (fst c - fst a))%Q /\ (inject_Z (snd b) == inject_Z (snd a) + s * inject_Z (snd c - snd a))%Q.
Proof.
  intros [xa ya] [xb yb] [xc yc] H1 H2 H3. apply lex_lt in H1, H2. unfold orient, vcross, vsub in H3. cbn [fst snd] in *.
  assert (G : forall n d, 0 < n -> n < d -> exists s : Q, (0 < s)%Q /\ (s < 1)%Q /\ (s * inject_Z d == inject_Z n)%Q).
  { intros n d N D. exists (inject_Z n / inject_Z d)%Q. assert (D' : (0 < inject_Z d)%Q) by (change 0%Q with (inject_Z 0); rewrite <- Zlt_Qlt; lia).
    assert (N' : (0 < inject_Z n)%Q) by (change 0%Q with (inject_Z 0); rewrite <- Zlt_Qlt; lia).
    split; [apply Qlt_shift_div_l; lra|]. split; [apply Qlt_shift_div_r; [lra|rewrite Qmult_1_l; rewrite <- Zlt_Qlt; lia]|]. field. lra. }
  destruct (Z.eq_dec xa xc) as [Q1|Q1].
  - assert (xb = xa) by lia. subst. destruct (G (yb - ya) (yc - ya)) as (s & S1 & S2 & S3); [lia|lia|]. exists s. split; [exact S1|]. split; [exact S2|].
    split; [rewrite Z.sub_diag; change (inject_Z 0) with 0%Q; lra|]. rewrite S3. unfold Zminus. rewrite inject_Z_plus, inject_Z_opp. lra.
  - destruct (G (xb - xa) (xc - xa)) as (s & S1 & S2 & S3); [nia|nia|]. exists s. split; [exact S1|]. split; [exact S2|].
    split; [rewrite S3; unfold Zminus; rewrite inject_Z_plus, inject_Z_opp; lra|].
    assert (X : (inject_Z (xc - xa) * (s * inject_Z (yc - ya)) == inject_Z (xc - xa) * inject_Z (yb - ya))%Q).
    { transitivity (inject_Z (xb - xa) * inject_Z (yc - ya))%Q; [rewrite <- S3; ring|]. rewrite <- !inject_Z_mult, inject_Z_injective. nia. }
    assert (P : (0 < inject_Z (xc - xa))%Q) by (change 0%Q with (inject_Z 0); rewrite <- Zlt_Qlt; lia).
    apply Qmult_inj_l in X; [|lra]. rewrite X. unfold Zminus. rewrite inject_Z_plus, inject_Z_opp. lra.
Qed.

Lemma segment_split : forall a b c x y, lex_z a b = Lt -> lex_z b c = Lt -> orient a b c = 0 ->
  on_segment a c x y <-> on_segment a b x y \/ on_segment b c x y.
Proof.
  intros a b c x y H1 H2 H3. destruct (between_ratio a b c H1 H2 H3) as (s & S1 & S2 & S3 & S4). clear H1 H2 H3. destruct a as [xa ya], b as [xb yb], c as [xc yc].
  unfold on_segment. cbn [fst snd] in *.
  assert (M : forall u v, (inject_Z (u - v) == inject_Z u - inject_Z v)%Q) by (intros; unfold Zminus; rewrite inject_Z_plus, inject_Z_opp; reflexivity).
  rewrite M in S3, S4. split.
  - intros (t & T1 & T2 & T3 & T4). rewrite M in T3, T4. destruct (Qlt_le_dec t s) as [T|T].
    + left. exists (t / s)%Q. split; [apply Qle_shift_div_l; lra|]. split; [apply Qle_shift_div_r; lra|]. rewrite !M. split; [rewrite T3, S3|rewrite T4, S4]; field; lra.
    + right. exists ((t - s) / (1 - s))%Q. split; [apply Qle_shift_div_l; lra|]. split; [apply Qle_shift_div_r; lra|]. rewrite !M. split; [rewrite T3, S3|rewrite T4, S4]; field; lra.
  - intros [(t & T1 & T2 & T3 & T4)|(t & T1 & T2 & T3 & T4)]; rewrite M in T3, T4.
    + assert (P : (0 <= t * s)%Q) by (apply Qmult_le_0_compat; lra). assert (P' : (t * s <= 1 * s)%Q) by (apply Qmult_le_compat_r; lra).
      exists (t * s)%Q. split; [lra|]. split; [lra|]. rewrite !M. split; [rewrite T3, S3|rewrite T4, S4]; ring.
    + assert (P : (0 <= t * (1 - s))%Q) by (apply Qmult_le_0_compat; lra). assert (P' : (t * (1 - s) <= 1 * (1 - s))%Q) by (apply Qmult_le_compat_r; lra).
      exists (s + t * (1 - s))%Q. split; [lra|]. split; [lra|]. rewrite !M. split; [rewrite T3, S3|rewrite T4, S4]; ring.
Qed.

Lemma forward_points : forall x y l a, forward (a :: l) -> l <> [] -> (forall p q r, In p (a :: l) -> In q (a :: l) -> In r (a :: l) -> orient p q r = 0) ->
  on_segment a (last l (0, 0)) x y <-> exists s, In s (steps (a :: l)) /\ on_segment (fst s) (snd s) x y.
Proof.
  intros x y. induction l as [|b l IH]; intros a F N O; [now elim N|]. destruct F as [F1 F2]. rewrite steps_cons. destruct l as [|c l].
  - cbn [last steps]. split; [intros H; exists (a, b); split; [now left|exact H]|]. intros (s & [<-|[]] & H). exact H.
  - change (last (b :: c :: l) (0, 0)) with (last (c :: l) (0, 0)).
    assert (I : In (last (c :: l) (0, 0)) (c :: l)) by (destruct (exists_last (l := c :: l)) as (m & z & ->); [discriminate|rewrite last_last; apply in_or_app; right; now left]).
    rewrite (segment_split a b _ x y F1 (forward_trans _ _ _ F2 I)); [|apply O; [now left|right; now left|right; now right]].
    rewrite (IH b F2); [|discriminate|intros p q r Hp Hq Hr; apply O; now right]. split.
    + intros [H|(s & S1 & S2)]; [exists (a, b); split; [now left|exact H]|exists s; split; [now right|exact S2]].
    + intros (s & [<-|S1] & S2); [left; exact S2|right; exists s; split; assumption].
Qed.

Lemma straight_points : forall l x y, (2 <= length l)%nat -> straight l ->
  on_segment (hd (0, 0) l) (last l (0, 0)) x y <-> exists s, In s (steps l) /\ on_segment (fst s) (snd s) x y.
Proof.
  intros l x y L [F O].
  assert (G : forall l, (2 <= length l)%nat -> forward l -> (forall p q r, In p l -> In q l -> In r l -> orient p q r = 0) ->
    on_segment (hd (0, 0) l) (last l (0, 0)) x y <-> exists s, In s (steps l) /\ on_segment (fst s) (snd s) x y).
  { clear. intros l L F O. destruct l as [|a [|b l]]; cbn [length] in L; try lia. cbn [hd]. change (last (a :: b :: l) (0, 0)) with (last (b :: l) (0, 0)). apply forward_points; [exact F|discriminate|exact O]. }
  destruct F as [F|F]; [now apply G|].
  assert (R : hd (0, 0) (rev l) = last l (0, 0) /\ last (rev l) (0, 0) = hd (0, 0) l).
  { destruct l as [|a l]; [cbn [length] in L; lia|]. cbn [rev hd]. rewrite last_last. split; [|reflexivity].
    destruct (exists_last (l := a :: l)) as (m & z & E); [discriminate|]. rewrite E, last_last. change (rev l ++ [a]) with (rev (a :: l)). rewrite E, rev_app_distr. reflexivity. }
  assert (X := G (rev l)). rewrite (proj1 R), (proj2 R), rev_length, steps_rev in X. specialize (X L F (fun p q r Hp Hq Hr => O p q r (proj2 (in_rev _ _) Hp) (proj2 (in_rev _ _) Hq) (proj2 (in_rev _ _) Hr))).
  split.
  - intros H. apply segment_swap, X in H. destruct H as (s & S1 & S2). apply in_rev, in_map_iff in S1. destruct S1 as (s' & <- & S1). exists s'. split; [exact S1|]. now apply segment_swap.
  - intros (s & S1 & S2). apply segment_swap, X. exists (snd s, fst s). split; [|now apply segment_swap]. apply in_rev. rewrite rev_involutive. apply in_map_iff. exists s. split; [reflexivity|exact S1].
Qed.

Lemma ordered_segment : forall i s x y, lex_z (fst s) (snd s) <> Eq -> (exists e, In e (left_to_right i s) /\ on_segment (e_left e) (e_right e) x y) <-> on_segment (fst s) (snd s) x y.
Proof.
  intros i s x y N. unfold left_to_right. destruct (lex_z (fst s) (snd s)); [now elim N| |]; (split; [intros (e & [<-|[]] & H); cbn [e_left e_right] in H|intros H; eexists; split; [now left|cbn [e_left e_right]]]); auto using segment_swap.
Qed.

Lemma forward_steps : forall l s, forward l -> In s (steps l) -> lex_z (fst s) (snd s) = Lt.
Proof.
  induction l as [|a l IH]; intros s F H; [elim H|]. destruct l as [|b l]; [elim H|]. rewrite steps_cons in H. destruct F as [F1 F2], H as [<-|H]; [exact F1|now apply IH].
Qed.

Lemma straight_steps : forall l s, straight l -> In s (steps l) -> lex_z (fst s) (snd s) <> Eq.
Proof.
  intros l s [F _] H. destruct F as [F|F]; [rewrite (forward_steps l s F H); discriminate|].
  assert (H' : In (snd s, fst s) (steps (rev l))) by (rewrite steps_rev, <- in_rev; apply in_map_iff; exists s; split; [reflexivity|exact H]).
  pose proof (forward_steps _ _ F H') as X. cbn [fst snd] in X. intros E. destruct s as [[a b] [c d]]. unfold lex_z in *. cbn [fst snd] in *.
  destruct (a ?= c) eqn:A; try discriminate. apply Z.compare_eq_iff in A. subst. rewrite Z.compare_refl in X. rewrite Z.compare_antisym, E in X. discriminate.
Qed.

Lemma straight_whole : forall l, (2 <= length l)%nat -> straight l -> lex_z (hd (0, 0) l) (last l (0, 0)) <> Eq.
Proof.
  intros l L [F _].
  assert (G : forall l, (2 <= length l)%nat -> forward l -> lex_z (hd (0, 0) l) (last l (0, 0)) = Lt).
  { clear. intros l L F. destruct l as [|a [|b l]]; cbn [length] in L; try lia. cbn [hd]. change (last (a :: b :: l) (0, 0)) with (last (b :: l) (0, 0)). apply (forward_trans (b :: l)); [exact F|].
    destruct (exists_last (l := b :: l)) as (m & z & ->); [discriminate|rewrite last_last; apply in_or_app; right; now left]. }
  destruct F as [F|F]; [rewrite (G l L F); discriminate|].
  assert (R : hd (0, 0) (rev l) = last l (0, 0) /\ last (rev l) (0, 0) = hd (0, 0) l).
  { destruct l as [|a l]; [cbn [length] in L; lia|]. cbn [rev hd]. rewrite last_last. split; [|reflexivity].
    destruct (exists_last (l := a :: l)) as (m & z & E); [discriminate|]. rewrite E, last_last. change (rev l ++ [a]) with (rev (a :: l)). rewrite E, rev_app_distr. reflexivity. }
  assert (X := G (rev l)). rewrite (proj1 R), (proj2 R), rev_length in X. specialize (X L F). intros E. destruct (hd (0, 0) l) as [a b], (last l (0, 0)) as [c d]. unfold lex_z in *. cbn [fst snd] in *.
  destruct (a ?= c) eqn:A; try discriminate. apply Z.compare_eq_iff in A. subst. rewrite Z.compare_refl in X. rewrite Z.compare_antisym, E in X. discriminate.
Qed.

Lemma cut_points : forall ms, (forall r, In r (routes ms) -> straight (snd r)) -> forall x y,
  (exists e, In e (edges (marked ms)) /\ on_segment (e_left e) (e_right e) x y) <-> (exists e, In e (edges (plain ms)) /\ on_segment (e_left e) (e_right e) x y).
Proof.
  intros ms H x y. unfold edges. rewrite marked_edges, plain_edges. unfold routes in H. pose proof (routes_long ms 0) as L. revert H L. generalize (routes_from 0 ms). clear ms. intros rs H L.
  assert (G : forall r, In r rs -> (exists e, In e (route_edges r) /\ on_segment (e_left e) (e_right e) x y) <-> (exists e, In e (whole_edge r) /\ on_segment (e_left e) (e_right e) x y)).
  { intros r R. specialize (H r R). specialize (L r R). destruct r as [k l]. cbn [snd] in *. unfold whole_edge. cbn [fst snd]. rewrite (ordered_segment k (hd (0, 0) l, last l (0, 0))); [|cbn [fst snd]; now apply straight_whole].
    cbn [fst snd]. rewrite (straight_points l x y L H). unfold route_edges. cbn [fst snd]. split.
    - intros (e & E & O). apply in_flat_map in E. destruct E as (s & S & E). exists s. split; [exact S|]. apply (ordered_segment k s x y (straight_steps l s H S)). exists e. now split.
    - intros (s & S & O). apply (ordered_segment k s x y (straight_steps l s H S)) in O. destruct O as (e & E & O). exists e. split; [|exact O]. apply in_flat_map. exists s. now split. }
  split; intros (e & E & O); apply in_flat_map in E; destruct E as (r & R & E); [destruct (proj1 (G r R)) as (f & F1 & F2)|destruct (proj2 (G r R)) as (f & F1 & F2)]; try (exists e; split; assumption);
    exists f; (split; [|exact F2]); apply in_flat_map; exists r; split; assumption.
Qed.

Lemma cut_above : forall ms, cut_well ms -> forall lh l, lies_above (marked ms) lh l <-> lies_above (plain ms) lh l.
Proof.
  intros ms W lh l. pose proof (cut_points ms (cut_straight ms W)) as P.
  assert (G : forall zs zs' p q a b, (forall x y, (exists e, In e (edges zs) /\ on_segment (e_left e) (e_right e) x y) -> exists e, In e (edges zs') /\ on_segment (e_left e) (e_right e) x y) ->
    looks_down_on zs' p q a b -> looks_down_on zs p q a b).
  { intros zs zs' p q a b I (x0 & X & H). exists x0. split; [exact X|]. intros x X1 X2. destruct (H x X1 X2) as (y & y' & Y1 & Y2 & Y3 & Y4). exists y, y'. repeat (split; [assumption|]).
    intros e y'' E O. destruct (I x y'' (ex_intro _ e (conj E O))) as (f & F1 & F2). now apply (Y4 f). }
  unfold lies_above. split; intros (H & a & b & S & D & K); (split; [exact H|]); exists a, b; (split; [exact S|]); (split; [exact D|]).
  - apply (G _ (marked ms)); [intros x y; apply P|exact K].
  - apply (G _ (plain ms)); [intros x y; apply P|exact K].
Qed.

Section Cross.
Variables (std : std_impl) (fuel : nat) (polys : input) (op : boolean_op) (ms : list (list (list mark))).
Hypothesis Laws : std_laws std.
Hypothesis Sorts : sorts std.
Hypothesis Cross : crossable polys ms.
Hypothesis Fuel : (3 * length (edges (marked ms)) <= fuel)%nat.
Variables (r : polygon) (rz : corners).
Hypothesis Done : compute std fuel polys op = Ok r.
Hypothesis Corners : has_corners r rz.

Let W : cut_well ms := proj1 (proj2 Cross).
Let Fuel2 : (2 * length (edges (marked ms)) <= fuel)%nat.
Proof. lia. Qed.

Lemma cross_parents : forall i c l h ch lh,
  nth_error r i = Some c -> nth_error rz i = Some l -> nth_error r h = Some ch -> nth_error rz h = Some lh ->
  In h (c_holes c) <-> c_external ch = false /\ lies_above (plain ms) lh l.
Proof.
  intros i c l h ch lh H1 H2 H3 H4. destruct (cross_tidy std fuel polys op ms Laws Sorts Cross Fuel) as (polys' & O & M & E).
  rewrite <- (cut_above ms W). apply (overlay_parents std fuel polys' op (marked ms) Laws Sorts O Fuel2 r rz) with (i := i); auto. now rewrite <- E.
Qed.

Lemma cross_again : forall std' fuel' polys' op' zs' outs, roomy (marked ms) -> regions_are r rz outs zs' ->
  std_laws std' -> sorts std' -> Forall2 (fun p z => has_corners (fst p) z) polys' zs' -> (2 * length (edges zs') <= fuel')%nat ->
  covered (map snd polys') zs' -> ~ In RemoveInterior (map snd polys') ->
  exists r', compute std' fuel' polys' op' = Ok r' /\ has_corners r' rz /\ forall j c c', nth_error r j = Some c -> nth_error r' j = Some c' ->
    c_holes c' = c_holes c /\ c_external c' = c_external c /\ c_neighbors c' = c_neighbors c
    /\ forall k i, nth_error outs k = Some i -> nth_error (c_from c') k = Some true <-> in_region r i j.
Proof.
  intros std' fuel' polys' op' zs' outs R A L' S' P F' V I. destruct (cross_tidy std fuel polys op ms Laws Sorts Cross Fuel) as (q & O & M & E).
  apply (overlay_again std std' fuel fuel' q polys' op op' (marked ms) zs' Laws Sorts O Fuel2 R r rz outs); auto. now rewrite <- E.
Qed.
End Cross.
