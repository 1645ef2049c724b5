(** Marking points on the sides of polygons changes nothing about which places they are round. *)

From Coq Require Import List ZArith QArith Bool Arith Lia Lqa.
From Verif Require Import Base Float Geometry Sweep Contours Compute SpecShape SpecOrder SpecIntersect SpecHandle SpecTidy SpecOverlay SpecFollow SpecCompute
  OrderFacts TidyGeo OverlayFacts FollowFacts CrossSamples CrossSetup CrossOverlay SpecCross.
Import ListNotations.
Local Open Scope Z_scope.

Lemma qlt_lt : forall a b, qlt a b = true <-> (a < b)%Q.
Proof. intros a b. unfold qlt. rewrite Qlt_alt. destruct (a ?= b)%Q; intuition discriminate. Qed.

Lemma qlt_iff : forall a b c d, ((a < b)%Q <-> (c < d)%Q) -> qlt a b = qlt c d.
Proof.
  intros a b c d H. destruct (qlt a b) eqn:E, (qlt c d) eqn:F; auto.
  - apply qlt_lt, H, qlt_lt in E. congruence.
  - apply qlt_lt, H, qlt_lt in F. congruence.
Qed.

(** Over a line with the slope [k / m] and [k' / m'] through the same point. *)
Lemma same_slope : forall (k m k' m' u v : Q), (0 < m)%Q -> (0 < m')%Q -> (k * m' == k' * m)%Q -> (k * u < v * m)%Q <-> (k' * u < v * m')%Q.
Proof.
  intros k m k' m' u v M M' K. split; intros H.
  - apply (Qmult_lt_l _ _ m' M') in H. apply (Qmult_lt_l _ _ m M). setoid_replace (m * (k' * u))%Q with (m' * (k * u))%Q; [setoid_replace (m * (v * m'))%Q with (m' * (v * m))%Q by ring; exact H|].
    transitivity ((k' * m) * u)%Q; [ring|]. rewrite <- K. ring.
  - apply (Qmult_lt_l _ _ m M) in H. apply (Qmult_lt_l _ _ m' M'). setoid_replace (m' * (k * u))%Q with (m * (k' * u))%Q; [setoid_replace (m' * (v * m))%Q with (m * (v * m'))%Q by ring; exact H|].
    transitivity ((k * m') * u)%Q; [ring|]. rewrite K. ring.
Qed.

Lemma lex_lt : forall a b, lex_z a b = Lt -> fst a < fst b \/ (fst a = fst b /\ snd a < snd b).
Proof. intros [xa ya] [xb yb] H. unfold lex_z in H. cbn [fst snd] in *. destruct (xa ?= xb) eqn:E; try discriminate; [right|left; now apply Z.compare_lt_iff]. apply Z.compare_eq_iff in E. split; [exact E|now apply Z.compare_lt_iff]. Qed.

Definition below i a b x y : nat := if passes_below (mk_edge i a b) x y then 1%nat else 0%nat.

Lemma below_split : forall i a b c x y, lex_z a b = Lt -> lex_z b c = Lt -> orient a b c = 0 -> (below i a b x y + below i b c x y = below i a c x y)%nat.
Proof.
  intros i [xa ya] [xb yb] [xc yc] x y H1 H2 H3. apply lex_lt in H1, H2. cbn [fst snd] in *. unfold orient, vcross, vsub in H3. cbn [fst snd] in H3.
  unfold below, passes_below. cbn [e_left e_right].
  destruct (Z.eq_dec xa xb) as [Q1|Q1].
  { assert (Q2 : xb = xc) by (destruct H2 as [H2|[H2 _]]; auto; nia). assert (V : forall w, negb (qlt x (inject_Z w)) && qlt x (inject_Z w) = false) by (intros w; destruct (qlt x (inject_Z w)); reflexivity).
    subst. rewrite !V. reflexivity. }
  assert (Q2 : xb < xc) by (destruct H2 as [H2|[H2 H2']]; auto; nia). assert (Q3 : xa < xb) by lia. clear H1 H2 Q1.
  assert (Z2 := Q2). assert (Z3 := Q3). rewrite Zlt_Qlt in Z2, Z3.
  assert (P : forall u w, u < w -> (0 < inject_Z (w - u))%Q) by (intros u w ?; change 0%Q with (inject_Z 0); rewrite <- Zlt_Qlt; lia).
  assert (L1 : qlt (inject_Z (yb - ya) * (x - inject_Z xa)) ((y - inject_Z ya) * inject_Z (xb - xa)) = qlt (inject_Z (yc - ya) * (x - inject_Z xa)) ((y - inject_Z ya) * inject_Z (xc - xa))).
  { apply qlt_iff, same_slope; [apply P; lia|apply P; lia|]. rewrite <- !inject_Z_mult, inject_Z_injective. nia. }
  assert (L2 : qlt (inject_Z (yc - yb) * (x - inject_Z xb)) ((y - inject_Z yb) * inject_Z (xc - xb)) = qlt (inject_Z (yc - ya) * (x - inject_Z xa)) ((y - inject_Z ya) * inject_Z (xc - xa))).
  { transitivity (qlt (inject_Z (yc - ya) * (x - inject_Z xb)) ((y - inject_Z yb) * inject_Z (xc - xa))).
    - apply qlt_iff, same_slope; [apply P; lia|apply P; lia|]. rewrite <- !inject_Z_mult, inject_Z_injective. nia.
    - apply qlt_iff. assert (E : (inject_Z (yc - ya) * inject_Z (xb - xa) == inject_Z (yb - ya) * inject_Z (xc - xa))%Q) by (rewrite <- !inject_Z_mult, inject_Z_injective; nia).
      unfold Zminus in *. rewrite !inject_Z_plus, !inject_Z_opp in *. split; intros H; lra. }
  rewrite L1, L2. set (o := qlt (inject_Z (yc - ya) * _) _). destruct o; [rewrite !andb_true_r|now rewrite !andb_false_r].
  destruct (qlt x (inject_Z xa)) eqn:A, (qlt x (inject_Z xb)) eqn:B, (qlt x (inject_Z xc)) eqn:C; cbn; auto; exfalso;
    repeat match goal with
      | H : qlt _ _ = true |- _ => apply qlt_lt in H
      | H : qlt ?a ?b = false |- _ => assert (~ (a < b)%Q) by (rewrite <- qlt_lt; congruence); clear H
      end; lra.
Qed.

Lemma swap_side : forall i a b, left_to_right i (b, a) = left_to_right i (a, b).
Proof.
  intros i [xa ya] [xb yb]. unfold left_to_right, lex_z. cbn [fst snd]. rewrite (Z.compare_antisym xa xb), (Z.compare_antisym ya yb).
  destruct (xa ?= xb) eqn:E; cbn [CompOpp]; auto. apply Z.compare_eq_iff in E. subst. destruct (ya ?= yb) eqn:F; cbn [CompOpp]; auto.
Qed.

(** How many of the parts of the line [l] pass below a point. *)
Definition hits i (l : list (Z * Z)) x y : nat := length (filter (fun e => passes_below e x y) (flat_map (left_to_right i) (steps l))).

Lemma hits_cons : forall i a b l x y, lex_z a b = Lt -> hits i (a :: b :: l) x y = (below i a b x y + hits i (b :: l) x y)%nat.
Proof. intros i a b l x y H. unfold hits. rewrite steps_cons. cbn [flat_map]. unfold left_to_right at 1. cbn [fst snd]. rewrite H. cbn [app filter]. unfold below. destruct (passes_below _ x y); reflexivity. Qed.

Lemma forward_trans : forall l a b, forward (a :: l) -> In b l -> lex_z a b = Lt.
Proof.
  induction l as [|c l IH]; intros a b H K; [elim K|]. destruct H as [H1 H2], K as [K|K].
  - now subst.
  - pose proof (IH c b H2 K) as X. apply lex_lt in H1, X. destruct a as [xa ya], b as [xb yb], c as [xc yc]. unfold lex_z. cbn [fst snd] in *.
    destruct (xa ?= xb) eqn:E; auto; [apply Z.compare_eq_iff in E; apply Z.compare_lt_iff|rewrite Z.compare_gt_iff in E]; lia.
Qed.

Lemma forward_hits : forall i x y l a, forward (a :: l) -> l <> [] -> (forall p q r, In p (a :: l) -> In q (a :: l) -> In r (a :: l) -> orient p q r = 0) ->
  hits i (a :: l) x y = below i a (last l (0, 0)) x y.
Proof.
  induction l as [|b l IH]; intros a F N O; [now elim N|]. destruct F as [F1 F2]. rewrite (hits_cons i a b l x y F1). destruct l as [|c l].
  - cbn. apply Nat.add_0_r.
  - rewrite (IH b F2); [|discriminate|intros p q r Hp Hq Hr; apply O; now right]. change (last (b :: c :: l) (0, 0)) with (last (c :: l) (0, 0)).
    assert (I : In (last (c :: l) (0, 0)) (c :: l)) by (destruct (exists_last (l := c :: l)) as (m & z & ->); [discriminate|rewrite last_last; apply in_or_app; right; now left]).
    apply below_split; [exact F1|now apply (forward_trans (c :: l))|]. apply O; [now left|right; now left|right; now right].
Qed.

Lemma filter_rev : forall {A} (f : A -> bool) l, filter f (rev l) = rev (filter f l).
Proof. intros A f. induction l as [|a l IH]; auto. cbn [rev filter]. rewrite filter_app, IH. cbn [filter]. destruct (f a); [reflexivity|apply app_nil_r]. Qed.

Lemma steps_rev : forall {A} (l : list A), steps (rev l) = rev (map (fun s => (snd s, fst s)) (steps l)).
Proof.
  intros A. induction l as [|a l IH]; auto. destruct l as [|b l]; auto. rewrite steps_cons. cbn [map rev fst snd]. rewrite <- IH. cbn [rev]. rewrite <- app_assoc. cbn [app]. rewrite (steps_app (rev l) b [a]). reflexivity.
Qed.

Lemma hits_rev : forall i l x y, hits i (rev l) x y = hits i l x y.
Proof.
  intros i l x y. unfold hits. rewrite steps_rev. assert (G : forall s, length (filter (fun e => passes_below e x y) (flat_map (left_to_right i) (rev (map (fun s : (Z * Z) * (Z * Z) => (snd s, fst s)) s))))
    = length (filter (fun e => passes_below e x y) (flat_map (left_to_right i) s))); [|apply G].
  induction s as [|[a b] s IH]; auto. cbn [map rev fst snd]. rewrite flat_map_app, filter_app, app_length, IH. cbn [flat_map]. rewrite app_nil_r, swap_side, filter_app, app_length. lia.
Qed.

Lemma straight_hits : forall i l x y, (2 <= length l)%nat -> straight l -> hits i l x y = length (filter (fun e => passes_below e x y) (left_to_right i (hd (0, 0) l, last l (0, 0)))).
Proof.
  intros i l x y L [F O].
  assert (G : forall l, (2 <= length l)%nat -> forward l -> (forall p q r, In p l -> In q l -> In r l -> orient p q r = 0) -> hits i l x y = length (filter (fun e => passes_below e x y) (left_to_right i (hd (0, 0) l, last l (0, 0))))).
  { clear. intros l L F O. destruct l as [|a [|b l]]; cbn [length] in L; try lia. rewrite (forward_hits i x y (b :: l) a F); [|discriminate|exact O]. cbn [hd]. change (last (a :: b :: l) (0, 0)) with (last (b :: l) (0, 0)).
    assert (I : In (last (b :: l) (0, 0)) (b :: l)) by (destruct (exists_last (l := b :: l)) as (m & z & ->); [discriminate|rewrite last_last; apply in_or_app; right; now left]).
    unfold left_to_right, below. cbn [fst snd]. rewrite (forward_trans _ _ _ F I). cbn [filter]. now destruct (passes_below _ x y). }
  destruct F as [F|F]; [now apply G|]. rewrite <- hits_rev, (G (rev l)); [|now rewrite rev_length|exact F|intros p q r Hp Hq Hr; apply O; now apply in_rev].
  rewrite swap_side. f_equal. f_equal. f_equal.
  destruct l as [|a l]; [cbn [length] in L; lia|]. cbn [rev hd]. rewrite last_last. f_equal.
  destruct (exists_last (l := a :: l)) as (m & z & E); [discriminate|]. rewrite E, last_last. change (rev l ++ [a]) with (rev (a :: l)). rewrite E, rev_app_distr. reflexivity.
Qed.

Lemma routes_to_long : forall c a l, In l (routes_to a c) -> (2 <= length l)%nat.
Proof.
  induction c as [|[v k] c IH]; intros a l H; [elim H|]. cbn [routes_to] in H. destruct H as [<-|H]; [|now apply (IH a)]. cbn [length]. rewrite app_length. cbn [length]. lia.
Qed.
Lemma routes_long : forall ms i r, In r (routes_from i ms) -> (2 <= length (snd r))%nat.
Proof.
  induction ms as [|z ms IH]; intros i r H; [elim H|]. cbn [routes_from] in H. apply in_app_or in H. destruct H as [H|H]; [|now apply (IH (S i))].
  apply in_map_iff in H. destruct H as (l & <- & H). apply in_flat_map in H. destruct H as (c & _ & H). destruct c as [|m c]; [elim H|]. cbn [snd]. now apply (routes_to_long (m :: c) (fst m)).
Qed.

Lemma cut_crossings : forall ms, (forall r, In r (routes ms) -> straight (snd r)) -> forall i x y, crossings (marked ms) i x y = crossings (plain ms) i x y.
Proof.
  intros ms H i x y. unfold crossings, edges. rewrite marked_edges, plain_edges. unfold routes in H. pose proof (routes_long ms 0) as L. revert H L. generalize (routes_from 0 ms). clear ms.
  induction l as [|r l IH]; intros H L; auto. cbn [flat_map]. rewrite !filter_app, !app_length, IH; [|intros r' Hr'; apply H; now right|intros r' Hr'; apply L; now right]. f_equal. specialize (H r (or_introl eq_refl)). specialize (L r (or_introl eq_refl)).
  destruct r as [k ps]. cbn [snd] in *. unfold route_edges, whole_edge. cbn [fst snd].
  assert (G : forall es, (forall e, In e es -> e_poly e = k) -> length (filter (fun e => (e_poly e =? i)%nat && passes_below e x y) es) = if (k =? i)%nat then length (filter (fun e => passes_below e x y) es) else 0%nat).
  { clear. induction es as [|e es IH]; intros H; [now destruct (k =? i)%nat|]. cbn [filter]. rewrite (H e (or_introl eq_refl)). destruct (k =? i)%nat eqn:E; cbn [andb].
    - destruct (passes_below e x y); cbn [length]; rewrite IH; auto; intros; apply H; now right.
    - apply IH. intros; apply H; now right. }
  assert (E : forall s e, In e (left_to_right k s) -> e_poly e = k) by (intros s e X; unfold left_to_right in X; destruct (lex_z _ _); cbn in X; intuition; subst; reflexivity).
  rewrite !G; [|intros e; apply E|intros e X; apply in_flat_map in X; destruct X as (s & _ & X); exact (E s e X)]. destruct (k =? i)%nat; auto. exact (straight_hits k ps x y L H).
Qed.

Lemma marked_len : forall ms, length (marked ms) = length (plain ms).
Proof. intros ms. unfold marked, plain. now rewrite !map_length. Qed.

Lemma cut_place : forall ms, cut_well ms -> forall x y, place_of (marked ms) x y = place_of (plain ms) x y.
Proof. intros ms W x y. unfold place_of. rewrite marked_len. apply map_ext. intros i. now rewrite (cut_crossings ms (cut_straight ms W)). Qed.

Lemma cut_kept : forall ms, cut_well ms -> forall modes x y, kept_at modes (marked ms) x y <-> kept_at modes (plain ms) x y.
Proof.
  intros ms W modes x y. unfold kept_at, kept_place, inner_below.
  split; intros [(i & I1 & I2) H]; (split; [exists i; split; [exact I1|]|intros k Hk; apply H]); [rewrite <- (cut_crossings ms (cut_straight ms W))|rewrite (cut_crossings ms (cut_straight ms W))|rewrite (cut_crossings ms (cut_straight ms W))|rewrite <- (cut_crossings ms (cut_straight ms W))]; assumption.
Qed.

(** *** What follows for polygons that cross *)

Lemma has_fit : forall zs modes, Forall (Forall (Forall (within (2 ^ 24)))) zs -> Forall2 (fun p z => has_points (fst p) z) (shapes zs modes) zs ->
  Forall2 (fun p z => has_corners (fst p) z) (shapes zs modes) zs.
Proof.
  intros zs modes. generalize (shapes zs modes). clear modes. intros ps W H. induction H as [|p z ps zs P H IH]; constructor.
  - inversion W; subst. now apply points_corners.
  - apply IH. now inversion W.
Qed.

Lemma cross_tidy : forall std fuel polys op ms, std_laws std -> sorts std -> crossable polys ms -> (3 * length (edges (marked ms)) <= fuel)%nat ->
  exists polys', overlayable polys' (marked ms) /\ map snd polys' = map snd polys /\ compute std fuel polys op = compute std fuel polys' op.
Proof.
  intros std fuel polys op ms L S (H & W & C & V) F. exists (shapes (marked ms) (map snd polys)).
  assert (N : length (marked ms) = length (map snd polys)) by (rewrite marked_len, map_length; symmetry; clear - H; induction H; cbn [length]; auto).
  destruct (shapes_points (marked ms) (map snd polys) N) as [P1 P2].
  split; [|split; [exact P2|]].
  - split; [apply has_fit; [exact (proj1 (cut_tidy ms W))|exact P1]|]. rewrite P2. split; [exact (cut_tidy ms W)|]. now split.
  - apply (overlay_cut std ms); auto. lia.
Qed.

Section Cross.
Variables (std : std_impl) (fuel : nat) (polys : input) (op : boolean_op) (ms : list (list (list mark))).
Hypothesis Laws : std_laws std.
Hypothesis Sorts : sorts std.
Hypothesis Cross : crossable polys ms.
Hypothesis Fuel : (3 * length (edges (marked ms)) <= fuel)%nat.

Let W : cut_well ms := proj1 (proj2 Cross).
Let Fuel2 : (2 * length (edges (marked ms)) <= fuel)%nat.
Proof. lia. Qed.

Lemma cross_ends : exists r rz, compute std fuel polys op = Ok r /\ has_corners r rz.
Proof. destruct (cross_tidy std fuel polys op ms Laws Sorts Cross Fuel) as (polys' & O & M & E). rewrite E. exact (overlay_ends std fuel polys' op (marked ms) Laws Sorts O Fuel2). Qed.

Variables (r : polygon) (rz : corners).
Hypothesis Done : compute std fuel polys op = Ok r.
Hypothesis Corners : has_corners r rz.

Lemma cross_covers : forall (P : list bool -> bool) x y,
  let lines := map snd (filter (fun cl => P (c_from (fst cl))) (combine r rz)) in
  (kept_at (map snd polys) (plain ms) x y /\ P (place_of (plain ms) x y) = true -> windings x y lines = 1)
  /\ (~ (kept_at (map snd polys) (plain ms) x y /\ P (place_of (plain ms) x y) = true) -> windings x y lines = 0).
Proof.
  intros P x y. destruct (cross_tidy std fuel polys op ms Laws Sorts Cross Fuel) as (polys' & O & M & E).
  intros lines. pose proof (cut_kept ms W (map snd polys) x y) as K. assert (D : compute std fuel polys' op = Ok r) by now rewrite <- E.
  pose proof (overlay_covers std fuel polys' op (marked ms) Laws Sorts O Fuel2 r rz D Corners P x y) as X. cbv zeta in X. rewrite M, (cut_place ms W) in X. fold lines in X. tauto.
Qed.

Lemma cross_places : forall x y,
  (kept_at (map snd polys) (plain ms) x y -> exists i, outer r i /\ (exists js, region_of r i js /\ goes_round rz js x y = 1)
     /\ forall k js, outer r k -> region_of r k js -> goes_round rz js x y = 1 -> k = i)
  /\ forall i c js, outer r i -> nth_error r i = Some c -> region_of r i js -> goes_round rz js x y = 1 ->
       kept_at (map snd polys) (plain ms) x y /\ c_from c = place_of (plain ms) x y.
Proof.
  intros x y. destruct (cross_tidy std fuel polys op ms Laws Sorts Cross Fuel) as (polys' & O & M & E).
  pose proof (cut_kept ms W (map snd polys) x y) as K. assert (D : compute std fuel polys' op = Ok r) by now rewrite <- E.
  destruct (overlay_places std fuel polys' op (marked ms) Laws Sorts O Fuel2 r rz D Corners x y) as [X1 X2]. rewrite M, (cut_place ms W) in *. split; [tauto|].
  intros i c js Hi Hc Hj G. destruct (X2 i c js Hi Hc Hj G) as [Y1 Y2]. split; [tauto|exact Y2].
Qed.

Lemma cross_shapes : forall i c l x y, nth_error r i = Some c -> nth_error rz i = Some l ->
  (c_external c = true -> 0 < shoelace l /\ (winding x y l = 0 \/ winding x y l = 1))
  /\ (c_external c = false -> shoelace l < 0 /\ (winding x y l = 0 \/ winding x y l = -1)).
Proof.
  destruct (cross_tidy std fuel polys op ms Laws Sorts Cross Fuel) as (polys' & O & M & E).
  apply (overlay_shapes std fuel polys' op (marked ms) Laws Sorts O Fuel2 r rz); [now rewrite <- E|exact Corners].
Qed.

Lemma cross_regions :
  (forall j, (j < length r)%nat -> exists i, outer r i /\ in_region r i j /\ forall k, outer r k -> in_region r k j -> k = i)
  /\ (forall i, outer r i -> exists js, region_of r i js)
  /\ (forall i j c c', outer r i -> in_region r i j -> nth_error r i = Some c -> nth_error r j = Some c' -> c_from c' = c_from c)
  /\ (forall i js x y, outer r i -> region_of r i js -> goes_round rz js x y = 0 \/ goes_round rz js x y = 1).
Proof.
  destruct (cross_tidy std fuel polys op ms Laws Sorts Cross Fuel) as (polys' & O & M & E).
  apply (overlay_regions std fuel polys' op (marked ms) Laws Sorts O Fuel2 r rz); [now rewrite <- E|exact Corners].
Qed.

Lemma cross_sides : NoDup (flat_map sides rz)
  /\ forall a b, In (a, b) (flat_map sides rz) <-> exists e, In e (edges (marked ms)) /\ kept_sides (map snd polys) (marked ms) e a b.
Proof.
  destruct (cross_tidy std fuel polys op ms Laws Sorts Cross Fuel) as (polys' & O & M & E).
  rewrite <- M. apply (overlay_sides std fuel polys' op (marked ms) Laws Sorts O Fuel2 r rz); [now rewrite <- E|exact Corners].
Qed.

Lemma cross_neighbours : forall i j ci li lj, nth_error r i = Some ci -> nth_error rz i = Some li -> nth_error rz j = Some lj ->
  nth_error (c_neighbors ci) j = Some true <-> exists a b, In (a, b) (sides li) /\ In (b, a) (sides lj).
Proof.
  destruct (cross_tidy std fuel polys op ms Laws Sorts Cross Fuel) as (polys' & O & M & E).
  apply (overlay_neighbours std fuel polys' op (marked ms) Laws Sorts O Fuel2 r rz); [now rewrite <- E|exact Corners].
Qed.

Lemma cross_followed : well_followed rz.
Proof.
  destruct (cross_tidy std fuel polys op ms Laws Sorts Cross Fuel) as (polys' & O & M & E).
  apply (overlay_followed std fuel polys' op (marked ms) Laws Sorts O Fuel2 r rz); [now rewrite <- E|exact Corners].
Qed.

End Cross.

Lemma cross_order_free : forall std std' fuel fuel' polys polys' op op' ms ms' sigma,
  std_laws std -> sorts std -> crossable polys ms -> (3 * length (edges (marked ms)) <= fuel)%nat ->
  std_laws std' -> sorts std' -> crossable polys' ms' -> (3 * length (edges (marked ms')) <= fuel')%nat ->
  same_polygons sigma (marked ms) (marked ms') ->
  (forall i, (i < length polys)%nat -> nth_error (map snd polys') (sigma i) = nth_error (map snd polys) i) ->
  forall r r' rz rz', compute std fuel polys op = Ok r -> compute std' fuel' polys' op' = Ok r' -> has_corners r rz -> has_corners r' rz' ->
  rz' = rz /\ forall i c c', nth_error r i = Some c -> nth_error r' i = Some c' ->
    c_holes c' = c_holes c /\ c_external c' = c_external c /\ c_neighbors c' = c_neighbors c
    /\ forall k, (k < length polys)%nat -> nth_error (c_from c') (sigma k) = nth_error (c_from c) k.
Proof.
  intros std std' fuel fuel' polys polys' op op' ms ms' sigma L S C F L' S' C' F' P M r r' rz rz' R R' Z Z'.
  destruct (cross_tidy std fuel polys op ms L S C F) as (q & O & Mq & E). destruct (cross_tidy std' fuel' polys' op' ms' L' S' C' F') as (q' & O' & Mq' & E').
  assert (N : length q = length polys) by (rewrite <- (map_length snd q), Mq; apply map_length).
  rewrite <- Mq, <- Mq', <- N in M. rewrite <- N.
  apply (order_free std std' fuel fuel' q q' op op' (marked ms) (marked ms') sigma); auto; try lia; [now rewrite <- E|now rewrite <- E'].
Qed.
