(** Rectangles with sides on different lines of the grid, cut where they cross. *)

From Coq Require Import List ZArith QArith Bool Arith Lia Sorted.
From Verif Require Import Base Sweep Contours Compute SpecShape SpecOrder SpecIntersect SpecHandle SpecTidy SpecOverlay SpecCompute TidySamples OverlaySamples CrossSetup CrossCover GridFacts GridCut GridLines
  GridSamples SpecCross SpecGrid SpecRects.
Import ListNotations.
Local Open Scope Z_scope.

(** *** Lists of values *)

Lemma sorted_filter : forall f l, StronglySorted Z.lt l -> StronglySorted Z.lt (filter f l).
Proof.
  intros f. induction l as [|a l IH]; intros S; [constructor|]. inversion S as [|? ? S' F]; subst. cbn [filter]. destruct (f a); [|now apply IH]. constructor; [now apply IH|].
  rewrite Forall_forall in *. intros b B. apply filter_In in B. now apply F.
Qed.

Lemma sorted_app : forall l m, StronglySorted Z.lt l -> StronglySorted Z.lt m -> (forall a b, In a l -> In b m -> a < b) -> StronglySorted Z.lt (l ++ m).
Proof.
  induction l as [|a l IH]; intros m S T X; [exact T|]. inversion S as [|? ? S' F]; subst. cbn [app]. constructor; [apply IH; auto; intros; apply X; [now right|assumption]|].
  apply Forall_app. split; [exact F|]. rewrite Forall_forall. intros b B. apply X; [now left|exact B].
Qed.

Section Values.
  Variable g : Z.
  Hypothesis Hg : 0 <= g <= 7.

  (** The points of the grid between two that are at most 21 steps apart; never computed. *)
  Lemma inner_sig : {f | forall lo hi, f lo hi = filter (fun v => v <? hi) (map (fun i => lo + 2 ^ g * Z.of_nat i) (seq 1 20))}.
  Proof using. eexists. reflexivity. Qed.
  Definition inner (lo hi : Z) : list Z := proj1_sig inner_sig lo hi.
  Lemma inner_eq : forall lo hi, inner lo hi = filter (fun v => v <? hi) (map (fun i => lo + 2 ^ g * Z.of_nat i) (seq 1 20)).
  Proof using. exact (proj2_sig inner_sig). Qed.
  Definition vals (f : Z -> bool) (lo hi : Z) : list Z := lo :: filter f (inner lo hi) ++ [hi].

  Lemma step_pos : 1 <= 2 ^ g <= 128.
  Proof using Hg. split; [change 1 with (2 ^ 0)|change 128 with (2 ^ 7)]; apply Z.pow_le_mono_r; lia. Qed.

  Lemma inner_bounds : forall lo hi v, In v (inner lo hi) -> lo < v < hi /\ exists k, v = lo + 2 ^ g * k.
  Proof using Hg.
    intros lo hi v H. pose proof step_pos. rewrite inner_eq in H. apply filter_In in H. destruct H as [H B]. apply Z.ltb_lt in B. apply in_map_iff in H. destruct H as (i & <- & I). apply in_seq in I.
    split; [nia|eauto].
  Qed.
  Lemma inner_in : forall lo hi v k, hi - lo <= 2 ^ g * 21 -> lo < v < hi -> v = lo + 2 ^ g * k -> In v (inner lo hi).
  Proof using Hg.
    intros lo hi v k R B E. pose proof step_pos. rewrite inner_eq. apply filter_In. split; [|apply Z.ltb_lt; lia]. apply in_map_iff. exists (Z.to_nat k).
    assert (1 <= k < 21) by nia. split; [rewrite Z2Nat.id; lia|]. apply in_seq. lia.
  Qed.
  Lemma inner_sorted : forall lo hi, StronglySorted Z.lt (inner lo hi).
  Proof using Hg.
    intros lo hi. pose proof step_pos. rewrite inner_eq. apply sorted_filter. generalize 1%nat, 20%nat. intros s n. revert s. induction n as [|n IH]; intros s; [constructor|]. cbn [seq map]. constructor; [apply IH|].
    rewrite Forall_forall. intros v V. apply in_map_iff in V. destruct V as (i & <- & I). apply in_seq in I. nia.
  Qed.

  Lemma vals_bounds : forall f lo hi v, lo < hi -> In v (vals f lo hi) -> lo <= v <= hi.
  Proof using Hg.
    intros f lo hi v L H. unfold vals in H. cbn [In] in H. rewrite in_app_iff in H. cbn [In] in H. destruct H as [<-|[H|[<-|[]]]]; try lia. apply filter_In in H. destruct H as [H _]. apply inner_bounds in H. lia.
  Qed.
  Lemma vals_sorted : forall f lo hi, lo < hi -> StronglySorted Z.lt (vals f lo hi).
  Proof using Hg.
    intros f lo hi L. unfold vals. constructor.
    - apply sorted_app; [apply sorted_filter, inner_sorted|repeat constructor|]. intros a b A [<-|[]]. apply filter_In in A. destruct A as [A _]. apply inner_bounds in A. lia.
    - rewrite Forall_forall. intros v V. apply in_app_iff in V. destruct V as [V|[<-|[]]]; [|exact L]. apply filter_In in V. destruct V as [V _]. apply inner_bounds in V. lia.
  Qed.
  Lemma vals_ends : forall f lo hi, In lo (vals f lo hi) /\ In hi (vals f lo hi).
  Proof using. intros f lo hi. unfold vals. split; [now left|]. right. apply in_or_app. right. now left. Qed.
  Lemma vals_mid : forall f lo hi pre v post, vals f lo hi = pre ++ v :: post -> pre <> [] -> post <> [] -> In v (inner lo hi) /\ f v = true.
  Proof using.
    intros f lo hi pre v post E N1 N2. unfold vals in E. destruct pre as [|p pre]; [now elim N1|]. cbn [app] in E. injection E as _ E. destruct (exists_last N2) as (q & z & ->).
    rewrite app_comm_cons, app_assoc in E. apply app_inj_tail in E. destruct E as [E _]. apply filter_In. rewrite E. apply in_or_app. right. now left.
  Qed.
  Lemma vals_split : forall f lo hi v, In v (inner lo hi) -> f v = true -> exists pre post, vals f lo hi = pre ++ v :: post /\ pre <> [].
  Proof using.
    intros f lo hi v V F. assert (I : In v (filter f (inner lo hi) ++ [hi])) by (apply in_or_app; left; apply filter_In; auto). apply in_split in I. destruct I as (p & q & E). exists (lo :: p), q. unfold vals. rewrite E. split; [reflexivity|discriminate].
  Qed.
  Lemma vals_len : forall f lo hi, (length (vals f lo hi) <= 22)%nat.
  Proof using.
    intros f lo hi. unfold vals. cbn [length]. rewrite app_length. cbn [length].
    assert (Fl : forall {A} (f : A -> bool) l, (length (filter f l) <= length l)%nat) by (clear; intros A f; induction l as [|a l IH]; cbn; [lia|]; destruct (f a); cbn; lia).
    pose proof (Fl _ f (inner lo hi)). rewrite inner_eq in *. pose proof (Fl _ (fun v => v <? hi) (map (fun i => lo + 2 ^ g * Z.of_nat i) (seq 1 20))) as Q. rewrite map_length, seq_length in Q. lia.
  Qed.
End Values.

Lemma flat_once : forall {A B} (f : A -> list B) l a b v, NoDup (flat_map f l) -> In a l -> In b l -> In v (f a) -> In v (f b) -> a = b.
Proof.
  intros A B f. assert (D : forall l m : list B, NoDup (l ++ m) -> NoDup m /\ forall v, In v l -> In v m -> False).
  { induction l as [|c l IH]; intros m N; [split; [exact N|intros v []]|]. cbn [app] in N. inversion N as [|? ? N1 N2]; subst. destruct (IH m N2) as [I1 I2]. split; [exact I1|].
    intros v [<-|V] M; [apply N1, in_or_app; now right|now apply (I2 v)]. }
  induction l as [|c l IH]; intros a b v N Ia Ib Va Vb; [destruct Ia|]. cbn [flat_map] in N. apply D in N. destruct N as [N1 N2].
  destruct Ia as [<-|Ia], Ib as [<-|Ib]; [reflexivity| | |now apply (IH a b v)]; exfalso; apply (N2 v); auto; apply in_flat_map; eauto.
Qed.

Section Rects.
  Variable g : Z.
  Variable rss : list (list rect).
  Hypothesis Hs : spread_out g rss.

  Notation rs := (concat rss).
  Definition xs (r : rect) : list Z := [r_left r; r_right r].
  Definition ys (r : rect) : list Z := [r_bottom r; r_top r].

  (** A vertical side at [x] passes the height [y]; a horizontal one at [y] passes [x]. *)
  Definition passes_v (y x : Z) : bool := existsb (fun r => ((x =? r_left r) || (x =? r_right r)) && (r_bottom r <? y) && (y <? r_top r)) rs.
  Definition passes_h (x y : Z) : bool := existsb (fun r => ((y =? r_bottom r) || (y =? r_top r)) && (r_left r <? x) && (x <? r_right r)) rs.
  Definition hvals (r : rect) (y : Z) : list Z := vals g (passes_v y) (r_left r) (r_right r).
  Definition vvals (r : rect) (x : Z) : list Z := vals g (passes_h x) (r_bottom r) (r_top r).
  Definition rect_lines (i : nat) (r : rect) : list line :=
    [mk_line i true (r_bottom r) (hvals r (r_bottom r)) false; mk_line i false (r_right r) (vvals r (r_right r)) false;
     mk_line i true (r_top r) (hvals r (r_top r)) true; mk_line i false (r_left r) (vvals r (r_left r)) true].
  Fixpoint lines_from (i : nat) (l : list (list rect)) : list line :=
    match l with [] => [] | z :: l' => flat_map (rect_lines i) z ++ lines_from (S i) l' end.

  Definition hmarks (r : rect) (y : Z) : list (Z * Z) := map (fun x => (x, y)) (filter (passes_v y) (inner g (r_left r) (r_right r))).
  Definition vmarks (r : rect) (x : Z) : list (Z * Z) := map (fun y => (x, y)) (filter (passes_h x) (inner g (r_bottom r) (r_top r))).
  Definition rect_marks (r : rect) : list mark :=
    [((r_left r, r_bottom r), hmarks r (r_bottom r)); ((r_right r, r_bottom r), vmarks r (r_right r));
     ((r_right r, r_top r), rev (hmarks r (r_top r))); ((r_left r, r_top r), rev (vmarks r (r_left r)))].
  Definition rects_marks : list (list (list mark)) := map (map rect_marks) rss.

  Lemma rects_plain : plain rects_marks = map (map rect_corners) rss.
  Proof using. clear. unfold plain, rects_marks. rewrite map_map. apply map_ext. intros z. rewrite map_map. reflexivity. Qed.

  Lemma rects_routes : routes rects_marks = map line_route (lines_from 0 rss).
  Proof using.
    clear Hs. unfold routes, rects_marks. generalize 0%nat. generalize rss. intros l. induction l as [|z l IH]; intros i; [reflexivity|]. cbn [map routes_from lines_from]. rewrite map_app, IH. f_equal.
    induction z as [|r z IHz]; [reflexivity|]. cbn [map flat_map]. rewrite !map_app, IHz. f_equal.
    unfold rect_marks, contour_routes, routes_to, rect_lines, line_route, hvals, vvals, vals, hmarks, vmarks, spot. cbn [map fst snd l_poly l_back l_level l_at l_vals app].
    rewrite !map_app. cbn [map rev]. rewrite !rev_app_distr. reflexivity.
  Qed.

  Lemma in_lines : forall L, In L (lines_from 0 rss) -> exists i r, In r rs /\ In L (rect_lines i r).
  Proof using.
    clear Hs. generalize 0%nat. generalize rss. intros l. induction l as [|z l IH]; intros n L H; [destruct H|]. cbn [lines_from concat] in *. apply in_app_iff in H. destruct H as [H|H].
    - apply in_flat_map in H. destruct H as (r & R & H). exists n, r. split; [apply in_or_app; now left|exact H].
    - destruct (IH _ _ H) as (i & r & R & I). exists i, r. split; [apply in_or_app; now right|exact I].
  Qed.
  Lemma lines_in : forall r, In r rs -> exists i, forall L, In L (rect_lines i r) -> In L (lines_from 0 rss).
  Proof using.
    clear Hs. generalize 0%nat. generalize rss. intros l. induction l as [|z l IH]; intros n r H; [destruct H|]. cbn [lines_from concat] in *. apply in_app_iff in H. destruct H as [H|H].
    - exists n. intros L I. apply in_or_app. left. apply in_flat_map. eauto.
    - destruct (IH (S n) _ H) as (i & I). exists i. intros L J. apply in_or_app. right. now apply I.
  Qed.

  Definition tags (r : rect) : list (bool * Z) := [(true, r_bottom r); (false, r_right r); (true, r_top r); (false, r_left r)].
  Lemma lines_tags : map (fun L => (l_level L, l_at L)) (lines_from 0 rss) = flat_map tags rs.
  Proof using.
    clear Hs. generalize 0%nat. generalize rss. intros l. induction l as [|z l IH]; intros n; [reflexivity|]. cbn [lines_from concat]. rewrite map_app, flat_map_app, IH. f_equal.
    induction z as [|r z IHz]; [reflexivity|]. cbn [flat_map]. rewrite map_app, IHz. reflexivity.
  Qed.
  Lemma lines_distinct : NoDup (map (fun L => (l_level L, l_at L)) (lines_from 0 rss)).
  Proof using Hs.
    rewrite lines_tags. pose proof (so_xs g rss Hs) as X. pose proof (so_ys g rss Hs) as Y. clear Hs. induction rs as [|r l IH]; [constructor|]. cbn [flat_map app] in *.
    inversion X as [|? ? X1 X2]; subst. inversion X2 as [|? ? X3 X4]; subst. inversion Y as [|? ? Y1 Y2]; subst. inversion Y2 as [|? ? Y3 Y4]; subst. specialize (IH X4 Y4).
    assert (T : forall b v, In (b, v) (flat_map tags l) -> if b then In v (flat_map (fun r => [r_bottom r; r_top r]) l) else In v (flat_map (fun r => [r_left r; r_right r]) l)).
    { intros b v H. apply in_flat_map in H. destruct H as (q & Q & H). cbn in H. destruct H as [H|[H|[H|[H|[]]]]]; injection H as <- <-; apply in_flat_map; exists q; (split; [exact Q|cbn; auto]). }
    cbn [tags app]. constructor; [|constructor; [|constructor; [|constructor; [|exact IH]]]]; cbn [In]; intros H.
    - destruct H as [H|[H|[H|H]]]; try discriminate; [injection H as H; apply Y1; left; exact H|apply T in H; apply Y1; now right].
    - destruct H as [H|[H|H]]; try discriminate; [injection H as H; apply X1; left; now symmetry|now apply T in H].
    - destruct H as [H|H]; try discriminate. now apply T in H.
    - apply T in H. apply X1. now right.
  Qed.

  Lemma x_once : forall r r' x, In r rs -> In r' rs -> In x (xs r) -> In x (xs r') -> r = r'.
  Proof using Hs. intros r r' x. exact (flat_once xs rs r r' x (so_xs g rss Hs)). Qed.
  Lemma y_once : forall r r' y, In r rs -> In r' rs -> In y (ys r) -> In y (ys r') -> r = r'.
  Proof using Hs. intros r r' y. exact (flat_once ys rs r r' y (so_ys g rss Hs)). Qed.

  Lemma passes_v_iff : forall y x, passes_v y x = true <-> exists r, In r rs /\ In x (xs r) /\ r_bottom r < y < r_top r.
  Proof using.
    clear. intros y x. unfold passes_v. rewrite existsb_exists. split; intros (r & R & H); exists r; (split; [exact R|]); rewrite !andb_true_iff, orb_true_iff, !Z.eqb_eq, !Z.ltb_lt in *; cbn in *; intuition lia.
  Qed.
  Lemma passes_h_iff : forall x y, passes_h x y = true <-> exists r, In r rs /\ In y (ys r) /\ r_left r < x < r_right r.
  Proof using.
    clear. intros x y. unfold passes_h. rewrite existsb_exists. split; intros (r & R & H); exists r; (split; [exact R|]); rewrite !andb_true_iff, orb_true_iff, !Z.eqb_eq, !Z.ltb_lt in *; cbn in *; intuition lia.
  Qed.

  (** All coordinates are steps of the grid apart. *)
  Lemma x_steps : forall r r' x x', In r rs -> In r' rs -> In x (xs r) -> In x' (xs r') -> exists k, x' = x + 2 ^ g * k.
  Proof using Hs.
    assert (G : forall r x, In r rs -> In x (xs r) -> exists a, x = 2 ^ g * a).
    { intros r x R X. destruct (so_grid g rss Hs r R) as [(a & b & E & _) (c & d & E' & _)]. injection E as E1 E2. injection E' as E3 E4. destruct X as [<-|[<-|[]]]; eauto. }
    intros r r' x x' R R' X X'. destruct (G r x R X) as (a & ->), (G r' x' R' X') as (b & ->). exists (b - a). ring.
  Qed.
  Lemma y_steps : forall r r' y y', In r rs -> In r' rs -> In y (ys r) -> In y' (ys r') -> exists k, y' = y + 2 ^ g * k.
  Proof using Hs.
    assert (G : forall r y, In r rs -> In y (ys r) -> exists a, y = 2 ^ g * a).
    { intros r y R Y. destruct (so_grid g rss Hs r R) as [(a & b & E & _) (c & d & E' & _)]. injection E as E1 E2. injection E' as E3 E4. destruct Y as [<-|[<-|[]]]; eauto. }
    intros r r' y y' R R' Y Y'. destruct (G r y R Y) as (a & ->), (G r' y' R' Y') as (b & ->). exists (b - a). ring.
  Qed.

  Lemma line_cases : forall L, In L (lines_from 0 rss) -> exists r, In r rs /\
    (l_level L = true /\ In (l_at L) (ys r) /\ l_vals L = hvals r (l_at L) \/ l_level L = false /\ In (l_at L) (xs r) /\ l_vals L = vvals r (l_at L)).
  Proof using.
    clear Hs. intros L H. destruct (in_lines L H) as (i & r & R & I). exists r. split; [exact R|]. unfold xs, ys. cbn in I. destruct I as [<-|[<-|[<-|[<-|[]]]]]; cbn; auto 10.
  Qed.
  Lemma level_line : forall r y, In r rs -> In y (ys r) -> exists L, In L (lines_from 0 rss) /\ l_level L = true /\ l_at L = y /\ l_vals L = hvals r y.
  Proof using.
    clear Hs. intros r y R Y. destruct (lines_in r R) as (i & I). destruct Y as [<-|[<-|[]]]; [exists (mk_line i true (r_bottom r) (hvals r (r_bottom r)) false)|exists (mk_line i true (r_top r) (hvals r (r_top r)) true)]; (split; [apply I; cbn; auto|cbn; auto]).
  Qed.
  Lemma plumb_line : forall r x, In r rs -> In x (xs r) -> exists L, In L (lines_from 0 rss) /\ l_level L = false /\ l_at L = x /\ l_vals L = vvals r x.
  Proof using.
    clear Hs. intros r x R X. destruct (lines_in r R) as (i & I). destruct X as [<-|[<-|[]]]; [exists (mk_line i false (r_left r) (vvals r (r_left r)) true)|exists (mk_line i false (r_right r) (vvals r (r_right r)) false)]; (split; [apply I; cbn; auto|cbn; auto]).
  Qed.

  Lemma wide : forall r, In r rs -> 0 < r_right r - r_left r <= 2 ^ g * 21.
  Proof using Hs. exact (so_wide g rss Hs). Qed.
  Lemma high : forall r, In r rs -> 0 < r_top r - r_bottom r <= 2 ^ g * 21.
  Proof using Hs. exact (so_high g rss Hs). Qed.
  Lemma size7 : 0 <= g <= 7.
  Proof using Hs. exact (so_size g rss Hs). Qed.

  Lemma meets_both : forall r r' x y, In r rs -> In r' rs -> In y (ys r) -> In x (xs r') -> r_left r <= x <= r_right r -> r_bottom r' <= y <= r_top r' -> In x (hvals r y) /\ In y (vvals r' x).
  Proof using Hs.
    intros r r' x y R R' Y X Bx By. pose proof size7 as G.
    assert (C : x = r_left r \/ x = r_right r \/ y = r_bottom r' \/ y = r_top r' \/ (r_left r < x < r_right r /\ r_bottom r' < y < r_top r')) by lia.
    assert (S : r = r' -> In x (hvals r y) /\ In y (vvals r' x)).
    { intros <-. unfold hvals, vvals. split; [destruct X as [<-|[<-|[]]]|destruct Y as [<-|[<-|[]]]]; apply vals_ends. }
    destruct C as [C|[C|[C|[C|[Cx Cy]]]]].
    - apply S. apply (x_once r r' x R R'); [left; now symmetry|exact X].
    - apply S. apply (x_once r r' x R R'); [right; left; now symmetry|exact X].
    - apply S. apply (y_once r r' y R R'); [exact Y|left; now symmetry].
    - apply S. apply (y_once r r' y R R'); [exact Y|right; left; now symmetry].
    - pose proof (wide r R). pose proof (high r' R'). split.
      + unfold hvals, vals. right. apply in_or_app. left. apply filter_In. split; [|apply passes_v_iff; exists r'; auto].
        destruct (x_steps r r' (r_left r) x R R' (or_introl eq_refl) X) as (k & K). apply (inner_in g G _ _ x k); auto; lia.
      + unfold vvals, vals. right. apply in_or_app. left. apply filter_In. split; [|apply passes_h_iff; exists r; auto].
        destruct (y_steps r' r (r_bottom r') y R' R (or_introl eq_refl) Y) as (k & K). apply (inner_in g G _ _ y k); auto; lia.
  Qed.

  Lemma grid_between : forall lo hi v k a b, lo = 2 ^ g * a -> hi = 2 ^ g * b -> Z.abs a <= 1000 -> Z.abs b <= 1000 -> lo <= v <= hi -> v = lo + 2 ^ g * k -> exists c, v = 2 ^ g * c /\ Z.abs c <= 1000.
  Proof using Hs. intros lo hi v k a b -> -> A B V ->. pose proof (step_pos g size7). exists (a + k). split; [ring|]. nia. Qed.

  Theorem rects_cut : grid_cut g rects_marks.
  Proof using Hs.
    pose proof size7 as G. pose proof (step_pos g G) as P.
    apply (lines_cut g rects_marks (lines_from 0 rss)).
    - lia.
    - exact rects_routes.
    - intros L I. destruct (line_cases L I) as (r & R & [(_ & _ & E)|(_ & _ & E)]); rewrite E; apply (vals_sorted g G); [pose proof (wide r R)|pose proof (high r R)]; lia.
    - exact lines_distinct.
    - intros L v I V. destruct (line_cases L I) as (r & R & C). destruct (so_grid g rss Hs r R) as [(a & b & E & A & B) (c & d & E' & C' & D)]. injection E as E1 E2. injection E' as E3 E4.
      assert (Vs : forall f lo hi w p q, lo < hi -> In w (vals g f lo hi) -> lo = 2 ^ g * p -> hi = 2 ^ g * q -> Z.abs p <= 1000 -> Z.abs q <= 1000 -> exists c, w = 2 ^ g * c /\ Z.abs c <= 1000).
      { intros f lo hi w p q Lh W Ep Eq Bp Bq. pose proof (vals_bounds g G f lo hi w Lh W) as Bw. unfold vals in W. cbn [In] in W. rewrite in_app_iff in W. cbn [In] in W. destruct W as [<-|[W|[<-|[]]]]; [eauto| |eauto].
        apply filter_In in W. destruct W as [W _]. apply inner_bounds in W; [|exact G]. destruct W as (_ & k & K). exact (grid_between lo hi w k p q Ep Eq Bp Bq Bw K). }
      pose proof (wide r R). pose proof (high r R). unfold spot. destruct C as [(EL & Y & EV)|(EL & X & EV)]; rewrite EL; rewrite EV in V.
      + destruct (Vs (passes_v (l_at L)) (r_left r) (r_right r) v a c ltac:(lia) V E1 E3 A C') as (k & -> & K). destruct Y as [Y|[Y|[]]]; rewrite <- Y; [exists k, b; rewrite E2|exists k, d; rewrite E4]; auto.
      + destruct (Vs (passes_h (l_at L)) (r_bottom r) (r_top r) v b d ltac:(lia) V E2 E4 B D) as (k & -> & K). destruct X as [X|[X|[]]]; rewrite <- X; [exists a, k; rewrite E1|exists c, k; rewrite E3]; auto.
    - intros L v w I V W. destruct (line_cases L I) as (r & R & C). pose proof (wide r R). pose proof (high r R). destruct C as [(_ & _ & E)|(_ & _ & E)]; rewrite E in V, W; apply vals_bounds in V, W; try assumption; lia.
    - intros L M a b c d IL IM EL EM A B C D H1 H2. destruct (line_cases L IL) as (r & R & [(_ & Y & EV)|(X & _)]); [|congruence]. destruct (line_cases M IM) as (r' & R' & [(X & _)|(_ & X & EW)]); [congruence|].
      pose proof (wide r R). pose proof (high r' R'). rewrite EV in *. rewrite EW in *. apply vals_bounds in A, B, C, D; try assumption; try lia. apply (meets_both r r' (l_at M) (l_at L) R R' Y X); lia.
    - intros L pre v post IL E N1 N2. destruct (line_cases L IL) as (r & R & [(EL & Y & EV)|(EL & X & EV)]); rewrite EV in E.
      + destruct (vals_mid _ _ _ _ _ _ _ E N1 N2) as [I F]. apply inner_bounds in I; [|exact G]. destruct I as [I _]. apply passes_v_iff in F. destruct F as (r' & R' & X & B).
        destruct (plumb_line r' v R' X) as (M & IM & LM & AM & VM). pose proof (high r' R').
        destruct (y_steps r' r (r_bottom r') (l_at L) R' R (or_introl eq_refl) Y) as (k & K).
        destruct (vals_split g (passes_h v) (r_bottom r') (r_top r') (l_at L)) as (p & q & Q & N); [apply (inner_in g G _ _ _ k); auto; lia|apply passes_h_iff; exists r; auto|].
        exists M, p, q. split; [exact IM|]. split; [now rewrite LM, EL|]. split; [exact AM|]. split; [rewrite VM; exact Q|exact N].
      + destruct (vals_mid _ _ _ _ _ _ _ E N1 N2) as [I F]. apply inner_bounds in I; [|exact G]. destruct I as [I _]. apply passes_h_iff in F. destruct F as (r' & R' & Y & B).
        destruct (level_line r' v R' Y) as (M & IM & LM & AM & VM). pose proof (wide r' R').
        destruct (x_steps r' r (r_left r') (l_at L) R' R (or_introl eq_refl) X) as (k & K).
        destruct (vals_split g (passes_v v) (r_left r') (r_right r') (l_at L)) as (p & q & Q & N); [apply (inner_in g G _ _ _ k); auto; lia|apply passes_v_iff; exists r; auto|].
        exists M, p, q. split; [exact IM|]. split; [now rewrite LM, EL|]. split; [exact AM|]. split; [rewrite VM; exact Q|exact N].
  Qed.

  Lemma rects_edges : (length (edges (marked rects_marks)) <= 84 * length rs)%nat.
  Proof using Hs.
    rewrite (lines_edges rects_marks (lines_from 0 rss) rects_routes).
    assert (B : forall Ls, (forall L, In L Ls -> (length (route_edges (line_route L)) <= 21)%nat) -> (length (flat_map (fun L => route_edges (line_route L)) Ls) <= 21 * length Ls)%nat).
    { clear. induction Ls as [|L Ls IH]; intros H; [cbn; lia|]. cbn [flat_map length]. rewrite app_length. specialize (IH ltac:(intros; apply H; now right)). pose proof (H L (or_introl eq_refl)). lia. }
    assert (N : forall n l, length (lines_from n l) = (4 * length (concat l))%nat).
    { clear. intros n l. revert n. induction l as [|z l IH]; intros n; [reflexivity|]. cbn [lines_from concat]. rewrite !app_length, IH. assert (length (flat_map (rect_lines n) z) = 4 * length z)%nat; [|lia].
      induction z as [|r z IHz]; [reflexivity|]. cbn [flat_map rect_lines app length]. lia. }
    pose proof (B (lines_from 0 rss)) as Q. rewrite N in Q. specialize (N 0%nat rss). assert (X : (21 * (4 * length rs) <= 84 * length rs)%nat) by lia. etransitivity; [apply Q|exact X].
    intros L I. pose proof size7 as G. destruct (line_cases L I) as (r & R & C).
    assert (S : StronglySorted Z.lt (l_vals L)) by (pose proof (wide r R); pose proof (high r R); destruct C as [(_ & _ & E)|(_ & _ & E)]; rewrite E; apply (vals_sorted g G); lia).
    assert (Le : (length (l_vals L) <= 22)%nat) by (destruct C as [(_ & _ & E)|(_ & _ & E)]; rewrite E; apply vals_len).
    rewrite route_pieces by exact S. assert (St : (length (map (piece L) (steps (l_vals L))) <= 21)%nat).
    { rewrite map_length. unfold steps. rewrite combine_length. destruct (l_vals L); cbn [tl length] in *; lia. }
    destruct (l_back L); [now rewrite rev_length|exact St].
  Qed.

  Lemma rects_few : (length rs <= 1000)%nat.
  Proof using Hs.
    pose proof (step_pos g size7) as P.
    assert (I : incl (flat_map (fun r => [r_left r; r_right r]) rs) (map (fun i => 2 ^ g * (Z.of_nat i - 1000)) (seq 0 2001))).
    { intros v V. apply in_flat_map in V. destruct V as (r & R & V). destruct (so_grid g rss Hs r R) as [(a & b & E & A & _) (c & d & E' & C & _)]. injection E as E1 _. injection E' as E3 _.
      apply in_map_iff. destruct V as [<-|[<-|[]]]; [exists (Z.to_nat (a + 1000))|exists (Z.to_nat (c + 1000))]; (split; [rewrite Z2Nat.id by lia; rewrite ?E1, ?E3; f_equal; lia|apply in_seq; lia]). }
    apply (NoDup_incl_length (so_xs g rss Hs)) in I. rewrite map_length, seq_length in I.
    assert (N : forall l, length (flat_map (fun r => [r_left r; r_right r]) l) = (2 * length l)%nat) by (clear; induction l as [|r l IH]; [reflexivity|]; cbn [flat_map app length]; lia).
    rewrite N in I. lia.
  Qed.
End Rects.

Lemma rects_cover : forall std g rss polys fuel op, std_laws std -> sorts std -> spread_out g rss ->
  Forall2 (fun p l => has_points (fst p) (map rect_corners l)) polys rss -> ~ In RemoveEdges (map snd polys) -> (252 * length (concat rss) <= fuel)%nat ->
  exists r rz, compute std fuel polys op = Ok r /\ has_corners r rz /\ forall (P : list bool -> bool) x y,
  let lines := map snd (filter (fun cl => P (c_from (fst cl))) (combine r rz)) in
  let zs := map (map rect_corners) rss in
  (kept_at (map snd polys) zs x y /\ P (place_of zs x y) = true -> windings x y lines = 1)
  /\ (~ (kept_at (map snd polys) zs x y /\ P (place_of zs x y) = true) -> windings x y lines = 0).
Proof.
  intros std g rss polys fuel op L S H F N Fu. pose proof (rects_cut g rss H) as C. pose proof (rects_edges g rss H) as E. pose proof (rects_few g rss H) as W. cbv zeta. rewrite <- (rects_plain g rss).
  apply (grid_covers std g (rects_marks g rss) polys fuel op L S C).
  - exact (proj2 (so_size g rss H)).
  - lia.
  - rewrite rects_plain. clear - F. induction F; cbn; constructor; assumption.
  - now apply plain_covered.
  - lia.
Qed.

Lemma rects_crossable : forall g rss polys, spread_out g rss ->
  Forall2 (fun p l => has_points (fst p) (map rect_corners l)) polys rss -> ~ In RemoveEdges (map snd polys) ->
  exists ms, plain ms = map (map rect_corners) rss /\ crossable polys ms /\ (length (edges (marked ms)) <= 84 * length (concat rss))%nat.
Proof.
  intros g rss polys H F N. exists (rects_marks g rss). split; [apply rects_plain|]. split; [|exact (rects_edges g rss H)].
  pose proof (rects_cut g rss H) as C. pose proof (rects_edges g rss H) as E. pose proof (rects_few g rss H) as W. apply (grid_crossable g).
  - exact C.
  - exact (proj2 (so_size g rss H)).
  - lia.
  - rewrite rects_plain. clear - F. induction F; cbn; constructor; assumption.
  - now apply plain_covered.
Qed.
