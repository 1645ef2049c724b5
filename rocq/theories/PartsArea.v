(** The parts of overlaid polygons add up to the polygons. *)

From Coq Require Import List ZArith QArith Lqa Bool Arith Lia ZifyBool.
From Verif Require Import Base Contours Sweep Compute SpecShape SpecOrder SpecCompute SpecTidy SpecOverlay SpecCross SpecGrid ComputeFacts GridRects CrossOverlay CrossCover TidyParity AgainEdges
  SpecRects WindArea SpecParts.
Import ListNotations.
Local Open Scope Z_scope.

Lemma place_nth : forall zs i x y, nth i (place_of zs x y) false = true <-> (i < length zs)%nat /\ inner_below zs i x y.
Proof.
  intros zs i x y. unfold place_of, inner_below. destruct (Nat.lt_ge_cases i (length zs)) as [L|L].
  - rewrite (nth_indep _ false (Nat.odd (crossings zs 0 x y))) by (rewrite map_length, seq_length; exact L). rewrite (map_nth (fun i => Nat.odd (crossings zs i x y)) (seq 0 (length zs)) 0%nat i). rewrite seq_nth by exact L. cbn [plus]. tauto.
  - rewrite nth_overflow by (rewrite map_length, seq_length; exact L). split; [discriminate|intros [? _]; lia].
Qed.

Section Parts.
Variable std : std_impl.
Variables (fuel : nat) (polys : input) (op : boolean_op) (ms : list (list (list mark))).
Hypothesis Laws : std_laws std.
Hypothesis Sorts : sorts std.
Hypothesis Cross : crossable polys ms.
Hypothesis Fuel : (3 * length (edges (marked ms)) <= fuel)%nat.
Variables (r : polygon) (rz : corners).
Hypothesis Done : compute std fuel polys op = Ok r.
Hypothesis Corners : has_corners r rz.
Hypothesis Keeps : ~ In RemoveInterior (map snd polys).

Lemma mode_count : length (map snd polys) = length (plain ms).
Proof. rewrite map_length. destruct Cross as [F _]. clear - F. induction F; cbn [length]; [reflexivity|now f_equal]. Qed.

Lemma parts_wind : forall i z x y, nth_error (plain ms) i = Some z -> windings x y (made_of i r rz) = if Z.odd (windings x y z) then 1 else 0.
Proof.
  intros i z x y H. destruct (cross_covers std fuel polys op ms Laws Sorts Cross Fuel r rz Done Corners (fun from => nth i from false) x y) as [C1 C0].
  fold (made_of i r rz) in C1, C0. pose proof (below_odd (plain ms) i z x y H) as B. pose proof (place_nth (plain ms) i x y) as P.
  assert (L : (i < length (plain ms))%nat) by (apply nth_error_Some; congruence).
  destruct (Z.odd (windings x y z)) eqn:O.
  - apply C1. split; [|apply P; split; [exact L|now apply B]]. split.
    + exists i. split; [rewrite mode_count; exact L|now apply B].
    + intros k _ E. apply nth_error_In in E. now apply Keeps.
  - apply C0. intros [_ N]. apply P in N. destruct N as [_ N]. apply B in N. congruence.
Qed.

Lemma parts_area : forall i z d, nth_error (plain ms) i = Some z -> once_round d z -> total_area (made_of i r rz) = d * total_area z.
Proof.
  intros i z d H [D O]. destruct D as [-> | ->].
  - rewrite Z.mul_1_l. apply windings_area. intros x y. rewrite (parts_wind i z x y H). destruct (O x y) as [-> | ->]; reflexivity.
  - enough (total_area (made_of i r rz ++ z) = 0) as E.
    { unfold total_area in *. rewrite map_app in E. change (zs (map shoelace (made_of i r rz) ++ map shoelace z) = 0) in E. rewrite zs_app in E. unfold zs in E. lia. }
    change 0 with (zs (map shoelace [])). apply windings_area. intros x y. unfold windings. rewrite map_app. fold (zs (map (winding x y) (made_of i r rz) ++ map (winding x y) z)). rewrite zs_app.
    change (zs (map (winding x y) (made_of i r rz))) with (windings x y (made_of i r rz)). change (zs (map (winding x y) z)) with (windings x y z). rewrite (parts_wind i z x y H).
    destruct (O x y) as [-> | ->]; reflexivity.
Qed.

Lemma parts_source : forall c l, In (c, l) (combine r rz) -> length (c_from c) = length (plain ms).
Proof. intros c l I. apply in_combine_l in I. rewrite <- mode_count, map_length. exact (proj1 (compute_sources std fuel polys op r c Laws Done I)). Qed.

Lemma parts_counted : (forall z, In z (plain ms) -> once_round 1 z) -> counted_area r rz = total_area (concat (plain ms)).
Proof.
  intros O. assert (E : counted_area r rz = zs (map (fun i => total_area (made_of i r rz)) (seq 0 (length (plain ms))))).
  { unfold counted_area, made_of. pose proof parts_source as S. revert S. generalize (combine r rz) (length (plain ms)). clear. intros l n S. induction l as [|[c m] l IH].
    - cbn [map fold_right filter]. induction (seq 0 n) as [|k ks IHk]; [reflexivity|]. cbn [map zs fold_right]. unfold zs in IHk. rewrite <- IHk. reflexivity.
    - cbn [map fold_right fst snd]. rewrite IH by (intros c' l' I; apply (S c' l'); now right). specialize (S c m (or_introl eq_refl)). clear IH.
      rewrite <- S. clear n S. rewrite (map_ext (fun i => total_area (map snd (filter (fun cl => nth i (c_from (fst cl)) false) ((c, m) :: l))))
        (fun i => (if nth i (c_from c) false then shoelace m else 0) + total_area (map snd (filter (fun cl => nth i (c_from (fst cl)) false) l)))).
      + set (g := fun i => total_area (map snd (filter (fun cl => nth i (c_from (fst cl)) false) l))). 
        assert (A : forall ks, zs (map (fun i => (if nth i (c_from c) false then shoelace m else 0) + g i) ks) = zs (map (fun i => if nth i (c_from c) false then shoelace m else 0) ks) + zs (map g ks)).
        { induction ks as [|k ks IHk]; [reflexivity|]. cbn [map zs fold_right]. unfold zs in IHk. lia. }
        rewrite A. f_equal. generalize (c_from c). clear. intros bs. rewrite <- (map_map (fun i => nth i bs false) (fun b : bool => if b then shoelace m else 0)).
        assert (N : map (fun i => nth i bs false) (seq 0 (length bs)) = bs).
        { induction bs as [|b bs IH]; [reflexivity|]. cbn [length seq map nth]. f_equal. rewrite <- seq_shift, map_map. exact IH. }
        rewrite N. clear N. induction bs as [|b bs IH]; [reflexivity|]. cbn [filter map zs fold_right]. unfold zs in IH. destruct b; cbn [length]; lia.
      + intros i. cbn [filter fst]. destruct (nth i (c_from c) false); reflexivity. }
  rewrite E. transitivity (zs (map total_area (plain ms))).
  - assert (N : map (fun i => nth i (plain ms) []) (seq 0 (length (plain ms))) = plain ms).
    { clear. induction (plain ms) as [|b bs IH]; [reflexivity|]. cbn [length seq map nth]. f_equal. rewrite <- seq_shift, map_map. exact IH. }
    rewrite <- N at 2. rewrite map_map. f_equal. apply map_ext_in. intros i I. apply in_seq in I. rewrite (parts_area i (nth i (plain ms) []) 1); [lia| |].
    + now apply nth_error_nth'.
    + apply O, nth_In. lia.
  - clear. unfold total_area. induction (plain ms) as [|z l IH]; [reflexivity|]. cbn [concat map]. rewrite map_app. fold (zs (map shoelace z ++ map shoelace (concat l))). rewrite zs_app. cbn [zs fold_right map]. unfold zs in *. rewrite IH. reflexivity.
Qed.

End Parts.

Lemma cut_out_iff : forall modes from, cut_out modes from = true <-> exists k, nth_error modes k = Some RemoveInterior /\ nth k from false = true.
Proof.
  induction modes as [|m modes IH]; intros [|b from].
  - split; [discriminate|]. intros ([|k] & H & _); discriminate.
  - split; [discriminate|]. intros ([|k] & H & _); discriminate.
  - split; [discriminate|]. intros ([|k] & _ & H); discriminate.
  - unfold cut_out in *. cbn [combine existsb]. rewrite orb_true_iff, IH. split.
    + intros [H|(k & H)]; [|exists (S k); exact H]. exists 0%nat. destruct m; try discriminate. now split.
    + intros ([|k] & H1 & H2); [left|right; exists k; now split]. cbn in H1, H2. injection H1 as ->. exact H2.
Qed.

Lemma removed_area : forall std fuel fuel' polys polys' op ms r rz r' rz', std_laws std -> sorts std -> crossable polys ms -> crossable polys' ms ->
  ~ In RemoveInterior (map snd polys) -> (3 * length (edges (marked ms)) <= fuel)%nat -> (3 * length (edges (marked ms)) <= fuel')%nat ->
  compute std fuel polys op = Ok r -> has_corners r rz -> compute std fuel' polys' op = Ok r' -> has_corners r' rz' ->
  total_area rz' = total_area (left_over (map snd polys') r rz).
Proof.
  intros std fuel fuel' polys polys' op ms r rz r' rz' L S X X' K F F' D C D' C'. apply windings_area. intros x y.
  pose proof (mode_count polys ms X) as M. pose proof (mode_count polys' ms X') as M'.
  pose proof (cross_covers std fuel polys op ms L S X F r rz D C (fun from => negb (cut_out (map snd polys') from)) x y) as [A1 A0].
  pose proof (cross_covers std fuel' polys' op ms L S X' F' r' rz' D' C' (fun _ => true) x y) as [B1 B0]. cbv zeta in *. fold (left_over (map snd polys') r rz) in A1, A0.
  assert (W : map snd (filter (fun _ => true) (combine r' rz')) = rz').
  { assert (T : forall A (l : list A), filter (fun _ => true) l = l) by (intros A; induction l as [|a l IH]; [reflexivity|cbn [filter]; now f_equal]). rewrite T. destruct (combine_fst r' rz') as [_ E]; [|exact E]. clear - C'. induction C'; cbn [length]; [reflexivity|now f_equal]. }
  rewrite W in B1, B0. clear W.
  assert (E : kept_at (map snd polys) (plain ms) x y /\ negb (cut_out (map snd polys') (place_of (plain ms) x y)) = true <-> kept_at (map snd polys') (plain ms) x y).
  { rewrite negb_true_iff, <- not_true_iff_false, cut_out_iff. unfold kept_at, kept_place. rewrite M, M'. split.
    - intros [[G _] N]. split; [exact G|]. intros i I E. apply N. exists i. split; [exact E|]. apply place_nth. split; [|exact I]. rewrite <- M'. apply nth_error_Some. congruence.
    - intros [G N]. split; [split; [exact G|]|].
      + intros i _ E. apply nth_error_In in E. now apply K.
      + intros (k & E & P). apply place_nth in P. apply (N k (proj2 P) E). }
  destruct (Z.eq_dec (windings x y rz') (windings x y (left_over (map snd polys') r rz))) as [Q|Q]; [exact Q|]. exfalso.
  assert (N : ~ kept_at (map snd polys') (plain ms) x y) by (intros G; apply Q; rewrite B1 by (split; [exact G|reflexivity]); symmetry; apply A1, E, G).
  apply Q. rewrite B0 by (intros [G _]; exact (N G)). symmetry. apply A0. intros G. apply N, E, G.
Qed.

(** *** Rectangles *)

Lemma rect_once : forall q, r_left q < r_right q -> r_bottom q < r_top q -> once_round 1 [rect_corners q].
Proof.
  intros [l b r t]. cbn [r_left r_bottom r_right r_top]. intros X Y. split; [now left|]. intros x y.
  unfold windings, winding, rect_corners, sides. cbn [map fold_right combine app r_left r_bottom r_right r_top].
  unfold side_sign, lex_z, passes_below. cbn [fst snd e_left e_right].
  rewrite (proj2 (Z.compare_lt_iff l r) X), (proj2 (Z.compare_gt_iff r l)), !Z.compare_refl by lia. rewrite (proj2 (Z.compare_lt_iff b t) Y), (proj2 (Z.compare_gt_iff t b)) by lia.
  replace (negb (qlt x (inject_Z r)) && qlt x (inject_Z r)) with false by (destruct (qlt x (inject_Z r)); reflexivity).
  replace (negb (qlt x (inject_Z l)) && qlt x (inject_Z l)) with false by (destruct (qlt x (inject_Z l)); reflexivity). cbn [andb].
  destruct (negb (qlt x (inject_Z l)) && qlt x (inject_Z r)); cbn [andb]; [|left; reflexivity].
  match goal with |- context [if ?c then 1 else 0] => destruct c eqn:E1 end; match goal with |- context [if ?c then -1 else 0] => destruct c eqn:E2 end; cbn [Z.add]; try (left; reflexivity); try (right; reflexivity).
  exfalso. apply qlt_lt in E2. apply qlt_false in E1. replace (t - t) with 0 in E2 by lia. replace (b - b) with 0 in E1 by lia. change (inject_Z 0) with 0%Q in *.
  assert (N : (0 < inject_Z (r - l))%Q) by (change 0%Q with (inject_Z 0); rewrite <- Zlt_Qlt; lia).
  assert (T : (inject_Z b < inject_Z t)%Q) by (rewrite <- Zlt_Qlt; exact Y).
  assert (A : ((y - inject_Z b) * inject_Z (r - l) <= 0)%Q) by lra. assert (C : (0 < (y - inject_Z t) * inject_Z (r - l))%Q) by lra. nra.
Qed.
Lemma rect_area : forall q, total_area [rect_corners q] = 2 * (width q * height_of q).
Proof. intros [l b r t]. unfold total_area, shoelace, rect_corners, cross_z, width, height_of. cbn [map fold_right combine app tl fst snd r_left r_bottom r_right r_top]. ring. Qed.

(** Each rectangle is divided into the contours made of it. *)
Lemma rects_area : forall std g rs polys fuel op, std_laws std -> sorts std -> spread_out g (map (fun q => [q]) rs) ->
  Forall2 (fun p q => has_points (fst p) [rect_corners q]) polys rs -> ~ In RemoveEdges (map snd polys) -> ~ In RemoveInterior (map snd polys) ->
  (252 * length rs <= fuel)%nat ->
  exists r rz, compute std fuel polys op = Ok r /\ has_corners r rz
  /\ (forall i q, nth_error rs i = Some q -> total_area (made_of i r rz) = 2 * (width q * height_of q))
  /\ counted_area r rz = fold_right Z.add 0 (map (fun q => 2 * (width q * height_of q)) rs).
Proof.
  intros std g rs polys fuel op L S O F N K Fu. assert (CC : concat (map (fun q : rect => [q]) rs) = rs) by (clear; induction rs as [|q rs IH]; [reflexivity|cbn [map concat app]; now f_equal]).
  destruct (rects_crossable g (map (fun q => [q]) rs) polys O) as (ms & P & X & B).
  - clear - F. induction F; constructor; assumption.
  - exact N.
  - rewrite CC in B. assert (Fu' : (3 * length (edges (marked ms)) <= fuel)%nat) by lia.
    destruct (cross_ends std fuel polys op ms L S X Fu') as (r & rz & D & C). exists r, rz. split; [exact D|]. split; [exact C|].
    assert (OR : forall q, In q rs -> once_round 1 [rect_corners q]).
    { intros q I. destruct O as [_ _ Wd Hi _ _]. rewrite CC in Wd, Hi. specialize (Wd q I). specialize (Hi q I). apply rect_once; lia. }
    rewrite map_map in P. cbn [map] in P. split.
    + intros i q E. rewrite (parts_area std fuel polys op ms L S X Fu' r rz D C K i [rect_corners q] 1).
      * rewrite rect_area. lia.
      * rewrite P. apply (map_nth_error (fun q => [rect_corners q])) in E. exact E.
      * apply OR. eapply nth_error_In, E.
    + rewrite (parts_counted std fuel polys op ms L S X Fu' r rz D C K).
      * rewrite P. clear. induction rs as [|q rs IH]; [reflexivity|]. cbn [map concat app fold_right]. rewrite <- IH, <- rect_area. unfold total_area. cbn [map fold_right]. lia.
      * intros z I. rewrite P in I. apply in_map_iff in I. destruct I as (q & <- & I). now apply OR.
Qed.
