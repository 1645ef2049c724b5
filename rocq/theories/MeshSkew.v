(** Polygons whose sides cross on a grid, made larger, skewed and moved. *)

From Coq Require Import List ZArith QArith Bool Arith Lia Lqa Permutation.
From Verif Require Import Base Float Geometry Sweep Contours Compute SpecShape SpecOrder SpecIntersect SpecHandle SpecCompute SpecTidy TidySamples SlopeSamples SpecOverlay SpecFollow FollowFacts OrderFacts CrossSetup CrossCover
  SpecCross SpecGrid GridCut GridLines SpecSlope AgainEdges MeshTrack MeshCut SkewGeo SkewFacts BesideGeo MeshBeside SpecMesh SpecSkew.
Import ListNotations.
Local Open Scope Z_scope.

Lemma cross_skew : forall std std' fuel fuel' polys polys' op op' ms ms' d,
  std_laws std -> sorts std -> crossable polys ms -> (3 * length (edges (marked ms)) <= fuel)%nat ->
  std_laws std' -> sorts std' -> crossable polys' ms' -> (3 * length (edges (marked ms')) <= fuel')%nat -> upright d ->
  marked ms' = skewed d (marked ms) -> map snd polys' = map snd polys ->
  forall r r' rz rz', compute std fuel polys op = Ok r -> compute std' fuel' polys' op' = Ok r' -> has_corners r rz -> has_corners r' rz' ->
  rz' = skewed_lines d rz /\ forall i c c', nth_error r i = Some c -> nth_error r' i = Some c' ->
    c_holes c' = c_holes c /\ c_external c' = c_external c /\ c_neighbors c' = c_neighbors c /\ c_from c' = c_from c.
Proof.
  intros std std' fuel fuel' polys polys' op op' ms ms' d L S C F L' S' C' F' U P M r r' rz rz' R R' Z Z'.
  destruct (cross_tidy std fuel polys op ms L S C F) as (q & O & Mq & E). destruct (cross_tidy std' fuel' polys' op' ms' L' S' C' F') as (q' & O' & Mq' & E').
  rewrite P in O', F'. apply (skew_free std std' fuel fuel' q q' op op' (marked ms) d); auto; try lia; [congruence|now rewrite <- E|now rewrite <- E'].
Qed.

Section Marks.
  Variables (g j c : Z) (by_ : Z * Z) (zs : list corners).
  Local Notation k := (mk_skew (2 ^ j) (2 ^ j) (2 ^ j * c) by_).
  Local Notation mv := (skewed_point k).
  Local Notation mvs s := (mv (fst s), mv (snd s)).
  Hypothesis (G : 0 <= g) (J : 0 <= j).
  Lemma two_pos : 0 < 2 ^ j.
  Proof using J. apply Z.pow_pos_nonneg; lia. Qed.
  Lemma k_upright : upright k.
  Proof using J. split; cbn; apply two_pos. Qed.

  Lemma skm_count : forall s, count (g + j) (mvs s) = count g s.
  Proof using G J.
    intros [[a b] [u v]]. unfold count, skewed_point. cbn [fst snd k_across k_up k_skew k_by]. pose proof two_pos as P. set (w := 2 ^ j) in *.
    replace (w * u + fst by_ - (w * a + fst by_)) with (w * (u - a)) by ring. replace (w * v + w * c * u + snd by_ - (w * b + w * c * a + snd by_)) with (w * (v - b + c * (u - a))) by ring.
    rewrite Z.gcd_mul_mono_l_nonneg by lia. rewrite Z.pow_add_r by lia. fold w. rewrite (Z.mul_comm (2 ^ g) w), Z.div_mul_cancel_l; [|apply Z.pow_nonzero; lia|lia].
    f_equal. apply Z.gcd_add_mult_diag_r.
  Qed.
  Definition good (s : (Z * Z) * (Z * Z)) : Prop := snd s = lattice g s (count g s) /\ 0 < count g s.
  Lemma skm_lattice : forall s t, good s -> lattice (g + j) (mvs s) t = mv (lattice g s t).
  Proof using G J.
    intros s t (E & P). unfold lattice, pt. unfold stride1 at 1. unfold stride2 at 1. rewrite skm_count. set (n := count g s) in *. unfold lattice, pt in E. set (s1 := stride1 g s) in *. set (s2 := stride2 g s) in *. clearbody n s1 s2.
    destruct s as [[a b] [u v]]. unfold skewed_point. cbn [fst snd k_across k_up k_skew k_by] in *. injection E as -> ->. set (w := 2 ^ j).
    replace (w * (a + n * s1) + fst by_ - (w * a + fst by_)) with (w * s1 * n) by ring. replace (w * (b + n * s2) + w * c * (a + n * s1) + snd by_ - (w * b + w * c * a + snd by_)) with ((w * s2 + w * c * s1) * n) by ring.
    rewrite !Z.div_mul by lia. f_equal; ring.
  Qed.
  Lemma skm_inner : forall s, inner (g + j) (mvs s) = inner g s.
  Proof using G J. intros s. unfold inner. now rewrite skm_count. Qed.
  Lemma skm_same : forall a b, same_z (mv a) (mv b) = same_z a b.
  Proof using J.
    intros a b. apply eq_true_iff_eq. split; intros H; apply same_z_eq in H; [apply (sk_inj _ k_upright) in H; rewrite H|rewrite H]; unfold same_z; now rewrite !Z.eqb_refl.
  Qed.
  Lemma skm_edge_of : forall i s, edge_of (i, mvs s) = skewed_edge k (edge_of (i, s)).
  Proof using J. intros i [a b]. unfold edge_of. cbn [fst snd]. rewrite (sk_lex _ k_upright). destruct (lex_z a b); reflexivity. Qed.
  Lemma skm_same_edge : forall e f, same_edge (skewed_edge k e) (skewed_edge k f) = same_edge e f.
  Proof using J. intros e f. unfold same_edge. cbn [skewed_edge e_left e_right]. now rewrite !skm_same. Qed.
  Lemma skm_placed : forall z n, placed n (skewed k z) = map (fun p => (fst p, mvs (snd p))) (placed n z).
  Proof using.
    induction z as [|l z IH]; intros n; [reflexivity|]. cbn [skewed map placed]. unfold skewed in IH. rewrite map_app, IH, sk_flat, !map_map. reflexivity.
  Qed.
  Lemma existsb_map_in : forall {A B} (f : B -> bool) (h : A -> B) (f' : A -> bool) l, (forall a, In a l -> f (h a) = f' a) -> existsb f (map h l) = existsb f' l.
  Proof using. clear. intros A B f h f'. induction l as [|a l IH]; intros H; [reflexivity|]. cbn [map existsb]. rewrite H by now left. f_equal. apply IH. intros b Hb. apply H. now right. Qed.
  Lemma existsb_all : forall {A} (f h : A -> bool) l, (forall a, f a = h a) -> existsb f l = existsb h l.
  Proof using. clear. intros A f h l H. induction l as [|a l IH]; [reflexivity|]. cbn [existsb]. now rewrite IH, H. Qed.
  Hypothesis (Gd : forall p, In p (placed 0 zs) -> good (snd p)).
  Lemma skm_crossed : forall s t, good s -> crossed (g + j) (skewed k zs) (0%nat, mvs s) t = crossed g zs (0%nat, s) t.
  Proof using G J Gd.
    intros s t Gs. unfold crossed. rewrite skm_placed. apply existsb_map_in. intros [i s'] I. specialize (Gd _ I). cbn [fst snd] in *. rewrite (skm_edge_of 0 s), (skm_edge_of i s'), skm_same_edge, skm_inner. f_equal. apply existsb_all. intros t'. rewrite !skm_lattice by assumption. apply skm_same.
  Qed.
  Lemma skm_marks : forall s, good s -> marks (g + j) (skewed k zs) (mvs s) = marks g zs s.
  Proof using G J Gd. intros s Gs. unfold marks. rewrite skm_inner. apply filter_ext. intros t. now apply skm_crossed. Qed.
  Lemma skm_marked : marked (mesh_marks (g + j) (skewed k zs)) = skewed k (marked (mesh_marks g zs)).
  Proof using G J Gd.
    unfold mesh_marks, marked. unfold skewed at 2. unfold skewed at 2. rewrite !map_map. apply map_ext_in. intros z Hz. unfold skewed_lines. rewrite !map_map. apply map_ext_in. intros l Hl. rewrite sk_sides.
    assert (Gl : forall s, In s (sides l) -> good s) by (intros s Hs; destruct (placed_side zs 0%nat z l s Hz Hl Hs) as (i & I); exact (Gd _ I)).
    induction (sides l) as [|s m IH]; [reflexivity|]. cbn [map flat_map fst snd app]. rewrite map_app, <- IH by (intros; apply Gl; now right). f_equal. f_equal. rewrite skm_marks, map_map by (apply Gl; now left). apply map_ext. intros t. apply skm_lattice, Gl. now left.
  Qed.
End Marks.

Lemma mesh_skew : forall std std' fuel fuel' g R D R' D' j c d zs polys polys' op op', std_laws std -> sorts std -> std_laws std' -> sorts std' ->
  let k := mk_skew (2 ^ j) (2 ^ j) (2 ^ j * c) d in
  mesh g R D zs -> 0 <= j -> mesh (g + j) R' D' (skewed k zs) -> g + j <= 7 -> Z.of_nat (length (edges zs)) <= 9000 ->
  Forall2 (fun p z => has_points (fst p) z) polys zs -> Forall2 (fun p z => has_points (fst p) z) polys' (skewed k zs) ->
  ~ In RemoveEdges (map snd polys) -> map snd polys' = map snd polys ->
  (63 * length (edges zs) <= fuel)%nat -> (63 * length (edges zs) <= fuel')%nat ->
  exists r r' rz, compute std fuel polys op = Ok r /\ compute std' fuel' polys' op' = Ok r' /\ has_corners r rz /\ has_corners r' (skewed_lines k rz)
  /\ forall i c c', nth_error r i = Some c -> nth_error r' i = Some c' ->
    c_holes c' = c_holes c /\ c_external c' = c_external c /\ c_neighbors c' = c_neighbors c /\ c_from c' = c_from c.
Proof.
  intros std std' fuel fuel' g R D R' D' j c d zs polys polys' op op' L S L' S' k H J H' G W F F' N M Fu Fu'.
  assert (U : upright k) by (apply k_upright; exact J).
  assert (LE : length (edges (skewed k zs)) = length (edges zs)) by (rewrite (sk_edges k U); apply map_length).
  assert (C : forall g R D zs polys, g <= 7 -> mesh g R D zs -> Z.of_nat (length (edges zs)) <= 9000 -> Forall2 (fun p z => has_points (fst p) z) polys zs -> ~ In RemoveEdges (map snd polys) -> crossable polys (mesh_marks g zs)).
  { clear. intros g R D zs polys G H W F N. pose proof (mesh_few g R D zs H) as Fw. apply (slope_crossable g R D); [exact (mesh_cut g R D zs H)|exact G|lia|now rewrite mesh_plain|now apply plain_covered]. }
  pose proof (C g R D zs polys ltac:(lia) H W F N) as X. pose proof (C _ _ _ _ polys' G H' ltac:(lia) F' ltac:(now rewrite M)) as X'. pose proof (mesh_few g R D zs H) as E1. pose proof (mesh_few _ _ _ _ H') as E2.
  destruct (cross_ends std fuel polys op _ L S X ltac:(lia)) as (r & rz & Dd & Z). destruct (cross_ends std' fuel' polys' op' _ L' S' X' ltac:(lia)) as (r' & rz' & D2 & Z').
  assert (Gd : forall p, In p (placed 0 zs) -> good g (snd p)) by (intros p I; destruct (side_shape g R D zs H p I) as (u & w & Sh); split; apply Sh).
  pose proof (mesh_size _ _ _ _ H) as Sz. assert (MK : marked (mesh_marks (g + j) (skewed k zs)) = skewed k (marked (mesh_marks g zs))) by (apply skm_marked; [lia|exact J|exact Gd]).
  destruct (cross_skew std std' fuel fuel' polys polys' op op' _ _ k L S X ltac:(lia) L' S' X' ltac:(lia) U MK M r r' rz rz' Dd D2 Z Z') as [Q1 Q2].
  exists r, r', rz. split; [exact Dd|]. split; [exact D2|]. split; [exact Z|]. split; [now rewrite <- Q1|exact Q2].
Qed.
