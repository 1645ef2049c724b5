(** Polygons whose sides cross on a grid, moved elsewhere. *)

From Coq Require Import List ZArith QArith Bool Arith Lia Lqa Permutation.
From Verif Require Import Base Float Geometry Sweep Contours Compute SpecShape SpecOrder SpecIntersect SpecHandle SpecCompute SpecTidy TidySamples SlopeSamples SpecOverlay SpecFollow FollowFacts OrderFacts CrossSetup CrossCover
  SpecCross SpecGrid GridCut GridLines SpecSlope AgainEdges MeshTrack MeshCut MoveGeo MoveFacts SpecMesh SpecMove.
Import ListNotations.
Local Open Scope Z_scope.

Lemma cross_move : forall std std' fuel fuel' polys polys' op op' ms ms' d,
  std_laws std -> sorts std -> crossable polys ms -> (3 * length (edges (marked ms)) <= fuel)%nat ->
  std_laws std' -> sorts std' -> crossable polys' ms' -> (3 * length (edges (marked ms')) <= fuel')%nat ->
  marked ms' = moved d (marked ms) -> map snd polys' = map snd polys ->
  forall r r' rz rz', compute std fuel polys op = Ok r -> compute std' fuel' polys' op' = Ok r' -> has_corners r rz -> has_corners r' rz' ->
  rz' = moved_lines d rz /\ forall i c c', nth_error r i = Some c -> nth_error r' i = Some c' ->
    c_holes c' = c_holes c /\ c_external c' = c_external c /\ c_neighbors c' = c_neighbors c /\ c_from c' = c_from c.
Proof.
  intros std std' fuel fuel' polys polys' op op' ms ms' d L S C F L' S' C' F' P M r r' rz rz' R R' Z Z'.
  destruct (cross_tidy std fuel polys op ms L S C F) as (q & O & Mq & E). destruct (cross_tidy std' fuel' polys' op' ms' L' S' C' F') as (q' & O' & Mq' & E').
  rewrite P in O', F'. apply (move_free std std' fuel fuel' q q' op op' (marked ms) d); auto; try lia; [congruence|now rewrite <- E|now rewrite <- E'].
Qed.

Section Marks.
  Variables (g : Z) (d : Z * Z) (zs : list corners).
  Local Notation mv := (moved_point d).
  Local Notation mvs s := (mv (fst s), mv (snd s)).

  Lemma mv_count : forall s, count g (mvs s) = count g s.
  Proof using. intros s. unfold count, moved_point. cbn [fst snd]. f_equal. f_equal; lia. Qed.
  Lemma mv_lattice : forall s t, lattice g (mvs s) t = mv (lattice g s t).
  Proof using.
    intros s t. unfold lattice, pt, stride1, stride2. rewrite mv_count. unfold moved_point. cbn [fst snd].
    replace (fst (snd s) + fst d - (fst (fst s) + fst d)) with (fst (snd s) - fst (fst s)) by lia. replace (snd (snd s) + snd d - (snd (fst s) + snd d)) with (snd (snd s) - snd (fst s)) by lia. f_equal; lia.
  Qed.
  Lemma mv_inner : forall s, inner g (mvs s) = inner g s.
  Proof using. intros s. unfold inner. now rewrite mv_count. Qed.
  Lemma mv_same : forall a b, same_z (mv a) (mv b) = same_z a b.
  Proof using. intros a b. unfold same_z, moved_point. cbn [fst snd]. f_equal; apply eq_true_iff_eq; rewrite !Z.eqb_eq; lia. Qed.
  Lemma mv_edge_of : forall k s, edge_of (k, mvs s) = moved_edge d (edge_of (k, s)).
  Proof using. intros k [a b]. unfold edge_of. cbn [fst snd]. rewrite mv_lex. destruct (lex_z a b); reflexivity. Qed.
  Lemma mv_same_edge : forall e f, same_edge (moved_edge d e) (moved_edge d f) = same_edge e f.
  Proof using. intros e f. unfold same_edge. cbn [moved_edge e_left e_right]. now rewrite !mv_same. Qed.
  Lemma mv_placed : forall z n, placed n (moved d z) = map (fun p => (fst p, mvs (snd p))) (placed n z).
  Proof using.
    induction z as [|c z IH]; intros n; [reflexivity|]. cbn [moved map placed]. unfold moved in IH. rewrite map_app, IH, mv_flat, !map_map. reflexivity.
  Qed.
  Lemma existsb_on_map : forall {A B} (f : B -> bool) (h : A -> B) l, existsb f (map h l) = existsb (fun a => f (h a)) l.
  Proof using. clear. intros A B f h. induction l as [|a l IH]; [reflexivity|]. cbn [map existsb]. now rewrite IH. Qed.
  Lemma existsb_same : forall {A} (f h : A -> bool) l, (forall a, f a = h a) -> existsb f l = existsb h l.
  Proof using. clear. intros A f h l H. induction l as [|a l IH]; [reflexivity|]. cbn [existsb]. now rewrite IH, H. Qed.
  Lemma mv_crossed : forall s t, crossed g (moved d zs) (0%nat, mvs s) t = crossed g zs (0%nat, s) t.
  Proof using.
    intros s t. unfold crossed. rewrite mv_placed, existsb_on_map. apply existsb_same. intros [k s']. cbn [fst snd]. rewrite (mv_edge_of 0 s), (mv_edge_of k s'), mv_same_edge, mv_inner. f_equal. apply existsb_same. intros t'. now rewrite !mv_lattice, mv_same.
  Qed.
  Lemma mv_marks : forall s, marks g (moved d zs) (mvs s) = marks g zs s.
  Proof using. intros s. unfold marks. rewrite mv_inner. apply filter_ext. intros t. apply mv_crossed. Qed.
  Lemma mv_marked : marked (mesh_marks g (moved d zs)) = moved d (marked (mesh_marks g zs)).
  Proof using.
    unfold mesh_marks, marked. unfold moved at 2. unfold moved at 2. rewrite !map_map. apply map_ext. intros z. unfold moved_lines. rewrite !map_map. apply map_ext. intros l. rewrite mv_sides.
    induction (sides l) as [|s m IH]; [reflexivity|]. cbn [map flat_map fst snd app]. rewrite map_app, <- IH. f_equal. f_equal. rewrite mv_marks, map_map. apply map_ext. intros t. apply mv_lattice.
  Qed.
End Marks.

(** *** A mesh moved by steps of the grid *)
Section Mesh.
  Variables (g R D : Z) (d : Z * Z) (zs : list corners).
  Local Notation me := (moved_edge d).

  Lemma mv_on : forall a b x y x' y', shifted d x y x' y' -> on_segment (moved_point d a) (moved_point d b) x' y' <-> on_segment a b x y.
  Proof using.
    clear. intros a b x y x' y' [X Y]. unfold on_segment, moved_point. cbn [fst snd]. replace (fst b + fst d - (fst a + fst d)) with (fst b - fst a) by lia. replace (snd b + snd d - (snd a + snd d)) with (snd b - snd a) by lia.
    split; intros (t & T0 & T1 & A & B); exists t; (split; [exact T0|]; split; [exact T1|]); rewrite !inject_Z_plus in *; rewrite X, Y in *; split; lra.
  Qed.
  Lemma mv_is_at : forall v x y x' y', shifted d x y x' y' -> is_at v x y -> is_at (moved_point d v) x' y'.
  Proof using. clear. intros v x y x' y' [X Y] [A B]. unfold is_at, same_point, moved_point in *. cbn [fst snd] in *. rewrite !inject_Z_plus. split; lra. Qed.
  Lemma mv_only : forall e f, only_ends e f -> only_ends (me e) (me f).
  Proof using.
    clear. intros e f O x y [A B]. pose proof (unshift d x y) as S. cbn [moved_edge e_left e_right] in A, B. rewrite (mv_on _ _ _ _ x y S) in A. rewrite (mv_on _ _ _ _ x y S) in B.
    destruct (O _ _ (conj A B)) as (v & [-> | ->] & V2 & V3); [exists (e_left (me e))|exists (e_right (me e))]; (split; [unfold is_end; auto|]); (split; [destruct V2 as [V2|V2]; unfold is_end; cbn [moved_edge e_left e_right]; rewrite V2; auto|]); exact (mv_is_at _ _ _ x y S V3).
  Qed.
  Lemma mv_crosses : forall a b e f, d = (2 ^ g * a, 2 ^ g * b) -> crosses_on g (me e) (me f) <-> crosses_on g e f.
  Proof using.
    clear. intros a b e f E. unfold crosses_on. split; intros (u & v & A & B & O); cbv zeta in *.
    - exists (u - a), (v - b). assert (S : shifted d (inject_Z (2 ^ g * (u - a))) (inject_Z (2 ^ g * (v - b))) (inject_Z (2 ^ g * u)) (inject_Z (2 ^ g * v))).
      { rewrite E. split; cbn [fst snd]; rewrite <- inject_Z_plus; f_equiv; ring. }
      cbv zeta. rewrite (mv_inside d e _ _ _ _ S) in A. rewrite (mv_inside d f _ _ _ _ S) in B. split; [exact A|]. split; [exact B|]. intros x y [X Y]. pose proof (shift d x y) as T.
      destruct (O (x + inject_Z (fst d))%Q (y + inject_Z (snd d))%Q) as [P Q]; [split; [now apply (mv_on _ _ _ _ _ _ T)|now apply (mv_on _ _ _ _ _ _ T)]|]. destruct S as [S1 S2]. split; lra.
    - exists (u + a), (v + b). assert (S : shifted d (inject_Z (2 ^ g * u)) (inject_Z (2 ^ g * v)) (inject_Z (2 ^ g * (u + a))) (inject_Z (2 ^ g * (v + b)))).
      { rewrite E. split; cbn [fst snd]; rewrite <- inject_Z_plus; f_equiv; ring. }
      cbv zeta. split; [now apply (mv_inside d e _ _ _ _ S)|]. split; [now apply (mv_inside d f _ _ _ _ S)|]. intros x y [X Y]. pose proof (unshift d x y) as T. cbn [moved_edge e_left e_right] in X, Y.
      rewrite (mv_on _ _ _ _ _ _ T) in X. rewrite (mv_on _ _ _ _ _ _ T) in Y. destruct (O _ _ (conj X Y)) as [P Q]. destruct S as [S1 S2]. split; lra.
  Qed.

  Lemma mesh_moved : forall a b, mesh g R D zs -> d = (2 ^ g * a, 2 ^ g * b) -> (forall e, In e (edges (moved d zs)) -> slope_point g R (e_left e) /\ slope_point g R (e_right e)) -> mesh g R D (moved d zs).
  Proof using.
    intros a b H E P.
    assert (X : forall e, In e (edges (moved d zs)) -> exists f, In f (edges zs) /\ e = me f) by (intros e I; rewrite mv_edges in I; apply in_map_iff in I; destruct I as (f & <- & I); eauto).
    assert (Sb : forall f, vsub (e_right (me f)) (e_left (me f)) = vsub (e_right f) (e_left f)) by (intros f; cbn [moved_edge e_left e_right]; apply mv_sub).
    constructor; try apply H; try exact P.
    - assert (Y : flat_map sides (concat (moved d zs)) = map (fun s => (moved_point d (fst s), moved_point d (snd s))) (flat_map sides (concat zs))).
      { rewrite <- mv_flat. f_equal. unfold moved, moved_lines. now rewrite concat_map. }
      intros s I. rewrite Y in I. apply in_map_iff in I. destruct I as (s0 & <- & I). cbn [fst snd]. intros Q. apply mv_inj in Q. exact (mesh_length _ _ _ _ H s0 I Q).
    - intros e I. destruct (X e I) as (f & F & ->). pose proof (mesh_reach _ _ _ _ H f F) as G. intros u v U V.
      assert (Z1 : forall w, In w [e_left (me f); e_right (me f)] -> exists w0, In w0 [e_left f; e_right f] /\ w = moved_point d w0).
      { intros w [<-|[<-|[]]]; [exists (e_left f)|exists (e_right f)]; cbn [In]; auto. }
      destruct (Z1 u U) as (u0 & U0 & ->), (Z1 v V) as (v0 & V0 & ->). specialize (G u0 v0 U0 V0). unfold moved_point. cbn [fst snd]. lia.
    - intros e I. destruct (X e I) as (f & F & ->). rewrite Sb. exact (mesh_slope _ _ _ _ H f F).
    - rewrite mv_edges. rewrite mv_edges in X. eapply FollowFacts.pairs_map; [|exact (mesh_pairs _ _ _ _ H)]. intros e f [O|[O|[(C1 & C2 & C3) O]]].
      + left. now apply mv_only.
      + right. left. now apply (mv_crosses a b).
      + right. right. split; [split; [cbn; congruence|split; [cbn; congruence|exact C3]]|]. intros h Hh. destruct (X h Hh) as (h0 & H0 & ->). rewrite !(mv_crosses a b) by exact E. now apply O.
  Qed.
End Mesh.

Lemma mesh_move : forall std std' fuel fuel' g R D a b zs polys polys' op op', std_laws std -> sorts std -> std_laws std' -> sorts std' ->
  let d := (2 ^ g * a, 2 ^ g * b) in
  mesh g R D zs -> g <= 7 -> Z.of_nat (length (edges zs)) <= 9000 ->
  (forall e, In e (edges (moved d zs)) -> slope_point g R (e_left e) /\ slope_point g R (e_right e)) ->
  Forall2 (fun p z => has_points (fst p) z) polys zs -> Forall2 (fun p z => has_points (fst p) z) polys' (moved d zs) ->
  ~ In RemoveEdges (map snd polys) -> map snd polys' = map snd polys ->
  (63 * length (edges zs) <= fuel)%nat -> (63 * length (edges zs) <= fuel')%nat ->
  exists r r' rz, compute std fuel polys op = Ok r /\ compute std' fuel' polys' op' = Ok r' /\ has_corners r rz /\ has_corners r' (moved_lines d rz)
  /\ forall i c c', nth_error r i = Some c -> nth_error r' i = Some c' ->
    c_holes c' = c_holes c /\ c_external c' = c_external c /\ c_neighbors c' = c_neighbors c /\ c_from c' = c_from c.
Proof.
  intros std std' fuel fuel' g R D a b zs polys polys' op op' L S L' S' d H G W P F F' N M Fu Fu'. pose proof (mesh_moved g R D d zs a b H eq_refl P) as H'.
  assert (LE : length (edges (moved d zs)) = length (edges zs)) by (rewrite mv_edges; apply map_length).
  assert (C : forall zs polys, mesh g R D zs -> Z.of_nat (length (edges zs)) <= 9000 -> Forall2 (fun p z => has_points (fst p) z) polys zs -> ~ In RemoveEdges (map snd polys) -> crossable polys (mesh_marks g zs)).
  { clear - G. intros zs polys H W F N. pose proof (mesh_few g R D zs H) as Fw. apply (slope_crossable g R D); [exact (mesh_cut g R D zs H)|exact G|lia|now rewrite mesh_plain|now apply plain_covered]. }
  pose proof (C zs polys H W F N) as X. pose proof (C _ polys' H' ltac:(lia) F' ltac:(now rewrite M)) as X'. pose proof (mesh_few g R D zs H) as E1. pose proof (mesh_few g R D _ H') as E2.
  destruct (cross_ends std fuel polys op _ L S X ltac:(lia)) as (r & rz & Dd & Z). destruct (cross_ends std' fuel' polys' op' _ L' S' X' ltac:(lia)) as (r' & rz' & D' & Z').
  destruct (cross_move std std' fuel fuel' polys polys' op op' _ _ d L S X ltac:(lia) L' S' X' ltac:(lia) (mv_marked g d zs) M r r' rz rz' Dd D' Z Z') as [Q1 Q2].
  exists r, r', rz. split; [exact Dd|]. split; [exact D'|]. split; [exact Z|]. split; [now rewrite <- Q1|exact Q2].
Qed.
