(** Polygons whose sides cross on a grid, beside each other. *)

From Coq Require Import List ZArith QArith Bool Arith Lia Lqa Permutation.
From Verif Require Import Base Float Geometry Sweep Contours Compute SpecShape SpecOrder SpecIntersect SpecHandle SpecCompute SpecTidy TidySamples SlopeSamples SpecOverlay SpecFollow FollowFacts OrderFacts TidyGeo TidyParity CrossSetup CrossCover
  SpecCross SpecGrid GridCut GridLines SpecSlope AgainEdges MeshTrack MeshCut BesideGeo BesideFacts SpecMesh SpecBeside.
Import ListNotations.
Local Open Scope Z_scope.

Lemma cross_beside : forall std std1 std2 fuel fuel1 fuel2 polys ps qs op op1 op2 ms m1 m2,
  std_laws std -> sorts std -> crossable polys ms -> (3 * length (edges (marked ms)) <= fuel)%nat ->
  std_laws std1 -> sorts std1 -> crossable ps m1 -> (3 * length (edges (marked m1)) <= fuel1)%nat ->
  std_laws std2 -> sorts std2 -> crossable qs m2 -> (3 * length (edges (marked m2)) <= fuel2)%nat ->
  marked ms = marked m1 ++ marked m2 -> beside (marked m1) (marked m2) -> map snd polys = map snd ps ++ map snd qs ->
  forall r r1 r2 rz rz1 rz2, compute std fuel polys op = Ok r -> has_corners r rz ->
  compute std1 fuel1 ps op1 = Ok r1 -> has_corners r1 rz1 -> compute std2 fuel2 qs op2 = Ok r2 -> has_corners r2 rz2 ->
  rz = rz1 ++ rz2
  /\ (forall i c c', nth_error r1 i = Some c -> nth_error r i = Some c' ->
       c_external c' = c_external c /\ c_holes c' = c_holes c /\ c_neighbors c' = c_neighbors c ++ repeat false (length r2) /\ c_from c' = c_from c ++ repeat false (length qs))
  /\ (forall i c c', nth_error r2 i = Some c -> nth_error r (length r1 + i) = Some c' ->
       c_external c' = c_external c /\ c_holes c' = map (Nat.add (length r1)) (c_holes c) /\ c_neighbors c' = repeat false (length r1) ++ c_neighbors c /\ c_from c' = repeat false (length ps) ++ c_from c).
Proof.
  intros std std1 std2 fuel fuel1 fuel2 polys ps qs op op1 op2 ms m1 m2 L S C F L1 S1 C1 F1 L2 S2 C2 F2 P B M r r1 r2 rz rz1 rz2 R Z R1 Z1 R2 Z2.
  destruct (cross_tidy std fuel polys op ms L S C F) as (q & O & Mq & E). destruct (cross_tidy std1 fuel1 ps op1 m1 L1 S1 C1 F1) as (q1 & O1 & Mq1 & E1). destruct (cross_tidy std2 fuel2 qs op2 m2 L2 S2 C2 F2) as (q2 & O2 & Mq2 & E2).
  assert (X1 : length ps = length q1) by (rewrite <- (map_length snd ps), <- (map_length snd q1); congruence). assert (X2 : length qs = length q2) by (rewrite <- (map_length snd qs), <- (map_length snd q2); congruence).
  rewrite X1, X2. rewrite P in O, F. apply (beside_free std std1 std2 fuel fuel1 fuel2 q q1 q2 op op1 op2 (marked m1) (marked m2)) with (rz := rz) (rz1 := rz1) (rz2 := rz2); auto; try lia; [congruence|now rewrite <- E|now rewrite <- E1|now rewrite <- E2].
Qed.

Lemma placed_app : forall zs ws n, placed n (zs ++ ws) = placed n zs ++ placed (n + length zs) ws.
Proof. induction zs as [|z zs IH]; intros ws n; [cbn; f_equal; lia|]. cbn [app placed length]. rewrite IH, <- app_assoc. do 3 f_equal. lia. Qed.
Lemma placed_side : forall zs n z l s, In z zs -> In l z -> In s (sides l) -> exists k, In (k, s) (placed n zs).
Proof.
  induction zs as [|z0 zs IH]; intros n z l s I J K; [destruct I|]. cbn [placed]. destruct I as [->|I].
  - exists n. apply in_or_app. left. apply in_map. apply in_flat_map. eauto.
  - destruct (IH (S n) z l s I J K) as (k & H). exists k. apply in_or_app. now right.
Qed.
Lemma placed_any : forall zs n m k s, In (k, s) (placed n zs) -> exists k', In (k', s) (placed m zs).
Proof.
  induction zs as [|z zs IH]; intros n m k s I; [destruct I|]. cbn [placed] in *. apply in_app_or in I. destruct I as [I|I].
  - apply in_map_iff in I. destruct I as (s' & E & I). injection E as _ <-. exists m. apply in_or_app. left. now apply in_map.
  - destruct (IH _ (S m) _ _ I) as (k' & H). exists k'. apply in_or_app. now right.
Qed.

Lemma on_between : forall e x y, lr e -> on_segment (e_left e) (e_right e) x y -> (xl e <= x <= xr e)%Q.
Proof.
  intros e x y H (t & T0 & T1 & A & _). apply lr_le in H. rewrite inject_sub in A. rewrite Zle_Qle in H. rewrite A. set (u := xl e) in *. set (v := xr e) in *. clearbody u v.
  assert (P : (0 <= t * (v - u))%Q) by (apply Qmult_le_0_compat; lra). assert (P' : (0 <= (1 - t) * (v - u))%Q) by (apply Qmult_le_0_compat; lra). split; lra.
Qed.

Section Mesh.
  Variables (g R D : Z) (zs ws : list corners).
  Hypothesis (Hm : mesh g R D (zs ++ ws)) (B : beside zs ws).
  Local Notation bump := (bumped (length zs)).

  Lemma in1 : forall e, In e (edges zs) -> In e (edges (zs ++ ws)).
  Proof using. intros e I. rewrite edges_app. apply in_or_app. now left. Qed.
  Lemma in2 : forall e, In e (edges ws) -> In (bump e) (edges (zs ++ ws)).
  Proof using. intros e I. rewrite edges_app. apply in_or_app. right. now apply in_map. Qed.
  Lemma pairs_left : forall {A} (P : A -> A -> Prop) l m, ForallOrdPairs P (l ++ m) -> ForallOrdPairs P l /\ ForallOrdPairs P m.
  Proof using.
    clear. intros A P. induction l as [|a l IH]; intros m H; [split; [constructor|exact H]|]. cbn [app] in H. inversion H as [|? ? H1 H2]; subst. apply Forall_app in H1. destruct (IH m H2). split; [constructor; tauto|assumption].
  Qed.
  Lemma pairs_weak : forall {A} (P Q : A -> A -> Prop) l, (forall a b, P a b -> Q a b) -> ForallOrdPairs P l -> ForallOrdPairs Q l.
  Proof using. clear. intros A P Q l H F. induction F as [|a l Fa F IH]; constructor; [|exact IH]. eapply Forall_impl; [|exact Fa]. auto. Qed.
  Lemma mesh1 : mesh g R D zs.
  Proof using Hm.
    constructor; try apply Hm.
    - intros s I. apply (mesh_length _ _ _ _ Hm). rewrite concat_app, flat_map_app. apply in_or_app. now left.
    - intros e I. apply (mesh_points _ _ _ _ Hm). now apply in1.
    - intros e I. apply (mesh_reach _ _ _ _ Hm). now apply in1.
    - intros e I. apply (mesh_slope _ _ _ _ Hm). now apply in1.
    - pose proof (mesh_pairs _ _ _ _ Hm) as X. rewrite edges_app in X. apply pairs_left in X. destruct X as (X & _). eapply pairs_weak; [|exact X]. intros e f [O|[O|(O & N)]]; [auto|auto|]. right. right. split; [exact O|]. intros h Hh. apply N. apply in_or_app. now left.
  Qed.
  Lemma mesh2 : mesh g R D ws.
  Proof using Hm.
    constructor; try apply Hm.
    - intros s I. apply (mesh_length _ _ _ _ Hm). rewrite concat_app, flat_map_app. apply in_or_app. now right.
    - intros e I. exact (mesh_points _ _ _ _ Hm (bump e) (in2 e I)).
    - intros e I. exact (mesh_reach _ _ _ _ Hm (bump e) (in2 e I)).
    - intros e I. exact (mesh_slope _ _ _ _ Hm (bump e) (in2 e I)).
    - pose proof (mesh_pairs _ _ _ _ Hm) as X. rewrite edges_app in X. apply pairs_left in X. destruct X as (_ & X). apply MeshCut.pairs_map in X. eapply pairs_weak; [|exact X]. intros e f [O|[O|((O1 & O2 & O3) & N)]]; [left; exact O|right; left; exact O|]. right. right. split.
      + split; [exact O1|]. split; [exact O2|]. cbn [bumped SpecTidy.e_poly] in O3. lia.
      + intros h Hh. apply (N (bump h)). apply in_or_app. right. now apply in_map.
  Qed.

  Lemma placed_lr : forall zs0 p, mesh g R D zs0 -> In p (placed 0 zs0) -> lr (edge_of p) /\ In (edge_of p) (edges zs0).
  Proof using. clear. intros zs0 p H I. pose proof (edge_in g R D zs0 H p I) as X. split; [exact (edges_lr _ _ _ X)|exact X]. Qed.
  (** Points on sides of the first polygons are to the left of points on sides of the others. *)
  Lemma sides_apart : forall p p' x y x' y', In p (placed 0 zs) -> In p' (placed 0 ws) -> on_segment (e_left (edge_of p)) (e_right (edge_of p)) x y -> on_segment (e_left (edge_of p')) (e_right (edge_of p')) x' y' -> (x < x')%Q.
  Proof using Hm B.
    intros p p' x y x' y' I I' O O'. destruct (placed_lr zs p mesh1 I) as (L & E), (placed_lr ws p' mesh2 I') as (L' & E'). apply on_between in O; [|exact L]. apply on_between in O'; [|exact L']. pose proof (B _ _ E E') as S. rewrite Zlt_Qlt in S. lra.
  Qed.
  Lemma lattice_apart : forall p p' t t', In p (placed 0 zs) -> In p' (placed 0 ws) -> In t (inner g (snd p)) -> In t' (inner g (snd p')) -> lattice g (snd p) t <> lattice g (snd p') t'.
  Proof using Hm B.
    intros p p' t t' I I' T T' E. apply in_inner in T. apply in_inner in T'.
    pose proof (lattice_on g R D zs mesh1 p t I ltac:(lia)) as O. pose proof (lattice_on g R D ws mesh2 p' t' I' ltac:(lia)) as O'. pose proof (sides_apart _ _ _ _ _ _ I I' O O') as X. rewrite E in X. lra.
  Qed.
  Lemma same_z_eq : forall a b, same_z a b = true -> a = b.
  Proof using. clear. intros [a b] [c d] H. unfold same_z in H. cbn [fst snd] in H. apply andb_true_iff in H. rewrite !Z.eqb_eq in H. destruct H. congruence. Qed.
  Lemma no_exists : forall {A} (f : A -> bool) l, (forall a, In a l -> f a = false) -> existsb f l = false.
  Proof using. clear. intros A f. induction l as [|a l IH]; intros H; [reflexivity|]. cbn [existsb]. rewrite (H a (or_introl eq_refl)). apply IH. intros b I. apply H. now right. Qed.
  Lemma no_lattice : forall s t s', (forall t', In t' (inner g s') -> lattice g s t <> lattice g s' t') -> existsb (fun t' => same_z (lattice g s t) (lattice g s' t')) (inner g s') = false.
  Proof using. clear. intros s t s' H. apply no_exists. intros t' T. destruct (same_z _ _) eqn:E; [|reflexivity]. apply same_z_eq in E. now apply H in T. Qed.
  Lemma crossed1 : forall k s t, In (k, s) (placed 0 zs) -> In t (inner g s) -> crossed g (zs ++ ws) (0%nat, s) t = crossed g zs (0%nat, s) t.
  Proof using Hm B.
    intros k s t I T. unfold crossed. rewrite placed_app, existsb_app. rewrite (no_exists _ (placed _ ws)); [apply orb_false_r|]. intros [k' s'] I'. cbn [snd]. apply andb_false_intro2. apply no_lattice. intros t' T'.
    destruct (placed_any _ _ 0%nat _ _ I') as (k2 & I2). exact (lattice_apart (k, s) (k2, s') t t' I I2 T T').
  Qed.
  Lemma existsb_placed : forall (f : (Z * Z) * (Z * Z) -> bool) n m z, existsb (fun p => f (snd p)) (placed n z) = existsb (fun p => f (snd p)) (placed m z).
  Proof using.
    clear. intros f n m z. revert n m. induction z as [|c z IH]; intros n m; [reflexivity|]. cbn [placed]. rewrite !existsb_app, (IH (S n) (S m)). f_equal. induction (flat_map sides c) as [|s l IHl]; [reflexivity|]. cbn [map existsb snd]. now rewrite IHl.
  Qed.
  Lemma crossed2 : forall k s t, In (k, s) (placed 0 ws) -> In t (inner g s) -> crossed g (zs ++ ws) (0%nat, s) t = crossed g ws (0%nat, s) t.
  Proof using Hm B.
    intros k s t I T. unfold crossed. rewrite placed_app, existsb_app. rewrite (no_exists _ (placed 0 zs)).
    - cbn [orb]. pose proof (existsb_placed (fun s' => negb (same_edge (edge_of (0%nat, s)) (edge_of (0%nat, s'))) && existsb (fun t' => same_z (lattice g s t) (lattice g s' t')) (inner g s')) (0 + length zs) 0 ws) as X. cbn beta in X.
      assert (Y : forall n, existsb (fun p' => negb (same_edge (edge_of (0%nat, s)) (edge_of p')) && existsb (fun t' => same_z (lattice g (snd (0%nat, s)) t) (lattice g (snd p') t')) (inner g (snd p'))) (placed n ws)
        = existsb (fun p' => negb (same_edge (edge_of (0%nat, s)) (edge_of (0%nat, snd p'))) && existsb (fun t' => same_z (lattice g s t) (lattice g (snd p') t')) (inner g (snd p'))) (placed n ws)).
      { intros n. clear. induction (placed n ws) as [|[q s'] l IH]; [reflexivity|]. cbn [existsb]. rewrite IH. cbn [snd]. unfold same_edge. destruct (edge_ends_of q 0 s') as (-> & ->). reflexivity. }
      rewrite !Y. exact X.
    - intros [k' s'] I'. cbn [snd]. apply andb_false_intro2. apply no_lattice. intros t' T' E. symmetry in E. revert E. exact (lattice_apart (k', s') (k, s) t' t I' I T' T).
  Qed.
  Lemma marks1 : forall k s, In (k, s) (placed 0 zs) -> marks g (zs ++ ws) s = marks g zs s.
  Proof using Hm B. intros k s I. unfold marks. apply filter_ext_in. intros t T. now apply (crossed1 k). Qed.
  Lemma marks2 : forall k s, In (k, s) (placed 0 ws) -> marks g (zs ++ ws) s = marks g ws s.
  Proof using Hm B. intros k s I. unfold marks. apply filter_ext_in. intros t T. now apply (crossed2 k). Qed.
  Lemma marked_both : mesh_marks g (zs ++ ws) = mesh_marks g zs ++ mesh_marks g ws.
  Proof using Hm B.
    unfold mesh_marks. rewrite map_app. f_equal; apply map_ext_in; intros z Hz; apply map_ext_in; intros l Hl; apply map_ext_in; intros s Hs; f_equal; f_equal.
    - destruct (placed_side _ 0%nat z l s Hz Hl Hs) as (k & I). now apply (marks1 k).
    - destruct (placed_side _ 0%nat z l s Hz Hl Hs) as (k & I). now apply (marks2 k).
  Qed.

  Lemma piece_on : forall z e, mesh g R D z -> In e (edges (marked (mesh_marks g z))) -> exists p, In p (placed 0 z)
    /\ on_segment (e_left (edge_of p)) (e_right (edge_of p)) (xl e) (yl e) /\ on_segment (e_left (edge_of p)) (e_right (edge_of p)) (xr e) (yr e).
  Proof using.
    clear. intros z e H I. unfold edges in I. rewrite marked_edges in I. change (routes_from 0 (mesh_marks g z)) with (routes (mesh_marks g z)) in I. rewrite (ways g R D z H) in I. apply in_flat_map in I. destruct I as (w & W & I). apply in_map_iff in W. destruct W as (p & <- & Hp).
    rewrite (way_edges g R D z H p Hp) in I. apply in_map_iff in I. destruct I as (s & <- & S). pose proof (times_sorted g R D z H p Hp) as So. destruct (steps_lt _ s So S) as (L & B1 & B2).
    pose proof (times_bounds g R D z H p _ Hp B1). pose proof (times_bounds g R D z H p _ Hp B2). exists p. split; [exact Hp|]. split; apply (bit_within g R D z H p (fst s) (snd s)); auto; try lia.
    - exists 0%Q. split; [lra|]. split; [lra|]. split; ring.
    - exists 1%Q. split; [lra|]. split; [lra|]. rewrite !inject_sub. split; ring.
  Qed.
  Lemma beside_marked : beside (marked (mesh_marks g zs)) (marked (mesh_marks g ws)).
  Proof using Hm B.
    intros e f He Hf. destruct (piece_on zs e mesh1 He) as (p & Hp & _ & O), (piece_on ws f mesh2 Hf) as (p' & Hp' & O' & _). pose proof (sides_apart _ _ _ _ _ _ Hp Hp' O O') as X. now rewrite <- Zlt_Qlt in X.
  Qed.
End Mesh.

Lemma mesh_beside : forall std std1 std2 fuel fuel1 fuel2 g R D zs ws polys ps qs op op1 op2, std_laws std -> sorts std -> std_laws std1 -> sorts std1 -> std_laws std2 -> sorts std2 ->
  mesh g R D (zs ++ ws) -> g <= 7 -> Z.of_nat (length (edges (zs ++ ws))) <= 9000 -> beside zs ws ->
  Forall2 (fun p z => has_points (fst p) z) polys (zs ++ ws) -> Forall2 (fun p z => has_points (fst p) z) ps zs -> Forall2 (fun p z => has_points (fst p) z) qs ws ->
  ~ In RemoveEdges (map snd polys) -> map snd polys = map snd ps ++ map snd qs ->
  (63 * length (edges (zs ++ ws)) <= fuel)%nat -> (63 * length (edges zs) <= fuel1)%nat -> (63 * length (edges ws) <= fuel2)%nat ->
  exists r r1 r2 rz1 rz2, compute std fuel polys op = Ok r /\ compute std1 fuel1 ps op1 = Ok r1 /\ compute std2 fuel2 qs op2 = Ok r2
  /\ has_corners r1 rz1 /\ has_corners r2 rz2 /\ has_corners r (rz1 ++ rz2)
  /\ (forall i c c', nth_error r1 i = Some c -> nth_error r i = Some c' ->
       c_external c' = c_external c /\ c_holes c' = c_holes c /\ c_neighbors c' = c_neighbors c ++ repeat false (length r2) /\ c_from c' = c_from c ++ repeat false (length qs))
  /\ (forall i c c', nth_error r2 i = Some c -> nth_error r (length r1 + i) = Some c' ->
       c_external c' = c_external c /\ c_holes c' = map (Nat.add (length r1)) (c_holes c) /\ c_neighbors c' = repeat false (length r1) ++ c_neighbors c /\ c_from c' = repeat false (length ps) ++ c_from c).
Proof.
  intros std std1 std2 fuel fuel1 fuel2 g R D zs ws polys ps qs op op1 op2 L S L1 S1 L2 S2 H G W B F F1 F2 N M Fu Fu1 Fu2. pose proof (mesh1 g R D zs ws H) as H1. pose proof (mesh2 g R D zs ws H) as H2.
  assert (LE : length (edges (zs ++ ws)) = (length (edges zs) + length (edges ws))%nat) by (rewrite edges_app, app_length, map_length; reflexivity).
  assert (C : forall zs polys, mesh g R D zs -> Z.of_nat (length (edges zs)) <= 9000 -> Forall2 (fun p z => has_points (fst p) z) polys zs -> ~ In RemoveEdges (map snd polys) -> crossable polys (mesh_marks g zs)).
  { clear - G. intros zs polys H W F N. pose proof (mesh_few g R D zs H) as Fw. apply (slope_crossable g R D); [exact (mesh_cut g R D zs H)|exact G|lia|now rewrite mesh_plain|now apply plain_covered]. }
  pose proof (C _ polys H W F N) as X. rewrite M in N. pose proof (C zs ps H1 ltac:(lia) F1 ltac:(intros Q; apply N, in_or_app; now left)) as X1. pose proof (C ws qs H2 ltac:(lia) F2 ltac:(intros Q; apply N, in_or_app; now right)) as X2.
  pose proof (mesh_few g R D _ H) as E. pose proof (mesh_few g R D _ H1) as E1. pose proof (mesh_few g R D _ H2) as E2.
  destruct (cross_ends std fuel polys op _ L S X ltac:(lia)) as (r & rz & Dd & Z0). destruct (cross_ends std1 fuel1 ps op1 _ L1 S1 X1 ltac:(lia)) as (r1 & rz1 & D1 & Z1). destruct (cross_ends std2 fuel2 qs op2 _ L2 S2 X2 ltac:(lia)) as (r2 & rz2 & D2 & Z2).
  assert (MK : marked (mesh_marks g (zs ++ ws)) = marked (mesh_marks g zs) ++ marked (mesh_marks g ws)) by (rewrite (marked_both g R D zs ws H B); unfold marked; apply map_app).
  destruct (cross_beside std std1 std2 fuel fuel1 fuel2 polys ps qs op op1 op2 _ _ _ L S X ltac:(lia) L1 S1 X1 ltac:(lia) L2 S2 X2 ltac:(lia) MK (beside_marked g R D zs ws H B) M r r1 r2 rz rz1 rz2 Dd Z0 D1 Z1 D2 Z2) as (Q1 & Q2 & Q3).
  exists r, r1, r2, rz1, rz2. split; [exact Dd|]. split; [exact D1|]. split; [exact D2|]. split; [exact Z1|]. split; [exact Z2|]. split; [now rewrite <- Q1|]. split; [exact Q2|exact Q3].
Qed.
