(** Overlaying polygons on a grid in another order. *)

From Coq Require Import List ZArith QArith Bool Arith Lia ZifyBool Permutation.
From Verif Require Import Base Float Geometry Sweep Contours Compute SpecShape SpecOrder SpecIntersect SpecHandle SpecCompute SpecTidy TidySamples SpecOverlay SpecFollow FollowFacts OrderFacts NestGeo OverlaySamples CrossSetup CrossSamples CrossOverlay CrossCover
  SpecCross SpecGrid GridCut GridLines SpecSlope SlopeSamples AgainEdges MeshTrack MeshCut RectsOrder FollowSamples MeshSamples SpecMesh.
Import ListNotations.
Local Open Scope Z_scope.

Local Notation side := ((Z * Z) * (Z * Z))%type.

Lemma filter_on_map : forall {A B} (f : B -> bool) (h : A -> B) l, filter f (map h l) = map h (filter (fun a => f (h a)) l).
Proof. intros A B f h. induction l as [|a l IH]; [reflexivity|]. cbn [map filter]. destruct (f (h a)); cbn [map]; now rewrite IH. Qed.
Lemma map_on_flat : forall {A B C} (f : B -> C) (h : A -> list B) l, map f (flat_map h l) = flat_map (fun a => map f (h a)) l.
Proof. intros A B C f h. induction l as [|a l IH]; [reflexivity|]. cbn [flat_map]. now rewrite map_app, IH. Qed.
Lemma seq_back : forall n, rev (seq 1 n) = map (fun i => S n - i)%nat (seq 1 n).
Proof.
  induction n as [|n IH]; [reflexivity|]. rewrite seq_S at 1. rewrite rev_app_distr. cbn [rev app plus]. rewrite IH. cbn [seq map]. f_equal. rewrite <- (seq_shift n 1), map_map. apply map_ext. intros i. lia.
Qed.
Lemma perm_flat : forall {A B} (f h : A -> list B) l, (forall a, In a l -> Permutation (f a) (h a)) -> Permutation (flat_map f l) (flat_map h l).
Proof. intros A B f h. induction l as [|a l IH]; intros H; [constructor|]. cbn [flat_map]. apply Permutation_app; [apply H; now left|apply IH; intros; apply H; now right]. Qed.
Lemma same_z_iff : forall a b, same_z a b = true <-> a = b.
Proof. intros [a1 a2] [b1 b2]. unfold same_z. cbn [fst snd]. rewrite andb_true_iff, !Z.eqb_eq. split; [intros [-> ->]; reflexivity|intros E; injection E; auto]. Qed.

Section Side.
  Variables g R D : Z.
  Variable s : side.
  Variables u w : Z.
  Hypothesis Sh : shaped g R D s u w.

  Lemma side_far : fst (snd s) - fst (fst s) = stride1 g s * count g s /\ snd (snd s) - snd (fst s) = stride2 g s * count g s.
  Proof using Sh. pose proof (sh_end _ _ _ _ _ _ Sh) as E. unfold lattice, pt in E. pose proof (f_equal fst E) as E1. pose proof (f_equal snd E) as E2. cbn [fst snd] in E1, E2. split; lia. Qed.
  Lemma count_swap : count g (swap s) = count g s.
  Proof using.
    unfold count, swap. cbn [fst snd]. f_equal. rewrite <- Z.gcd_opp_l, <- Z.gcd_opp_r. f_equal; ring.
  Qed.
  Lemma lattice_swap : forall t, lattice g (swap s) t = lattice g s (count g s - t).
  Proof using Sh.
    intros t. destruct side_far as [F1 F2]. pose proof (sh_count _ _ _ _ _ _ Sh) as C.
    assert (S1 : stride1 g (swap s) = - stride1 g s).
    { unfold stride1 at 1. rewrite count_swap. unfold swap. cbn [fst snd]. replace (fst (fst s) - fst (snd s)) with (- stride1 g s * count g s) by lia. apply Z.div_mul. lia. }
    assert (S2 : stride2 g (swap s) = - stride2 g s).
    { unfold stride2 at 1. rewrite count_swap. unfold swap. cbn [fst snd]. replace (snd (fst s) - snd (snd s)) with (- stride2 g s * count g s) by lia. apply Z.div_mul. lia. }
    unfold lattice, pt. rewrite S1, S2. unfold swap. cbn [fst snd]. f_equal; nia.
  Qed.
  Lemma inner_swap : inner g (swap s) = rev (map (fun t => count g s - t) (inner g s)).
  Proof using Sh.
    pose proof (sh_count _ _ _ _ _ _ Sh) as C. unfold inner. rewrite count_swap. rewrite <- map_rev, <- (map_rev Z.of_nat), seq_back, !map_map. apply map_ext_in. intros i I. apply in_seq in I. lia.
  Qed.
  Lemma reached_swap : forall v, (exists t, In t (inner g (swap s)) /\ lattice g (swap s) t = v) <-> exists t, In t (inner g s) /\ lattice g s t = v.
  Proof using Sh.
    intros v. split; intros (t & T & <-).
    - exists (count g s - t). split; [|symmetry; apply lattice_swap]. apply in_inner in T. rewrite count_swap in T. apply in_inner. lia.
    - exists (count g s - t). split; [apply in_inner in T; apply in_inner; rewrite count_swap; lia|]. rewrite lattice_swap. f_equal. lia.
  Qed.
End Side.

Definition across (e : edge) : side := (e_left e, e_right e).

Section Mesh.
  Variables g R D : Z.
  Variable zs : list corners.
  Hypothesis Hm : mesh g R D zs.

  Lemma across_of : forall p, across (edge_of p) = snd p \/ across (edge_of p) = swap (snd p).
  Proof using. intros [k [a b]]. unfold across, edge_of, swap. cbn [fst snd]. destruct (lex_z a b); cbn [e_left e_right]; auto. Qed.
  Lemma edge_swap : forall k s, fst s <> snd s -> edge_of (k, swap s) = edge_of (k, s).
  Proof using. intros k [a b] N. unfold edge_of, swap. cbn [fst snd] in *. rewrite (lex_anti a b). destruct (lex_z a b) eqn:E; [apply lex_eq in E; contradiction|reflexivity..]. Qed.

  Definition hit (e : edge) (v : Z * Z) : Prop := exists t, In t (inner g (across e)) /\ lattice g (across e) t = v.
  Definition other (e f : edge) : Prop := ~ (e_left e = e_left f /\ e_right e = e_right f).

  Lemma crossed_iff : forall s t, crossed g zs (0%nat, s) t = true <-> exists e, In e (edges zs) /\ other (edge_of (0%nat, s)) e /\ hit e (lattice g s t).
  Proof using Hm.
    intros s t. unfold crossed. rewrite existsb_exists. cbn [snd].
    assert (H : forall p, In p (placed 0 zs) -> (hit (edge_of p) (lattice g s t) <-> existsb (fun t' => same_z (lattice g s t) (lattice g (snd p) t')) (inner g (snd p)) = true)).
    { intros p I. destruct (side_shape g R D zs Hm p I) as (u & w & Sh). rewrite existsb_exists. unfold hit.
      transitivity (exists t', In t' (inner g (snd p)) /\ lattice g (snd p) t' = lattice g s t).
      - destruct (across_of p) as [-> | ->]; [reflexivity|]. apply (reached_swap g R D (snd p) u w Sh).
      - split; intros (t' & T & E); exists t'; (split; [exact T|]); [now apply same_z_iff|symmetry; now apply same_z_iff]. }
    assert (O : forall p, negb (same_edge (edge_of (0%nat, s)) (edge_of p)) = true <-> other (edge_of (0%nat, s)) (edge_of p)).
    { intros p. unfold same_edge, other. rewrite negb_true_iff, <- not_true_iff_false, andb_true_iff, !same_z_iff. reflexivity. }
    rewrite (mesh_edges g R D zs Hm). split.
    - intros (p & I & E). apply andb_true_iff in E. destruct E as [E1 E2]. exists (edge_of p). split; [now apply in_map|]. split; [now apply O|now apply H].
    - intros (e & I & E1 & E2). apply in_map_iff in I. destruct I as (p & <- & I). exists p. split; [exact I|]. apply andb_true_iff. split; [now apply O|now apply H].
  Qed.

  Lemma road_swap : forall s u w, shaped g R D s u w -> fst s <> snd s -> road g zs (swap s) = rev (road g zs s).
  Proof using Hm.
    intros s u w Sh N.
    assert (M : marks g zs (swap s) = rev (map (fun t => count g s - t) (marks g zs s))).
    { unfold marks. rewrite (inner_swap g R D s u w Sh), filter_rev, filter_on_map. f_equal. f_equal. apply filter_ext. intros t. apply eq_true_iff_eq. rewrite !crossed_iff, (edge_swap 0 s N), (lattice_swap g R D s u w Sh).
      replace (count g s - (count g s - t)) with t by ring. reflexivity. }
    unfold road. rewrite M. cbn [rev]. rewrite rev_app_distr. cbn [rev app]. f_equal. f_equal. rewrite <- map_rev, map_map, <- map_rev. apply map_ext. intros t. rewrite (lattice_swap g R D s u w Sh). f_equal. ring.
  Qed.

  Definition pieces (e : edge) : list edge := route_edges (e_poly e, road g zs (across e)).

  Lemma route_rev : forall k l, Permutation (route_edges (k, rev l)) (route_edges (k, l)).
  Proof using.
    intros k l. unfold route_edges. cbn [fst snd]. rewrite (CrossCover.steps_rev l). rewrite <- (Permutation_rev _). rewrite flat_on_map. apply perm_flat. intros a _. change (snd a, fst a) with (swap a). rewrite left_swap. apply Permutation_refl.
  Qed.

  Lemma marked_pieces : Permutation (edges (marked (mesh_marks g zs))) (flat_map pieces (edges zs)).
  Proof using Hm.
    unfold edges at 1. rewrite marked_edges. change (routes_from 0 (mesh_marks g zs)) with (routes (mesh_marks g zs)). rewrite mesh_routes, (mesh_edges g R D zs Hm), !flat_on_map. apply perm_flat. intros p I.
    destruct (side_shape g R D zs Hm p I) as (u & w & Sh). unfold pieces. assert (E : e_poly (edge_of p) = fst p) by (unfold edge_of; destruct (lex_z _ _); reflexivity). rewrite E.
    assert (N : fst (snd p) <> snd (snd p)) by (apply (mesh_length _ _ _ _ Hm); rewrite <- (placed_sides zs 0); now apply in_map).
    destruct (across_of p) as [-> | ->]; [apply Permutation_refl|]. rewrite (road_swap _ _ _ Sh N). symmetry. apply route_rev.
  Qed.
End Mesh.

Lemma numbered_route : forall sigma k l, route_edges (sigma k, l) = map (numbered sigma) (route_edges (k, l)).
Proof.
  intros sigma k l. unfold route_edges. cbn [fst snd]. induction (steps l) as [|a t IH]; [reflexivity|]. cbn [flat_map]. rewrite map_app, <- IH. f_equal. unfold left_to_right. destruct (lex_z _ _); reflexivity.
Qed.

Lemma mesh_same : forall g R D sigma zs zs', mesh g R D zs -> mesh g R D zs' -> same_polygons sigma zs zs' -> same_polygons sigma (marked (mesh_marks g zs)) (marked (mesh_marks g zs')).
Proof.
  intros g R D sigma zs zs' H H' (L & B & I & P).
  assert (LM : forall z, length (marked (mesh_marks g z)) = length z) by (intros z; unfold marked, mesh_marks; now rewrite !map_length).
  split; [now rewrite !LM|]. split; [now rewrite LM|]. split; [now rewrite LM|].
  rewrite (marked_pieces g R D zs' H'), (marked_pieces g R D zs H).
  rewrite (Permutation_flat_map (pieces g zs') P). rewrite flat_on_map, map_on_flat. apply perm_flat. intros e _. unfold pieces. cbn [numbered e_poly].
  replace (road g zs' (across (numbered sigma e))) with (road g zs (across e)); [rewrite numbered_route; apply Permutation_refl|].
  change (across (numbered sigma e)) with (across e). unfold road. f_equal. f_equal. f_equal. unfold marks. apply filter_ext. intros t. apply eq_true_iff_eq. rewrite (crossed_iff g R D zs H), (crossed_iff g R D zs' H').
  split; intros (f & F & O & X).
  - exists (numbered sigma f). split; [apply (Permutation_in _ (Permutation_sym P)), in_map, F|]. split; [exact O|exact X].
  - apply (Permutation_in _ P), in_map_iff in F. destruct F as (f' & <- & F). exists f'. split; [exact F|]. split; [exact O|exact X].
Qed.

Lemma pairs_in : forall {A} (P : A -> A -> Prop) l, ForallOrdPairs P l -> ForallOrdPairs (fun a b => In a l /\ In b l /\ P a b) l.
Proof.
  intros A P l F. assert (G : forall m, incl l m -> ForallOrdPairs (fun a b => In a m /\ In b m /\ P a b) l).
  { induction F as [|a l Fa F IH]; intros m I; [constructor|]. constructor; [|apply IH; intros x X; apply I; now right]. rewrite Forall_forall in *. intros b B. split; [apply I; now left|]. split; [apply I; now right|now apply Fa]. }
  apply G, incl_refl.
Qed.
Lemma poly_few : forall g R D zs e, mesh g R D zs -> In e (edges zs) -> (e_poly e < length zs)%nat.
Proof.
  intros g R D zs e H I. rewrite (mesh_edges g R D zs H) in I. apply in_map_iff in I. destruct I as ([k s] & <- & I). apply placed_in in I. destruct I as (z & _ & E & _). rewrite Nat.sub_0_r in E.
  assert (X : e_poly (edge_of (k, s)) = k) by (unfold edge_of; destruct (lex_z _ _); reflexivity). rewrite X. apply nth_error_Some. congruence.
Qed.
Lemma cross_on_swap : forall g e f, crosses_on g e f -> crosses_on g f e.
Proof. intros g e f (a & b & E & F & O). exists a, b. split; [exact F|]. split; [exact E|]. intros x y [X Y]. apply O. now split. Qed.
Lemma mesh_reordered : forall g R D sigma zs zs', mesh g R D zs -> same_polygons sigma zs zs' -> (forall s, In s (flat_map sides (concat zs')) -> fst s <> snd s) -> mesh g R D zs'.
Proof.
  intros g R D sigma zs zs' H (L & B & I & P) N.
  assert (X : forall e, In e (edges zs') -> exists f, In f (edges zs) /\ e = numbered sigma f).
  { intros e E. apply (Permutation_in _ P), in_map_iff in E. destruct E as (f & <- & E). eauto. }
  constructor; try apply H; try exact N.
  - intros e E. destruct (X e E) as (f & F & ->). exact (mesh_points _ _ _ _ H f F).
  - intros e E. destruct (X e E) as (f & F & ->). exact (mesh_reach _ _ _ _ H f F).
  - intros e E. destruct (X e E) as (f & F & ->). exact (mesh_slope _ _ _ _ H f F).
  - apply (pairs_perm _ (map (numbered sigma) (edges zs))).
    + intros a b _ _ [O|[O|[(C1 & C2 & C3) O]]].
      * left. intros x y [U V]. destruct (O x y (conj V U)) as (v & V1 & V2 & V3). exists v. auto.
      * right. left. now apply cross_on_swap.
      * right. right. split; [split; [congruence|split; congruence]|]. intros h Hh. destruct (O h Hh). now split.
    + now apply Permutation_sym.
    + apply (FollowFacts.pairs_map _ _ (numbered sigma) (fun e f => In e (edges zs) /\ In f (edges zs) /\ (only_ends e f \/ crosses_on g e f \/ (coincide e f /\ forall h, In h (edges zs) -> ~ crosses_on g e h /\ ~ crosses_on g f h)))).
      * intros a b (Ia & Ib & [O|[O|[(C1 & C2 & C3) O]]]); [left; exact O|right; left; exact O|]. right. right. split.
        -- split; [exact C1|]. split; [exact C2|]. cbn [numbered e_poly]. intros E. apply C3. apply I; [apply (poly_few g R D zs a H Ia)|apply (poly_few g R D zs b H Ib)|exact E].
        -- intros h Hh. destruct (X h Hh) as (h' & I' & ->). exact (O h' I').
      * apply pairs_in. exact (mesh_pairs _ _ _ _ H).
Qed.

Lemma mesh_order : forall std std' fuel fuel' g R D zs zs' polys polys' op op' sigma, std_laws std -> sorts std -> std_laws std' -> sorts std' ->
  mesh g R D zs -> g <= 7 -> Z.of_nat (length (edges zs)) <= 9000 -> same_polygons sigma zs zs' -> (forall s, In s (flat_map sides (concat zs')) -> fst s <> snd s) ->
  Forall2 (fun p z => has_points (fst p) z) polys zs -> Forall2 (fun p z => has_points (fst p) z) polys' zs' ->
  ~ In RemoveEdges (map snd polys) -> (forall i, (i < length polys)%nat -> nth_error (map snd polys') (sigma i) = nth_error (map snd polys) i) ->
  (63 * length (edges zs) <= fuel)%nat -> (63 * length (edges zs) <= fuel')%nat ->
  exists r r' rz, compute std fuel polys op = Ok r /\ compute std' fuel' polys' op' = Ok r' /\ has_corners r rz /\ has_corners r' rz
  /\ forall i c c', nth_error r i = Some c -> nth_error r' i = Some c' ->
    c_holes c' = c_holes c /\ c_external c' = c_external c /\ c_neighbors c' = c_neighbors c
    /\ forall k, (k < length polys)%nat -> nth_error (c_from c') (sigma k) = nth_error (c_from c) k.
Proof.
  intros std std' fuel fuel' g R D zs zs' polys polys' op op' sigma L S L' S' H G W T Nz F F' N M Fu Fu'. pose proof (mesh_reordered g R D sigma zs zs' H T Nz) as H'.
  assert (Len : length polys = length zs) by (clear - F; induction F; cbn [length]; congruence). assert (Len' : length polys' = length zs') by (clear - F'; induction F'; cbn [length]; congruence).
  pose proof (mesh_same g R D sigma zs zs' H H' T) as T2. destruct T as (E & B & I & P). pose proof (Permutation_length P) as LP. rewrite map_length in LP.
  assert (N' : ~ In RemoveEdges (map snd polys')).
  { intros X. apply In_nth_error in X. destruct X as (k & X).
    assert (K : (k < length zs)%nat) by (rewrite <- E, <- Len', <- (map_length snd); apply nth_error_Some; congruence).
    assert (K' : In k (map sigma (seq 0 (length zs)))) by (apply (Permutation_in k (Permutation_sym (seq_perm (length zs) sigma B I))), in_seq; lia).
    apply in_map_iff in K'. destruct K' as (i & <- & K'). apply in_seq in K'. rewrite (M i) in X by lia. apply nth_error_In in X. contradiction. }
  assert (C : forall zs polys, mesh g R D zs -> Z.of_nat (length (edges zs)) <= 9000 -> Forall2 (fun p z => has_points (fst p) z) polys zs -> ~ In RemoveEdges (map snd polys) -> crossable polys (mesh_marks g zs)).
  { clear - G. intros zs polys H W F N. pose proof (mesh_few g R D zs H) as Fw. apply (slope_crossable g R D); [exact (mesh_cut g R D zs H)|exact G|lia|now rewrite mesh_plain|now apply plain_covered]. }
  pose proof (C zs polys H W F N) as X. pose proof (C zs' polys' H' ltac:(lia) F' N') as X'. pose proof (mesh_few g R D zs H) as E1. pose proof (mesh_few g R D zs' H') as E2.
  destruct (cross_ends std fuel polys op _ L S X ltac:(lia)) as (r & rz & Dd & Z). destruct (cross_ends std' fuel' polys' op' _ L' S' X' ltac:(lia)) as (r' & rz' & D' & Z').
  destruct (cross_order_free std std' fuel fuel' polys polys' op op' _ _ sigma L S X ltac:(lia) L' S' X' ltac:(lia) T2 M r r' rz rz' Dd D' Z Z') as [Q1 Q2].
  exists r, r', rz. split; [exact Dd|]. split; [exact D'|]. split; [exact Z|]. split; [now rewrite <- Q1|exact Q2].
Qed.

(** The triangle first, the second diamond round the other way, and the first from another corner. *)
Definition turned_diamonds : list corners :=
  map (map (map (fun v => (64 * fst v, 64 * snd v)))) [[[(8, 0); (8, 4); (4, 4)]]; [[(4, 0); (0, 4); (-4, 0); (0, -4)]]; [[(0, 0); (4, 4); (8, 0); (4, -4)]]].
Definition turned_diamonds_input : input := shapes turned_diamonds diamond_modes.
Lemma turned_diamonds_points : Forall2 (fun p z => has_points (fst p) z) turned_diamonds_input turned_diamonds /\ map snd turned_diamonds_input = diamond_modes.
Proof. apply shapes_points. reflexivity. Qed.
Lemma turned_diamonds_same : same_polygons rotated diamonds turned_diamonds.
Proof.
  split; [reflexivity|]. split; [|split].
  - intros i Hi. change (length diamonds) with 3%nat in *. destruct i as [|[|[|i]]]; cbn; lia.
  - intros i j Hi Hj. change (length diamonds) with 3%nat in *. destruct i as [|[|[|i]]], j as [|[|[|j]]]; cbn; lia.
  - apply permb_ok. vm_compute. reflexivity.
Qed.
Lemma turned_diamonds_long : forall s, In s (flat_map sides (concat turned_diamonds)) -> fst s <> snd s.
Proof. apply Forall_forall. vm_compute. repeat constructor; discriminate. Qed.
Lemma turned_diamonds_result : has_corners (sample_contours turned_diamonds_input 693) diamond_lines.
Proof. apply z_points_at; [vm_compute; reflexivity|reflexivity]. Qed.
