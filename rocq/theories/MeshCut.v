(** The points where the sides of a mesh cross. *)

From Coq Require Import List ZArith QArith Bool Arith Lia ZifyBool Sorted Znumtheory.
From Verif Require Import Base SpecShape SpecOrder SpecIntersect SpecHandle SpecTidy SpecOverlay SpecCross SpecGrid SpecSlope CrossSetup GridCut GridLines CrossAgain AgainEdges SlopeCut
  WindArea MeshTrack SpecMesh.
From Coq Require Import Lqa.
Import ListNotations.
Local Open Scope Z_scope.

Lemma common_steps : forall p q x y, Z.gcd p q = 1 -> x * q = y * p -> exists t, x = t * p /\ y = t * q.
Proof.
  intros p q x y G E. destruct (Z.gcd_bezout p q 1 G) as (u & w & B). exists (u * x + w * y). split; [replace x with (x * (u * p + w * q)) at 1 by (rewrite B; ring)|replace y with (y * (u * p + w * q)) at 1 by (rewrite B; ring)].
  - replace (x * (u * p + w * q)) with (u * x * p + w * (x * q)) by ring. rewrite E. ring.
  - replace (y * (u * p + w * q)) with (u * (y * p) + w * y * q) by ring. rewrite <- E. ring.
Qed.

Lemma pairs_nth : forall {A} (P : A -> A -> Prop) l, ForallOrdPairs P l -> forall j k a b, nth_error l j = Some a -> nth_error l k = Some b -> j <> k -> P a b \/ P b a.
Proof.
  intros A P l F. induction F as [|c l Fc F IH]; intros j k a b J K N; [destruct j; discriminate|]. rewrite Forall_forall in Fc. destruct j as [|j], k as [|k]; cbn in J, K; [lia| | |].
  - injection J as ->. left. apply Fc. eapply nth_error_In, K.
  - injection K as ->. right. apply Fc. eapply nth_error_In, J.
  - apply (IH j k); auto.
Qed.
Lemma pairs_map : forall {A B} (f : A -> B) (P : B -> B -> Prop) l, ForallOrdPairs P (map f l) -> ForallOrdPairs (fun a b => P (f a) (f b)) l.
Proof.
  intros A B f P. induction l as [|a l IH]; intros H; [constructor|]. cbn [map] in H. inversion H as [|? ? H1 H2]; subst. constructor; [|now apply IH]. rewrite Forall_forall in *. intros b I. apply H1. now apply in_map.
Qed.

Section Roads.
  Local Notation side := ((Z * Z) * (Z * Z))%type.
  Variable f : side -> list (Z * Z).
  Lemma roads_to : forall t a b, routes_to a (map (fun s => (fst s, f s)) (combine (b :: t) (t ++ [a]))) = map (fun s => fst s :: f s ++ [snd s]) (combine (b :: t) (t ++ [a])).
  Proof using.
    clear. induction t as [|c t IH]; intros a b; [reflexivity|]. specialize (IH a c). cbn [app combine map routes_to fst snd] in *. rewrite IH. f_equal. now destruct t.
  Qed.
  Lemma any_routes : forall zs n, routes_from n (map (map (fun l => map (fun s => (fst s, f s)) (sides l))) zs) = map (fun p => (fst p, fst (snd p) :: f (snd p) ++ [snd (snd p)])) (placed n zs).
  Proof using.
    clear. induction zs as [|z zs IH]; intros n; [reflexivity|]. cbn [map routes_from placed]. rewrite map_app, IH. f_equal. rewrite map_map. cbn [fst snd].
    induction z as [|c z IHz]; [reflexivity|]. cbn [map flat_map]. rewrite !map_app, IHz. f_equal. destruct c as [|a t]; [reflexivity|].
    assert (E : contour_routes (map (fun s => (fst s, f s)) (sides (a :: t))) = routes_to a (map (fun s => (fst s, f s)) (sides (a :: t)))) by (destruct t; reflexivity).
    rewrite E. unfold sides. rewrite roads_to, map_map. reflexivity.
  Qed.
End Roads.

Section Mesh.
  Variables g R D : Z.
  Variable zs : list corners.
  Hypothesis Hm : mesh g R D zs.

  Local Notation side := ((Z * Z) * (Z * Z))%type.
  Definition count (s : side) : Z := Z.gcd (fst (snd s) - fst (fst s)) (snd (snd s) - snd (fst s)) / 2 ^ g.
  Definition stride1 (s : side) : Z := (fst (snd s) - fst (fst s)) / count s.
  Definition stride2 (s : side) : Z := (snd (snd s) - snd (fst s)) / count s.
  Definition lattice (s : side) (t : Z) : Z * Z := pt (fst s) (stride1 s) (stride2 s) t.
  Definition inner (s : side) : list Z := map Z.of_nat (seq 1 (Z.to_nat (count s - 1))).
  Definition same_edge (e f : edge) : bool := same_z (e_left e) (e_left f) && same_z (e_right e) (e_right f).
  Definition crossed (p : nat * side) (t : Z) : bool :=
    existsb (fun p' => negb (same_edge (edge_of p) (edge_of p')) && existsb (fun t' => same_z (lattice (snd p) t) (lattice (snd p') t')) (inner (snd p'))) (placed 0 zs).
  Definition marks (s : side) : list Z := filter (crossed (0%nat, s)) (inner s).
  Definition times (s : side) : list Z := 0 :: marks s ++ [count s].
  Definition road (s : side) : list (Z * Z) := fst s :: map (lattice s) (marks s) ++ [snd s].
  Definition mesh_marks : list (list (list mark)) := map (map (fun l => map (fun s => (fst s, map (lattice s) (marks s))) (sides l))) zs.

  Lemma side_fst : forall l : list (Z * Z), map fst (sides l) = l.
  Proof using. clear. intros [|a t]; [reflexivity|]. apply (combine_fst (a :: t) (t ++ [a])). rewrite app_length. cbn [length]. lia. Qed.
  Lemma mesh_plain : plain mesh_marks = zs.
  Proof using.
    clear. unfold plain, mesh_marks. rewrite map_map. rewrite <- (map_id zs) at 2. apply map_ext. intros z. rewrite map_map. rewrite <- (map_id z) at 2. apply map_ext. intros l. rewrite map_map. apply side_fst.
  Qed.

  Lemma mesh_routes : routes mesh_marks = map (fun p => (fst p, road (snd p))) (placed 0 zs).
  Proof using. clear. unfold routes, mesh_marks. apply any_routes. Qed.

  Lemma mesh_edges : edges zs = map edge_of (placed 0 zs).
  Proof using Hm. apply edges_map. exact (mesh_length _ _ _ _ Hm). Qed.
  Lemma edge_in : forall p, In p (placed 0 zs) -> In (edge_of p) (edges zs).
  Proof using Hm. intros p I. rewrite mesh_edges. now apply in_map. Qed.
  Lemma step_size : 0 < 2 ^ g.
  Proof using Hm. pose proof (mesh_size _ _ _ _ Hm). apply Z.pow_pos_nonneg; lia. Qed.

  (** What a side is like. *)
  Record shaped (s : side) (p q : Z) : Prop := mk_shaped {
    sh_gcd : Z.gcd p q = 1; sh_short : p * p + q * q <= D; sh_1 : stride1 s = 2 ^ g * p; sh_2 : stride2 s = 2 ^ g * q; sh_count : 0 < count s;
    sh_end : snd s = lattice s (count s); sh_a : slope_point g R (fst s); sh_b : slope_point g R (snd s); sh_reach : within_reach g [fst s; snd s] }.

  Lemma side_shape : forall p, In p (placed 0 zs) -> exists u w, shaped (snd p) u w.
  Proof using Hm.
    intros [k [a b]] I. pose proof (edge_in _ I) as E. cbn [snd]. destruct (mesh_slope _ _ _ _ Hm _ E) as (u & w & n & G & S & V). destruct (mesh_points _ _ _ _ Hm _ E) as [P1 P2]. pose proof (mesh_reach _ _ _ _ Hm _ E) as Rc.
    assert (N : a <> b). { apply (mesh_length _ _ _ _ Hm (a, b)). rewrite <- (placed_sides zs 0). apply in_map_iff. exists (k, (a, b)). now split. }
    pose proof step_size as T. set (T2 := 2 ^ g) in *.
    assert (X : exists m, vsub b a = (m * (T2 * u), m * (T2 * w)) /\ slope_point g R a /\ slope_point g R b /\ within_reach g [a; b]).
    { unfold edge_of in *. cbn [fst snd] in *. destruct (lex_z a b); cbn [e_left e_right] in *; [exists n; auto|exists n; auto|].
      exists (- n). split; [unfold vsub in *; injection V as V1 V2; f_equal; lia|]. split; [exact P2|]. split; [exact P1|]. intros c d C Dd. apply Rc; cbn in *; tauto. }
    clear V P1 P2 Rc E n. destruct X as (m & V & Pa & Pb & Rc).
    assert (Y : exists u' w' m', 0 < m' /\ Z.gcd u' w' = 1 /\ u' * u' + w' * w' <= D /\ vsub b a = (m' * (T2 * u'), m' * (T2 * w'))).
    { destruct (Z.lt_trichotomy m 0) as [L|[L|L]].
      - exists (- u), (- w), (- m). split; [lia|]. split; [now rewrite Z.gcd_opp_l, Z.gcd_opp_r|]. split; [lia|]. rewrite V. f_equal; ring.
      - exfalso. apply N. subst m. unfold vsub in V. destruct a, b. cbn [fst snd] in V. injection V as V1 V2. f_equal; lia.
      - exists u, w, m. auto. }
    clear u w G S m V. destruct Y as (u & w & m & M & G & S & V). exists u, w. unfold vsub in V. injection V as V1 V2.
    assert (Gc : count (a, b) = m).
    { unfold count. cbn [fst snd]. rewrite V1, V2. fold T2. replace (m * (T2 * u)) with (m * T2 * u) by ring. replace (m * (T2 * w)) with (m * T2 * w) by ring. rewrite Z.gcd_mul_mono_l_nonneg by nia. rewrite G, Z.mul_1_r. apply Z.div_mul. lia. }
    assert (S1 : stride1 (a, b) = T2 * u) by (unfold stride1; rewrite Gc; cbn [fst snd]; rewrite V1, Z.mul_comm; apply Z.div_mul; lia).
    assert (S2 : stride2 (a, b) = T2 * w) by (unfold stride2; rewrite Gc; cbn [fst snd]; rewrite V2, Z.mul_comm; apply Z.div_mul; lia).
    constructor; cbn [fst snd]; try assumption; [lia|]. unfold lattice, pt. rewrite S1, S2, Gc. cbn [fst snd]. destruct a, b. cbn [fst snd] in *. f_equal; lia.
  Qed.

  Lemma coprime_nonzero : forall u w, Z.gcd u w = 1 -> u <> 0 \/ w <> 0.
  Proof using. clear. intros u w G. destruct (Z.eq_dec u 0) as [->|]; [|now left]. right. intros ->. discriminate G. Qed.

  Lemma side_dir : forall p, In p (placed 0 zs) -> stride1 (snd p) <> 0 \/ stride2 (snd p) <> 0.
  Proof using Hm. intros p I. destruct (side_shape p I) as (u & w & [G _ S1 S2 _ _ _ _ _]). rewrite S1, S2. pose proof step_size. destruct (coprime_nonzero u w G); [left|right]; nia. Qed.
  Lemma side_count : forall p, In p (placed 0 zs) -> 0 < count (snd p).
  Proof using Hm. intros p I. destruct (side_shape p I) as (u & w & S). apply S. Qed.

  Local Notation bit_of_side p := (bit (fst (snd p)) (stride1 (snd p)) (stride2 (snd p)) (fst p)).
  Lemma side_edge : forall p, In p (placed 0 zs) -> edge_of p = bit_of_side p 0 (count (snd p)).
  Proof using Hm.
    intros p I. rewrite <- bit_of; [|now apply side_dir|now apply side_count]. destruct (side_shape p I) as (u & w & S). unfold lattice in *. pose proof (sh_end _ _ _ S) as E. unfold lattice in E. rewrite <- E.
    destruct p as [k [[a1 a2] b]]. unfold pt. cbn [fst snd]. now rewrite !Z.mul_0_l, !Z.add_0_r.
  Qed.

  Lemma in_inner : forall s t, In t (inner s) <-> 0 < t < count s.
  Proof using. clear. intros s t. unfold inner. rewrite in_map_iff. split; [intros (n & <- & I); apply in_seq in I; lia|]. intros H. exists (Z.to_nat t). split; [lia|]. apply in_seq. lia. Qed.
  Lemma inner_sorted : forall s, StronglySorted Z.lt (inner s).
  Proof using.
    clear. intros s. unfold inner. generalize (Z.to_nat (count s - 1)) 1%nat. induction n as [|n IH]; intros k; [constructor|]. cbn [seq map]. constructor; [apply IH|]. rewrite Forall_forall. intros t T. apply in_map_iff in T. destruct T as (j & <- & J). apply in_seq in J. lia.
  Qed.
  Lemma times_sorted : forall p, In p (placed 0 zs) -> StronglySorted Z.lt (times (snd p)).
  Proof using Hm.
    intros p I. pose proof (side_count p I) as C. unfold times. assert (B : forall t, In t (marks (snd p)) -> 0 < t < count (snd p)) by (intros t T; apply filter_In in T; now apply in_inner).
    assert (S : StronglySorted Z.lt (marks (snd p))).
    { unfold marks. pose proof (inner_sorted (snd p)) as S. revert S. generalize (inner (snd p)). clear. induction l as [|a l IH]; intros S; [constructor|]. inversion S as [|? ? S' F]; subst. cbn [filter]. destruct (crossed _ a); [|now apply IH].
      constructor; [now apply IH|]. rewrite Forall_forall in *. intros t T. apply filter_In in T. now apply F. }
    constructor.
    - revert B S. generalize (marks (snd p)). clear. induction l as [|a l IH]; intros B S; [repeat constructor|]. inversion S as [|? ? S' F]; subst. cbn [app]. constructor; [apply IH; [intros; apply B; now right|exact S']|]. apply Forall_app. split; [exact F|]. repeat constructor. apply B. now left.
    - rewrite Forall_forall. intros t T. apply in_app_iff in T. destruct T as [T|[<-|[]]]; [apply B in T; lia|exact C].
  Qed.
  Lemma times_bounds : forall p t, In p (placed 0 zs) -> In t (times (snd p)) -> 0 <= t <= count (snd p).
  Proof using Hm.
    intros p t I T. pose proof (side_count p I) as C. unfold times in T. destruct T as [<-|T]; [lia|]. apply in_app_iff in T. destruct T as [T|[<-|[]]]; [|lia]. apply filter_In in T. destruct T as [T _]. apply in_inner in T. lia.
  Qed.
  Lemma road_times : forall p, In p (placed 0 zs) -> road (snd p) = map (lattice (snd p)) (times (snd p)).
  Proof using Hm.
    intros p I. destruct (side_shape p I) as (u & w & S). unfold road, times. cbn [map]. rewrite map_app. cbn [map]. rewrite <- (sh_end _ _ _ S). f_equal. unfold lattice, pt. rewrite !Z.mul_0_l, !Z.add_0_r. now destruct (fst (snd p)).
  Qed.

  (** A point of the grid inside a side. *)
  Lemma inside_lattice : forall p a b, In p (placed 0 zs) -> inside_edge (edge_of p) (inject_Z (2 ^ g * a)) (inject_Z (2 ^ g * b)) -> exists t, In t (inner (snd p)) /\ lattice (snd p) t = (2 ^ g * a, 2 ^ g * b).
  Proof using Hm.
    intros p a b I H. rewrite side_edge in H by exact I. apply (bit_inside _ _ _ (side_dir p I) _ _ _ _ _ (side_count p I)) in H. destruct H as (s & S0 & S1 & A1 & A2).
    destruct (side_shape p I) as (u & w & Sh). destruct (sh_a _ _ _ Sh) as (a1 & a2 & Ea & _ & _). rewrite (sh_1 _ _ _ Sh), Ea in A1. rewrite (sh_2 _ _ _ Sh), Ea in A2. cbn [fst snd] in A1, A2.
    pose proof step_size as T. assert (Tq : (0 < inject_Z (2 ^ g))%Q) by (change 0%Q with (inject_Z 0); rewrite <- Zlt_Qlt; exact T).
    rewrite !inject_Z_mult in A1, A2.
    assert (B1 : (inject_Z (a - a1) == s * inject_Z u)%Q) by (rewrite minus_Q; apply (Qmult_inj_l _ _ (inject_Z (2 ^ g))); [lra|]; lra).
    assert (B2 : (inject_Z (b - a2) == s * inject_Z w)%Q) by (rewrite minus_Q; apply (Qmult_inj_l _ _ (inject_Z (2 ^ g))); [lra|]; lra).
    assert (E : (a - a1) * w = (b - a2) * u) by (apply inj_eq; rewrite !inject_Z_mult, B1, B2; ring).
    destruct (common_steps u w _ _ (sh_gcd _ _ _ Sh) E) as (t & T1 & T2).
    assert (Es : (inject_Z t == s)%Q).
    { rewrite T1, inject_Z_mult in B1. rewrite T2, inject_Z_mult in B2. destruct (coprime_nonzero u w (sh_gcd _ _ _ Sh)) as [N|N]; [apply (Qmult_inj_r _ _ (inject_Z u))|apply (Qmult_inj_r _ _ (inject_Z w))]; try assumption; intros Q; apply N, inj_eq; exact Q. }
    rewrite <- Es in S0, S1. rewrite <- Zlt_Qlt in S0, S1. exists t. split; [now apply in_inner|]. unfold lattice, pt. rewrite (sh_1 _ _ _ Sh), (sh_2 _ _ _ Sh), Ea. cbn [fst snd]. f_equal; nia.
  Qed.
  Lemma lattice_inside : forall p t, In p (placed 0 zs) -> In t (inner (snd p)) -> inside_edge (edge_of p) (inject_Z (fst (lattice (snd p) t))) (inject_Z (snd (lattice (snd p) t))).
  Proof using Hm.
    intros p t I T. apply in_inner in T. rewrite side_edge by exact I. apply (bit_inside _ _ _ (side_dir p I) _ _ _ _ _ (side_count p I)). exists (inject_Z t). rewrite <- !Zlt_Qlt. split; [lia|]. split; [lia|]. apply pt_at.
  Qed.

  (** *** Two sides *)

  Definition pair_ok (e f : edge) : Prop := only_ends e f \/ crosses_on g e f \/ (coincide e f /\ forall h, In h (edges zs) -> ~ crosses_on g e h /\ ~ crosses_on g f h).
  Lemma crosses_swap : forall e f, crosses_on g e f -> crosses_on g f e.
  Proof using. clear. intros e f (a & b & H1 & H2 & H3). exists a, b. split; [exact H2|]. split; [exact H1|]. intros x y [A B]. apply H3. now split. Qed.
  Lemma pair_swap : forall e f, pair_ok e f -> pair_ok f e.
  Proof using.
    clear. intros e f [H|[H|[(A & B & C) H]]]; [left; now apply ends_swap|right; left; now apply crosses_swap|right; right]. split; [repeat split; congruence|]. intros h I. destruct (H h I). now split.
  Qed.
  Lemma sides_pair : forall j k p p', nth_error (placed 0 zs) j = Some p -> nth_error (placed 0 zs) k = Some p' -> j <> k -> pair_ok (edge_of p) (edge_of p').
  Proof using Hm.
    intros j k p p' J K N. pose proof (mesh_pairs _ _ _ _ Hm) as F. change (ForallOrdPairs pair_ok (edges zs)) in F. rewrite mesh_edges in F. apply pairs_map in F.
    destruct (pairs_nth _ _ F j k p p' J K N) as [H|H]; [exact H|now apply pair_swap].
  Qed.

  Lemma same_z_iff : forall u v, same_z u v = true <-> u = v.
  Proof using. clear. intros [u1 u2] [v1 v2]. unfold same_z. cbn [fst snd]. rewrite andb_true_iff, !Z.eqb_eq. split; [intros [-> ->]; reflexivity|intros H; injection H; auto]. Qed.
  Lemma same_edge_iff : forall e f, same_edge e f = true <-> e_left e = e_left f /\ e_right e = e_right f.
  Proof using. clear. intros e f. unfold same_edge. now rewrite andb_true_iff, !same_z_iff. Qed.
  Lemma edge_ends_of : forall k l s, e_left (edge_of (k, s)) = e_left (edge_of (l, s)) /\ e_right (edge_of (k, s)) = e_right (edge_of (l, s)).
  Proof using. clear. intros k l s. unfold edge_of. cbn [fst snd]. destruct (lex_z (fst s) (snd s)); now split. Qed.

  Lemma crossed_iff : forall p t, crossed (0%nat, snd p) t = true <->
    exists p' t', In p' (placed 0 zs) /\ ~ (e_left (edge_of p) = e_left (edge_of p') /\ e_right (edge_of p) = e_right (edge_of p')) /\ In t' (inner (snd p')) /\ lattice (snd p) t = lattice (snd p') t'.
  Proof using.
    clear. intros [k s] t. unfold crossed. cbn [snd]. rewrite existsb_exists. split.
    - intros (p' & I & H). apply andb_true_iff in H. destruct H as [H1 H2]. apply existsb_exists in H2. destruct H2 as (t' & T & H2). apply same_z_iff in H2. exists p', t'. split; [exact I|]. split; [|now split].
      intros E. apply negb_true_iff in H1. rewrite (proj2 (same_edge_iff _ _)) in H1; [discriminate|]. destruct (edge_ends_of k 0%nat s) as [<- <-]. exact E.
    - intros (p' & t' & I & N & T & E). exists p'. split; [exact I|]. apply andb_true_iff. split; [|apply existsb_exists; exists t'; split; [exact T|now apply same_z_iff]].
      apply negb_true_iff, not_true_iff_false. rewrite same_edge_iff. destruct (edge_ends_of k 0%nat s) as [<- <-]. exact N.
  Qed.

  (** No end of a side is inside it. *)
  Lemma not_end : forall p t, In p (placed 0 zs) -> In t (inner (snd p)) -> ~ is_end (lattice (snd p) t) (edge_of p).
  Proof using Hm.
    intros p t I T E. apply in_inner in T. rewrite side_edge in E by exact I. apply bit_ends in E. unfold lattice in E. destruct E as [E|E]; apply (pt_inj _ _ _ (side_dir p I)) in E; lia.
  Qed.
  Lemma on_side : forall p x y, In p (placed 0 zs) -> on_segment (e_left (edge_of p)) (e_right (edge_of p)) x y <-> exists s, (0 <= s)%Q /\ (s <= inject_Z (count (snd p)))%Q /\ at_s (fst (snd p)) (stride1 (snd p)) (stride2 (snd p)) s x y.
  Proof using Hm. intros p x y I. rewrite side_edge by exact I. apply (bit_on _ _ _ (side_dir p I) _ _ _ _ _ (side_count p I)). Qed.
  Lemma lattice_on : forall p t, In p (placed 0 zs) -> 0 <= t <= count (snd p) -> on_segment (e_left (edge_of p)) (e_right (edge_of p)) (inject_Z (fst (lattice (snd p) t))) (inject_Z (snd (lattice (snd p) t))).
  Proof using Hm. intros p t I T. apply on_side; [exact I|]. exists (inject_Z t). change 0%Q with (inject_Z 0). rewrite <- !Zle_Qle. split; [lia|]. split; [lia|]. apply pt_at. Qed.

  Lemma int_same : forall u v : Z * Z, same_point (inject_Z (fst u)) (inject_Z (snd u)) (inject_Z (fst v)) (inject_Z (snd v)) -> u = v.
  Proof using. clear. intros [u1 u2] [v1 v2] [A B]. cbn [fst snd] in *. apply inj_eq in A, B. now subst. Qed.

  (** Points marked are where two sides cross. *)
  Lemma meets_cross : forall j k p p' t t', nth_error (placed 0 zs) j = Some p -> nth_error (placed 0 zs) k = Some p' -> j <> k ->
    ~ (e_left (edge_of p) = e_left (edge_of p') /\ e_right (edge_of p) = e_right (edge_of p')) -> In t (inner (snd p)) -> In t' (inner (snd p')) -> lattice (snd p) t = lattice (snd p') t' -> crosses_on g (edge_of p) (edge_of p').
  Proof using Hm.
    intros j k p p' t t' J K N Ne T T' E. pose proof (nth_error_In _ _ J) as I. pose proof (nth_error_In _ _ K) as I'. destruct (sides_pair j k p p' J K N) as [O|[C|[(A & B & _) _]]]; [|exact C|now elim Ne].
    exfalso. pose proof T as Ti. pose proof T' as Ti'. apply in_inner in Ti, Ti'.
    destruct (O (inject_Z (fst (lattice (snd p) t))) (inject_Z (snd (lattice (snd p) t)))) as (v & V & _ & A1 & A2).
    { split; [apply lattice_on; [exact I|lia]|rewrite E; apply lattice_on; [exact I'|lia]]. }
    apply (not_end p t I T). rewrite (int_same (lattice (snd p) t) v); [exact V|now split].
  Qed.
  Lemma crossed_where : forall j p t, nth_error (placed 0 zs) j = Some p -> In t (marks (snd p)) -> exists k p' t', nth_error (placed 0 zs) k = Some p' /\ j <> k
    /\ crosses_on g (edge_of p) (edge_of p') /\ In t' (marks (snd p')) /\ lattice (snd p) t = lattice (snd p') t'.
  Proof using Hm.
    intros j p t J M. apply filter_In in M. destruct M as [T C]. apply crossed_iff in C. destruct C as (p' & t' & I' & N & T' & E). destruct (In_nth_error _ _ I') as (k & K).
    assert (Nk : j <> k) by (intros ->; apply N; rewrite K in J; injection J as ->; now split). exists k, p', t'. split; [exact K|]. split; [exact Nk|]. split; [now apply (meets_cross j k p p' t t')|]. split; [|exact E].
    apply filter_In. split; [exact T'|]. apply crossed_iff. exists p, t. split; [eapply nth_error_In, J|]. split; [intros [A B]; apply N; split; now symmetry|]. split; [exact T|now symmetry].
  Qed.
  Lemma cross_marked : forall p p', In p (placed 0 zs) -> In p' (placed 0 zs) -> crosses_on g (edge_of p) (edge_of p') ->
    exists t t', In t (marks (snd p)) /\ In t' (marks (snd p')) /\ lattice (snd p) t = lattice (snd p') t'
    /\ forall x y, on_both (e_left (edge_of p)) (e_right (edge_of p)) (e_left (edge_of p')) (e_right (edge_of p')) x y -> is_at (lattice (snd p) t) x y.
  Proof using Hm.
    intros p p' I I' (a & b & H1 & H2 & H3). cbv zeta in *. destruct (inside_lattice p a b I H1) as (t & T & E), (inside_lattice p' a b I' H2) as (t' & T' & E'). exists t, t'.
    assert (N : ~ (e_left (edge_of p) = e_left (edge_of p') /\ e_right (edge_of p) = e_right (edge_of p'))).
    { intros [A B]. assert (Q : on_both (e_left (edge_of p)) (e_right (edge_of p)) (e_left (edge_of p')) (e_right (edge_of p')) (inject_Z (fst (lattice (snd p) 0))) (inject_Z (snd (lattice (snd p) 0)))).
      { rewrite <- A, <- B. split; apply lattice_on; try exact I; pose proof (side_count p I); lia. }
      apply H3 in Q. assert (X : lattice (snd p) 0 = lattice (snd p) t) by (apply int_same; rewrite E; exact Q). apply (pt_inj _ _ _ (side_dir p I)) in X. apply in_inner in T. lia. }
    split; [|split; [|split; [now rewrite E, E'|]]].
    - apply filter_In. split; [exact T|]. apply crossed_iff. exists p', t'. split; [exact I'|]. split; [exact N|]. split; [exact T'|now rewrite E, E'].
    - apply filter_In. split; [exact T'|]. apply crossed_iff. exists p, t. split; [exact I|]. split; [intros [A B]; apply N; split; now symmetry|]. split; [exact T|now rewrite E, E'].
    - intros x y O. apply H3 in O. rewrite E. exact O.
  Qed.
  Lemma unmarked : forall p, In p (placed 0 zs) -> (forall h, In h (edges zs) -> ~ crosses_on g (edge_of p) h) -> marks (snd p) = [].
  Proof using Hm.
    intros p I N. destruct (marks (snd p)) as [|t l] eqn:E; [reflexivity|]. exfalso. destruct (In_nth_error _ _ I) as (j & J). destruct (crossed_where j p t J) as (k & p' & t' & K & _ & C & _); [rewrite E; now left|].
    apply (N (edge_of p')); [|exact C]. apply edge_in. eapply nth_error_In, K.
  Qed.

  (** *** All routes *)

  Definition way (p : nat * side) : nat * list (Z * Z) := (fst p, map (lattice (snd p)) (times (snd p))).
  Lemma ways : routes mesh_marks = map way (placed 0 zs).
  Proof using Hm. rewrite mesh_routes. apply map_ext_in. intros p I. unfold way. now rewrite road_times. Qed.
  Lemma way_edges : forall p, In p (placed 0 zs) -> route_edges (way p) = map (fun s => bit_of_side p (fst s) (snd s)) (steps (times (snd p))).
  Proof using Hm. intros p I. exact (track_edges _ _ _ (side_dir p I) _ (times_sorted p I) (fst p)). Qed.

  Lemma bit_within : forall p i j x y, In p (placed 0 zs) -> 0 <= i -> i < j -> j <= count (snd p) -> on_segment (e_left (bit_of_side p i j)) (e_right (bit_of_side p i j)) x y -> on_segment (e_left (edge_of p)) (e_right (edge_of p)) x y.
  Proof using Hm.
    intros p i j x y I A L B O. apply (bit_on _ _ _ (side_dir p I) _ _ _ _ _ L) in O. destruct O as (s & S0 & S1 & S). apply on_side; [exact I|]. exists s. rewrite Zle_Qle in A, B. change (inject_Z 0) with 0%Q in A. split; [lra|]. split; [lra|exact S].
  Qed.

  Lemma times_ends : forall s, In 0 (times s) /\ In (count s) (times s).
  Proof using. clear. intros s. unfold times. split; [now left|]. right. apply in_or_app. right. now left. Qed.
  Lemma marks_times : forall s t, In t (marks s) -> In t (times s).
  Proof using. clear. intros s t T. unfold times. right. apply in_or_app. now left. Qed.

  (** Where two different sides meet, both have a point of their own. *)
  Lemma meet_times : forall p p' x y, In p (placed 0 zs) -> In p' (placed 0 zs) -> only_ends (edge_of p) (edge_of p') \/ crosses_on g (edge_of p) (edge_of p') ->
    on_both (e_left (edge_of p)) (e_right (edge_of p)) (e_left (edge_of p')) (e_right (edge_of p')) x y ->
    exists t t', In t (times (snd p)) /\ In t' (times (snd p')) /\ lattice (snd p) t = lattice (snd p') t' /\ is_at (lattice (snd p) t) x y.
  Proof using Hm.
    intros p p' x y I I' [O|C] B.
    - destruct (O x y B) as (v & V & V' & A). assert (E : forall q, In q (placed 0 zs) -> is_end v (edge_of q) -> exists t, In t (times (snd q)) /\ lattice (snd q) t = v).
      { intros q Iq Vq. rewrite side_edge in Vq by exact Iq. apply bit_ends in Vq. destruct (times_ends (snd q)). destruct Vq as [-> | ->]; eauto. }
      destruct (E p I V) as (t & T & Et), (E p' I' V') as (t' & T' & Et'). exists t, t'. split; [exact T|]. split; [exact T'|]. split; [congruence|]. now rewrite Et.
    - destruct (cross_marked p p' I I' C) as (t & t' & T & T' & E & U). exists t, t'. split; [now apply marks_times|]. split; [now apply marks_times|]. split; [exact E|now apply U].
  Qed.

  Lemma bits_pair : forall p p' e f, In p (placed 0 zs) -> In p' (placed 0 zs) -> pair_ok (edge_of p) (edge_of p') -> In e (route_edges (way p)) -> In f (route_edges (way p')) -> coincide e f \/ only_ends e f.
  Proof using Hm.
    intros p p' e f I I' H He Hf. rewrite way_edges in He, Hf by assumption. apply in_map_iff in He, Hf. destruct He as (s & <- & S), Hf as (s' & <- & S').
    pose proof (times_sorted p I) as So. pose proof (times_sorted p' I') as So'. destruct (steps_lt _ s So S) as (L & B1 & B2), (steps_lt _ s' So' S') as (L' & B1' & B2').
    assert (M : only_ends (edge_of p) (edge_of p') \/ crosses_on g (edge_of p) (edge_of p') -> only_ends (bit_of_side p (fst s) (snd s)) (bit_of_side p' (fst s') (snd s'))).
    { intros X x y [O O']. pose proof (times_bounds p _ I B1). pose proof (times_bounds p _ I B2). pose proof (times_bounds p' _ I' B1'). pose proof (times_bounds p' _ I' B2').
      destruct (meet_times p p' x y I I' X) as (t & t' & T & T' & E & A).
      { split; [apply (bit_within p (fst s) (snd s))|apply (bit_within p' (fst s') (snd s'))]; try assumption; lia. }
      exists (lattice (snd p) t). split; [exact (track_end _ _ _ (side_dir p I) _ So (fst p) s t x y S T A O)|]. split; [|exact A]. rewrite E in *. exact (track_end _ _ _ (side_dir p' I') _ So' (fst p') s' t' x y S' T' A O'). }
    destruct H as [H|[H|[C N]]]; [right; apply M; now left|right; apply M; now right|left].
    assert (U : marks (snd p) = []) by (apply unmarked; [exact I|]; intros h Hh; exact (proj1 (N h Hh))). assert (U' : marks (snd p') = []) by (apply unmarked; [exact I'|]; intros h Hh; exact (proj2 (N h Hh))).
    unfold times in S, S'. rewrite U in S. rewrite U' in S'. cbn in S, S'. destruct S as [<-|[]], S' as [<-|[]]. cbn [fst snd]. rewrite <- !side_edge by assumption. exact C.
  Qed.

  Lemma stretch_bit : forall p e, In p (placed 0 zs) -> stretch (way p) e -> exists i j, In i (times (snd p)) /\ In j (times (snd p)) /\ i < j /\ e = bit_of_side p i j.
  Proof using Hm.
    intros p e I (pre & a & mid & b & post & E & J). unfold way in E. cbn [snd] in E. apply map_split in E. destruct E as (l1 & i & l2 & Et & _ & <- & E2). apply map_split in E2. destruct E2 as (l3 & j & l4 & Et' & _ & <- & _).
    pose proof (times_sorted p I) as S. exists i, j. rewrite Et, Et' in *. split; [rewrite in_app_iff; cbn; auto|]. split; [rewrite in_app_iff; cbn; rewrite in_app_iff; cbn; auto|].
    assert (L : i < j). { clear - S. induction l1 as [|c l1 IH]; cbn [app] in S; inversion S as [|? ? S' F]; subst; [|now apply IH]. rewrite Forall_forall in F. apply F. rewrite in_app_iff. cbn. auto. }
    split; [exact L|]. unfold way, lattice in J. cbn [fst] in J. rewrite (bit_edge _ _ _ (side_dir p I)) in J by exact L. destruct J as [<-|[]]. reflexivity.
  Qed.

  Theorem mesh_cut : slope_cut g R D mesh_marks.
  Proof using Hm.
    assert (Rt : forall r, In r (routes mesh_marks) -> exists p, In p (placed 0 zs) /\ r = way p) by (intros r I; rewrite ways in I; apply in_map_iff in I; destruct I as (p & <- & I); eauto).
    assert (Nt : forall j r, nth_error (routes mesh_marks) j = Some r -> exists p, nth_error (placed 0 zs) j = Some p /\ r = way p).
    { intros j r J. rewrite ways, nth_error_map in J. destruct (nth_error (placed 0 zs) j) as [p|]; [|discriminate]. injection J as <-. eauto. }
    constructor.
    - exact (mesh_size _ _ _ _ Hm).
    - exact (mesh_wide _ _ _ _ Hm).
    - exact (mesh_bound _ _ _ _ Hm).
    - intros r v I V. destruct (Rt r I) as (p & Ip & ->). unfold way in V. cbn [snd] in V. apply in_map_iff in V. destruct V as (t & <- & T). apply (times_bounds p t Ip) in T.
      destruct (side_shape p Ip) as (u & w & Sh). destruct (sh_a _ _ _ Sh) as (a1 & a2 & Ea & A1 & A2), (sh_b _ _ _ Sh) as (b1 & b2 & Eb & B1 & B2). pose proof (sh_end _ _ _ Sh) as En. rewrite Eb in En. pose proof step_size as P2.
      unfold lattice, pt in *. rewrite (sh_1 _ _ _ Sh), (sh_2 _ _ _ Sh), Ea in *. cbn [fst snd] in *. injection En as En1 En2. assert (N1 : b1 = a1 + count (snd p) * u) by nia. assert (N2 : b2 = a2 + count (snd p) * w) by nia.
      exists (a1 + t * u), (a2 + t * w). split; [f_equal; ring|]. clear - T A1 A2 B1 B2 N1 N2. subst. 
      assert (X : forall c n z r, 0 <= c <= n -> Z.abs z <= R -> Z.abs (z + n * r) <= R -> Z.abs (z + c * r) <= R).
      { clear. intros c n z r C A B. destruct (Z_le_gt_dec 0 r); [assert (0 <= c * r <= n * r) by nia|assert (n * r <= c * r <= 0) by nia]; lia. }
      split; eapply X; eassumption.
    - intros r I. destruct (Rt r I) as (p & Ip & ->). exact (track_forward _ _ _ (side_dir p Ip) _ (times_sorted p Ip)).
    - intros r I. destruct (Rt r I) as (p & Ip & ->). destruct (side_shape p Ip) as (u & w & Sh). exists u, w. split; [exact (sh_short _ _ _ Sh)|]. intros a b A B. unfold way in A, B. cbn [snd] in A, B. apply in_map_iff in A, B. destruct A as (t & <- & _), B as (t' & <- & _).
      exists (t' - t). unfold vsub, lattice, pt. rewrite (sh_1 _ _ _ Sh), (sh_2 _ _ _ Sh). cbn [fst snd]. f_equal; ring.
    - intros r I. destruct (Rt r I) as (p & Ip & ->). destruct (side_shape p Ip) as (u & w & Sh). intros a b A B. unfold way in A, B. cbn [snd] in A, B. apply in_map_iff in A, B. destruct A as (t & <- & T), B as (t' & <- & T'). apply (times_bounds p _ Ip) in T, T'.
      destruct (sh_reach _ _ _ Sh (fst (snd p)) (snd (snd p)) ltac:(cbn; auto) ltac:(cbn; auto)) as [R1 R2]. pose proof (sh_end _ _ _ Sh) as En. rewrite En in R1, R2. unfold lattice, pt in *. cbn [fst snd] in *.
      assert (X : forall c c' n z r m, 0 <= c <= n -> 0 <= c' <= n -> Z.abs (z - (z + n * r)) <= m -> Z.abs (z + c * r - (z + c' * r)) <= m).
      { clear. intros c c' n z r m C C' H. replace (z - (z + n * r)) with (- (n * r)) in H by ring. replace (z + c * r - (z + c' * r)) with ((c - c') * r) by ring. rewrite Z.abs_opp in H. rewrite Z.abs_mul in *. assert (Z.abs (c - c') <= Z.abs n) by lia. nia. }
      split; eapply X; try eassumption.
    - unfold edges. rewrite marked_edges. fold (routes mesh_marks). rewrite ways, flat_on_map. apply (pairs_flat _ _ (fun p p' => pair_ok (edge_of p) (edge_of p'))).
      + intros p I. pose proof (track_ends (fst (snd p)) _ _ (side_dir p I) _ (times_sorted p I) (fst p)) as O. clear - O. change (ForallOrdPairs only_ends (route_edges (way p))) in O. revert O. generalize (route_edges (way p)). intros es O. induction O as [|e l F O IH]; constructor; [|exact IH]. rewrite Forall_forall in *. intros f Hf. right. now apply F.
      + intros p p' e f I I' H He Hf. exact (bits_pair p p' e f I I' H He Hf).
      + apply pairs_map. rewrite <- mesh_edges. exact (mesh_pairs _ _ _ _ Hm).
    - intros j k r r' e f J K N Se Sf. destruct (Nt j r J) as (p & Jp & ->), (Nt k r' K) as (p' & Kp & ->). pose proof (nth_error_In _ _ Jp) as I. pose proof (nth_error_In _ _ Kp) as I'.
      destruct (stretch_bit p e I Se) as (i & m & Ti & Tm & L & ->), (stretch_bit p' f I' Sf) as (i' & m' & Ti' & Tm' & L' & ->).
      pose proof (times_bounds p _ I Ti) as Bi. pose proof (times_bounds p _ I Tm) as Bm. pose proof (times_bounds p' _ I' Ti') as Bi'. pose proof (times_bounds p' _ I' Tm') as Bm'.
      assert (Sub : forall x y, on_both (e_left (bit_of_side p i m)) (e_right (bit_of_side p i m)) (e_left (bit_of_side p' i' m')) (e_right (bit_of_side p' i' m')) x y -> on_both (e_left (edge_of p)) (e_right (edge_of p)) (e_left (edge_of p')) (e_right (edge_of p')) x y).
      { intros x y [O O']. split; [apply (bit_within p i m)|apply (bit_within p' i' m')]; try assumption; lia. }
      destruct (sides_pair j k p p' Jp Kp N) as [O|[C|[C Nc]]].
      + right. intros (x & y & x' & y' & O1 & O2 & Nq). apply (only_once (edge_of p) (edge_of p')); [|exact O|exists x, y, x', y'; split; [now apply Sub|split; [now apply Sub|exact Nq]]].
        rewrite side_edge by exact I. exact (bit_lex _ _ _ (side_dir p I) _ _ _ (side_count p I)).
      + right. intros (x & y & x' & y' & O1 & O2 & Nq). destruct C as (a & b & _ & _ & U). apply Nq. destruct (U x y (Sub x y O1)) as [U1 U2], (U x' y' (Sub x' y' O2)) as [U3 U4]. split; [now rewrite U1, U3|now rewrite U2, U4].
      + left. assert (U : marks (snd p) = []) by (apply unmarked; [exact I|]; intros h Hh; exact (proj1 (Nc h Hh))). assert (U' : marks (snd p') = []) by (apply unmarked; [exact I'|]; intros h Hh; exact (proj2 (Nc h Hh))).
        unfold times in Ti, Tm, Ti', Tm'. rewrite U in Ti, Tm. rewrite U' in Ti', Tm'. cbn in Ti, Tm, Ti', Tm'.
        replace i with 0 by lia. replace m with (count (snd p)) by lia. replace i' with 0 by lia. replace m' with (count (snd p')) by lia. rewrite <- !side_edge by assumption. exact C.
    - intros r pre v post I E N1 N2. destruct (Rt r I) as (p & Ip & ->). unfold way in E. cbn [snd] in E. apply map_split in E. destruct E as (l1 & t & l2 & Et & E1 & <- & E2).
      assert (M1 : l1 <> []) by (intros ->; apply N1; now rewrite <- E1). assert (M2 : l2 <> []) by (intros ->; apply N2; now rewrite <- E2).
      assert (Mt : In t (marks (snd p))).
      { unfold times in Et. destruct l1 as [|c l1]; [congruence|]. cbn [app] in Et. injection Et as _ Et. destruct (exists_last M2) as (l3 & z & Ez). rewrite Ez in Et. replace (l1 ++ t :: l3 ++ [z]) with ((l1 ++ t :: l3) ++ [z]) in Et by (rewrite <- app_assoc; reflexivity). apply app_inj_tail in Et. destruct Et as [-> _]. apply in_or_app. right. now left. }
      destruct (In_nth_error _ _ Ip) as (j & J). destruct (crossed_where j p t J Mt) as (k & p' & t' & K & _ & C & Mt' & El). pose proof (nth_error_In _ _ K) as Ip'.
      assert (Et' : exists l3 l4, times (snd p') = l3 ++ t' :: l4 /\ l3 <> [] /\ l4 <> []).
      { destruct (in_split _ _ Mt') as (m1 & m2 & Em). exists (0 :: m1), (m2 ++ [count (snd p')]). unfold times. rewrite Em. split; [cbn [app]; now rewrite <- app_assoc|]. split; [discriminate|]. intros X. destruct m2; discriminate X. }
      destruct Et' as (l3 & l4 & Et' & M3 & M4).
      destruct (track_arrive (fst (snd p)) _ _ (side_dir p Ip) _ (times_sorted p Ip) (fst p) l1 t l2 Et M1 M2) as (e & He & Re & i & m & L & Be & Bi & Bm).
      destruct (track_arrive (fst (snd p')) _ _ (side_dir p' Ip') _ (times_sorted p' Ip') (fst p') l3 t' l4 Et' M3 M4) as (f & Hf & Rf & i' & m' & L' & Bf & Bi' & Bm').
      assert (Ne : e <> f).
      { intros X. destruct C as (a & b & _ & _ & U). pose proof (bit_lex (fst (snd p)) _ _ (side_dir p Ip) (fst p) i m L) as Lx.
        assert (O : forall x y, on_segment (e_left e) (e_right e) x y -> same_point x y (inject_Z (2 ^ g * a)) (inject_Z (2 ^ g * b))).
        { intros x y Q. apply U. pose proof (times_bounds p _ Ip Bi). pose proof (times_bounds p _ Ip Bm). pose proof (times_bounds p' _ Ip' Bi'). pose proof (times_bounds p' _ Ip' Bm'). split.
          - apply (bit_within p i m); try assumption; try lia. rewrite <- Be. exact Q.
          - apply (bit_within p' i' m'); try assumption; try lia. rewrite <- Bf, <- X. exact Q. }
        assert (Eq : e_left e = e_right e).
        { assert (Ol : on_segment (e_left e) (e_right e) (inject_Z (fst (e_left e))) (inject_Z (snd (e_left e)))) by (exists 0%Q; repeat split; try lra; ring).
          assert (Or : on_segment (e_left e) (e_right e) (inject_Z (fst (e_right e))) (inject_Z (snd (e_right e)))) by (exists 1%Q; repeat split; try lra; rewrite minus_Q; ring).
          destruct (O _ _ Ol) as [A1 A2], (O _ _ Or) as [A3 A4]. apply int_same. split; [now rewrite A1, A3|now rewrite A2, A4]. }
        rewrite <- Be, Eq in Lx. unfold lex_z in Lx. rewrite !Z.compare_refl in Lx. discriminate. }
      unfold arrivals. change 2%nat with (length [e; f]). apply NoDup_incl_length; [constructor; [intros [X|[]]; now apply Ne|constructor; [intros []|constructor]]|].
      assert (In_e : forall q h, In q (placed 0 zs) -> In h (route_edges (way q)) -> In h (edges (marked mesh_marks))).
      { intros q h Iq Hh. unfold edges. rewrite marked_edges. fold (routes mesh_marks). rewrite ways. apply in_flat_map. exists (way q). split; [now apply in_map|exact Hh]. }
      intros h [<-|[<-|[]]]; apply filter_In; (split; [eapply In_e; [|eassumption]; assumption|]); apply same_z_iff; [exact Re|]. rewrite Rf. symmetry. exact El.
  Qed.

  Lemma mesh_few : (length (edges (marked mesh_marks)) <= 21 * length (edges zs))%nat.
  Proof using Hm.
    unfold edges at 1. rewrite marked_edges. fold (routes mesh_marks). rewrite ways, flat_on_map, mesh_edges, map_length.
    assert (B : forall l, (forall p, In p l -> In p (placed 0 zs)) -> (length (flat_map (fun p => route_edges (way p)) l) <= 21 * length l)%nat); [|now apply B].
    induction l as [|p l IH]; intros I; [cbn; lia|]. cbn [flat_map length]. rewrite app_length. specialize (IH ltac:(intros; apply I; now right)). assert (Ip : In p (placed 0 zs)) by (apply I; now left).
    enough (length (route_edges (way p)) <= 21)%nat by lia. rewrite way_edges, map_length by exact Ip.
    assert (St : (length (steps (times (snd p))) <= length (marks (snd p)) + 1)%nat). { unfold steps, times. rewrite combine_length. cbn [tl length]. rewrite app_length. cbn [length]. lia. }
    assert (Mk : (length (marks (snd p)) <= Z.to_nat (count (snd p) - 1))%nat).
    { unfold marks. assert (Fl : forall (f : Z -> bool) l, (length (filter f l) <= length l)%nat) by (clear; intros f; induction l as [|a l IH]; [cbn; lia|]; cbn [filter length]; destruct (f a); cbn [length]; lia).
      specialize (Fl (crossed (0%nat, snd p)) (inner (snd p))). unfold inner in Fl at 2. rewrite map_length, seq_length in Fl. exact Fl. }
    destruct (side_shape p Ip) as (u & w & Sh). destruct (sh_reach _ _ _ Sh (fst (snd p)) (snd (snd p)) ltac:(cbn; auto) ltac:(cbn; auto)) as [R1 R2]. pose proof (sh_end _ _ _ Sh) as En. rewrite En in R1, R2. unfold lattice, pt in R1, R2. cbn [fst snd] in R1, R2.
    pose proof step_size as P2. pose proof (sh_count _ _ _ Sh) as Cp. rewrite (sh_1 _ _ _ Sh) in R1. rewrite (sh_2 _ _ _ Sh) in R2.
    assert (X : forall z r, r <> 0 -> Z.abs (z - (z + count (snd p) * (2 ^ g * r))) <= 2 ^ g * 21 -> count (snd p) <= 21).
    { clear - P2 Cp. intros z r N H. replace (z - (z + count (snd p) * (2 ^ g * r))) with (- (2 ^ g * (count (snd p) * r))) in H by ring. rewrite Z.abs_opp, Z.abs_mul, (Z.abs_eq (2 ^ g)) in H by lia. assert (H' : Z.abs (count (snd p) * r) <= 21) by nia. nia. }
    assert (count (snd p) <= 21) by (destruct (coprime_nonzero u w (sh_gcd _ _ _ Sh)) as [N|N]; [exact (X _ _ N R1)|exact (X _ _ N R2)]). lia.
  Qed.
End Mesh.
