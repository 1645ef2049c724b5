(** Overlaying polygons on a grid whose sides cross in its points; a check, and a sample. *)

From Coq Require Import List ZArith QArith Bool Arith Lia ZifyBool.
From Verif Require Import Base Float Geometry Sweep Contours Compute SpecShape SpecOrder SpecIntersect SpecHandle SpecCompute SpecTidy TidySamples StdRef SpecOverlay OverlaySamples CrossSamples CrossOverlay CrossCover
  SpecCross SpecGrid GridCut GridLines GridSamples SpecSlope SlopeSamples AgainEdges MeshTrack MeshCut PartsArea SpecParts SpecMesh.
From Coq Require Import Lqa.
Import ListNotations.
Local Open Scope Z_scope.

Lemma mesh_crossable : forall g R D zs polys, mesh g R D zs -> g <= 7 -> Z.of_nat (length (edges zs)) <= 9000 ->
  Forall2 (fun p z => has_points (fst p) z) polys zs -> ~ In RemoveEdges (map snd polys) ->
  exists ms, plain ms = zs /\ crossable polys ms /\ (length (edges (marked ms)) <= 21 * length (edges zs))%nat.
Proof.
  intros g R D zs polys H G L F N. exists (mesh_marks g zs). split; [apply mesh_plain|]. pose proof (mesh_few g R D zs H) as W. split; [|exact W].
  apply (slope_crossable g R D); [exact (mesh_cut g R D zs H)|exact G|lia|now rewrite mesh_plain|now apply plain_covered].
Qed.

Lemma mesh_covers : forall std g R D zs polys fuel op, std_laws std -> sorts std -> mesh g R D zs -> g <= 7 -> Z.of_nat (length (edges zs)) <= 9000 ->
  Forall2 (fun p z => has_points (fst p) z) polys zs -> ~ In RemoveEdges (map snd polys) -> (63 * length (edges zs) <= fuel)%nat ->
  exists r rz, compute std fuel polys op = Ok r /\ has_corners r rz /\ forall (P : list bool -> bool) x y,
  let lines := map snd (filter (fun cl => P (c_from (fst cl))) (combine r rz)) in
  (kept_at (map snd polys) zs x y /\ P (place_of zs x y) = true -> windings x y lines = 1)
  /\ (~ (kept_at (map snd polys) zs x y /\ P (place_of zs x y) = true) -> windings x y lines = 0).
Proof.
  intros std g R D zs polys fuel op L S H G W F N Fu. destruct (mesh_crossable g R D zs polys H G W F N) as (ms & P & X & B). assert (Fu' : (3 * length (edges (marked ms)) <= fuel)%nat) by lia.
  destruct (cross_ends std fuel polys op ms L S X Fu') as (r & rz & Q & Z). exists r, rz. split; [exact Q|]. split; [exact Z|]. rewrite <- P. now apply (cross_covers std fuel polys op ms L S X Fu' r rz Q Z).
Qed.

Lemma mesh_areas : forall std g R D zs polys fuel op, std_laws std -> sorts std -> mesh g R D zs -> g <= 7 -> Z.of_nat (length (edges zs)) <= 9000 ->
  Forall2 (fun p z => has_points (fst p) z) polys zs -> ~ In RemoveEdges (map snd polys) -> ~ In RemoveInterior (map snd polys) -> (63 * length (edges zs) <= fuel)%nat ->
  exists r rz, compute std fuel polys op = Ok r /\ has_corners r rz
  /\ (forall i z d, nth_error zs i = Some z -> once_round d z -> total_area (made_of i r rz) = d * total_area z)
  /\ ((forall z, In z zs -> once_round 1 z) -> counted_area r rz = total_area (concat zs)).
Proof.
  intros std g R D zs polys fuel op L S H G W F N NI Fu. destruct (mesh_crossable g R D zs polys H G W F N) as (ms & P & X & B). assert (Fu' : (3 * length (edges (marked ms)) <= fuel)%nat) by lia.
  destruct (cross_ends std fuel polys op ms L S X Fu') as (r & rz & Q & Z). exists r, rz. split; [exact Q|]. split; [exact Z|]. rewrite <- P. split.
  - exact (parts_area std fuel polys op ms L S X Fu' r rz Q Z NI).
  - exact (parts_counted std fuel polys op ms L S X Fu' r rz Q Z NI).
Qed.

(** *** A check *)

Definition same_b (e f : edge) : bool := z_eqb (e_left e) (e_left f) && z_eqb (e_right e) (e_right f).
Definition freeb (es : list edge) (e : edge) : bool := forallb (fun h => same_b e h || apartb e h) es.
Definition cross_onb (g : Z) (e f : edge) (v : Z * Z) : bool :=
  onb e v && onb f v && negb (vcross (vsub (e_right e) (e_left e)) (vsub (e_right f) (e_left f)) =? 0) && negb (endb v e) && negb (endb v f) && (fst v mod 2 ^ g =? 0) && (snd v mod 2 ^ g =? 0).
Definition mesh_pairb (g : Z) (es : list edge) (vs : list (Z * Z)) (e f : edge) : bool :=
  apartb e f || existsb (cross_onb g e f) vs || (coincideb e f && freeb es e && freeb es f).
Definition mesh_sideb (g R D : Z) (e : edge) : bool :=
  let dx := (fst (e_right e) - fst (e_left e)) / 2 ^ g in let dy := (snd (e_right e) - snd (e_left e)) / 2 ^ g in
  let n := Z.gcd dx dy in let p := dx / n in let q := dy / n in
  slope_pointb g R (e_left e) && slope_pointb g R (e_right e) && reachb g [e_left e; e_right e] && (Z.gcd p q =? 1) && (p * p + q * q <=? D)
  && (fst (e_right e) - fst (e_left e) =? n * (2 ^ g * p)) && (snd (e_right e) - snd (e_left e) =? n * (2 ^ g * q)).
Fixpoint pairsb {A} (f : A -> A -> bool) (l : list A) : bool :=
  match l with [] => true | a :: t => forallb (f a) t && pairsb f t end.
Definition meshb (g R D : Z) (vs : list (Z * Z)) (zs : list corners) : bool :=
  (0 <=? g) && (g <=? 14) && (0 <=? R) && (R <=? 1000) && (R * R * D <=? 1248751) && forallb (fun s => negb (z_eqb (fst s) (snd s))) (flat_map sides (concat zs))
  && forallb (mesh_sideb g R D) (edges zs) && pairsb (mesh_pairb g (edges zs) vs) (edges zs).

Lemma apart_ends : forall e f, apart e f -> only_ends e f.
Proof. intros e f [_ [E|(v & Ve & Vf & M)]] x y On; [now apply E in On|]. exists v. split; [exact Ve|]. split; [exact Vf|]. now apply M. Qed.
Lemma inside_on : forall e x y, inside_edge e x y -> on_segment (e_left e) (e_right e) x y.
Proof. intros e x y (t & T0 & T1 & X & Y). exists t. split; [lra|]. split; [lra|]. now split. Qed.
Lemma inside_not_end : forall e v, inside_edge e (inject_Z (fst v)) (inject_Z (snd v)) -> e_left e <> e_right e -> ~ is_end v e.
Proof.
  intros e v (t & T0 & T1 & X & Y) N E. apply N. rewrite minus_Q in X, Y.
  assert (Z1 : (inject_Z (fst (e_right e)) == inject_Z (fst (e_left e)))%Q /\ (inject_Z (snd (e_right e)) == inject_Z (snd (e_left e)))%Q).
  { destruct E as [-> | ->].
    - split; [apply (Qmult_inj_l _ _ t)|apply (Qmult_inj_l _ _ t)]; lra.
    - split; [apply (Qmult_inj_l _ _ (1 - t))|apply (Qmult_inj_l _ _ (1 - t))]; lra. }
  destruct Z1 as [A B]. apply inj_eq in A, B. destruct (e_left e), (e_right e). cbn [fst snd] in *. now subst.
Qed.

Lemma on_inside : forall e v, on_segment (e_left e) (e_right e) (inject_Z (fst v)) (inject_Z (snd v)) -> ~ is_end v e -> inside_edge e (inject_Z (fst v)) (inject_Z (snd v)).
Proof.
  intros e v (t & T0 & T1 & X & Y) N. assert (Eq : forall w, (inject_Z (fst v) == inject_Z (fst w))%Q -> (inject_Z (snd v) == inject_Z (snd w))%Q -> v = w) by (intros w A B; apply inj_eq in A, B; destruct v, w; cbn [fst snd] in *; now subst).
  exists t. split; [|split; [|now split]].
  - destruct (Qlt_le_dec 0 t) as [L|L]; [exact L|]. exfalso. assert (E : (t == 0)%Q) by lra. apply N. left. apply Eq; [rewrite X, E|rewrite Y, E]; ring.
  - destruct (Qlt_le_dec t 1) as [L|L]; [exact L|]. exfalso. assert (E : (t == 1)%Q) by lra. apply N. right. apply Eq; [rewrite X, E|rewrite Y, E]; rewrite minus_Q; ring.
Qed.

Lemma free_ok : forall g es e, (forall h, In h es -> e_left h <> e_right h) -> e_left e <> e_right e -> freeb es e = true -> forall h, In h es -> ~ crosses_on g e h.
Proof.
  intros g es e Nd Ne H h I (a & b & H1 & H2 & H3). cbv zeta in *. unfold freeb in H. rewrite forallb_forall in H. specialize (H h I). apply orb_true_iff in H. set (v := (2 ^ g * a, 2 ^ g * b)).
  assert (NE : ~ is_end v e) by (apply inside_not_end; [exact H1|exact Ne]). destruct H as [H|H].
  - unfold same_b in H. apply andb_true_iff in H. destruct H as [A B]. apply z_eqb_eq in A, B.
    assert (O : on_both (e_left e) (e_right e) (e_left h) (e_right h) (inject_Z (fst (e_left e))) (inject_Z (snd (e_left e)))).
    { rewrite <- A, <- B. split; exists 0%Q; repeat split; try lra; ring. }
    apply H3 in O. apply NE. left. symmetry. apply (int_same (e_left e) v). exact O.
  - apply apartb_ok, apart_ends in H. destruct (H _ _ (conj (inside_on _ _ _ H1) (inside_on _ _ _ H2))) as (w & W & _ & A). apply NE. rewrite (int_same v w); [exact W|exact A].
Qed.

Lemma mesh_side_ok : forall g R D e, 0 <= g -> mesh_sideb g R D e = true -> slope_point g R (e_left e) /\ slope_point g R (e_right e) /\ within_reach g [e_left e; e_right e]
  /\ exists p q n, Z.gcd p q = 1 /\ p * p + q * q <= D /\ vsub (e_right e) (e_left e) = (n * (2 ^ g * p), n * (2 ^ g * q)).
Proof.
  intros g R D e G0 Sd. unfold mesh_sideb in Sd. rewrite !andb_true_iff, !Z.eqb_eq, !Z.leb_le in Sd. destruct Sd as ((((((S1 & S2) & S3) & S4) & S5) & S6) & S7).
  split; [now apply slope_pointb_ok|]. split; [now apply slope_pointb_ok|]. split.
  - intros a b A A'. pose proof (pairs_forall (fun a b => _ && _) _ a b S3 A A') as X. cbv beta in X. now rewrite andb_true_iff, !Z.leb_le in X.
  - eexists _, _, _. split; [exact S4|]. split; [exact S5|]. unfold vsub. f_equal; [exact S6|exact S7].
Qed.
Lemma cross_on_ok : forall g e f v, 0 <= g -> cross_onb g e f v = true -> crosses_on g e f.
Proof.
  intros g e f v G0 V. unfold cross_onb in V. rewrite !andb_true_iff, !negb_true_iff, !Z.eqb_eq, Z.eqb_neq in V. destruct V as ((((((V1 & V2) & V3) & V4) & V5) & V6) & V7).
  assert (Tp : 2 ^ g <> 0) by (apply Z.pow_nonzero; lia). exists (fst v / 2 ^ g), (snd v / 2 ^ g). apply (Z.div_exact _ _ Tp) in V6. apply (Z.div_exact _ _ Tp) in V7. cbv zeta. rewrite <- V6, <- V7.
  apply onb_ok in V1, V2. assert (Eb : forall h, endb v h = false -> ~ is_end v h).
  { intros h Hh [E|E]; unfold endb in Hh; rewrite E in Hh; unfold z_eqb in Hh; rewrite !Z.eqb_refl in Hh; cbn in Hh; [discriminate|]. rewrite orb_true_r in Hh. discriminate. }
  split; [apply on_inside; [exact V1|now apply Eb]|]. split; [apply on_inside; [exact V2|now apply Eb]|]. intros x y O. exact (once _ _ _ _ _ _ _ _ V3 O (conj V1 V2)).
Qed.

Lemma meshb_ok : forall g R D vs zs, meshb g R D vs zs = true -> mesh g R D zs.
Proof.
  intros g R D vs zs H. unfold meshb in H. rewrite !andb_true_iff, !Z.leb_le in H. destruct H as (((((((G0 & G1) & W0) & W1) & B) & Nz) & Sd) & Pr). rewrite forallb_forall in Nz, Sd.
  assert (Nl : forall s, In s (flat_map sides (concat zs)) -> fst s <> snd s).
  { intros s I E. specialize (Nz s I). apply negb_true_iff in Nz. unfold z_eqb in Nz. now rewrite E, !Z.eqb_refl in Nz. }
  assert (Ne : forall e, In e (edges zs) -> e_left e <> e_right e).
  { intros e I. rewrite (edges_map zs Nl) in I. apply in_map_iff in I. destruct I as (p & <- & I). assert (X : fst (snd p) <> snd (snd p)) by (apply Nl; rewrite <- (placed_sides zs 0); apply in_map_iff; eauto).
    unfold edge_of. destruct (lex_z _ _); cbn [e_left e_right]; congruence. }
  assert (Sd' : forall e, In e (edges zs) -> slope_point g R (e_left e) /\ slope_point g R (e_right e) /\ within_reach g [e_left e; e_right e] /\ exists p q n, Z.gcd p q = 1 /\ p * p + q * q <= D /\ vsub (e_right e) (e_left e) = (n * (2 ^ g * p), n * (2 ^ g * q))) by (intros e I; apply mesh_side_ok; [exact G0|apply Sd, I]).
  constructor; try lia; try (intros e I; destruct (Sd' e I) as (P1 & P2 & P3 & P4); auto; fail).
  - exact Nl.
  - assert (Es : forall e, In e (edges zs) -> In e (edges zs)) by auto. revert Pr Es. generalize (edges zs) at 2 3 6. induction l as [|e l IH]; intros Pr Es; [constructor|]. cbn [pairsb] in Pr. apply andb_true_iff in Pr. destruct Pr as [P1 P2].
    constructor; [|apply IH; [exact P2|intros; apply Es; now right]]. rewrite forallb_forall in P1. rewrite Forall_forall. intros f F. specialize (P1 f F). unfold mesh_pairb in P1. rewrite !orb_true_iff in P1. destruct P1 as [[P1|P1]|P1].
    + left. now apply apart_ends, apartb_ok.
    + right. left. apply existsb_exists in P1. destruct P1 as (v & _ & V). now apply (cross_on_ok g e f v G0).
    + right. right. rewrite !andb_true_iff in P1. destruct P1 as [[C F1] F2]. split.
      * unfold coincideb in C. rewrite !andb_true_iff, negb_true_iff, Nat.eqb_neq in C. destruct C as ((C1 & C2) & C3). apply z_eqb_eq in C1, C2. split; auto.
      * intros h Hh. split; [apply (free_ok g (edges zs) e)|apply (free_ok g (edges zs) f)]; auto; apply Ne, Es; [now left|now right].
Qed.

(** *** Two diamonds that cross, and a triangle beside the second, on a grid of 64 units *)

Definition diamonds : list corners :=
  map (map (map (fun v => (64 * fst v, 64 * snd v)))) [[[(0, -4); (4, 0); (0, 4); (-4, 0)]]; [[(4, -4); (8, 0); (4, 4); (0, 0)]]; [[(8, 0); (8, 4); (4, 4)]]].
Definition diamond_modes : list polygon_mode := [Normal; Normal; Normal].
Definition diamonds_input : input := shapes diamonds diamond_modes.
Definition diamond_lines : corners :=
  map (map (fun v => (64 * fst v, 64 * snd v)))
  [[(-4, 0); (0, -4); (2, -2); (0, 0); (2, 2); (0, 4)]; [(0, 0); (2, -2); (4, 0); (2, 2)]; [(2, -2); (4, -4); (8, 0); (4, 4); (2, 2); (4, 0)]; [(4, 4); (8, 0); (8, 4)]].

Lemma diamonds_mesh : mesh 6 790 2 diamonds.
Proof. apply (meshb_ok 6 790 2 (map (fun v => (64 * fst v, 64 * snd v)) [(2, -2); (2, 2)])). vm_compute. reflexivity. Qed.
Lemma diamonds_points : Forall2 (fun p z => has_points (fst p) z) diamonds_input diamonds /\ map snd diamonds_input = diamond_modes.
Proof. apply shapes_points. reflexivity. Qed.
Lemma diamonds_result : compute std_ref 693 diamonds_input Union = Ok (sample_contours diamonds_input 693) /\ has_corners (sample_contours diamonds_input 693) diamond_lines.
Proof. split; [vm_compute; reflexivity|]. apply z_points_at; [vm_compute; reflexivity|reflexivity]. Qed.
