(** Overlaying polygons with sides of any slope on a grid, and a sample: a room, a tower and a pit. *)

From Coq Require Import List ZArith QArith Bool Arith Lia.
From Verif Require Import Base Float Geometry Sweep Contours Compute SpecShape SpecOrder SpecIntersect SpecHandle SpecTidy SpecFloat64
  SpecTurn ShapeSamples TidySamples StdRef SpecOverlay SpecFollow OverlaySamples FollowSamples SpecCompute CrossSamples CrossOverlay CrossCover GridFacts GridCut GridSamples SlopeFacts SlopeCut SpecCross SpecGrid SpecSlope.
Import ListNotations.
Local Open Scope Z_scope.

Lemma slope_crossable : forall g R D ms polys, slope_cut g R D ms -> g <= 7 -> Z.of_nat (length (edges (marked ms))) <= 200000 ->
  Forall2 (fun p z => has_points (fst p) z) polys (plain ms) -> covered (map snd polys) (marked ms) -> crossable polys ms.
Proof.
  intros g R D ms polys H G L P C. split; [exact P|]. split; [now apply (slope_well g R D)|]. split; [|exact C].
  pose proof (slope_size g R D ms H) as S. pose proof (slope_wide g R D ms H) as W. assert (B : 1 <= 2 ^ g <= 128) by (split; [change 1 with (2 ^ 0)|change 128 with (2 ^ 7)]; apply Z.pow_le_mono_r; lia). split.
  - intros e E. pose proof (slope_marked_edge g R D ms H e E) as [_ _ _ _ _ O _ [R1 R2]]. split.
    + unfold within, vsub. cbn [fst snd]. nia.
    + unfold vsub. intros Q. injection Q as Q1 Q2. apply lex_lt in O. lia.
  - exists 128000. split; [|change (2 * (128000 * 128000)) with 32768000000; change (2 ^ 53) with 9007199254740992; lia].
    rewrite Forall_forall. intros z Z. rewrite Forall_forall. intros c Cz. rewrite Forall_forall. intros v V. destruct (marked_point ms z c v Z Cz V) as (r & I & J).
    destruct (slope_points g R D ms H r v I J) as (a & b & -> & A1 & A2). unfold within. cbn [fst snd]. nia.
Qed.

Lemma slope_overlay : forall std g R D ms polys polys' fuel fuel' op, std_laws std -> sorts std -> slope_cut g R D ms ->
  Forall2 (fun p z => has_points (fst p) z) polys (plain ms) -> Forall2 (fun p z => has_points (fst p) z) polys' (marked ms) ->
  map snd polys = map snd polys' -> (3 * length (edges (marked ms)) <= fuel)%nat -> (2 * length (edges (marked ms)) <= fuel')%nat ->
  compute std fuel polys op = compute std fuel' polys' op.
Proof. intros std g R D ms polys polys' fuel fuel' op L S H. apply overlay_cut; try assumption. now apply (slope_well g R D). Qed.

Lemma slope_covers : forall std g R D ms polys fuel op, std_laws std -> sorts std -> slope_cut g R D ms -> g <= 7 -> Z.of_nat (length (edges (marked ms))) <= 200000 ->
  Forall2 (fun p z => has_points (fst p) z) polys (plain ms) -> covered (map snd polys) (marked ms) -> (3 * length (edges (marked ms)) <= fuel)%nat ->
  exists r rz, compute std fuel polys op = Ok r /\ has_corners r rz /\ forall (P : list bool -> bool) x y,
  let lines := map snd (filter (fun cl => P (c_from (fst cl))) (combine r rz)) in
  (kept_at (map snd polys) (plain ms) x y /\ P (place_of (plain ms) x y) = true -> windings x y lines = 1)
  /\ (~ (kept_at (map snd polys) (plain ms) x y /\ P (place_of (plain ms) x y) = true) -> windings x y lines = 0).
Proof.
  intros std g R D ms polys fuel op L S H G N P C F. pose proof (slope_crossable g R D ms polys H G N P C) as X.
  destruct (cross_ends std fuel polys op ms L S X F) as (r & rz & Q & Z). exists r, rz. split; [exact Q|]. split; [exact Z|]. now apply (cross_covers std fuel polys op ms L S X F r rz Q Z).
Qed.

(** *** A check *)

Definition slope_pointb (g R : Z) (v : Z * Z) : bool :=
  (fst v mod 2 ^ g =? 0) && (snd v mod 2 ^ g =? 0) && (Z.abs (fst v / 2 ^ g) <=? R) && (Z.abs (snd v / 2 ^ g) <=? R).
Lemma slope_pointb_ok : forall g R v, 0 <= g -> slope_pointb g R v = true -> slope_point g R v.
Proof.
  intros g R [x y] G H. unfold slope_pointb in H. cbn [fst snd] in H. rewrite !andb_true_iff, !Z.eqb_eq, !Z.leb_le in H. exists (x / 2 ^ g), (y / 2 ^ g).
  assert (P : 2 ^ g <> 0) by (apply Z.pow_nonzero; lia). split; [f_equal|tauto].
  - pose proof (Z.div_mod x _ P). lia.
  - pose proof (Z.div_mod y _ P). lia.
Qed.
(** The direction of the side in lowest terms, and how often it goes from one point to the other. *)
Definition slopingb (g D : Z) (l : list (Z * Z)) : bool :=
  match l with
  | [] => 0 <=? D
  | a :: _ =>
      let z := last l (0, 0) in
      let m := (fst z - fst a) / 2 ^ g in let n := (snd z - snd a) / 2 ^ g in
      let k := Z.gcd m n in let p := m / k in let q := n / k in
      (p * p + q * q <=? D)
      && forallb (fun a => forallb (fun b =>
           let t := if p =? 0 then (snd b - snd a) / (2 ^ g * q) else (fst b - fst a) / (2 ^ g * p) in
           (fst b - fst a =? t * (2 ^ g * p)) && (snd b - snd a =? t * (2 ^ g * q))) l) l
  end.
Lemma slopingb_ok : forall g D l, slopingb g D l = true -> sloping g D l.
Proof.
  intros g D l H. destruct l as [|a l]; [exists 0, 0; split; [apply Z.leb_le in H; lia|intros a b []]|]. unfold slopingb in H. set (z := last _ _) in H.
  set (p := _ / _) in H at 1. set (q := (snd z - snd a) / 2 ^ g / _) in H. apply andb_true_iff in H. destruct H as [H1 H2]. apply Z.leb_le in H1. exists p, q. split; [exact H1|].
  intros u v U V. pose proof (pairs_forall (fun a b => _ && _) _ u v H2 U V) as X. cbv beta zeta in X. eexists. rewrite andb_true_iff, !Z.eqb_eq in X. destruct X as [X1 X2]. unfold vsub. f_equal; [exact X1|exact X2].
Qed.
Definition slope_cutb (g R D : Z) (ms : list (list (list mark))) : bool :=
  (0 <=? g) && (g <=? 14) && (0 <=? R) && (R <=? 1000) && (R * R * D <=? 1248751) && cut_wellb ms
  && forallb (fun r => forallb (slope_pointb g R) (snd r) && slopingb g D (snd r) && reachb g (snd r)) (routes ms).

Lemma slope_cutb_ok : forall g R D ms, slope_cutb g R D ms = true -> slope_cut g R D ms.
Proof.
  intros g R D ms H. unfold slope_cutb in H. rewrite !andb_true_iff, !Z.leb_le in H. destruct H as ((((((G0 & G1) & W0) & W1) & B) & W) & C). apply cut_wellb_ok in W. rewrite forallb_forall in C.
  assert (C' : forall r, In r (routes ms) -> forallb (slope_pointb g R) (snd r) = true /\ slopingb g D (snd r) = true /\ reachb g (snd r) = true) by (intros r I; specialize (C r I); rewrite !andb_true_iff in C; tauto).
  constructor; try lia.
  - intros r v I V. destruct (C' r I) as (P & _ & _). rewrite forallb_forall in P. apply slope_pointb_ok; [exact G0|now apply P].
  - intros r I. now apply (cut_straight ms W r I).
  - intros r I. now apply slopingb_ok, C'.
  - intros r I a b A A'. destruct (C' r I) as (_ & _ & U). pose proof (pairs_forall (fun a b => _ && _) _ a b U A A') as X. cbv beta in X. now rewrite andb_true_iff, !Z.leb_le in X.
  - eapply pairs_impl; [|exact (proj2 (cut_tidy ms W))]. intros e f _ _ [E|[_ [E|(v & Ve & Vf & M)]]]; [now left| |]; right; intros x y On; [now apply E in On|].
    exists v. split; [exact Ve|]. split; [exact Vf|]. now apply M.
  - intros j k r r' e f J K N Se Sf. destruct (cut_fit ms W j k r r' e f J K N Se Sf) as [E|[[_ [E|(v & _ & _ & M)]]|(v & M & _)]]; [now left|right|right; exact (meet_once e f v M)|right; exact (meet_once e f v M)].
    intros (x & y & x' & y' & X & _). now apply E in X.
  - exact (cut_arrive ms W).
Qed.

(** *** A room, an octagonal tower over its corner, and a triangular pit, on a grid of 64 units *)

Definition tower_marks : list (list (list mark)) :=
  map (map (map (fun m => ((64 * fst (fst m), 64 * snd (fst m)), map (fun v => (64 * fst v, 64 * snd v)) (snd m)))))
  [[[((0, 0), []); ((8, 0), [(8, 2)]); ((8, 8), [(4, 8)]); ((0, 8), [])]];
   [[((6, 2), [(8, 2)]); ((10, 2), []); ((12, 4), []); ((12, 8), []); ((10, 10), []); ((6, 10), []); ((4, 8), [(4, 7)]); ((4, 4), [(5, 3)])]];
   [[((4, 1), [(5, 3)]); ((7, 7), [(4, 7)]); ((1, 7), [])]]].
Definition tower_modes : list polygon_mode := [Normal; Normal; RemoveInterior].
Definition tower : input := shapes (plain tower_marks) tower_modes.

Lemma tower_cut : slope_cut 6 499 5 tower_marks.
Proof. apply slope_cutb_ok. vm_compute. reflexivity. Qed.

Definition tower_lines : corners :=
  map (map (fun v => (64 * fst v, 64 * snd v)))
  [[(0, 0); (8, 0); (8, 2); (6, 2); (5, 3); (4, 1); (1, 7); (4, 7); (4, 8); (0, 8)];
   [(4, 7); (7, 7); (5, 3); (6, 2); (8, 2); (8, 8); (4, 8)];
   [(4, 8); (8, 8); (8, 2); (10, 2); (12, 4); (12, 8); (10, 10); (6, 10)]].
Lemma tower_points : Forall2 (fun p z => has_points (fst p) z) tower (plain tower_marks) /\ map snd tower = tower_modes.
Proof. apply shapes_points. reflexivity. Qed.
Lemma tower_covered : covered (map snd tower) (marked tower_marks).
Proof. rewrite (proj2 tower_points). apply plain_covered. cbn. intros [H|[H|[H|[]]]]; discriminate. Qed.
Lemma tower_result : compute std_ref 66 tower Union = Ok (sample_contours tower 66) /\ has_corners (sample_contours tower 66) tower_lines.
Proof. split; [vm_compute; reflexivity|]. apply z_points_at; [vm_compute; reflexivity|reflexivity]. Qed.

(** *** Upright sides are sides of such slopes *)

Lemma upright_slope : forall g ms, grid_cut g ms -> slope_cut g 1000 1 ms.
Proof.
  intros g ms H. constructor; try apply H; try lia.
  intros r I. assert (P : forall v, In v (snd r) -> exists a b, v = (2 ^ g * a, 2 ^ g * b)) by (intros v V; destruct (grid_points g ms H r v I V) as (a & b & E & _); eauto).
  destruct (grid_upright g ms H r I) as [U|U]; [exists 0, 1|exists 1, 0]; (split; [lia|]); intros v w V W; specialize (U v w V W); destruct (P v V) as (a & b & Ev), (P w W) as (c & d & Ew); unfold vsub; rewrite Ev, Ew in *; cbn [fst snd] in *.
  - exists (d - b). f_equal; [rewrite U|]; ring.
  - exists (c - a). f_equal; [|rewrite U]; ring.
Qed.
