(** Overlaying upright polygons on a grid, and a sample: three rooms. *)

From Coq Require Import List ZArith QArith Bool Arith Lia.
From Verif Require Import Base Float Geometry Sweep Contours Compute SpecShape SpecOrder SpecIntersect SpecHandle SpecTidy SpecFloat64
  SpecTurn ShapeSamples TidySamples StdRef SpecOverlay SpecFollow OverlaySamples FollowSamples SpecCompute CrossSamples CrossOverlay CrossCover GridFacts GridCut SpecCross SpecGrid.
Import ListNotations.
Local Open Scope Z_scope.

Lemma grid_crossable : forall g ms polys, grid_cut g ms -> g <= 7 -> Z.of_nat (length (edges (marked ms))) <= 200000 ->
  Forall2 (fun p z => has_points (fst p) z) polys (plain ms) -> covered (map snd polys) (marked ms) -> crossable polys ms.
Proof.
  intros g ms polys H G L P C. split; [exact P|]. split; [now apply (grid_well g)|]. split; [|exact C].
  pose proof (grid_size g ms H) as S. assert (B : 1 <= 2 ^ g <= 128) by (split; [change 1 with (2 ^ 0)|change 128 with (2 ^ 7)]; apply Z.pow_le_mono_r; lia). split.
  - intros e E. pose proof (marked_edge g ms H e E) as [_ _ _ D [R1 R2]]. split.
    + unfold within, vsub. cbn [fst snd]. nia.
    + unfold vsub. intros Q. injection Q as Q1 Q2. unfold level, plumb in D. lia.
  - exists 128000. split; [|change (2 * (128000 * 128000)) with 32768000000; change (2 ^ 53) with 9007199254740992; lia].
    rewrite Forall_forall. intros z Z. rewrite Forall_forall. intros c Cz. rewrite Forall_forall. intros v V. destruct (marked_point ms z c v Z Cz V) as (r & R & I).
    destruct (grid_points g ms H r v R I) as (a & b & -> & A1 & A2). unfold within. cbn [fst snd]. nia.
Qed.

Lemma grid_overlay : forall std g ms polys polys' fuel fuel' op, std_laws std -> sorts std -> grid_cut g ms ->
  Forall2 (fun p z => has_points (fst p) z) polys (plain ms) -> Forall2 (fun p z => has_points (fst p) z) polys' (marked ms) ->
  map snd polys = map snd polys' -> (3 * length (edges (marked ms)) <= fuel)%nat -> (2 * length (edges (marked ms)) <= fuel')%nat ->
  compute std fuel polys op = compute std fuel' polys' op.
Proof. intros std g ms polys polys' fuel fuel' op L S H. apply overlay_cut; try assumption. now apply (grid_well g). Qed.

Lemma grid_covers : forall std g ms polys fuel op, std_laws std -> sorts std -> grid_cut g ms -> g <= 7 -> Z.of_nat (length (edges (marked ms))) <= 200000 ->
  Forall2 (fun p z => has_points (fst p) z) polys (plain ms) -> covered (map snd polys) (marked ms) -> (3 * length (edges (marked ms)) <= fuel)%nat ->
  exists r rz, compute std fuel polys op = Ok r /\ has_corners r rz /\ forall (P : list bool -> bool) x y,
  let lines := map snd (filter (fun cl => P (c_from (fst cl))) (combine r rz)) in
  (kept_at (map snd polys) (plain ms) x y /\ P (place_of (plain ms) x y) = true -> windings x y lines = 1)
  /\ (~ (kept_at (map snd polys) (plain ms) x y /\ P (place_of (plain ms) x y) = true) -> windings x y lines = 0).
Proof.
  intros std g ms polys fuel op L S H G N P C F. pose proof (grid_crossable g ms polys H G N P C) as X.
  destruct (cross_ends std fuel polys op ms L S X F) as (r & rz & R & Z). exists r, rz. split; [exact R|]. split; [exact Z|]. now apply (cross_covers std fuel polys op ms L S X F r rz R Z).
Qed.

(** *** A check *)

Definition grid_pointb (g : Z) (v : Z * Z) : bool :=
  (fst v mod 2 ^ g =? 0) && (snd v mod 2 ^ g =? 0) && (Z.abs (fst v / 2 ^ g) <=? 1000) && (Z.abs (snd v / 2 ^ g) <=? 1000).
Lemma grid_pointb_ok : forall g v, 0 <= g -> grid_pointb g v = true -> grid_point g v.
Proof.
  intros g [x y] G H. unfold grid_pointb in H. cbn [fst snd] in H. rewrite !andb_true_iff, !Z.eqb_eq, !Z.leb_le in H. exists (x / 2 ^ g), (y / 2 ^ g).
  assert (P : 2 ^ g <> 0) by (apply Z.pow_nonzero; lia). split; [f_equal|tauto].
  - pose proof (Z.div_mod x _ P). lia.
  - pose proof (Z.div_mod y _ P). lia.
Qed.
Definition uprightb (l : list (Z * Z)) : bool :=
  forallb (fun a => forallb (fun b => fst a =? fst b) l) l || forallb (fun a => forallb (fun b => snd a =? snd b) l) l.
Definition reachb (g : Z) (l : list (Z * Z)) : bool :=
  forallb (fun a => forallb (fun b => (Z.abs (fst a - fst b) <=? 2 ^ g * 21) && (Z.abs (snd a - snd b) <=? 2 ^ g * 21)) l) l.
Definition grid_cutb (g : Z) (ms : list (list (list mark))) : bool :=
  (0 <=? g) && (g <=? 14) && cut_wellb ms && forallb (fun r => forallb (grid_pointb g) (snd r) && uprightb (snd r) && reachb g (snd r)) (routes ms).

Lemma pairs_forall : forall {A} (f : A -> A -> bool) l a b, forallb (fun a => forallb (f a) l) l = true -> In a l -> In b l -> f a b = true.
Proof. intros A f l a b H Ha Hb. rewrite forallb_forall in H. specialize (H a Ha). rewrite forallb_forall in H. now apply H. Qed.

Lemma meet_once : forall e f v, met e f v -> ~ along e f.
Proof. intros e f v [_ M] (x & y & x' & y' & H & H' & N). apply N. destruct (M _ _ H) as [A B], (M _ _ H') as [A' B']. split; [now rewrite A, A'|now rewrite B, B']. Qed.

Lemma grid_cutb_ok : forall g ms, grid_cutb g ms = true -> grid_cut g ms.
Proof.
  intros g ms H. unfold grid_cutb in H. rewrite !andb_true_iff, !Z.leb_le in H. destruct H as (((G0 & G1) & W) & R). apply cut_wellb_ok in W. rewrite forallb_forall in R.
  assert (R' : forall r, In r (routes ms) -> forallb (grid_pointb g) (snd r) = true /\ uprightb (snd r) = true /\ reachb g (snd r) = true) by (intros r I; specialize (R r I); rewrite !andb_true_iff in R; tauto).
  constructor.
  - lia.
  - intros r v I V. destruct (R' r I) as (P & _ & _). rewrite forallb_forall in P. apply grid_pointb_ok; [exact G0|now apply P].
  - intros r I. now apply (cut_straight ms W r I).
  - intros r I. destruct (R' r I) as (_ & U & _). unfold uprightb in U. apply orb_true_iff in U. destruct U as [U|U]; [left|right]; intros a b A B; apply Z.eqb_eq; exact (pairs_forall (fun a b => _ =? _) _ a b U A B).
  - intros r I a b A B. destruct (R' r I) as (_ & _ & U). pose proof (pairs_forall (fun a b => _ && _) _ a b U A B) as X. cbv beta in X. now rewrite andb_true_iff, !Z.leb_le in X.
  - eapply pairs_impl; [|exact (proj2 (cut_tidy ms W))]. intros e f _ _ [C|[_ [D|(v & Ve & Vf & M)]]]; [now left| |]; right; intros x y On; [now apply D in On|].
    exists v. split; [exact Ve|]. split; [exact Vf|]. now apply M.
  - intros j k r r' e f J K N Se Sf. destruct (cut_fit ms W j k r r' e f J K N Se Sf) as [C|[[_ [D|(v & _ & _ & M)]]|(v & M & _)]]; [now left|right|right; exact (meet_once e f v M)|right; exact (meet_once e f v M)].
    intros (x & y & x' & y' & H & _). now apply D in H.
  - exact (cut_arrive ms W).
Qed.

(** *** Three rooms on a grid of 64 units, the last of them a pit *)

Definition room_marks : list (list (list mark)) :=
  map (map (map (fun m => ((64 * fst (fst m), 64 * snd (fst m)), map (fun v => (64 * fst v, 64 * snd v)) (snd m)))))
  [[[((0, 0), [(7, 0)]); ((8, 0), [(8, 3); (8, 4)]); ((8, 6), [(4, 6)]); ((0, 6), [])]];
   [[((4, 3), [(7, 3); (8, 3); (10, 3)]); ((12, 3), []); ((12, 9), []); ((4, 9), [(4, 6)])]];
   [[((7, -2), []); ((10, -2), [(10, 3)]); ((10, 4), [(8, 4)]); ((7, 4), [(7, 3); (7, 0)])]]].
Definition room_modes : list polygon_mode := [Normal; Normal; RemoveInterior].
Definition rooms : input := shapes (plain room_marks) room_modes.

Lemma rooms_cut : grid_cut 6 room_marks.
Proof. apply grid_cutb_ok. vm_compute. reflexivity. Qed.

Definition room_lines : corners :=
  map (map (fun v => (64 * fst v, 64 * snd v)))
  [[(0, 0); (7, 0); (7, 3); (4, 3); (4, 6); (0, 6)]; [(4, 3); (7, 3); (7, 4); (8, 4); (8, 6); (4, 6)];
   [(4, 6); (8, 6); (8, 4); (10, 4); (10, 3); (12, 3); (12, 9); (4, 9)]].
Lemma rooms_points : Forall2 (fun p z => has_points (fst p) z) rooms (plain room_marks) /\ map snd rooms = room_modes.
Proof. apply shapes_points. reflexivity. Qed.
Lemma rooms_covered : covered (map snd rooms) (marked room_marks).
Proof. rewrite (proj2 rooms_points). apply plain_covered. cbn. intros [H|[H|[H|[]]]]; discriminate. Qed.
Lemma rooms_result : compute std_ref 72 rooms Union = Ok (sample_contours rooms 72) /\ has_corners (sample_contours rooms 72) room_lines.
Proof. split; [vm_compute; reflexivity|]. apply z_points_at; [vm_compute; reflexivity|reflexivity]. Qed.
