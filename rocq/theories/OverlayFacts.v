(** What [compute] makes of tidy polygons, put together. *)

From Coq Require Import List ZArith QArith Bool Lia Permutation.
From Verif Require Import Base Float Contours Sweep Compute SpecShape SpecOrder SpecTidy SpecOverlay SpecCompute TidyNext TidyOverlay TidyRegions TidyBorders.
Import ListNotations.
Local Open Scope Z_scope.

Section Result.
Variables (std : std_impl) (fuel : nat) (polys : input) (op : boolean_op) (zs : list corners).
Hypothesis (SL : std_laws std) (SO : sorts std) (OV : overlayable polys zs) (HF : (2 * length (edges zs) <= fuel)%nat).

Lemma modes_len : length zs = length (map snd polys).
Proof using OV. rewrite map_length. destruct OV as (F & _). symmetry. clear - F. induction F; cbn [length]; congruence. Qed.
Lemma modes_plain : covered (map snd polys) zs.
Proof using OV. apply OV. Qed.

Lemma overlay_ends : exists r rz, compute std fuel polys op = Ok r /\ has_corners r rz.
Proof using SL SO OV HF.
  destruct (overlay std polys zs fuel op SL SO OV HF) as (r & C & S & ks & act & sw & I & Ts & O). eexists r, _. split; [exact C|].
  exact (rz_ok zs _ r S ks act sw I Ts O).
Qed.

Variables (r : polygon) (rz : corners).
Hypothesis (C : compute std fuel polys op = Ok r) (H : has_corners r rz).

Lemma have : exists S ks act sw I Ts, overlaid zs (map snd polys) r S ks act sw I Ts.
Proof using SL SO OV HF C. destruct (overlay std polys zs fuel op SL SO OV HF) as (r' & C' & X). rewrite C in C'. injection C' as <-. exact X. Qed.

Lemma overlay_covers : forall P x y,
  (kept_at (map snd polys) zs x y /\ P (place_of zs x y) = true -> windings x y (map snd (filter (fun cl => P (c_from (fst cl))) (combine r rz))) = 1)
  /\ (~ (kept_at (map snd polys) zs x y /\ P (place_of zs x y) = true) -> windings x y (map snd (filter (fun cl => P (c_from (fst cl))) (combine r rz))) = 0).
Proof using SL SO OV HF C H.
  intros P x y. destruct have as (S & ks & act & sw & I & Ts & O).
  rewrite (covers zs _ r S ks act sw I Ts O modes_plain rz P x y modes_len H).
  rewrite <- (kept_skip zs (map snd polys) x y). destruct (P (place_of zs x y)), (skip_side _ _); cbn; split; intuition congruence.
Qed.

Lemma overlay_shapes : forall i c l x y, nth_error r i = Some c -> nth_error rz i = Some l ->
  (c_external c = true -> 0 < shoelace l /\ (winding x y l = 0 \/ winding x y l = 1))
  /\ (c_external c = false -> shoelace l < 0 /\ (winding x y l = 0 \/ winding x y l = -1)).
Proof using SL SO OV HF C H.
  intros i c l x y. destruct have as (S & ks & act & sw & I & Ts & O). now apply (contour_shape zs _ r S ks act sw I Ts O modes_plain rz i).
Qed.

Lemma overlay_regions :
  (forall j, (j < length r)%nat -> exists i, outer r i /\ in_region r i j /\ forall k, outer r k -> in_region r k j -> k = i)
  /\ (forall i, outer r i -> exists js, region_of r i js)
  /\ (forall i j c c', outer r i -> in_region r i j -> nth_error r i = Some c -> nth_error r j = Some c' -> c_from c' = c_from c)
  /\ (forall i js x y, outer r i -> region_of r i js -> goes_round rz js x y = 0 \/ goes_round rz js x y = 1).
Proof using SL SO OV HF C H.
  destruct have as (S & ks & act & sw & I & Ts & O). split; [|split; [|split]].
  - intros j Hj. destruct (region_exists zs _ r S ks act sw I Ts O modes_plain j Hj) as (i & I1 & I2). exists i. split; [exact I1|]. split; [exact I2|].
    intros k K1 K2. now apply (region_unique zs _ r S ks act sw I Ts O k i j).
  - apply (region_there zs _ r S ks act sw I Ts O modes_plain).
  - intros i j c c'. apply (region_from zs _ r S ks act sw I Ts O modes_plain).
  - intros i js x y. apply (region_once zs _ r S ks act sw I Ts O modes_plain); exact H.
Qed.

Lemma overlay_places : forall x y,
  (kept_at (map snd polys) zs x y -> exists i, outer r i /\ (exists js, region_of r i js /\ goes_round rz js x y = 1)
     /\ forall k js, outer r k -> region_of r k js -> goes_round rz js x y = 1 -> k = i)
  /\ forall i c js, outer r i -> nth_error r i = Some c -> region_of r i js -> goes_round rz js x y = 1 ->
       kept_at (map snd polys) zs x y /\ c_from c = place_of zs x y.
Proof using SL SO OV HF C H.
  intros x y. destruct have as (S & ks & act & sw & I & Ts & O). split.
  - apply (place_region zs _ r S ks act sw I Ts O modes_plain rz x y modes_len H).
  - intros i c js. apply (region_place zs _ r S ks act sw I Ts O modes_plain rz i c js x y modes_len H).
Qed.

Lemma overlay_sides : NoDup (flat_map sides rz)
  /\ forall a b, In (a, b) (flat_map sides rz) <-> exists e, In e (edges zs) /\ kept_sides (map snd polys) zs e a b.
Proof using SL SO OV HF C H.
  destruct have as (S & ks & act & sw & I & Ts & O). split.
  - apply (sides_once zs _ r S ks act sw I Ts O modes_plain rz H).
  - intros a b. apply (sides_kept zs _ r S ks act sw I Ts O modes_plain rz a b H).
Qed.

Lemma overlay_from : forall i c l e x y k, nth_error r i = Some c -> nth_error rz i = Some l ->
  In e (edges zs) -> kept_edge (map snd polys) zs e -> inside_edge e x y -> (k < length polys)%nat ->
  (In (e_left e, e_right e) (sides l) -> nth_error (c_from c) k = Some true <-> inner_above zs e k x y)
  /\ (In (e_right e, e_left e) (sides l) -> nth_error (c_from c) k = Some true <-> inner_below zs k x y).
Proof using SL SO OV HF C H.
  intros i c l e x y k Hc Hl He KE Ins Hk. destruct have as (S & ks & act & sw & I & Ts & O).
  apply (sides_from zs _ r S ks act sw I Ts O modes_plain rz i c l e x y k); auto. now rewrite map_length.
Qed.

Lemma overlay_neighbours : forall i j ci li lj, nth_error r i = Some ci -> nth_error rz i = Some li -> nth_error rz j = Some lj ->
  nth_error (c_neighbors ci) j = Some true <-> exists a b, In (a, b) (sides li) /\ In (b, a) (sides lj).
Proof using SL SO OV HF C H.
  intros i j ci li lj Hc Hi Hj. destruct have as (S & ks & act & sw & I & Ts & O).
  now apply (neighbours_iff zs _ r S ks act sw I Ts O modes_plain rz i j ci li lj).
Qed.
End Result.
