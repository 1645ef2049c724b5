(** What [compute] makes of tidy polygons: the contours it returns are the walks along the
    kept sides. *)

From Coq Require Import List ZArith QArith Bool Lia Arith Permutation Sorted.
From Verif Require Import Base Float Contours Sweep Compute SpecShape SpecOrder SpecIntersect SpecTurn SpecHandle SpecTidy SpecOverlay SpecCompute
  SweepFacts TraceFacts ComputeFacts TidyGeo TidyParity TidySetup TidyLine TidyPackets TidySweep TidyFacts TidyCorner TidyPair TidyNext TidyWalk
  TidyTrace TidyContours TidyWinding TidySimple TidyArea TidyShapes.
Import ListNotations.
Local Open Scope Z_scope.

(** The contour [c] of the walk [T]. *)
Definition pictured (zs : list corners) (n : nat) (S : list bseg) (Ts : list (list bend)) (T : list bend) (c : contour) : Prop :=
  Forall2 at_z (c_points c) (map (src zs) T)
  /\ (forall d, In d T -> c_from c = bits n (face zs d))
  /\ c_external c = negb (shoelace (map (src zs) T) <? 0)
  /\ forall h, In h (c_holes c) -> exists T' s b, nth_error Ts h = Some T' /\ last T' (s, LeftEnd) = (s, RightEnd)
       /\ In (b, LeftEnd) T /\ under_side zs S b s.

Record overlaid (zs : list corners) (modes : list polygon_mode) (r : polygon) (S : list bseg) (ks : list packet) (act sw : list bseg)
    (I : list bend) (Ts : list (list bend)) : Prop := mk_overlaid {
  o_drawn : drawn (edges zs) S;
  o_inv : inv zs S modes [] ks act sw;
  o_polys : forall s, In s S -> (e_poly (eg (edges zs) s) < length modes)%nat;
  o_kept : Permutation (flat_map (sides_of modes ks) sw) I;
  o_walks : Forall (walk zs S I) Ts;
  o_first : Forall (first zs) Ts;
  o_order : ForallOrdPairs (listed zs) Ts;
  o_once : NoDup (concat Ts);
  o_all : forall d, In d I -> In d (concat Ts);
  o_shown : Forall2 (pictured zs (length modes) S Ts) Ts r;
  o_holes : holes_ok r;
  o_length : forall c, In c r -> length (c_neighbors c) = length r;
  o_touch : forall i j, nb r i j = Some true <-> touch Ts I i j }.

Lemma NoDup_parts : forall A (l r : list A), NoDup (l ++ r) -> NoDup l /\ NoDup r /\ forall x, In x l -> ~ In x r.
Proof.
  intros A l r. induction l as [|x l IH]; intros N; [split; [constructor|split; [exact N|contradiction]]|].
  cbn [app] in N. inversion N as [|? ? N1 N2]; subst. destruct (IH N2) as (A1 & A2 & A3). split; [|split; [exact A2|]].
  - constructor; [|exact A1]. intros H. apply N1, in_or_app. now left.
  - intros y [<-|Hy]; [|now apply A3]. intros H. apply N1, in_or_app. now right.
Qed.
Lemma concat_part : forall A (Ls : list (list A)) l, NoDup (concat Ls) -> In l Ls -> NoDup l.
Proof.
  intros A Ls l. induction Ls as [|m Ls IH]; intros N H; [contradiction|]. cbn [concat] in N. destruct H as [->|H].
  - now apply NoDup_parts in N.
  - apply IH; [now apply NoDup_parts in N|exact H].
Qed.

Lemma overlay : forall std polys zs fuel op, std_laws std -> sorts std -> overlayable polys zs -> (2 * length (edges zs) <= fuel)%nat ->
  exists r, compute std fuel polys op = Ok r /\ exists S ks act sw I Ts, overlaid zs (map snd polys) r S ks act sw I Ts.
Proof.
  intros std polys zs fuel op SL SO (HC & HT & (Short & m & M1 & M2) & NE) HF.
  destruct (tidy_swept polys zs fuel HC HT HF) as (w0 & w & act & W1 & W2 & W3 & M & D & Polys & V).
  destruct (include_sides _ _ _ _ _ _ D V) as (segs & I1 & I2). destruct (tidy_ordered polys zs fuel HC HT HF _ _ _ _ W1 W2 I1) as (T1 & T2 & I & PI & II).
  destruct (sort_total std SL _ segment_cmp segs T1) as (a & Sa). pose proof (SO _ _ _ _ PI T2 II) as Sb.
  destruct (all_traced zs _ _ _ _ _ I D V Polys PI II Short NE) as (ks1 & A1 & [(ks' & final & Ts & A2 & Tr)|(_ & X)]).
  2: { exfalso. now apply (no_mistake zs _ _ _ _ _ I D V Polys PI NE m M1 M2). }
  destruct (neighbours_all zs _ _ _ _ _ I D V Polys PI NE ks' final Ts Tr) as (r & R1 & R2 & (R3 & R3') & R4).
  assert (C : compute std fuel polys op = Ok r).
  { unfold compute. rewrite W1. cbn [obind]. rewrite W2. cbn [obind]. rewrite I1. cbn [obind]. rewrite Sa. cbn [obind].
    match goal with |- obind ?x _ = _ => replace x with (Ok I : outcome (list bend)) by (symmetry; exact Sb) end. cbn [obind].
    rewrite A1. cbn [obind]. rewrite A2. cbn [obind]. exact R1. }
  exists r. split; [exact C|]. exists (w_segs w), (w_packets w), act, (w_swept w), I, Ts. destruct Tr as [B1 B2 B3 B4 B5 B6 B7 B8].
  constructor; auto.
  - (* the contours *)
    assert (Len : length Ts = length r) by congruence. apply forall2_intro; [exact Len|]. intros i T c HiT Hic.
    assert (exists c0, nth_error final i = Some c0 /\ all_but c0 c) as (c0 & H0 & (Q1 & Q2 & Q3 & Q4)).
    { exact (Forall2_nth_l _ _ _ _ _ R2 Hic). }
    destruct (Forall2_nth_l _ _ _ _ _ B7 H0) as (T' & HT' & (P1 & P2 & P3 & (c1 & P4 & P5 & P6) & P7)). rewrite HiT in HT'. injection HT' as <-.
    assert (WT : walk zs (w_segs w) I T) by (rewrite Forall_forall in B2; apply B2; now apply nth_error_In in HiT).
    assert (NT : NoDup T) by (apply (concat_part _ Ts); [exact B4|now apply nth_error_In in HiT]).
    split; [now rewrite Q1|]. split; [intros d Hd; rewrite Q2; now apply P2|]. split; [|intros h; rewrite Q3; apply P7].
    rewrite Q4. destruct T as [|e l]; [destruct WT as (? & ? & X & _); discriminate|].
    rewrite <- P4 in P1. apply (walk_clockwise zs _ _ _ _ _ I D V Polys PI NE e l WT NT m M1 M2 c1 _ _ P1 P5) in P6.
    rewrite <- P6. now rewrite negb_involutive.
  - apply (compute_hole_lists std fuel polys op r SL C).
  - intros c Hc. rewrite (R3' c Hc). congruence.
Qed.
