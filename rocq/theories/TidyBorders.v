(** The sides of the contours of tidy polygons, and which contours are neighbours. *)

From Coq Require Import List ZArith QArith Bool Lia Lqa Arith Permutation Sorted.
From Verif Require Import Base Float Contours Sweep Compute SpecShape SpecOrder SpecIntersect SpecTurn SpecHandle SpecTidy SpecOverlay SpecCompute
  SweepFacts TraceFacts ComputeFacts OrderFacts TidyGeo TidyParity TidySetup TidyLine TidyPackets TidySweep TidyFacts TidyCorner TidyPair TidyNext TidyWalk
  TidyTrace TidyContours TidyWinding TidySimple TidyArea TidyShapes TidyOverlay TidyRegions.
Import ListNotations.
Local Open Scope Z_scope.

Lemma middle : forall e, inside_edge e (inject_Z (fst (e_left e)) + (1 # 2) * inject_Z (fst (e_right e) - fst (e_left e)))
  (inject_Z (snd (e_left e)) + (1 # 2) * inject_Z (snd (e_right e) - snd (e_left e))).
Proof. intros e. exists (1 # 2). split; [reflexivity|]. split; [reflexivity|]. split; reflexivity. Qed.

Lemma NoDup_map_on : forall A B (f : A -> B) l, (forall a b, In a l -> In b l -> f a = f b -> a = b) -> NoDup l -> NoDup (map f l).
Proof.
  intros A B f l H N. induction N as [|a l Ha N IH]; [constructor|]. cbn [map]. constructor.
  - intros X. apply in_map_iff in X. destruct X as (b & Q & Hb). apply Ha. rewrite (H a b); [exact Hb|now left|now right|now symmetry].
  - apply IH. intros x y Hx Hy. apply H; now right.
Qed.

Section Borders.
Variables (zs : list corners) (modes : list polygon_mode) (r : polygon) (S : list bseg) (ks : list packet) (act sw : list bseg)
  (I : list bend) (Ts : list (list bend)).
Notation n := (length modes).
Notation E := (edges zs).
Notation eg := (eg (edges zs)).
Hypothesis (O : overlaid zs modes r S ks act sw I Ts) (NE : covered modes zs).
Notation src := (src zs).
Notation dst := (dst zs).
Notation face := (face zs).
Notation walk := (walk zs S I).
Notation side d := (src d, dst d).

Let D := o_drawn _ _ _ _ _ _ _ _ _ O.
Let V := o_inv _ _ _ _ _ _ _ _ _ O.
Let Polys := o_polys _ _ _ _ _ _ _ _ _ O.
Let PI := o_kept _ _ _ _ _ _ _ _ _ O.
Let Kept := kept_iff zs modes S ks act sw I D V Polys PI NE.

Lemma all_sides : flat_map sides (map (map src) Ts) = map (fun d : bend => side d) (concat Ts).
Proof using O.
  pose proof (o_walks _ _ _ _ _ _ _ _ _ O) as W. clear - W. induction W as [|T Ts' H W IH]; [reflexivity|]. cbn [map flat_map concat].
  rewrite (walk_sides zs S I T H), IH, map_app. reflexivity.
Qed.
Lemma walks_I : forall d, In d (concat Ts) <-> In d I.
Proof using O. intros d. split; [apply (walks_in zs S I); exact (o_walks _ _ _ _ _ _ _ _ _ O)|exact (o_all _ _ _ _ _ _ _ _ _ O d)]. Qed.

Lemma last_seg : forall a b, In a S -> In b S -> last_edge zs (eg a) -> last_edge zs (eg b) -> e_left (eg a) = e_left (eg b) -> e_right (eg a) = e_right (eg b) -> a = b.
Proof using O. intros a b Ha Hb La Lb Q1 Q2. apply (last_same zs S D a b Ha Hb La Lb). apply same_ends_iff. auto. Qed.

Lemma side_once : forall d d' : bend, In d I -> In d' I -> side d = side d' -> d = d'.
Proof using O NE.
  intros [s x] [s' x'] H H' Q. apply Kept in H, H'. cbn [fst] in *. destruct H as (H1 & H2 & _), H' as (H1' & H2' & _).
  assert (L : lr (eg s)) by (now apply (seg_spec _ _ D)). assert (L' : lr (eg s')) by (now apply (seg_spec _ _ D)).
  injection Q as Q1 Q2. unfold TidyNext.src, TidyNext.dst in Q1, Q2. cbn [fst snd] in Q1, Q2.
  destruct x, x'; cbn [end_z other_z] in Q1, Q2.
  - f_equal. now apply last_seg.
  - exfalso. unfold lr in L, L'. rewrite Q1, Q2 in L. apply lex_gt in L. congruence.
  - exfalso. unfold lr in L, L'. rewrite Q1, Q2 in L. apply lex_gt in L. congruence.
  - f_equal. now apply last_seg.
Qed.
Lemma side_back : forall (d d' : bend), In d I -> In d' I -> src d = dst d' -> dst d = src d' ->
  fst d = fst d' /\ snd d' = match snd d with LeftEnd => RightEnd | RightEnd => LeftEnd end.
Proof using O NE.
  intros [s x] [s' x'] H H' Q1 Q2. apply Kept in H, H'. cbn [fst snd] in *. destruct H as (H1 & H2 & _), H' as (H1' & H2' & _).
  assert (L : lr (eg s)) by (now apply (seg_spec _ _ D)). assert (L' : lr (eg s')) by (now apply (seg_spec _ _ D)).
  unfold TidyNext.src, TidyNext.dst in Q1, Q2. cbn [fst snd] in Q1, Q2.
  destruct x, x'; cbn [end_z other_z] in Q1, Q2.
  - exfalso. unfold lr in L, L'. rewrite Q1, Q2 in L. apply lex_gt in L. congruence.
  - split; [now apply last_seg|reflexivity].
  - split; [now apply last_seg|reflexivity].
  - exfalso. unfold lr in L, L'. rewrite Q1, Q2 in L. apply lex_gt in L. congruence.
Qed.

(** *** C99 *)
Lemma sides_once : forall z, has_corners r z -> NoDup (flat_map sides z).
Proof using O NE.
  intros z H. rewrite (rz_is zs modes r S ks act sw I Ts O z H), all_sides. apply NoDup_map_on; [|exact (o_once _ _ _ _ _ _ _ _ _ O)].
  intros d d' Hd Hd' Q. apply side_once; auto; now apply walks_I.
Qed.

Lemma mode_kept : forall e, In e E -> last_edge zs e -> nth_error modes (e_poly e) <> Some RemoveEdges.
Proof using NE. intros e He LE H. destruct (NE e He H) as (i & Hi & L). apply LE in Hi. lia. Qed.

Lemma sides_kept : forall z a b, has_corners r z -> In (a, b) (flat_map sides z) <-> exists e, In e E /\ kept_sides modes zs e a b.
Proof using O NE.
  intros z a b H. rewrite (rz_is zs modes r S ks act sw I Ts O z H), all_sides, in_map_iff. split.
  - intros ([s x] & Q & Hd). apply walks_I in Hd. apply Kept in Hd. cbn [fst] in Hd. destruct Hd as (H1 & H2 & H3). exists (eg s).
    split; [now apply (seg_spec _ _ D)|]. split; [split; [apply mode_kept; [now apply (seg_spec _ _ D)|exact H2]|exact H2]|]. eexists _, _. pose proof (middle (eg s)) as Md. split; [exact Md|].
    injection Q as <- <-. unfold TidyNext.src, TidyNext.dst. cbn [fst snd]. destruct x; cbn [end_z other_z]; [left|right]; (split; [reflexivity|]); (split; [reflexivity|]);
      (eapply kept_ext; [|exact H3]); intros i; unfold TidyNext.face; cbn [fst snd].
    + rewrite (swept_above zs S D s _ _ i H1 H2 Md). reflexivity.
    + rewrite (swept_below zs S D s _ _ i H1 Md). reflexivity.
  - intros (e & He & (_ & KE) & x & y & Ins & K). destruct (edge_seg _ _ D e He) as (s & Hs & <-).
    destruct K as [(-> & -> & K)|(-> & -> & K)].
    + exists (s, LeftEnd). split; [reflexivity|]. apply walks_I, Kept. split; [exact Hs|]. split; [exact KE|]. eapply kept_ext; [|exact K].
      intros i. unfold TidyNext.face. cbn [fst snd]. rewrite (swept_above zs S D s _ _ i Hs KE Ins). reflexivity.
    + exists (s, RightEnd). split; [reflexivity|]. apply walks_I, Kept. split; [exact Hs|]. split; [exact KE|]. eapply kept_ext; [|exact K].
      intros i. unfold TidyNext.face. cbn [fst snd]. rewrite (swept_below zs S D s _ _ i Hs Ins). reflexivity.
Qed.

(** What a contour is made of, is what is to the left of its sides. *)
Lemma sides_from : forall z i c l e x y k, has_corners r z -> nth_error r i = Some c -> nth_error z i = Some l ->
  In e E -> kept_edge modes zs e -> inside_edge e x y -> (k < n)%nat ->
  (In (e_left e, e_right e) (sides l) -> nth_error (c_from c) k = Some true <-> inner_above zs e k x y)
  /\ (In (e_right e, e_left e) (sides l) -> nth_error (c_from c) k = Some true <-> inner_below zs k x y).
Proof using O NE.
  intros z i c l e x y k H Hc Hl He (_ & KE) Ins Hk.
  destruct (walk_at zs modes r S ks act sw I Ts O i c z l H Hc Hl) as (e0 & t & HT & -> & W & _ & _ & (_ & P & _)). rewrite (walk_sides zs S I _ W).
  destruct (edge_seg _ _ D e He) as (s & Hs & <-).
  assert (L : lr (eg s)) by (now apply (seg_spec _ _ D)).
  assert (X : forall x', In (src (s, x'), dst (s, x')) (map (fun d : bend => side d) (e0 :: t)) -> c_from c = bits n (face (s, x'))).
  { intros x' Q. apply in_map_iff in Q. destruct Q as ([s1 x1] & Q & Hd). rewrite (P _ Hd). apply bits_ext. intros j. f_equal.
    apply (walk_in zs S I _ _ W) in Hd. apply Kept in Hd. cbn [fst] in Hd. destruct Hd as (D1 & D2 & _).
    assert (L1 : lr (eg s1)) by (now apply (seg_spec _ _ D)). injection Q as Q1 Q2.
    unfold TidyNext.src, TidyNext.dst in Q1, Q2. cbn [fst snd] in Q1, Q2. unfold lr in L, L1.
    destruct x', x1; cbn [end_z other_z] in Q1, Q2; try (f_equal; now apply last_seg); exfalso; rewrite Q1, Q2 in L1; apply lex_gt in L1; congruence. }
  split; intros Q.
  - rewrite (X LeftEnd Q), bits_nth by exact Hk. rewrite <- (swept_above zs S D s x y k Hs KE Ins). unfold TidyNext.face. cbn [fst snd]. split; congruence.
  - rewrite (X RightEnd Q), bits_nth by exact Hk. rewrite <- (swept_below zs S D s x y k Hs Ins). unfold TidyNext.face. cbn [fst snd]. split; congruence.
Qed.

(** *** C100 *)
Lemma neighbours_iff : forall z i j ci li lj, has_corners r z -> nth_error r i = Some ci -> nth_error z i = Some li -> nth_error z j = Some lj ->
  nth_error (c_neighbors ci) j = Some true <-> exists a b, In (a, b) (sides li) /\ In (b, a) (sides lj).
Proof using O NE.
  intros z i j ci li lj H Hc Hi Hj. pose proof (o_touch _ _ _ _ _ _ _ _ _ O i j) as T. unfold nb in T. rewrite Hc in T. rewrite T.
  rewrite (rz_is zs modes r S ks act sw I Ts O z H), nth_error_map in Hi, Hj.
  destruct (nth_error Ts i) as [Ti|] eqn:HTi; [|discriminate]. destruct (nth_error Ts j) as [Tj|] eqn:HTj; [|discriminate].
  injection Hi as <-. injection Hj as <-. pose proof (o_walks _ _ _ _ _ _ _ _ _ O) as W. rewrite Forall_forall in W.
  pose proof (W _ (nth_error_In _ _ HTi)) as Wi. pose proof (W _ (nth_error_In _ _ HTj)) as Wj.
  rewrite (walk_sides zs S I _ Wi), (walk_sides zs S I _ Wj). unfold touch. split.
  - intros (s & Ti' & Tj' & x & _ & H1 & H2 & H3 & H4). rewrite HTi in H1. rewrite HTj in H2. injection H1 as <-. injection H2 as <-.
    exists (src (s, x)), (dst (s, x)). split; [apply in_map_iff; exists (s, x); auto|]. apply in_map_iff. exists (s, match x with LeftEnd => RightEnd | RightEnd => LeftEnd end).
    split; [|exact H4]. unfold TidyNext.src, TidyNext.dst. cbn [fst snd]. now destruct x.
  - intros (a & b & H1 & H2). apply in_map_iff in H1, H2. destruct H1 as (d & Q1 & D1), H2 as (d' & Q2 & D2). injection Q1 as Qa Qb. injection Q2 as Qb' Qa'.
    pose proof (walk_in zs S I _ _ Wi D1) as I1. pose proof (walk_in zs S I _ _ Wj D2) as I2.
    destruct (side_back d d' I1 I2) as (B1 & B2); [congruence|congruence|]. exists (fst d), Ti, Tj, (snd d).
    split; [now apply in_map|]. split; [exact HTi|]. split; [exact HTj|]. split; [now rewrite <- surjective_pairing|].
    rewrite <- B2, B1, <- surjective_pairing. exact D2.
Qed.
End Borders.
