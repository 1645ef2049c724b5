(** The direction of the contours traced along the kept sides of tidy polygons is found
    correctly, and their winding numbers. *)

From Coq Require Import List ZArith QArith Bool Lia Arith Permutation Sorted Floats.SpecFloat.
From Verif Require Import Base Float Contours Sweep Compute SpecShape SpecOrder SpecIntersect SpecTurn SpecHandle SpecTidy SpecOverlay SpecCompute SpecFloat64
  SweepFacts TraceFacts OrientFacts OrderFacts TurnFacts3 TurnSamples TidyGeo TidyParity TidySetup TidyLine TidyPackets TidySweep TidyFacts TidyCorner TidyPair TidyNext TidyWalk
  TidyTrace TidyWinding TidySimple TidyArea TidyCover.
Import ListNotations.
Local Open Scope Z_scope.

Lemma int_valued_same : forall f z z', int_valued f z -> int_valued f z' -> z = z'.
Proof.
  intros f z z' A B. destruct f as [s|s| |s m e]; cbn [int_valued] in *; try contradiction; [congruence|].
  destruct (Z.leb_spec 0 e); [congruence|]. rewrite A in B. apply Z.mul_reg_r in B; [exact B|]. assert (0 < 2 ^ (- e)) by (apply Z.pow_pos_nonneg; lia). lia.
Qed.
Lemma at_z_same : forall p z z', at_z p z -> at_z p z' -> z = z'.
Proof.
  intros p [x y] [x' y'] (_ & _ & A1 & A2) (_ & _ & B1 & B2). cbn [fst snd] in *. f_equal; eapply int_valued_same; eassumption.
Qed.
Lemma at_zs_same : forall l zs zs', Forall2 at_z l zs -> Forall2 at_z l zs' -> zs = zs'.
Proof.
  intros l zs zs' A. revert zs'. induction A as [|p z l zs H A IH]; intros zs' B; inversion B; subst; [reflexivity|].
  f_equal; [eapply at_z_same; eassumption|now apply IH].
Qed.

(** *** The corners of the edges are those of the polygons *)

Lemma sides_in : forall (l : list (Z * Z)) s, In s (sides l) -> In (fst s) l /\ In (snd s) l.
Proof.
  intros [|a t] [x y] H; [contradiction|]. unfold sides in H. split; [now apply in_combine_l in H|].
  apply in_combine_r in H. cbn [snd]. apply in_app_or in H. destruct H as [H|[<-|[]]]; [now right|now left].
Qed.
Lemma polygon_edge_ends : forall i z e, In e (polygon_edges i z) ->
  exists l, In l z /\ In (e_left e) l /\ In (e_right e) l.
Proof.
  intros i z e H. unfold polygon_edges in H. apply in_flat_map in H. destruct H as (s & Hs & He). apply in_flat_map in Hs.
  destruct Hs as (l & Hl & Hs). apply sides_in in Hs. exists l. split; [exact Hl|]. unfold left_to_right in He.
  destruct (lex_z _ _); [contradiction|destruct He as [<-|[]]; cbn; tauto..].
Qed.
Lemma edge_within : forall m zs, Forall (Forall (Forall (within m))) zs -> forall j e, In e (edges_from j zs) -> within m (e_left e) /\ within m (e_right e).
Proof.
  intros m zs F. induction F as [|z zs Fz F IH]; intros j e H; [contradiction|]. cbn [edges_from] in H. apply in_app_or in H.
  destruct H as [H|H]; [|now apply (IH _ _ H)]. destruct (polygon_edge_ends _ _ _ H) as (l & Hl & H1 & H2).
  rewrite Forall_forall in Fz. specialize (Fz l Hl). rewrite Forall_forall in Fz. auto.
Qed.

(** *** Sums of winding numbers *)

Lemma windings_app : forall x y a b, windings x y (a ++ b) = windings x y a + windings x y b.
Proof. intros. unfold windings. induction a as [|l a IH]; [reflexivity|]. cbn [app map fold_right] in *. rewrite IH. ring. Qed.
Lemma windings_cons : forall x y l b, windings x y (l :: b) = winding x y l + windings x y b.
Proof. reflexivity. Qed.

Section Shapes.
Variables (zs : list corners) (modes : list polygon_mode) (S : list bseg) (ks : list packet) (act sw : list bseg) (I : list bend).
Notation n := (length modes).
Notation E := (edges zs).
Notation eg := (eg (edges zs)).
Hypothesis (D : drawn E S) (V : inv zs S modes [] ks act sw) (Polys : forall s, In s S -> (e_poly (eg s) < n)%nat).
Hypothesis (PI : Permutation (flat_map (sides_of modes ks) sw) I).
Hypothesis (NE : covered modes zs).
Notation src := (src zs).
Notation dst := (dst zs).
Notation face := (face zs).
Notation walk := (walk zs S I).
Notation first := (first zs).

Lemma total_concat : forall Ts f, total zs (concat Ts) f = fold_right Z.add 0 (map (fun T => total zs T f) Ts).
Proof using.
  intros Ts f. induction Ts as [|T Ts IH]; [reflexivity|]. cbn [concat map fold_right]. now rewrite total_app, IH.
Qed.

Lemma walk_winding : forall T x y, walk T -> winding x y (map src T) = wind zs T x y.
Proof using D V Polys PI NE.
  intros T x y W. unfold winding. rewrite (walk_sides zs S I T W), map_map. unfold wind, total.
  assert (TS : forall d : bend, In d T -> In (fst d) S).
  { intros d Hd. apply (kept_seg zs modes S ks act sw I D V Polys PI NE). now apply (walk_in zs S I T). }
  clear W. induction T as [|d T IH]; [reflexivity|]. cbn [map fold_right]. rewrite IH by (intros; apply TS; now right). f_equal.
  assert (L : lr (eg (fst d))) by (apply (seg_spec _ _ D), TS; now left). unfold side_sign, TidyNext.src, TidyNext.dst, sg. cbn [fst snd].
  unfold lr in L. destruct (snd d); cbn [end_z other_z].
  - rewrite L. change (passes_below (mk_edge 0 (e_left (eg (fst d))) (e_right (eg (fst d)))) x y) with (passes_below (eg (fst d)) x y).
    destruct (passes_below _ _ _); reflexivity.
  - rewrite (proj2 (lex_gt _ _) L). change (passes_below (mk_edge 0 (e_left (eg (fst d))) (e_right (eg (fst d)))) x y) with (passes_below (eg (fst d)) x y).
    destruct (passes_below _ _ _); reflexivity.
Qed.

Lemma walks_windings : forall Ts x y, Forall walk Ts -> windings x y (map (map src) Ts) = wind zs (concat Ts) x y.
Proof using D V Polys PI NE.
  intros Ts x y W. unfold wind. rewrite total_concat. unfold windings. rewrite map_map. f_equal. apply map_ext_in. intros T HT.
  rewrite Forall_forall in W. now rewrite (walk_winding T x y (W T HT)).
Qed.

Section One.
Variables (e : bend) (l : list bend).
Notation T := (e :: l).
Hypothesis (W : walk T) (F : first T) (ND : NoDup T).

Lemma turn_area : (shoelace (map src T) <? 0) = negb (0 <? corner zs e l).
Proof using D V Polys PI NE W F ND.
  pose proof (area_turn zs modes S ks act sw I D V Polys PI NE e l W F ND) as A. unfold turn in A.
  destruct (0 <? corner zs e l); cbn [negb]; [apply Z.ltb_ge; lia|apply Z.ltb_lt; lia].
Qed.
Lemma area_nonzero : shoelace (map src T) <> 0.
Proof using D V Polys PI NE W F ND.
  pose proof (area_turn zs modes S ks act sw I D V Polys PI NE e l W F ND) as A. intros Q. rewrite Q in A. lia.
Qed.

(** The walk takes each segment once. *)
Lemma walk_length : (length T <= length E)%nat.
Proof using D V Polys PI NE W ND.
  rewrite <- (dr_len _ _ D). rewrite <- (map_length (fun d : bend => fst d) T). apply NoDup_incl_length.
  - pose proof (one_side zs modes S ks act sw I D V Polys PI NE e l W) as O. revert ND O. generalize (e :: l) as t. clear.
    induction t as [|[s x] t IH]; intros N O; [constructor|]. cbn [map fst]. inversion N as [|? ? N1 N2]; subst. constructor.
    + intros H. apply in_map_iff in H. destruct H as ([s' x'] & Q & H). cbn [fst] in Q. subst s'.
      destruct x, x'; try (now apply N1); apply (O s); ((now left) || (now right)).
    + apply IH; [exact N2|]. intros s' A B. apply (O s'); now right.
  - intros s Hs. apply in_map_iff in Hs. destruct Hs as (d & <- & Hd). now apply (T_S zs modes S ks act sw I D V Polys PI NE e l W).
Qed.

Variable (m : Z).
Hypothesis (M1 : Forall (Forall (Forall (within m))) zs) (M2 : Z.of_nat (length E) * (2 * (m * m)) < 2 ^ 53).

Lemma walk_clockwise : forall c b c', Forall2 at_z (c_points c) (map src T) -> c_cache c = None -> clockwise c = Ok (b, c') ->
  b = (shoelace (map src T) <? 0).
Proof using D V Polys PI NE W ND M1 M2.
  intros c b c' A N C. assert (L : length (c_points c) = length T) by (rewrite (Forall2_len _ _ _ A); apply map_length).
  assert (O : orientation_of (c_points c) = Ok (shoelace (map src T) <? 0)).
  { apply (orientation_int m); [exact A| |destruct (c_points c); [discriminate|discriminate]|].
    - apply Forall_forall. intros v Hv. apply in_map_iff in Hv. destruct Hv as (d & <- & Hd).
      assert (In (eg (fst d)) E) as X by (apply (seg_spec _ _ D), (T_S zs modes S ks act sw I D V Polys PI NE e l W); exact Hd).
      apply (edge_within m zs M1 0) in X. unfold TidyNext.src. destruct (snd d); apply X.
    - rewrite L. pose proof walk_length. nia. }
  unfold orientation_of in O. unfold clockwise in C, O. rewrite N in C. cbn [c_cache c_points set_points contour_new] in O.
  destruct (c_points c) as [|p t]; [discriminate|]. cbn [obind] in O. congruence.
Qed.

(** The winding numbers of one contour. *)
Lemma walk_range : forall x y, wind zs T x y = 0 \/ wind zs T x y = (if 0 <? corner zs e l then 1 else -1).
Proof using D V Polys PI NE W F ND.
  intros x y. destruct (nudge E x y (edges_lr zs 0)) as (x' & y' & B & P).
  replace (wind zs T x y) with (wind zs T x' y').
  - destruct (wind_range zs modes S ks act sw I D V Polys PI NE e l W F ND x' y' B) as [-> | ->]; [now left|right]. unfold turn.
    destruct (0 <? _); reflexivity.
  - unfold wind. apply total_ext. intros d Hd. rewrite P; [reflexivity|].
    apply (seg_spec _ _ D), (T_S zs modes S ks act sw I D V Polys PI NE e l W); exact Hd.
Qed.
End One.

Lemma no_mistake : forall m, Forall (Forall (Forall (within m))) zs -> Z.of_nat (length E) * (2 * (m * m)) < 2 ^ 53 -> ~ mistaken zs S I.
Proof using D V Polys PI NE.
  intros m M1 M2 (e & l & c & W & F & ND & A & N & C & P).
  apply (walk_clockwise e l W ND m M1 M2 c true _ A N) in C. rewrite (turn_area e l W F ND) in C. unfold corner in C.
  destruct (Z.ltb_spec 0 (orient (src e) (dst e) (src (last l e)))); [discriminate|lia].
Qed.
End Shapes.
