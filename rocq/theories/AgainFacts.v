(** Overlaying the regions of an overlay changes nothing. *)

From Coq Require Import List ZArith QArith Bool Lia Lqa Arith Permutation Sorted.
From Verif Require Import Base Float Contours Sweep Compute SpecShape SpecOrder SpecIntersect SpecTurn SpecHandle SpecTidy SpecOverlay SpecCompute ContainerFacts
  SweepFacts TraceFacts ComputeFacts OrderFacts TidyGeo TidyParity TidySetup TidyShapes TidyRegions TidyBorders TidyStart OverlayFacts HoleOrder FollowLines FollowFacts ParentFacts
  SpecParent SpecFollow.
From Verif Require Import SpecAgain AgainSide AgainEdges.
Import ListNotations.
Local Open Scope Z_scope.

Lemma pick_all : forall A B C (R : A -> C -> Prop) (f : C -> B) l m, Forall2 (fun a b => exists c, R a c /\ b = f c) l m -> exists cs, Forall2 R l cs /\ m = map f cs.
Proof.
  intros A B C R f l m H. induction H as [|a b l m (c & H1 & ->) H (cs & IH & ->)]; [exists []; split; [constructor|reflexivity]|].
  exists (c :: cs). split; [now constructor|reflexivity].
Qed.

Lemma f2_left : forall A B (R : A -> B -> Prop) l m k a, Forall2 R l m -> nth_error l k = Some a -> exists b, nth_error m k = Some b /\ R a b.
Proof.
  intros A B R l m k a H. revert k. induction H as [|a0 b0 l m H0 H IH]; intros [|k] Q; try discriminate.
  - injection Q as <-. exists b0. split; [reflexivity|exact H0].
  - now apply IH.
Qed.
Lemma f2_right : forall A B (R : A -> B -> Prop) l m k b, Forall2 R l m -> nth_error m k = Some b -> exists a, nth_error l k = Some a /\ R a b.
Proof.
  intros A B R l m k a H. revert k. induction H as [|a0 b0 l m H0 H IH]; intros [|k] Q; try discriminate.
  - injection Q as <-. exists a0. split; [reflexivity|exact H0].
  - now apply IH.
Qed.

Lemma nodup_concat : forall A (Ls : list (list A)), Forall (@NoDup A) Ls -> (forall i j a b x, nth_error Ls i = Some a -> nth_error Ls j = Some b -> In x a -> In x b -> i = j) -> NoDup (concat Ls).
Proof.
  intros A Ls F. induction F as [|a Ls Ha F IH]; intros H; [constructor|]. cbn [concat].
  assert (N : NoDup (concat Ls)) by (apply IH; intros i j p q x H1 H2 H3 H4; specialize (H (S i) (S j) p q x H1 H2 H3 H4); lia).
  clear IH F. induction Ha as [|y a Hy Ha IHa]; [exact N|]. cbn [app]. constructor.
  - intros X. apply in_app_iff in X. destruct X as [X|X]; [contradiction|]. apply in_concat in X. destruct X as (b & Hb & X). apply In_nth_error in Hb. destruct Hb as (j & Hj).
    specialize (H 0%nat (S j) (y :: a) b y eq_refl Hj (or_introl eq_refl) X). discriminate.
  - apply IHa. intros i j p q x H1 H2 H3 H4. destruct i as [|i], j as [|j]; cbn in H1, H2.
    + reflexivity.
    + injection H1 as <-. apply (H 0%nat (S j) (y :: a) q x eq_refl H2); [now right|exact H4].
    + injection H2 as <-. apply (H (S i) 0%nat p (y :: a) x H1 eq_refl H3). now right.
    + apply (H (S i) (S j) p q x); assumption.
Qed.

Section First.
Variables (std : std_impl) (fuel : nat) (polys : input) (op : boolean_op) (zs : list corners).
Hypothesis (SL : std_laws std) (SO : sorts std) (OV : overlayable polys zs) (HF : (2 * length (edges zs) <= fuel)%nat).
Variables (r : polygon) (rz : corners).
Hypothesis (C : compute std fuel polys op = Ok r) (H : has_corners r rz).
Variables (outs : list nat) (jss : list (list nat)).
Hypothesis (N : NoDup outs) (Outs : forall i, In i outs <-> outer r i) (F : Forall2 (region_of r) outs jss).
Notation line := (fun j => nth j rz []).
Notation zs' := (map (map (fun j => nth j rz [])) jss).

Lemma len_r : length rz = length r.
Proof using H. symmetry. exact (Forall2_len _ _ _ H). Qed.
Lemma region_lt : forall i j, outer r i -> in_region r i j -> (j < length rz)%nat.
Proof using SL C H.
  intros i j (c & Hc & _) G. rewrite len_r. induction G as [|j cj h G IH Hj Hh]; [now apply nth_lt in Hc|].
  destruct (proj1 (proj2 (compute_hole_lists std fuel polys op r SL C)) j cj h Hj Hh) as (_ & ch & Hch & _). now apply nth_lt in Hch.
Qed.
Lemma line_at : forall j l, nth_error rz j = Some l -> line j = l.
Proof using. intros j l Q. now apply nth_error_nth. Qed.
Lemma line_there : forall j, (j < length rz)%nat -> nth_error rz j = Some (line j).
Proof using. intros j L. now apply nth_error_nth'. Qed.

Lemma out_at : forall i, outer r i -> exists k js, nth_error outs k = Some i /\ nth_error jss k = Some js /\ region_of r i js.
Proof using Outs F.
  intros i Oi. apply Outs in Oi. apply In_nth_error in Oi. destruct Oi as (k & Hk). destruct (f2_left _ _ _ _ _ _ _ F Hk) as (js & Q1 & Q2). exists k, js. auto.
Qed.
Lemma at_out : forall k js, nth_error jss k = Some js -> exists i, nth_error outs k = Some i /\ outer r i /\ region_of r i js.
Proof using Outs F.
  intros k js Hk. destruct (f2_right _ _ _ _ _ _ _ F Hk) as (i & Q1 & Q2). exists i. split; [exact Q1|]. split; [|exact Q2]. apply Outs. now apply nth_error_In in Q1.
Qed.

Lemma jss_once : NoDup (concat jss).
Proof using SL SO OV HF C H N Outs F.
  apply nodup_concat.
  - apply Forall_forall. intros js Hj. apply In_nth_error in Hj. destruct Hj as (k & Hk). destruct (at_out k js Hk) as (i & _ & _ & J & _). exact J.
  - intros k k' js js' j H1 H2 H3 H4. destruct (at_out k js H1) as (i & I1 & I2 & _ & I3), (at_out k' js' H2) as (i' & I1' & I2' & _ & I3').
    apply I3 in H3. apply I3' in H4. destruct (overlay_regions std fuel polys op zs SL SO OV HF r rz C H) as (U & _).
    destruct (U j) as (i0 & _ & _ & U0); [rewrite <- len_r; eapply region_lt; eassumption|].
    assert (i = i') by (rewrite (U0 i I2 H3); symmetry; now apply U0). subst i'. rewrite NoDup_nth_error in N. apply N; [now apply nth_lt in I1|congruence].
Qed.

Definition within_region (k : nat) (s : (Z * Z) * (Z * Z)) : Prop :=
  exists i js j l, nth_error outs k = Some i /\ nth_error jss k = Some js /\ outer r i /\ region_of r i js /\ In j js /\ nth_error rz j = Some l /\ In s (sides l).

Lemma placed_iff : forall k s, In (k, s) (placed 0 zs') <-> within_region k s.
Proof using SL C H Outs F.
  intros k s. rewrite placed_at. unfold within_region. split.
  - intros (z & Hz & Hs). rewrite nth_error_map in Hz. destruct (nth_error jss k) as [js|] eqn:Hk; [|discriminate Hz]. injection Hz as <-.
    destruct (at_out k js Hk) as (i & I1 & I2 & I3). apply in_flat_map in Hs. destruct Hs as (l & Hl & Hs). apply in_map_iff in Hl. destruct Hl as (j & <- & Hj).
    exists i, js, j, (line j). repeat (split; [assumption || reflexivity|]). split; [|exact Hs]. apply line_there. apply (region_lt i j I2). now apply I3.
  - intros (i & js & j & l & I1 & I2 & I3 & I4 & Hj & Hl & Hs). exists (map (fun j => nth j rz []) js). rewrite nth_error_map, I2. split; [reflexivity|].
    apply in_flat_map. exists l. split; [|exact Hs]. apply in_map_iff. exists j. split; [now apply line_at|exact Hj].
Qed.

Lemma some_region : forall s, In s (flat_map sides rz) -> exists k, within_region k s.
Proof using SL SO OV HF C H Outs F.
  intros s Hs. apply in_flat_map in Hs. destruct Hs as (l & Hl & Hs). apply In_nth_error in Hl. destruct Hl as (j & Hj).
  destruct (overlay_regions std fuel polys op zs SL SO OV HF r rz C H) as (U & _).
  destruct (U j) as (i & Oi & Ri & _); [rewrite <- len_r; now apply nth_lt in Hj|].
  destruct (out_at i Oi) as (k & js & K1 & K2 & K3). exists k, i, js, j, l. repeat (split; [assumption|]). split; [now apply K3|auto].
Qed.
Lemma region_in : forall k s, within_region k s -> In s (flat_map sides rz).
Proof using. intros k s (i & js & j & l & _ & _ & _ & _ & _ & Hl & Hs). apply in_flat_map. exists l. split; [now apply nth_error_In in Hl|exact Hs]. Qed.

Lemma all_placed : forall s, In s (flat_map sides (concat zs')) <-> In s (flat_map sides rz).
Proof using SL SO OV HF C H Outs F.
  intros s. rewrite <- (placed_sides zs' 0). split.
  - intros X. apply in_map_iff in X. destruct X as ((k & s') & <- & X). apply placed_iff in X. now apply region_in in X.
  - intros X. destruct (some_region s X) as (k & Hk). apply placed_iff in Hk. apply in_map_iff. exists (k, s). auto.
Qed.
Lemma placed_once : NoDup (flat_map sides (concat zs')).
Proof using SL SO OV HF C H N Outs F.
  rewrite <- concat_map, flat_map_concat_map, map_map.
  rewrite (map_ext _ (fun j => nth j (map sides rz) [])); [|intros j; now rewrite <- (map_nth sides)].
  apply concat_pick; [|exact jss_once]. rewrite <- flat_map_concat_map. apply (overlay_sides std fuel polys op zs SL SO OV HF r rz C H).
Qed.

(** Every side runs along an edge. *)
Lemma side_edge : forall a b, In (a, b) (flat_map sides rz) -> exists e, In e (edges zs) /\ ((a = e_left e /\ b = e_right e) \/ (a = e_right e /\ b = e_left e)).
Proof using SL SO OV HF C H.
  intros a b X. apply (overlay_sides std fuel polys op zs SL SO OV HF r rz C H) in X. destruct X as (e & He & _ & x & y & _ & K). exists e. split; [exact He|tauto].
Qed.
Lemma side_long : forall s, In s (flat_map sides rz) -> fst s <> snd s.
Proof using SL SO OV HF C H.
  intros (a, b) X. destruct (side_edge a b X) as (e & He & Q). pose proof (edges_lr zs 0 e He) as L. unfold lr in L. cbn [fst snd]. intros ->.
  assert (e_left e = e_right e) as Q1 by (destruct Q as [(? & ?)|(? & ?)]; congruence). rewrite Q1 in L. now apply lex_irrefl in L.
Qed.
Lemma edges_again : edges zs' = map edge_of (placed 0 zs').
Proof using SL SO OV HF C H Outs F. apply edges_map. intros s Hs. apply side_long. now apply all_placed. Qed.

Lemma edge_again : forall e', In e' (edges zs') -> exists e, In e (edges zs) /\ alike e' e
  /\ (within_region (e_poly e') (e_left e, e_right e) \/ within_region (e_poly e') (e_right e, e_left e)).
Proof using SL SO OV HF C H Outs F.
  intros e' He. rewrite edges_again in He. apply in_map_iff in He. destruct He as ((k & (a & b)) & <- & X). apply placed_iff in X.
  destruct (side_edge a b (region_in _ _ X)) as (e & He & Q). exists e. split; [exact He|]. rewrite edge_of_poly. cbn [fst].
  pose proof (edges_lr zs 0 e He) as L. unfold lr in L. split.
  - unfold alike, edge_of. cbn [fst snd]. destruct Q as [(-> & ->)|(-> & ->)]; [rewrite L; split; reflexivity|]. rewrite (proj2 (lex_gt _ _) L). split; reflexivity.
  - destruct Q as [(-> & ->)|(-> & ->)]; auto.
Qed.
Lemma again_edge : forall k e, In e (edges zs) -> (within_region k (e_left e, e_right e) \/ within_region k (e_right e, e_left e)) ->
  In (mk_edge k (e_left e) (e_right e)) (edges zs').
Proof using SL SO OV HF C H Outs F.
  intros k e He X. pose proof (edges_lr zs 0 e He) as L. unfold lr in L. rewrite edges_again. apply in_map_iff. destruct X as [X|X]; apply placed_iff in X.
  - exists (k, (e_left e, e_right e)). split; [|exact X]. unfold edge_of. cbn [fst snd]. now rewrite L.
  - exists (k, (e_right e, e_left e)). split; [|exact X]. unfold edge_of. cbn [fst snd]. now rewrite (proj2 (lex_gt _ _) L).
Qed.
Lemma has_again : forall k e e', In e (edges zs) -> alike e' e -> has_edge zs' k e' <-> within_region k (e_left e, e_right e) \/ within_region k (e_right e, e_left e).
Proof using SL SO OV HF C H Outs F.
  intros k e e' He (A1 & A2). split.
  - intros (f & F1 & <- & F3 & F4). destruct (edge_again f F1) as (g & G1 & (G2 & G3) & G4). rewrite <- G2, <- G3, F3, F4, A1, A2 in G4. exact G4.
  - intros X. exists (mk_edge k (e_left e) (e_right e)). split; [now apply again_edge|]. cbn. repeat split; congruence.
Qed.

(** *** What is below and above the edges *)
Lemma below_again : forall k x y, inner_below zs' k x y <-> exists i js, nth_error outs k = Some i /\ nth_error jss k = Some js /\ outer r i /\ region_of r i js /\ goes_round rz js x y = 1.
Proof using SL SO OV HF C H Outs F.
  intros k x y. destruct (nth_error jss k) as [js|] eqn:Hk.
  - rewrite (below_odd zs' k (map (fun j => nth j rz []) js)) by (now rewrite nth_error_map, Hk). change (windings x y (map (fun j => nth j rz []) js)) with (goes_round rz js x y).
    destruct (at_out k js Hk) as (i & I1 & I2 & I3). destruct (overlay_regions std fuel polys op zs SL SO OV HF r rz C H) as (_ & _ & _ & U).
    split.
    + intros Od. exists i, js. repeat (split; [assumption || reflexivity|]). destruct (U i js x y I2 I3) as [Q|Q]; [rewrite Q in Od; discriminate Od|exact Q].
    + intros (i' & js' & _ & Q & _ & _ & G). injection Q as <-. now rewrite G.
  - split; [|intros (i & js & _ & Q & _); discriminate Q]. intros X. exfalso. apply (none_below zs' k x y); [|exact X]. rewrite map_length. now apply nth_error_None.
Qed.

Lemma left_not_below : forall k e x y, In e (edges zs) -> inside_edge e x y -> within_region k (e_left e, e_right e) -> ~ inner_below zs' k x y.
Proof using SL SO OV HF C H Outs F.
  intros k e x y He Ins (i & js & j & l & I1 & I2 & I3 & I4 & Hj & Hl & Hs) B. apply below_again in B. destruct B as (i' & js' & J1 & J2 & _ & _ & G).
  rewrite I2 in J2. injection J2 as <-.
  rewrite (proj1 (overlay_beside std fuel polys op zs SL SO OV HF r rz C H i js j l e x y I3 I4 Hj Hl He Ins) Hs) in G. discriminate G.
Qed.
Lemma right_below : forall k e x y, In e (edges zs) -> inside_edge e x y -> within_region k (e_right e, e_left e) -> inner_below zs' k x y.
Proof using SL SO OV HF C H Outs F.
  intros k e x y He Ins (i & js & j & l & I1 & I2 & I3 & I4 & Hj & Hl & Hs). apply below_again. exists i, js. repeat (split; [assumption|]).
  exact (proj2 (overlay_beside std fuel polys op zs SL SO OV HF r rz C H i js j l e x y I3 I4 Hj Hl He Ins) Hs).
Qed.
Lemma below_kept : forall k x y, inner_below zs' k x y -> kept_at (map snd polys) zs x y.
Proof using SL SO OV HF C H Outs F.
  intros k x y B. apply below_again in B. destruct B as (i & js & I1 & I2 & I3 & I4 & G). destruct (overlay_places std fuel polys op zs SL SO OV HF r rz C H x y) as (_ & U).
  pose proof I3 as (c & Hc & _). now apply (U i c js).
Qed.
Lemma below_once : forall k k' x y, inner_below zs' k x y -> inner_below zs' k' x y -> k = k'.
Proof using SL SO OV HF C H N Outs F.
  intros k k' x y B B'. destruct (proj1 (overlay_places std fuel polys op zs SL SO OV HF r rz C H x y) (below_kept k x y B)) as (i0 & _ & _ & U).
  apply below_again in B, B'. destruct B as (i & js & I1 & I2 & I3 & I4 & G), B' as (i' & js' & I1' & I2' & I3' & I4' & G').
  assert (i = i') by (rewrite (U i js I3 I4 G); symmetry; now apply (U i' js')). subst i'. rewrite NoDup_nth_error in N. apply N; [now apply nth_lt in I1|congruence].
Qed.
(** What is kept below an edge has a side there. *)
Lemma below_side : forall k e x y, In e (edges zs) -> inside_edge e x y -> inner_below zs' k x y -> In (e_right e, e_left e) (flat_map sides rz).
Proof using SL SO OV HF C H Outs F.
  intros k e x y He Ins B. destruct (last_of _ _ He) as (f & F1 & F2 & F3). apply (overlay_sides std fuel polys op zs SL SO OV HF r rz C H). exists f. split; [exact F1|].
  destruct F2 as (A1 & A2). split.
  - apply is_kept; [apply OV|exact F1|]. intros g Hg (G1 & G2). apply F3; [exact Hg|]. split; congruence.
  - exists x, y. split; [unfold inside_edge in *; now rewrite A1, A2|]. right. rewrite A1, A2. split; [reflexivity|]. split; [reflexivity|]. exact (below_kept k x y B).
Qed.

Lemma below_iff : forall k e x y, In e (edges zs) -> inside_edge e x y -> inner_below zs' k x y <-> within_region k (e_right e, e_left e).
Proof using SL SO OV HF C H N Outs F.
  intros k e x y He Ins. split; [|now apply right_below]. intros B. destruct (some_region _ (below_side k e x y He Ins B)) as (k' & W).
  pose proof (right_below k' e x y He Ins W) as B'. rewrite (below_once k k' x y B B'). exact W.
Qed.
Lemma above_iff : forall k e e' x y, In e (edges zs) -> alike e' e -> inside_edge e x y -> inner_above zs' e' k x y <-> within_region k (e_left e, e_right e).
Proof using SL SO OV HF C H N Outs F.
  intros k e e' x y He Al Ins. unfold inner_above. rewrite (has_again k e e' He Al), (below_iff k e x y He Ins). split.
  - intros [([X|X] & Y)|(X & Y)]; [exact X|contradiction|]. exfalso. apply X. now right.
  - intros X. left. split; [now left|]. intros Y. apply (left_not_below k e x y He Ins X). now apply (below_iff k e x y He Ins).
Qed.

(** *** The regions are tidy *)
Hypothesis (RM : roomy zs).

Lemma zs_related : forall e f, In e (edges zs) -> In f (edges zs) -> related e f.
Proof using SL SO OV HF C.
  destruct (have std fuel polys op zs SL SO OV HF r C) as (S & ks & act & sw & I & Ts & O). exact (all_related zs _ r S ks act sw I Ts O).
Qed.
Lemma corners_within : forall m, Forall (Forall (Forall (within m))) zs -> Forall (Forall (Forall (within m))) zs'.
Proof using SL SO OV HF C H Outs F.
  intros m W. apply Forall_forall. intros z Hz. apply in_map_iff in Hz. destruct Hz as (js & <- & Hj). apply In_nth_error in Hj. destruct Hj as (k & Hk).
  destruct (at_out k js Hk) as (i & I1 & I2 & _ & I3).
  apply Forall_forall. intros l Hl. apply in_map_iff in Hl. destruct Hl as (j & <- & Hj). apply I3 in Hj. pose proof (line_there j (region_lt i j I2 Hj)) as Hl.
  apply Forall_forall. intros v Hv. destruct (corner_side _ v Hv) as (v' & Hs). pose proof (in_flat rz _ _ (nth_error_In _ _ Hl) Hs) as X.
  destruct (side_edge v v' X) as (e & He & Q). destruct (edge_within m zs W 0%nat e He) as (W1 & W2). destruct Q as [(-> & _)|(-> & _)]; assumption.
Qed.

Lemma again_tidy : tidy zs'.
Proof using SL SO OV HF C H N Outs F.
  pose proof OV as (_ & (T1 & _) & _). split; [now apply corners_within|]. rewrite edges_again. apply pairs_nodup.
  - apply (NoDup_map_inv snd). rewrite placed_sides. exact placed_once.
  - intros (k & (a & b)) (k' & (a' & b')) Hp Hp' Ne. set (p := (k, (a, b))) in *. set (p' := (k', (a', b'))) in *.
    destruct (edge_again (edge_of p)) as (e & He & (A1 & A2) & W); [rewrite edges_again; now apply in_map|].
    destruct (edge_again (edge_of p')) as (e' & He' & (A1' & A2') & W'); [rewrite edges_again; now apply in_map|].
    assert (Ex : forall q q', In q (placed 0 zs') -> In q' (placed 0 zs') -> snd q = snd q' -> q = q').
    { pose proof placed_once as PO. rewrite <- (placed_sides zs' 0) in PO. intros q q' Q1 Q2 Q3. 
      apply In_nth_error in Q1, Q2. destruct Q1 as (u & Q1), Q2 as (u' & Q2). rewrite NoDup_nth_error in PO.
      assert (u = u'); [|subst u'; congruence]. apply PO; [rewrite map_length; now apply nth_lt in Q1|]. rewrite !nth_error_map, Q1, Q2. cbn. now rewrite Q3. }
    destruct (zs_related e e' He He') as [(Q1 & Q2)|A].
    + left. split; [congruence|]. split; [congruence|]. rewrite !edge_of_poly. cbn [fst]. intros Q. subst p p'. cbn [fst] in Q. subst k'.
      assert (G : snd (k, (a, b)) <> snd (k, (a', b'))) by (intros Q; apply Ne; now apply Ex).
      cbn [snd] in G. apply placed_iff in Hp, Hp'.
      pose proof (edges_lr zs 0 e He) as L. pose proof (edges_lr zs 0 e' He') as L'. unfold lr in L, L'.
      destruct (edge_of_ends (k, (a, b))) as [(B1 & B2)|(B1 & B2)], (edge_of_ends (k, (a', b'))) as [(B1' & B2')|(B1' & B2')]; cbn [fst snd] in *;
        [apply G; congruence| | |apply G; congruence].
      * apply (left_not_below k e _ _ He (middle e)); [now rewrite <- A1, <- A2, B1, B2|]. apply (right_below k e _ _ He (middle e)). rewrite Q1, Q2, <- A1', <- A2', B1', B2'. exact Hp'.
      * apply (left_not_below k e _ _ He (middle e)); [now rewrite Q1, Q2, <- A1', <- A2', B1', B2'|]. apply (right_below k e _ _ He (middle e)). rewrite <- A1, <- A2, B1, B2. exact Hp.
    + right. unfold apart, is_end in *. rewrite A1, A2, A1', A2'. exact A.
Qed.

Lemma again_fewer : (length (edges zs') <= 2 * length (edges zs))%nat.
Proof using SL SO OV HF C H N Outs F.
  rewrite edges_again, map_length, <- (map_length snd), placed_sides.
  assert (X : incl (flat_map sides (concat zs')) (map (fun e => (e_left e, e_right e)) (edges zs) ++ map (fun e => (e_right e, e_left e)) (edges zs))).
  { intros (a, b) Hs. apply all_placed in Hs. destruct (side_edge a b Hs) as (e & He & Q). apply in_app_iff. destruct Q as [(-> & ->)|(-> & ->)]; [left|right]; apply in_map_iff; eauto. }
  apply (NoDup_incl_length placed_once) in X. rewrite app_length, !map_length in X. lia.
Qed.

Lemma again_compact : compact zs'.
Proof using SL SO OV HF C H N Outs F RM.
  split.
  - intros e' He. destruct (edge_again e' He) as (e & He0 & (A1 & A2) & _). rewrite A1, A2. pose proof OV as (_ & _ & (S & _) & _). now apply S.
  - destruct RM as (m & W & L). exists m. split; [now apply corners_within|]. pose proof again_fewer as G. pose proof (Z.square_nonneg m) as Q. nia.
Qed.
End First.
