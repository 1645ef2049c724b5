(** Overlaying polygons whose sides cross: the overlay is that of the polygons cut where they cross. *)

From Coq Require Import List ZArith QArith Bool Arith Lia Permutation.
From Verif Require Import Base Float SpecFloat64 SpecShape SpecOrder SpecIntersect SpecHandle SpecTidy SpecContainers SpecCompute Geometry Sweep
  Contours Compute FloatFacts MapFacts ShapeFacts SweepFacts OrderFacts ContainerFacts HandleFacts TidyGeo TidyParity TidySetup TidyLine TidyPackets TidySweep TidyStart TidyFacts
  TidyShapes CrossGeo CrossPieces CrossMeet CrossCore CrossSplit CrossResolve CrossPair CrossLeft CrossStep CrossRight CrossNext CrossLoop CrossTrace CrossSetup CrossStart SpecCross.
Import ListNotations.

Section Overlay.
Variables (ms : list (list (list mark))) (modes : list polygon_mode) (S : list bseg) (U : list piece).
Notation zs := (marked ms).
Notation E := (edges (marked ms)).
Notation eg := (eg (edges (marked ms))).
Notation L s := (e_left (eg s)).
Notation R s := (e_right (eg s)).
Notation poly s := (e_poly (eg s)).
Notation n := (length modes).
Hypothesis (CW : cut_well ms) (D : drawn E S).
Hypothesis (HU : Forall2 (routed E S) (routes ms) U) (HS : map p_side U = seq 0 (length U)).
Notation cs := (map parts U).
Notation sub := (sub (map parts U)).

Lemma sub_track : forall k b tl, sub k b tl -> exists r fl l1 l2, nth_error (routes ms) k = Some r /\ (fl = snd r \/ fl = rev (snd r)) /\ fl = l1 ++ l2
  /\ (forall a b c, In a l2 -> In b l2 -> In c l2 -> orient a b c = 0%Z) /\ track E S (fst r) l2 (b :: tl).
Proof using HU.
  intros k b tl (pre & post & H). rewrite nth_error_map in H. destruct (nth_error U k) as [p|] eqn:Hp; [|discriminate H]. injection H as H.
  destruct (nth_error (routes ms) k) as [r|] eqn:Hr.
  2:{ exfalso. apply nth_error_None in Hr. apply Forall2_len in HU. assert (k < length U)%nat by (apply nth_error_Some; congruence). lia. }
  destruct (Forall2_nth _ _ _ _ _ _ HU Hr Hp) as (fl & Fl & _ & Co & Tr & _). rewrite H in Tr. apply track_suf in Tr. destruct Tr as (l1 & l2 & Q & Tr). apply (track_pre E S (fst r) (b :: tl) post) in Tr.
  exists r, fl, l1, l2. split; [reflexivity|]. split; [exact Fl|]. split; [exact Q|]. split; [|exact Tr]. intros x y z Hx Hy Hz. apply Co; rewrite Q; apply in_or_app; now right.
Qed.

Lemma sub_chain : forall k b tl, sub k b tl -> chain E S b tl.
Proof using HU. intros k b tl H. destruct (sub_track k b tl H) as (r & fl & l1 & l2 & _ & _ & _ & Co & Tr). now apply (track_shape E S (fst r) tl b l2). Qed.

Lemma sub_stretch : forall k b tl, sub k b tl -> exists r, nth_error (routes ms) k = Some r /\ stretch r (span E b tl).
Proof using HU D.
  intros k b tl H. destruct (sub_track k b tl H) as (r & fl & l1 & l2 & Hr & Fl & Q & Co & Tr). destruct (track_shape E S (fst r) tl b l2 Co Tr) as (Ch & Pb & mid & q & post & Q2 & Rq & _).
  exists r. split; [exact Hr|]. pose proof (proj1 (reach_spec E S D tl b Ch)) as Lr. rewrite Rq in Lr. unfold stretch, span. rewrite Rq, Pb. rewrite Q2 in Q.
  destruct Fl as [Fl|Fl].
  - exists l1, (L b), mid, q, post. rewrite <- Fl. split; [exact Q|]. unfold left_to_right. cbn [fst snd]. rewrite Lr. now left.
  - exists (rev post), q, (rev mid), (L b), (rev l1). split.
    + rewrite <- (rev_involutive (snd r)), <- Fl, Q. rewrite rev_app_distr. cbn [rev]. rewrite rev_app_distr. cbn [rev]. rewrite <- !app_assoc. reflexivity.
    + unfold left_to_right. cbn [fst snd]. apply lex_gt in Lr. rewrite Lr. now left.
Qed.

Lemma sub_fit : forall k k' b tl b' tl', sub k b tl -> sub k' b' tl' -> k <> k' -> fit (span E b tl) (span E b' tl').
Proof using HU D CW.
  intros k k' b tl b' tl' H H' N. destruct (sub_stretch _ _ _ H) as (r & R1 & R2), (sub_stretch _ _ _ H') as (r' & R1' & R2'). exact (cut_fit _ CW k k' r r' _ _ R1 R1' N R2 R2').
Qed.

Lemma edges_eg : E = map eg S.
Proof using D.
  apply nth_ext with (d := no_edge) (d' := no_edge); [rewrite map_length; symmetry; apply (dr_len _ _ D)|]. intros k Hk.
  destruct (nth_error S k) as [s|] eqn:Hs; [|apply nth_error_None in Hs; rewrite (dr_len _ _ D) in Hs; lia].
  rewrite (nth_error_nth (map eg S) k no_edge (map_nth_error eg k S Hs)). unfold TidySetup.eg. now rewrite (dr_index _ _ D k s Hs).
Qed.

Lemma segs_once : NoDup S.
Proof using D.
  apply NoDup_nth_error. intros i j Hi Q. destruct (nth_error S i) as [s|] eqn:Ei; [|apply nth_error_None in Ei; lia].
  symmetry in Q. rewrite <- (dr_index _ _ D i s Ei). now apply (dr_index _ _ D).
Qed.

Lemma sub_arrive : forall k b c tl, sub k b (c :: tl) -> exists t, In t S /\ t <> b /\ R t = R b.
Proof using HU D CW.
  intros k b c tl H. destruct (sub_track k b _ H) as (r & fl & l1 & l2 & Hr & Fl & Q & Co & Tr).
  destruct (track_shape E S (fst r) _ b l2 Co Tr) as ((_ & Ch) & _ & mid & q & post & Q2 & _ & _ & Q3). destruct (Q3 ltac:(discriminate)) as (mid' & ->). rewrite Q2 in Q.
  assert (A : (2 <= arrivals zs (R b))%nat).
  { destruct Fl as [Fl|Fl].
    - apply (cut_arrive _ CW r (l1 ++ [L b]) (R b) (mid' ++ q :: post)); [now apply nth_error_In in Hr| |now destruct l1|now destruct mid'].
      rewrite <- Fl, Q, <- app_assoc. reflexivity.
    - apply (cut_arrive _ CW r (rev (mid' ++ q :: post)) (R b) (rev (l1 ++ [L b]))); [now apply nth_error_In in Hr| | |].
      + rewrite <- (rev_involutive (snd r)), <- Fl, Q. cbn [app]. replace (l1 ++ L b :: R b :: mid' ++ q :: post) with ((l1 ++ [L b]) ++ R b :: mid' ++ q :: post) by (now rewrite <- app_assoc).
        rewrite rev_app_distr. cbn [rev]. now rewrite <- app_assoc.
      + rewrite rev_app_distr. cbn [rev]. intros X. apply app_eq_nil in X. destruct X as [X _]. apply app_eq_nil in X. destruct X as [_ X]. discriminate X.
      + rewrite rev_app_distr. discriminate. }
  unfold arrivals in A. clear Q Q2 Q3 Tr. revert A. generalize (R b). intros v A. rewrite edges_eg in A.
  assert (G : exists F, length (filter (fun e => same_z (e_right e) v) (map eg S)) = length F /\ NoDup F /\ forall t, In t F -> In t S /\ R t = v).
  { exists (filter (fun s => same_z (R s) v) S). split; [|split].
    - clear. induction S as [|s l IH]; cbn [map filter]; [reflexivity|]. destruct (same_z _ v); cbn [length]; now rewrite IH.
    - apply NoDup_filter, segs_once.
    - intros t Ht. apply filter_In in Ht. destruct Ht as [T1 T2]. split; [exact T1|]. unfold same_z in T2. apply andb_true_iff in T2. rewrite !Z.eqb_eq in T2. destruct (R t), v. cbn in T2. destruct T2. now subst. }
  destruct G as (F & G1 & G2 & G3). rewrite G1 in A. destruct F as [|x [|y F]]; [cbn in A; lia|cbn in A; lia|].
  destruct (G3 x (or_introl eq_refl)) as [X1 X2]. destruct (G3 y (or_intror (or_introl eq_refl))) as [Y1 Y2].
  destruct (Nat.eq_dec (s_index x) (s_index b)) as [I|I].
  - exists y. split; [exact Y1|]. split; [|exact Y2]. intros ->. apply (index_eq _ _ D) in I; [|exact X1|exact Y1]. subst x. inversion G2 as [|? ? N _]; subst. apply N. now left.
  - exists x. split; [exact X1|]. split; [|exact X2]. intros ->. now apply I.
Qed.

(** *** The sweeps begin in step *)

Variable w : sweep.
Hypothesis (MA : made modes (edges (plain ms)) w) (SegU : map p_seg U = w_segs w) (PartU : Permutation (flat_map parts U) S).

Lemma side_of : forall p, In p U -> nth_error cs (p_side p) = Some (parts p) /\ nth_error (w_segs w) (p_side p) = Some (p_seg p).
Proof using HS SegU.
  clear - HS SegU. intros p Hp. apply In_nth_error in Hp. destruct Hp as [k Hk]. assert (Q : p_side p = k).
  { assert (X : nth_error (map p_side U) k = Some (p_side p)) by (now apply map_nth_error). rewrite HS in X. assert (Lk : (k < length U)%nat) by (apply nth_error_Some; congruence).
    rewrite (nth_error_nth' _ 0%nat) in X by (now rewrite seq_length). rewrite seq_nth in X by exact Lk. now injection X. }
  rewrite Q. rewrite <- SegU. split; now apply map_nth_error.
Qed.

Lemma begin_core : core zs S modes cs w (map (fun e => packet_new (e_poly e) (mode_at modes (e_poly e)) n) E) U [] [] [].
Proof using CW D HU HS MA SegU PartU.
  assert (In_ : forall p, In p U -> s_index (p_seg p) = p_side p) by (intros p Hp; apply (m_index _ _ _ MA); now apply side_of).
  constructor; rewrite ?app_nil_r.
  - exact PartU.
  - intros p Hp. split; [exists [], []; rewrite app_nil_r; now apply side_of|]. pose proof Hp as Hp'. apply In_nth_error in Hp'. destruct Hp' as [k Hk].
    destruct (nth_error (routes ms) k) as [r|] eqn:Hr.
    2:{ exfalso. apply nth_error_None in Hr. apply Forall2_len in HU. assert (k < length U)%nat by (apply nth_error_Some; congruence). lia. }
    destruct (Forall2_nth _ _ _ _ _ _ HU Hr Hk) as (fl & _ & _ & _ & _ & Cv). exact Cv.
  - intros p Hp. rewrite (In_ p Hp). now apply side_of.
  - rewrite (map_ext_in _ p_side _ In_), HS. apply seq_NoDup.
  - rewrite (m_packets _ _ _ MA), map_length. eapply Forall2_len. apply (m_segs _ _ _ MA).
  - intros s [].
  - etransitivity; [apply (m_queue _ _ _ MA)|]. unfold events. cbn [map app]. rewrite app_nil_r, <- SegU, flat_on_map. reflexivity.
  - apply (m_heap _ _ _ MA).
  - apply (m_active _ _ _ MA).
  - apply (m_swept _ _ _ MA).
  - intros p [].
  - exact I.
  - intros p p' [].
  - intros p [].
  - intros p Hp. rewrite (In_ p Hp). destruct (side_of p Hp) as [_ Hs]. rewrite (m_packets _ _ _ MA).
    destruct (nth_error (edges (plain ms)) (p_side p)) as [e|] eqn:He.
    2:{ exfalso. apply nth_error_None in He. assert (X : length (edges (plain ms)) = length (w_segs w)) by exact (Forall2_len _ _ _ (m_segs _ _ _ MA)). assert (Y : (p_side p < length (w_segs w))%nat) by (apply nth_error_Some; rewrite Hs; discriminate). lia. }
    destruct (Forall2_nth _ _ _ _ _ _ (m_segs _ _ _ MA) He Hs) as [_ Oe].
    assert (Pe : e_poly e = poly (p_head p)).
    { apply In_nth_error in Hp. destruct Hp as [k Hk]. destruct (nth_error (routes ms) k) as [r|] eqn:Hr.
      2:{ exfalso. apply nth_error_None in Hr. apply Forall2_len in HU. assert (k < length U)%nat by (apply nth_error_Some; congruence). lia. }
      destruct (Forall2_nth _ _ _ _ _ _ HU Hr Hk) as (fl & _ & _ & _ & _ & (_ & _ & Cv)). congruence. }
    eexists. split; [exact (map_nth_error _ _ _ He)|]. rewrite Pe. exists (repeat false n), (repeat false n). rewrite !repeat_length. auto.
Qed.
End Overlay.

Lemma tails_parts : forall U, length (flat_map parts U) = (length U + tails U)%nat.
Proof. induction U as [|p U IH]; [reflexivity|]. cbn [flat_map]. rewrite app_length, IH, tails_cons. unfold parts. cbn [length]. lia. Qed.

Lemma plain_within : forall ms, Forall (Forall (Forall (within (2 ^ 24)))) (marked ms) -> Forall (Forall (Forall (within (2 ^ 24)))) (plain ms).
Proof.
  intros ms H. unfold marked, plain in *. rewrite Forall_map in *. eapply Forall_impl; [|exact H]. intros z Hz. rewrite Forall_map in *. eapply Forall_impl; [|exact Hz].
  intros c Hc. rewrite Forall_map. rewrite Forall_forall in *. intros m Hm. apply Hc. apply in_flat_map. exists m. split; [exact Hm|now left].
Qed.

Lemma points_all : forall (polys : input) zs, Forall2 (fun p z => has_points (fst p) z) polys zs -> Forall (Forall (Forall (within (2 ^ 24)))) zs ->
  Forall2 (fun p z => has_corners (fst p) z) polys zs /\ forall p, In p polys -> forall c, In c (fst p) -> Forall exact (c_points c).
Proof.
  intros polys zs H. induction H as [|p z polys zs H F IH]; intros W; [split; [constructor|intros ? []]|]. inversion W as [|? ? W1 W2]; subst. destruct (IH W2) as [I1 I2]. destruct (points_corners _ _ H W1) as [P1 P2].
  split; [now constructor|]. intros q [<-|Hq]; [exact P2|now apply I2].
Qed.

Lemma overlay_cut : forall std ms polys polys' fuel fuel' op, std_laws std -> sorts std -> cut_well ms ->
  Forall2 (fun p z => has_points (fst p) z) polys (plain ms) -> Forall2 (fun p z => has_points (fst p) z) polys' (marked ms) -> map snd polys = map snd polys' ->
  (3 * length (edges (marked ms)) <= fuel)%nat -> (2 * length (edges (marked ms)) <= fuel')%nat -> compute std fuel polys op = compute std fuel' polys' op.
Proof.
  intros std ms polys polys' fuel fuel' op SL SO CW HP HP' HM HF HF'. pose proof (cut_tidy _ CW) as (T1 & T2). pose proof (plain_within _ T1) as T1'.
  destruct (points_all _ _ HP T1') as [HC HE]. destruct (points_all _ _ HP' T1) as [HC' HE'].
  destruct (tidy_swept polys' (marked ms) fuel' HC' (cut_tidy _ CW) HF') as (w0B & wB & act & B1 & B2 & B3 & MB & D & Polys & V). rewrite B3 in D, Polys, V.
  destruct (add_polygons_made (map snd polys) polys (plain ms) 0 HC T1' eq_refl [] (mk_sweep [] [] [] [] [])) as (w0A & A1 & MA).
  { constructor; cbn; try reflexivity; try (now constructor); intros i; intros; destruct i; discriminate. }
  cbn [app] in MA. fold (edges (plain ms)) in MA.
  assert (Len : length polys = length (map snd polys)) by (now rewrite map_length). assert (Len' : length polys' = length (map snd polys)) by (now rewrite HM, map_length).
  rewrite !compute_finish. rewrite <- HM. rewrite Len, Len'. rewrite Len' in B1, B2. rewrite <- HM in MB, V, Polys. rewrite A1, B1. cbn [obind].
  assert (XA : Forall exact_seg (w_segs w0A)) by (apply (exact_segs _ _ _ (mk_sweep [] [] [] [] []) _ HE (Forall_nil _) A1)).
  assert (XB : Forall exact_seg (w_segs w0B)) by (apply (exact_segs _ _ _ (mk_sweep [] [] [] [] []) _ HE' (Forall_nil _) B1)).
  set (S := w_segs w0B) in *. set (modes := map snd polys) in *. set (E := edges (marked ms)) in *.
  assert (ShA : Forall2 shown (edges (plain ms)) (w_segs w0A)).
  { pose proof (m_segs _ _ _ MA) as F. clear - F XA. induction F as [|e s l m [(Z1 & Z2 & _) O] F IH]; [constructor|]. inversion XA as [|? ? [X1 X2] X3]; subst. constructor; [|now apply IH].
    split; [now apply exact_at|]. split; [now apply exact_at|exact O]. }
  assert (Canon : forall s, In s S -> s_left s = int_point (e_left (eg E s)) /\ s_right s = int_point (e_right (eg E s))).
  { intros s Hs. destruct (seg_spec _ _ D s Hs) as ((Z1 & Z2 & _) & _). rewrite Forall_forall in XB. destruct (XB s Hs) as [X1 X2]. split; now apply exact_at. }
  assert (PB : Forall2 (fun e s => In s S /\ eg E s = e) E S).
  { assert (G : forall l, incl l S -> Forall2 (fun e s => In s S /\ eg E s = e) (map (eg E) l) l);
      [|pose proof (edges_eg ms S D) as QE; fold E in QE; pose proof (G S (incl_refl _)) as G'; rewrite <- QE in G'; exact G'].
    induction l as [|s l IH]; intros I; constructor; [split; [apply I; now left|reflexivity]|]. apply IH. intros x Hx. apply I. now right. }
  pose proof (marked_edges ms 0) as QM. fold (edges (marked ms)) (routes ms) in QM. fold E in QM. pose proof (plain_edges ms 0) as QP. fold (edges (plain ms)) (routes ms) in QP. rewrite QP in ShA.
  assert (PB' : Forall2 (fun e s => In s S /\ eg E s = e) (flat_map route_edges (routes ms)) S) by (rewrite <- QM; exact PB).
  destruct (build E S (routes ms) 0 S (w_segs w0A)) as (U & U1 & U2 & U3 & U4); [|exact PB'|exact ShA|].
  { intros r Hr. split; [now apply (cut_straight _ CW)|now apply (route_long ms 0)]. }
  pose proof (begin_core ms modes S U CW D U3 U4 w0A MA U1 U2) as C. pose proof (made_inv modes _ _ MB D) as V0. fold S in V0. rewrite (m_packets _ _ _ MB) in V0.
  assert (QB : w0B = mk_sweep S (map (fun e => packet_new (e_poly e) (mode_at modes (e_poly e)) (length modes)) E) (w_queue w0B) (map p_head []) (map p_head [])).
  { destruct w0B as [a b q d e]. cbn [w_segs] in S. unfold S. pose proof (m_packets _ _ _ MB) as P0. pose proof (m_active _ _ _ MB) as P1. pose proof (m_swept _ _ _ MB) as P2. cbn in P0, P1, P2 |- *. now subst. }
  pose proof B2 as B2'. rewrite QB in B2'.
  destruct (loop_sim (marked ms) S modes D Polys (map parts U) (sub_chain ms S U U3) (sub_fit ms S U CW D U3) Canon (sub_arrive ms S U CW D U3)
    fuel w0A _ U [] [] [] (w_queue w0B) fuel' wB C I) as (wA & W & L1 & L2 & L3 & L4 & L5); [intros x y []|exact V0| |exact B2'|].
  { pose proof (Permutation_length U2) as X. rewrite tails_parts in X. pose proof (dr_len _ _ D) as X'. fold E in X'. unfold todo. cbn [length]. unfold tails at 2. cbn [map list_sum fold_right]. lia. }
  rewrite L1, B2. cbn [obind].
  assert (InW : forall p, In p W -> fine E (map parts U) p) by (intros p Hp; apply (c_fine _ _ _ _ _ _ _ _ _ _ L2); exact Hp).
  assert (HdW : forall p, In p W -> In (p_head p) S) by (intros p Hp; apply (fine_head E S (map parts U) (sub_chain ms S U U3)); now apply InW).
  apply (finish_sim W modes (w_segs wA) S).
  - intros p Hp. destruct (InW p Hp) as [_ (Cv1 & Cv2 & Cv3)]. rewrite (c_done _ _ _ _ _ _ _ _ _ _ L2 p Hp) in Cv2. destruct (Canon _ (HdW p Hp)) as [K1 K2]. destruct (seg_spec _ _ D _ (HdW p Hp)) as (_ & O & _).
    split; [congruence|]. split; [unfold reach in Cv2; cbn [final] in Cv2; congruence|congruence].
  - intros p p' Hp Hp' Q. pose proof (c_index _ _ _ _ _ _ _ _ _ _ L2) as ND. cbn [app] in ND. clear - ND Hp Hp' Q. induction W as [|x W IH]; [destruct Hp|]. cbn [map] in ND. inversion ND as [|? ? N1 N2]; subst.
    destruct Hp as [<-|Hp], Hp' as [<-|Hp']; auto; exfalso; apply N1; [rewrite Q|rewrite <- Q]; now apply (in_map (fun p => s_index (p_seg p))).
  - intros p p' Hp Hp' Q. apply (index_eq _ _ D) in Q; auto. apply (core_head (marked ms) S modes D (map parts U) (sub_chain ms S U U3) _ _ _ _ _ _ L2); [exact Hp|exact Hp'|now rewrite Q].
  - intros p Hp. exact (c_at _ _ _ _ _ _ _ _ _ _ L2 p Hp).
  - intros p Hp. now apply (in_seg _ _ D), HdW.
  - intros p Hp. eexists _, _. now apply (seg_spec _ _ D), HdW.
  - exact SL.
  - exact SO.
  - reflexivity.
  - exact L3.
  - exact (c_swept _ _ _ _ _ _ _ _ _ _ L2).
  - exact L4.
  - intros p Hp. destruct (c_started _ _ _ _ _ _ _ _ _ _ L2 p Hp) as (a & b & K1 & K2 & K3 & _). exists a, b. auto.
  - intros segs ends Inc. rewrite L4 in Inc. destruct (include_sides _ _ _ _ _ _ D L5) as (segs' & I1 & _). rewrite I1 in Inc. injection Inc as _ <-. exact (ends_sorted _ _ _ _ _ _ D L5).
Qed.
