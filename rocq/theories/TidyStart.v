(** The segments that [add_polygons] makes of tidy polygons. *)

From Coq Require Import List ZArith QArith Bool Arith Lia Permutation.
From Verif Require Import Base Float SpecShape SpecOrder SpecIntersect SpecHandle SpecTidy SpecContainers Geometry Sweep
  Contours Compute FloatFacts ShapeFacts SweepFacts OrderFacts ContainerFacts HandleFacts TidyGeo TidyParity TidySetup TidyLine TidyPackets TidySweep.
Import ListNotations.

Lemma combine_nth_error : forall {A B} (l : list A) (m : list B) i a b,
  nth_error (combine l m) i = Some (a, b) <-> nth_error l i = Some a /\ nth_error m i = Some b.
Proof.
  intros A B. induction l as [|x l IH]; intros [|y m] [|i] a b; cbn; try (split; [discriminate|intros [H1 H2]; discriminate]).
  - split; [intros H; inversion H; auto|intros [H1 H2]; congruence].
  - apply IH.
Qed.

Lemma sides_nth : forall z i a b, nth_error (sides z) i = Some (a, b) ->
  nth_error z i = Some a /\ nth_error z (S i mod length z) = Some b.
Proof.
  intros [|x t] i a b H; [destruct i; discriminate|]. unfold sides in H. apply combine_nth_error in H. destruct H as [H1 H2].
  split; [exact H1|]. assert (Li : (i < length (x :: t))%nat) by (apply nth_error_Some; congruence).
  destruct (Nat.eq_dec (S i) (length (x :: t))) as [Q|Q].
  - rewrite Q, Nat.mod_same by discriminate. cbn [length] in Q. rewrite nth_error_app2 in H2 by lia.
    replace (i - length t)%nat with 0%nat in H2 by lia. exact H2.
  - rewrite Nat.mod_small by lia. cbn [length] in Li, Q. rewrite nth_error_app1 in H2 by lia. exact H2.
Qed.

Lemma sides_length : forall z, length (sides z) = length z.
Proof. intros [|x t]; [reflexivity|]. unfold sides. rewrite combine_length, app_length. cbn [length]. lia. Qed.

Definition side_z (s : point * point) (z : (Z * Z) * (Z * Z)) : Prop :=
  at_z (fst s) (fst z) /\ at_z (snd s) (snd z) /\ within (2 ^ 24) (fst z) /\ within (2 ^ 24) (snd z).

Lemma sides_z : forall c z, Forall2 at_z (c_points c) z -> Forall (within (2 ^ 24)) z -> Forall2 side_z (iter_segments c) (sides z).
Proof.
  intros c z H W. destruct (segments_cycle c) as [L C]. assert (LZ : length (c_points c) = length z) by (eapply Forall2_len; eassumption).
  apply nth_Forall2; [now rewrite L, sides_length|]. intros i [a b] [za zb] Ha Hz. apply C in Ha. apply sides_nth in Hz.
  destruct Ha as [A1 A2], Hz as [Z1 Z2]. rewrite LZ in A2. rewrite Forall_forall in W.
  assert (N : forall j p q, nth_error (c_points c) j = Some p -> nth_error z j = Some q -> at_z p q).
  { clear -H. induction H; intros [|j] p q Hp Hq; try discriminate; cbn in *; [congruence|eauto]. }
  split; [eapply N; eassumption|]. split; [eapply N; eassumption|]. split; apply W; eapply nth_error_In; eassumption.
Qed.

Section Start.
Variable modes : list polygon_mode.
Notation n := (length modes).

(** The sweep before its first event, when the edges [E] have been added. *)
Record made (E : list edge) (w : sweep) : Prop := mk_made {
  m_segs : Forall2 (fun e s => seg_z s (e_left e) (e_right e) /\ s_order s = e_poly e) E (w_segs w);
  m_index : forall k s, nth_error (w_segs w) k = Some s -> s_index s = k;
  m_packets : w_packets w = map (fun e => packet_new (e_poly e) (mode_at modes (e_poly e)) n) E;
  m_queue : Permutation (w_queue w) (flat_map (fun s => [(s, LeftEnd); (s, RightEnd)]) (w_segs w));
  m_heap : heap cmp_of (w_queue w);
  m_active : w_active w = [];
  m_swept : w_swept w = [] }.

Lemma Forall2_in_r : forall {A B} (P : A -> B -> Prop) l m b, Forall2 P l m -> In b m -> exists a, In a l /\ P a b.
Proof.
  intros A B P l m b F. induction F as [|x y l m H F IH]; intros Hb; [destruct Hb|]. destruct Hb as [<-|Hb]; [exists x; split; [now left|exact H]|].
  destruct (IH Hb) as (a & Ha & Hp). exists a. split; [now right|exact Hp].
Qed.

Lemma made_events : forall E w, made E w -> Forall int_event (w_queue w).
Proof.
  intros E w M. apply Forall_forall. intros e He. apply (Permutation_in _ (m_queue _ _ M)) in He. apply in_flat_map in He.
  destruct He as (s & Hs & He). assert (Q : fst e = s) by (destruct He as [<-|[<-|[]]]; reflexivity). red. rewrite Q.
  destruct (Forall2_in_r _ _ _ _ (m_segs _ _ M) Hs) as (x & _ & H & _). eexists _, _. exact H.
Qed.

Lemma new_z : forall p q zp zq idx i, at_z p zp -> at_z q zq -> within (2 ^ 24) zp -> within (2 ^ 24) zq -> lex_z zp zq <> Eq ->
  exists s, sseg_new p q idx i tt = Ok s /\ s_index s = idx /\ s_order s = i
    /\ match lex_z zp zq with Lt => seg_z s zp zq | _ => seg_z s zq zp end.
Proof.
  intros p q zp zq idx i Hp Hq Wp Wq N. destruct (point_cmp_int _ _ _ _ Hp Hq Wp Wq) as (Ex & Ey & Eq).
  unfold sseg_new. rewrite Eq.
  assert (I : forall (r : point) (z : Z * Z), at_z r z -> within (2 ^ 24) z -> is_int (px r) (fst z) /\ is_int (py r) (snd z)).
  { intros r [x y] Hr [W1 W2]. cbn [fst snd] in W1, W2. destruct (at_z_int _ _ Hr) as [I1 I2]; cbn [fst snd] in *; [pow_lia; lia..|]. auto. }
  destruct (I p zp Hp Wp) as [P1 P2], (I q zq Hq Wq) as [Q1 Q2].
  rewrite (lt_int _ _ _ _ P1 Q1), (eq_int _ _ _ _ P1 Q1), (lt_int _ _ _ _ P2 Q2).
  destruct (lex_z zp zq) eqn:L; [congruence| |].
  - apply lex_lt in L. replace ((fst zp <? fst zq)%Z || (fst zp =? fst zq)%Z && (snd zp <? snd zq)%Z) with true by (clear -L; lia).
    eexists. split; [reflexivity|]. cbn. split; [reflexivity|]. split; [reflexivity|].
    split; [exact Hp|]. split; [exact Hq|]. split; [now apply lex_lt|]. now split.
  - apply lex_gt in L. pose proof L as L'. apply lex_lt in L'.
    replace ((fst zp <? fst zq)%Z || (fst zp =? fst zq)%Z && (snd zp <? snd zq)%Z) with false by (clear -L'; lia).
    eexists. split; [reflexivity|]. cbn. split; [reflexivity|]. split; [reflexivity|].
    split; [exact Hq|]. split; [exact Hp|]. split; [exact L|]. now split.
Qed.

Lemma push_made : forall E w i s l r, made E w -> seg_z s l r -> s_order s = i -> s_index s = length (w_segs w) ->
  exists q1 q2, heap_push endpoint_cmp (w_queue w) (s, LeftEnd) = Ok q1 /\ heap_push endpoint_cmp q1 (s, RightEnd) = Ok q2
    /\ made (E ++ [mk_edge i l r]) (mk_sweep (w_segs w ++ [s]) (w_packets w ++ [packet_new i (mode_at modes i) n]) q2 (w_active w) (w_swept w)).
Proof.
  intros E w i s l r M Hs Ho Hi. destruct (endpoint_lawful unit) as (H1 & H2 & H3). pose proof (made_events E w M) as HE.
  assert (PL : int_event (s, LeftEnd)) by (eexists _, _; exact Hs). assert (PR : int_event (s, RightEnd)) by (eexists _, _; exact Hs).
  destruct (push_spec _ _ _ H1 H2 H3 (w_queue w) (s, LeftEnd) HE PL (m_heap _ _ M)) as (q1 & E1 & HH1 & P1).
  assert (HE1 : Forall int_event q1).
  { apply Forall_forall. intros x Hx. apply (Permutation_in _ P1) in Hx. rewrite Forall_forall in HE. destruct Hx as [<-|Hx]; auto. }
  destruct (push_spec _ _ _ H1 H2 H3 q1 (s, RightEnd) HE1 PR HH1) as (q2 & E2 & HH2 & P2).
  exists q1, q2. split; [exact E1|]. split; [exact E2|]. constructor; cbn [w_segs w_packets w_queue w_active w_swept].
  - apply Forall2_app; [apply (m_segs _ _ M)|]. constructor; [|constructor]. split; [exact Hs|exact Ho].
  - intros k t Hk. destruct (Nat.lt_ge_cases k (length (w_segs w))) as [Lk|Lk].
    + rewrite nth_error_app1 in Hk by exact Lk. now apply (m_index _ _ M).
    + rewrite nth_error_app2 in Hk by exact Lk. destruct (k - length (w_segs w))%nat as [|j] eqn:J; [|destruct j; discriminate].
      cbn in Hk. inversion Hk; subst t. lia.
  - rewrite (m_packets _ _ M), map_app. reflexivity.
  - rewrite flat_map_app. cbn [flat_map app]. rewrite P2, P1.
    etransitivity; [apply perm_skip, perm_skip, (m_queue _ _ M)|]. etransitivity; [apply perm_swap|].
    change ((s, LeftEnd) :: (s, RightEnd) :: flat_map (fun s0 : bseg => [(s0, LeftEnd); (s0, RightEnd)]) (w_segs w))
      with ([(s, LeftEnd); (s, RightEnd)] ++ flat_map (fun s0 : bseg => [(s0, LeftEnd); (s0, RightEnd)]) (w_segs w)).
    apply Permutation_app_comm.
  - exact HH2.
  - apply (m_active _ _ M).
  - apply (m_swept _ _ M).
Qed.

Lemma add_edge_made : forall E w i s z, made E w -> side_z s z ->
  exists w', add_edge n i (mode_at modes i) w s = Ok w' /\ made (E ++ left_to_right i z) w'.
Proof.
  intros E w i [p q] [zp zq] M (Hp & Hq & Wp & Wq). cbn [fst snd] in *. unfold add_edge.
  destruct (point_cmp_int _ _ _ _ Hp Hq Wp Wq) as (_ & _ & ->). unfold left_to_right. cbn [fst snd].
  destruct (lex_z zp zq) eqn:L.
  - exists w. split; [reflexivity|]. now rewrite app_nil_r.
  - destruct (new_z p q zp zq (length (w_segs w)) i Hp Hq Wp Wq) as (s & -> & S1 & S2 & S3); [congruence|]. rewrite L in S3.
    destruct (push_made E w i s _ _ M S3 S2 S1) as (q1 & q2 & E1 & E2 & M'). cbn [obind].
    replace (heap_push endpoint_cmp (w_queue w) (s, LeftEnd)) with (Ok q1) by (symmetry; exact E1). cbn [obind].
    replace (heap_push endpoint_cmp q1 (s, RightEnd)) with (Ok q2) by (symmetry; exact E2). cbn [obind]. eexists. split; [reflexivity|exact M'].
  - destruct (new_z p q zp zq (length (w_segs w)) i Hp Hq Wp Wq) as (s & -> & S1 & S2 & S3); [congruence|]. rewrite L in S3.
    destruct (push_made E w i s _ _ M S3 S2 S1) as (q1 & q2 & E1 & E2 & M'). cbn [obind].
    replace (heap_push endpoint_cmp (w_queue w) (s, LeftEnd)) with (Ok q1) by (symmetry; exact E1). cbn [obind].
    replace (heap_push endpoint_cmp q1 (s, RightEnd)) with (Ok q2) by (symmetry; exact E2). cbn [obind]. eexists. split; [reflexivity|exact M'].
Qed.

Lemma add_contour_made : forall i sl zl, Forall2 side_z sl zl -> forall E w, made E w ->
  exists w', ofold (add_edge n i (mode_at modes i)) sl w = Ok w' /\ made (E ++ flat_map (left_to_right i) zl) w'.
Proof.
  intros i sl zl F. induction F as [|s z sl zl H F IH]; intros E w M.
  - exists w. split; [reflexivity|]. cbn. now rewrite app_nil_r.
  - destruct (add_edge_made E w i s z M H) as (w1 & E1 & M1). cbn [ofold]. rewrite E1. cbn [obind].
    destruct (IH _ _ M1) as (w2 & E2 & M2). exists w2. split; [exact E2|]. cbn [flat_map]. now rewrite app_assoc.
Qed.

Lemma add_polygon_made : forall i p z, has_corners p z -> Forall (Forall (within (2 ^ 24))) z -> forall E w, made E w ->
  exists w', ofold (fun w c => ofold (add_edge n i (mode_at modes i)) (iter_segments c) w) p w = Ok w' /\ made (E ++ polygon_edges i z) w'.
Proof.
  intros i p z F. induction F as [|c cz p z H F IH]; intros W E w M.
  - exists w. split; [reflexivity|]. cbn. now rewrite app_nil_r.
  - inversion W as [|? ? W1 W2]; subst. destruct (add_contour_made i _ _ (sides_z c cz H W1) E w M) as (w1 & E1 & M1).
    cbn [ofold]. rewrite E1. cbn [obind]. destruct (IH W2 _ _ M1) as (w2 & E2 & M2). exists w2. split; [exact E2|].
    unfold polygon_edges in *. cbn [flat_map]. rewrite flat_map_app. now rewrite app_assoc.
Qed.

Lemma add_polygons_made : forall polys zs i, Forall2 (fun p z => has_corners (fst p) z) polys zs ->
  Forall (Forall (Forall (within (2 ^ 24)))) zs -> skipn i modes = map snd polys -> forall E w, made E w ->
  exists w', add_polygons n i polys w = Ok w' /\ made (E ++ edges_from i zs) w'.
Proof.
  intros polys zs i F. revert i. induction F as [|[p m] z polys zs H F IH]; intros i W SK E w M.
  - exists w. split; [reflexivity|]. cbn. now rewrite app_nil_r.
  - inversion W as [|? ? W1 W2]; subst. cbn [fst] in H. cbn [map snd] in SK.
    assert (Q : mode_at modes i = m).
    { unfold mode_at. rewrite <- (firstn_skipn i modes), SK.
      assert (Li : (i < n)%nat).
      { apply Nat.nle_gt. intros C. rewrite skipn_all2 in SK by exact C. discriminate. }
      rewrite app_nth2; rewrite firstn_length_le by lia; [|lia]. now rewrite Nat.sub_diag. }
    assert (SK' : skipn (S i) modes = map snd polys).
    { clear -SK. revert i SK. induction modes as [|x l IHl]; intros [|i] SK; try discriminate; [cbn in *; congruence|].
      change (skipn (S i) l = map snd polys). apply IHl. exact SK. }
    destruct (add_polygon_made i p z H W1 E w M) as (w1 & E1 & M1). rewrite Q in E1. cbn [add_polygons]. rewrite E1. cbn [obind].
    destruct (IH (S i) W2 SK' _ _ M1) as (w2 & E2 & M2). exists w2. split; [exact E2|]. cbn [edges_from]. now rewrite app_assoc.
Qed.

Lemma edges_poly : forall zs i e, In e (edges_from i zs) -> (i <= e_poly e < i + length zs)%nat.
Proof.
  induction zs as [|z zs IH]; intros i e H; [destruct H|]. cbn [edges_from] in H. apply in_app_or in H. destruct H as [H|H].
  - apply polygon_edges_poly in H. cbn. lia.
  - apply IH in H. cbn. lia.
Qed.

Lemma pairs_nth : forall {A} (P : A -> A -> Prop) l, (forall a b, In a l -> In b l -> P a b -> P b a) -> ForallOrdPairs P l ->
  forall i j a b, nth_error l i = Some a -> nth_error l j = Some b -> i <> j -> P a b.
Proof.
  intros A P l Sy F. induction F as [|x l H F IH]; [intros [|i] j a b Ha; discriminate|]. specialize (IH (fun a b Ha Hb => Sy a b (or_intror Ha) (or_intror Hb))). intros [|i] [|j] a b Ha Hb N; try discriminate; try congruence.
  - cbn in *. inversion Ha; subst. rewrite Forall_forall in H. apply H. eapply nth_error_In; eassumption.
  - cbn in *. inversion Hb; subst. rewrite Forall_forall in H. apply nth_error_In in Ha. apply Sy; auto.
  - cbn in *. eapply IH; try eassumption. lia.
Qed.

Lemma made_drawn : forall zs w, made (edges zs) w -> ForallOrdPairs (fun e f => coincide e f \/ apart e f) (edges zs) ->
  drawn (edges zs) (w_segs w).
Proof.
  intros zs w M F. constructor.
  - symmetry. eapply Forall2_len. apply (m_segs _ _ M).
  - apply (m_index _ _ M).
  - intros k s e Hs He. exact (Forall2_nth _ _ _ _ _ _ (m_segs _ _ M) He Hs).
  - intros k k' e e' H1 H2 N. refine (pairs_nth _ _ _ F k k' e e' H1 H2 N).
    intros a b Ha Hb [C|A]; [left; now apply coincide_sym|right; apply apart_sym; auto; now apply (edges_lr zs 0)].
Qed.

Lemma made_inv : forall zs w, made (edges zs) w -> drawn (edges zs) (w_segs w) ->
  inv zs (w_segs w) modes (w_queue w) (w_packets w) [] [].
Proof.
  intros zs w M D. pose proof (m_queue _ _ M) as PQ.
  assert (IQ : forall s x, In (s, x) (w_queue w) <-> In s (w_segs w)).
  { intros s x. split.
    - intros H. apply (Permutation_in _ PQ) in H. apply in_flat_map in H. destruct H as (t & Ht & H).
      destruct H as [H|[H|[]]]; inversion H; now subst.
    - intros H. apply (Permutation_in _ (Permutation_sym PQ)), in_flat_map. exists s. split; [exact H|]. destruct x; cbn; auto. }
  constructor.
  - rewrite (m_packets _ _ M), map_length. symmetry. apply (dr_len _ _ D).
  - apply (m_heap _ _ M).
  - apply (Permutation_NoDup (Permutation_sym PQ)).
    assert (ND : NoDup (w_segs w)).
    { apply NoDup_nth_error. intros i j Hi Q. destruct (nth_error (w_segs w) i) as [s|] eqn:Ei; [|apply nth_error_None in Ei; lia].
      symmetry in Q. rewrite <- (m_index _ _ M i s Ei). now apply (m_index _ _ M). }
    clear -ND. induction ND as [|s l NI ND IH]; cbn; [constructor|].
    assert (NN : forall x, ~ In (s, x) (flat_map (fun s0 : bseg => [(s0, LeftEnd); (s0, RightEnd)]) l)).
    { intros x H. apply in_flat_map in H. destruct H as (t & Ht & [H|[H|[]]]); inversion H; subst; contradiction. }
    constructor; [|constructor; auto]. intros [H|H]; [discriminate|now apply NN in H].
  - intros [s x] H. now apply IQ in H.
  - intros [s x] e Hs N. exfalso. apply N. now apply IQ.
  - intros s. split; [intros []|]. intros (H & N & _). apply N. now apply IQ.
  - exact I.
  - intros s. split; [intros []|]. intros (H & N). apply N. now apply IQ.
  - constructor.
  - intros s Hs _. rewrite (m_packets _ _ M). destruct (in_seg _ _ D s Hs) as [_ He]. now rewrite (map_nth_error _ _ _ He).
  - intros s Hs N. exfalso. apply N. now apply IQ.
Qed.
End Start.
