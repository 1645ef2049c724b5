(** The sweep loses no piece of an edge. *)

From Coq Require Import List ZArith Bool Arith Lia Sorting.Permutation.
From Verif Require Import Base BaseFacts Float Geometry Sweep Contours Compute SpecShape SpecCompute ShapeFacts
  ContainerFacts SweepFacts.
From Verif Require Import SpecSplit SplitFacts.
Import ListNotations.

Lemma nodup_tail : forall {A} (a b : list A), NoDup (a ++ b) -> NoDup b.
Proof. induction a as [|x a IH]; intros b H; auto. inversion H; subst. auto. Qed.

(** ** Chains *)

Lemma joins_sym : forall {T} (s : sseg T) p q, joins s p q -> joins s q p.
Proof. intros T s p q [H|H]; [right|left]; exact H. Qed.

Lemma chain_split : forall i u p q s v l r pt, chain i p q (u ++ s :: v) -> joins l (s_left s) pt -> joins r pt (s_right s) ->
  point_eqb (s_left s) pt = false -> point_eqb pt (s_right s) = false -> s_order l = s_order s -> s_order r = s_order s ->
  exists m, Permutation m [l; r] /\ chain i p q (u ++ m ++ v).
Proof.
  induction u as [|a u IH]; intros p q s v l r pt H J1 J2 N1 N2 O1 O2.
  - cbn [app] in H. inversion H as [? ? ? J O N|? q0 ? ? ? J O N C]; subst.
    + destruct J as [[<- <-]|[<- <-]].
      * exists [l; r]. split; [reflexivity|]. cbn. apply ch_more with pt; auto. apply ch_one; auto.
      * exists [r; l]. split; [apply perm_swap|]. cbn. apply ch_more with pt; auto using joins_sym; [now rewrite point_eqb_sym|].
        apply ch_one; auto using joins_sym. now rewrite point_eqb_sym.
    + destruct J as [[<- <-]|[<- <-]].
      * exists [l; r]. split; [reflexivity|]. cbn. apply ch_more with pt; auto. apply ch_more with (s_right s); auto.
      * exists [r; l]. split; [apply perm_swap|]. cbn. apply ch_more with pt; auto using joins_sym; [now rewrite point_eqb_sym|].
        apply ch_more with (s_left s); auto using joins_sym. now rewrite point_eqb_sym.
  - cbn [app] in H. inversion H as [? ? ? J O N EN|? q0 ? ? ? J O N C]; subst; [destruct u; discriminate|].
    destruct (IH _ _ _ _ _ _ _ C J1 J2 N1 N2 O1 O2) as (m & P & C'). exists m. split; auto.
    cbn. apply ch_more with q0; auto.
Qed.

Lemma cut_split : forall E chains s R l r pt, Forall2 cut_up E chains -> Permutation (concat chains) (s :: R) ->
  joins l (s_left s) pt -> joins r pt (s_right s) ->
  point_eqb (s_left s) pt = false -> point_eqb pt (s_right s) = false -> s_order l = s_order s -> s_order r = s_order s ->
  exists chains', Forall2 cut_up E chains' /\ Permutation (concat chains') (l :: r :: R).
Proof.
  intros E chains s R l r pt F P J1 J2 N1 N2 O1 O2.
  assert (I : In s (concat chains)) by (rewrite P; cbn; auto).
  apply in_concat in I. destruct I as (ch & I1 & I2). apply in_split in I1. destruct I1 as (X & Y & ->).
  apply in_split in I2. destruct I2 as (u & v & ->).
  apply Forall2_app_inv_r in F. destruct F as (EX & EY & FX & FY & ->). inversion FY as [|e ? ey ? C FY']; subst.
  destruct e as [[i p] q]. cbn [cut_up] in C.
  destruct (chain_split _ _ _ _ _ _ _ _ _ C J1 J2 N1 N2 O1 O2) as (m & Pm & C').
  exists (X ++ (u ++ m ++ v) :: Y). split.
  - apply Forall2_app; [exact FX|]. constructor; [exact C'|exact FY'].
  - rewrite concat_app in *. cbn [concat] in *. rewrite Pm.
    assert (P' : Permutation (concat X ++ u ++ v ++ concat Y) R).
    { apply Permutation_cons_inv with s. rewrite <- P. rewrite <- !app_assoc. cbn [app].
      rewrite !(app_assoc (concat X)). apply Permutation_middle. }
    rewrite <- P'. rewrite <- !app_assoc. cbn [app].
    change (l :: r :: concat X ++ u ++ v ++ concat Y) with ([l; r] ++ concat X ++ u ++ v ++ concat Y).
    rewrite !(app_assoc (concat X)), (app_assoc [l; r]). rewrite (Permutation_app_comm [l; r]).
    rewrite <- !app_assoc. reflexivity.
Qed.

(** ** The invariant *)

Definition lefts (q : list bend) : list bseg := map fst (filter (fun e => seg_end_eqb (snd e) LeftEnd) q).
Definition pieces (w : sweep) : list bseg := w_swept w ++ w_active w ++ lefts (w_queue w).
Definition orders (w : sweep) : Prop := map s_order (w_segs w) = map k_polygon (w_packets w).
Definition kept (E : list (nat * point * point)) (w : sweep) : Prop :=
  orders w
  /\ (forall e, In e (w_queue w) -> filed (w_segs w) (fst e))
  /\ Forall (filed (w_segs w)) (w_active w) /\ Forall (filed (w_segs w)) (w_swept w)
  /\ NoDup (pieces w)
  /\ exists chains, Forall2 cut_up E chains /\ Permutation (concat chains) (pieces w).

Lemma lefts_perm : forall a b, Permutation a b -> Permutation (lefts a) (lefts b).
Proof.
  intros a b P. unfold lefts. apply Permutation_map. induction P; cbn; auto.
  - destruct (seg_end_eqb _ _); auto.
  - destruct (seg_end_eqb (snd x) _), (seg_end_eqb (snd y) _); auto. apply perm_swap.
  - etransitivity; eauto.
Qed.
Lemma filed_app : forall segs l s, filed segs s -> filed (segs ++ l) s.
Proof. intros segs l s H. unfold filed in *. rewrite nth_error_app1; auto. apply nth_error_Some. congruence. Qed.
Lemma filed_lt : forall segs s, filed segs s -> (s_index s < length segs)%nat.
Proof. intros segs s H. apply nth_error_Some. unfold filed in H. congruence. Qed.
Lemma filed_eq : forall segs a b, filed segs a -> filed segs b -> s_index a = s_index b -> a = b.
Proof. unfold filed. intros segs a b A B E. rewrite E in A. congruence. Qed.

Lemma pieces_filed : forall E w s, kept E w -> In s (pieces w) -> filed (w_segs w) s.
Proof.
  intros E w s (_ & K2 & K3 & K4 & _) H. rewrite Forall_forall in *. unfold pieces in H. rewrite !in_app_iff in H.
  destruct H as [H|[H|H]]; auto. unfold lefts in H. apply in_map_iff in H. destruct H as (e & <- & H).
  apply filter_In in H. apply K2, H.
Qed.

(** The same pieces, otherwise placed. *)
Lemma kept_move : forall E w w', kept E w -> w_segs w' = w_segs w -> orders w' ->
  (forall e, In e (w_queue w') -> filed (w_segs w) (fst e)) -> Permutation (pieces w) (pieces w') -> kept E w'.
Proof.
  intros E w w' K ES O Q P.
  assert (F : forall s, In s (pieces w') -> filed (w_segs w') s).
  { intros s H. rewrite ES. eapply pieces_filed; eauto. rewrite P. exact H. }
  destruct K as (K1 & K2 & K3 & K4 & K5 & chains & K6 & K7).
  split; [exact O|]. split; [rewrite ES; exact Q|].
  split; [apply Forall_forall; intros s H; apply F; unfold pieces; rewrite !in_app_iff; auto|].
  split; [apply Forall_forall; intros s H; apply F; unfold pieces; rewrite !in_app_iff; auto|].
  split; [eapply Permutation_NoDup; eauto|]. exists chains. split; auto. now rewrite <- P.
Qed.
Lemma kept_packets : forall E w ks, kept E w -> map k_polygon ks = map k_polygon (w_packets w) -> kept E (with_packets w ks).
Proof.
  intros E w ks K H. apply (kept_move E w); auto; [|apply K].
  unfold orders. cbn. rewrite H. apply K.
Qed.

Lemma map_put : forall ks s k k', get_packet ks s = Ok k -> k_polygon k' = k_polygon k ->
  map k_polygon (put_packet ks s k') = map k_polygon ks.
Proof.
  intros ks s k k' G H. unfold get_packet in G. apply index_nat_nth in G. unfold put_packet. generalize dependent (s_index s).
  induction ks as [|a ks IH]; intros [|i] G; cbn in G; try discriminate.
  - inv G. cbn. now rewrite H.
  - change (set_nth (S i) k' (a :: ks)) with (a :: set_nth i k' ks). cbn [map]. f_equal. now apply IH.
Qed.
Lemma update_polygons : forall ks s b ks', update_polygon_facing ks s b = Ok ks' -> map k_polygon ks' = map k_polygon ks.
Proof.
  intros ks s b ks' H. unfold update_polygon_facing in H. bind H k Ek. bind H k' Ek'. inv H.
  apply map_put with k; auto. cbn. destruct b as [b|].
  - destruct (_ =? _)%nat; [discriminate|]. bind Ek' bk Eb. bind Ek' uo Eu. destruct uo as [up outside].
    bind Ek' l El. bind Ek' r Er. bind Ek' l' El'. inv Ek'. reflexivity.
  - bind Ek' l El. inv Ek'. reflexivity.
Qed.
Lemma handle_polygons : forall ks a b m c1 c2 ks', handle_intersections ks a b = Ok (m, c1, c2, ks') ->
  map k_polygon ks' = map k_polygon ks.
Proof.
  intros ks a b m c1 c2 ks' H. unfold handle_intersections in H.
  destruct a as [s1|]; [|now inv H]. destruct b as [s2|]; [|now inv H].
  destruct (intersect_segments _ _) as [|p|u v]; [now inv H|destruct (_ || _); now inv H|].
  bind H k1 Ek1. bind H k2 Ek2. destruct (_ =? _)%nat; [discriminate|]. bind H lc Elc. bind H rc Erc.
  destruct (point_eqb _ _).
  - bind H k2b Ek2b.
    assert (M1 : map k_polygon (put_packet ks s1 (with_edge k1 ENonContributing)) = map k_polygon ks) by (eapply map_put; eauto).
    assert (M : map k_polygon (if is_non_contributing (k_edge k2b) then put_packet ks s1 (with_edge k1 ENonContributing)
       else put_packet (put_packet ks s1 (with_edge k1 ENonContributing)) s2
         (with_edge k2b (if Bool.eqb (k_up_out k1) (k_up_out k2) then ESameTransition else EDifferentTransition)))
       = map k_polygon ks).
    { destruct (is_non_contributing _); auto. rewrite <- M1. eapply map_put; eauto. }
    destruct rc; inv H; exact M.
  - destruct lc; inv H; reflexivity.
Qed.

Lemma kept_split : forall E n w s pt l w', kept E w -> filed (w_segs w) s -> split_segment n w s pt = Ok (l, w') ->
  kept E w' /\ (exists t, w_segs w' = w_segs w ++ t) /\ filed (w_segs w') l.
Proof.
  intros E n w s pt l w' K Fs H. pose proof K as (K1 & K2 & K3 & K4 & K5 & chains & K6 & K7).
  assert (LL : length (w_packets w) = length (w_segs w)).
  { rewrite <- (map_length k_polygon), <- K1. apply map_length. }
  destruct (split_effect _ _ _ _ _ _ H LL) as (k & r & ps & kl & kr & Hk & N1 & N2 & J1 & J2 & O1 & O2 & HS & HF & HP & HR & HN & HQ & (A & B & C & D & A1 & A2 & A3) & HW).
  { constructor; auto. }
  assert (OK : k_polygon k = s_order s).
  { assert (E1 : nth_error (map s_order (w_segs w)) (s_index s) = Some (s_order s)) by (rewrite nth_error_map, Fs; reflexivity).
    rewrite K1, nth_error_map, Hk in E1. cbn in E1. congruence. }
  pose (R := w_swept w ++ (A ++ B) ++ lefts (w_queue w)).
  assert (P1 : Permutation (pieces w) (s :: R)).
  { unfold pieces, R. rewrite A1, <- !app_assoc. cbn [app]. rewrite !(app_assoc (w_swept w)). symmetry. apply Permutation_middle. }
  assert (P2 : Permutation (pieces w') (l :: r :: R)).
  { unfold pieces, R. rewrite HW, (lefts_perm _ _ HQ), A3, A2.
    change (lefts ((l, RightEnd) :: (r, LeftEnd) :: (r, RightEnd) :: w_queue w)) with ([r] ++ lefts (w_queue w)).
    rewrite <- !app_assoc. cbn [app]. rewrite !(app_assoc (w_swept w)), <- Permutation_middle. constructor.
    rewrite !(app_assoc (_ ++ C)), <- Permutation_middle, <- !app_assoc. reflexivity. }
  assert (FR : forall t, In t R -> filed (w_segs w) t).
  { intros t Ht. eapply pieces_filed; eauto. rewrite P1. now right. }
  inversion HF as [|? ? FL FR']; subst. inversion FR' as [|? ? FRR _]; subst.
  assert (LX : s_index l = length (w_segs w) /\ s_index r = S (length (w_segs w))).
  { clear -H HS. unfold split_segment in H.
    bind H k Ek. bind H ls Els. bind H rs Ers. bind H bl Ebl. bind H br Ebr. bind H fa Efa. destruct fa as [[] active]; cbn [negb] in H; [|discriminate].
    bind H act2 Eact. bind H q1 Eq1. bind H q2 Eq2. bind H q3 Eq3. inv H.
    apply sseg_new_ends in Els. apply sseg_new_ends in Ers. cbn in HS. apply app_inv_head in HS. inv HS. tauto. }
  destruct LX as [LX RX].
  assert (SUB : forall t, filed (w_segs w) t -> filed (w_segs w') t) by (intros t; rewrite HS; apply filed_app).
  split; [|split; [eexists; exact HS|exact FL]].
  assert (F' : forall t, In t (pieces w') -> filed (w_segs w') t).
  { intros t Ht. rewrite P2 in Ht. destruct Ht as [<-|[<-|Ht]]; auto. }
  split; [|split; [|split; [|split; [|split]]]].
  - unfold orders. rewrite HS, HP, !map_app. cbn [map]. rewrite O1, O2.
    apply Forall2_app_inv_l in HR. destruct HR as (u & v & U1 & U2 & U3).
    inversion U2 as [|? kx ? ? UX UN]; subst. inversion UN; subst. apply app_inj_tail in U3. destruct U3 as [-> ->].
    f_equal.
    + transitivity (map k_polygon (w_packets w)); [exact K1|]. clear -U1. induction U1 as [|? ? ? ? H0]; cbn; auto. f_equal; auto. symmetry. apply H0.
    + f_equal; [symmetry; apply UX|]. f_equal. symmetry. apply HN.
  - intros e He. rewrite HQ in He. destruct He as [<-|[<-|[<-|He]]]; cbn [fst]; auto.
  - apply Forall_forall. intros t Ht. apply F'. unfold pieces. rewrite !in_app_iff. auto.
  - apply Forall_forall. intros t Ht. apply F'. unfold pieces. rewrite !in_app_iff. auto.
  - rewrite P2. assert (ND : NoDup R) by (rewrite P1 in K5; now inversion K5).
    constructor; [|constructor; auto].
    + intros [<-|Ht]; [lia|]. apply FR, filed_lt in Ht. lia.
    + intros Ht. apply FR, filed_lt in Ht. lia.
  - rewrite P1 in K7.
    destruct (cut_split E chains s R l r pt K6 K7 J1 J2 N1 N2) as (ch & C1 & C2); [congruence..|].
    exists ch. split; auto. now rewrite P2.
Qed.

Definition ofiled (segs : list bseg) (o : option bseg) : Prop := forall s, o = Some s -> filed segs s.

Lemma kept_maybe_split : forall E n w s c l w', kept E w -> filed (w_segs w) s -> maybe_split n w s c = Ok (l, w') ->
  kept E w' /\ (exists t, w_segs w' = w_segs w ++ t) /\ filed (w_segs w') l.
Proof.
  intros E n w s [pt|] l w' K F H; cbn [maybe_split] in H; [eapply kept_split; eauto|]. inv H.
  split; auto. split; auto. exists []. now rewrite app_nil_r.
Qed.
Lemma kept_maybe_split_opt : forall E n w s c l w', kept E w -> ofiled (w_segs w) s -> maybe_split_opt n w s c = Ok (l, w') ->
  kept E w' /\ (exists t, w_segs w' = w_segs w ++ t) /\ ofiled (w_segs w') l.
Proof.
  intros E n w s [pt|] l w' K F H; cbn [maybe_split_opt] in H.
  - destruct s as [s|]; [|discriminate]. bind H r Er. destruct r as [l0 w0]. inv H.
    destruct (kept_split _ _ _ _ _ _ _ K (F s eq_refl) Er) as (A & B & D). split; auto. split; auto. intros t Ht. now inv Ht.
  - inv H. split; auto. split; auto. exists []. now rewrite app_nil_r.
Qed.
Lemma ofiled_ext : forall segs t o segs', ofiled segs o -> segs' = segs ++ t -> ofiled segs' o.
Proof. intros segs t o segs' F -> s H. apply filed_app. auto. Qed.

Lemma kept_right : forall E n w s w', kept E w -> filed (w_segs w) s -> sweep_right n w s = Ok w' -> kept E w'.
Proof.
  intros E n w s w' K Fs H. unfold sweep_right in H. bind H r Er. destruct r as [[[found mb] ma] active].
  pose proof (sl_remove_neighbors_cases _ _ _ _ _ _ _ Er) as C.
  apply sl_remove_neighbors_in in Er. destruct Er as (_ & IB & IA).
  cbn [w_segs w_packets w_queue w_active w_swept] in H.
  pose proof K as (K1 & K2 & K3 & K4 & _). rewrite Forall_forall in K3.
  destruct found.
  - destruct C as (A & t & B & A1 & -> & Et). apply segment_cmp_eq in Et.
    assert (t = s) by (apply (filed_eq (w_segs w)); auto; apply K3; rewrite A1; apply in_elt). subst t.
    assert (K' : kept E (mk_sweep (w_segs w) (w_packets w) (w_queue w) (A ++ B) (w_swept w ++ [s]))).
    { apply (kept_move E w); auto. unfold pieces. cbn. rewrite A1, <- !app_assoc. cbn [app].
      apply Permutation_app_head. symmetry. apply Permutation_middle. }
    destruct ma as [above|]; [destruct mb as [below|]|]; [|now inv H..].
    bind H h Eh. destruct h as [[[m c1] c2] ks]. bind H a1 E1. destruct a1 as [l1 w1]. bind H a2 E2. destruct a2 as [l2 w2]. inv H.
    apply handle_polygons in Eh. cbn [w_packets] in Eh.
    apply (kept_packets _ _ ks) in K'; auto.
    apply (kept_maybe_split E) in E1; [|exact K'|apply K3, IB; reflexivity]. destruct E1 as (K1' & (t & X1) & _).
    apply (kept_maybe_split E) in E2; [tauto|exact K1'|]. rewrite X1. apply filed_app. apply K3, IA. reflexivity.
  - subst active. inv H. apply (kept_move E w); auto.
Qed.

Lemma kept_left : forall E n w s w', filed (w_segs w) s ->
  kept E (mk_sweep (w_segs w) (w_packets w) ((s, LeftEnd) :: w_queue w) (w_active w) (w_swept w)) ->
  sweep_left n w s = Ok w' -> kept E w'.
Proof.
  intros E n w s w' Fs K H. unfold sweep_left in H. bind H r Er. destruct r as [[mb ma] active].
  pose proof (sl_insert_neighbors_cases _ _ _ _ _ _ Er) as C.
  apply sl_insert_neighbors_in in Er. destruct Er as (_ & IB & IA).
  cbn [w_segs w_packets w_queue w_active w_swept] in H.
  pose proof K as (K1 & K2 & K3 & K4 & K5 & _). cbn [w_segs w_packets w_queue w_active w_swept] in K1, K2, K3, K4.
  rewrite Forall_forall in K3.
  assert (OB : ofiled (w_segs w) mb).
  { intros t ->. destruct (IB t eq_refl) as [<-|I]; auto. }
  assert (OA : ofiled (w_segs w) ma).
  { intros t ->. destruct (IA t eq_refl) as [<-|I]; auto. }
  destruct C as [(t & It & Et)|(A & B & A1 & ->)].
  { exfalso. apply segment_cmp_eq in Et. assert (t = s) by (apply (filed_eq (w_segs w)); auto). subst t.
    unfold pieces in K5. cbn in K5. apply nodup_tail in K5. apply NoDup_remove_2 in K5. apply K5, in_or_app. auto. }
  assert (K' : kept E (mk_sweep (w_segs w) (w_packets w) (w_queue w) (A ++ s :: B) (w_swept w))).
  { eapply kept_move; [exact K|reflexivity|exact K1|intros e He; apply K2; now right|].
    unfold pieces. cbn. apply Permutation_app_head. rewrite A1, <- !app_assoc. cbn [app].
    rewrite (app_assoc A B), <- Permutation_middle, <- app_assoc, Permutation_middle. reflexivity. }
  clear K K1 K2 K3 K4 K5 IB IA.
  bind H ks1 E1. bind H h2 E2. destruct h2 as [[[m1 c1] c2] ks2].
  bind H h3 E3. destruct h3 as [s3 w3]. bind H h4 E4. destruct h4 as [ma4 w4]. bind H w5 E5.
  bind H h6 E6. destruct h6 as [[[m6 c3] c4] ks6]. bind H h7 E7. destruct h7 as [mb7 w7]. bind H h8 E8. destruct h8 as [s8 w8].
  apply update_polygons in E1. apply handle_polygons in E2. rewrite E1 in E2. cbn [w_packets] in E2.
  apply (kept_packets _ _ ks2) in K'; auto.
  apply (kept_maybe_split E) in E3; auto. destruct E3 as (K3 & (t3 & X3) & F3). cbn [w_segs with_packets] in X3.
  apply (kept_maybe_split_opt E) in E4; auto; [|eapply ofiled_ext; eauto]. destruct E4 as (K4 & (t4 & X4) & F4).
  assert (K5 : kept E w5 /\ w_segs w5 = w_segs w4).
  { destruct (m1 =? 2)%nat.
    - bind E5 ks5 U1. bind E5 ab U2. bind E5 ks5' U3. inv E5. split; [|reflexivity]. apply kept_packets; auto.
      apply update_polygons in U1. apply update_polygons in U3. congruence.
    - inv E5. auto. }
  destruct K5 as [K5 X5].
  apply handle_polygons in E6. apply (kept_packets _ _ ks6) in K5; auto.
  apply (kept_maybe_split_opt E) in E7; auto.
  2:{ cbn [w_segs with_packets]. rewrite X5. eapply ofiled_ext; [eapply ofiled_ext; [exact OB|exact X3]|exact X4]. }
  destruct E7 as (K7 & (t7 & X7) & F7). cbn [w_segs with_packets] in X7.
  apply (kept_maybe_split E) in E8; auto.
  2:{ rewrite X7. apply filed_app. rewrite X5, X4. apply filed_app. exact F3. }
  destruct E8 as (K8 & _ & _).
  destruct (m6 =? 2)%nat; [|now inv H].
  bind H be U1. bind H pr U2. bind H ks9 U3. bind H ks10 U4. inv H. apply kept_packets; auto.
  apply update_polygons in U3. apply update_polygons in U4. congruence.
Qed.

Lemma kept_loop : forall E n fuel w w', kept E w -> sweep_loop fuel n w = Ok w' -> kept E w' /\ w_queue w' = [].
Proof.
  intros E n fuel. induction fuel as [|fuel IH]; intros w w' K H; cbn [sweep_loop] in H.
  - bind H next En. destruct next as [[[s e] q]|]; [discriminate|]. inv H. split; auto. eapply heap_pop_none; eauto.
  - bind H next En. destruct next as [[[s e] q]|].
    2:{ inv H. split; auto. eapply heap_pop_none; eauto. }
    bind H w1 E1. apply (IH w1); auto.
    apply heap_pop_perm in En. pose proof K as (K1 & K2 & _).
    assert (Fs : filed (w_segs w) s) by (apply (K2 (s, e)); rewrite En; now left).
    assert (KQ : kept E (mk_sweep (w_segs w) (w_packets w) ((s, e) :: q) (w_active w) (w_swept w))).
    { apply (kept_move E w); auto.
      - intros e' He. apply K2. rewrite En. exact He.
      - unfold pieces. cbn [w_swept w_active w_queue]. now rewrite (lefts_perm _ _ En). }
    destruct e.
    + eapply kept_left; [| |exact E1]; auto.
    + eapply kept_right; [| |exact E1]; auto.
      eapply kept_move; [exact KQ|reflexivity|exact K1| |reflexivity].
      intros e' He. destruct KQ as (_ & KQ & _). apply KQ. now right.
Qed.

(** ** The start *)

Lemma nth_ext : forall {A} (a b : list A), (forall i x, nth_error a i = Some x <-> nth_error b i = Some x) -> a = b.
Proof.
  induction a as [|x a IH]; intros [|y b] H; auto.
  - specialize (proj2 (H 0%nat y) eq_refl). discriminate.
  - specialize (proj1 (H 0%nat x) eq_refl). discriminate.
  - assert (y = x) by (specialize (proj1 (H 0%nat x) eq_refl); cbn; congruence). subst y. f_equal. apply IH.
    intros i z. apply (H (S i) z).
Qed.

Lemma nth_combine : forall {A B} (a : list A) (b : list B) i x y,
  nth_error (combine a b) i = Some (x, y) <-> nth_error a i = Some x /\ nth_error b i = Some y.
Proof.
  induction a as [|u a IH]; intros [|v b] [|i] x y; cbn; try (split; [intros H; discriminate H|intros [H H']; discriminate]).
  - split; [intros H; inv H; auto|intros [H H']; congruence].
  - apply IH.
Qed.

Lemma around_segments : forall c, iter_segments c = around (c_points c).
Proof.
  intros c. destruct (segments_cycle c) as [L N]. apply nth_ext. intros i [a b]. rewrite N. clear N L.
  unfold around. destruct (c_points c) as [|p l]; [split; [intros [H ?]|intros H]; destruct i; discriminate H|].
  rewrite nth_combine. split; intros [H1 H2]; (split; [exact H1|]).
  all: assert (Hi : (i < length (p :: l))%nat) by (apply nth_error_Some; congruence); cbn [length] in *.
  all: destruct (Nat.eq_dec i (length l)) as [->|NE].
  - rewrite Nat.mod_same in H2 by lia. cbn in H2. rewrite nth_error_app2, Nat.sub_diag by lia. exact H2.
  - rewrite Nat.mod_small in H2 by lia. cbn in H2. rewrite nth_error_app1 by lia. exact H2.
  - rewrite Nat.mod_same by lia. rewrite nth_error_app2, Nat.sub_diag in H2 by lia. exact H2.
  - rewrite Nat.mod_small by lia. rewrite nth_error_app1 in H2 by lia. exact H2.
Qed.

Definition edge_list (i : nat) (l : list (point * point)) : list (nat * point * point) :=
  map (fun '(a, b) => (i, a, b)) (filter (fun '(a, b) => negb (point_eqb a b)) l).

Lemma kept_add : forall E n i mode w e w', kept E w -> add_edge n i mode w e = Ok w' -> kept (E ++ edge_list i [e]) w'.
Proof.
  intros E n i mode w [p q] w' K H. unfold add_edge in H. unfold edge_list. cbn [filter]. destruct (point_eqb p q) eqn:PQ; cbn [negb map].
  { inv H. now rewrite app_nil_r. }
  bind H s Es. bind H q1 E1. bind H q2 E2. inv H.
  pose proof (sseg_new_order _ _ _ _ _ Es) as O. apply sseg_new_ends in Es. destruct Es as (X & _ & J).
  apply heap_push_perm in E1. apply heap_push_perm in E2. rewrite E1 in E2.
  pose proof K as (K1 & K2 & K3 & K4 & K5 & chains & K6 & K7).
  assert (FS : filed (w_segs w ++ [s]) s) by (unfold filed; rewrite X, nth_error_app2, Nat.sub_diag by lia; reflexivity).
  assert (P : Permutation (pieces (mk_sweep (w_segs w ++ [s]) (w_packets w ++ [packet_new i mode n]) q2 (w_active w) (w_swept w))) (s :: pieces w)).
  { unfold pieces. cbn [w_swept w_active w_queue]. rewrite (lefts_perm _ _ E2).
    change (lefts ((s, RightEnd) :: (s, LeftEnd) :: w_queue w)) with ([s] ++ lefts (w_queue w)).
    rewrite !app_assoc. rewrite <- (app_assoc _ [s]). cbn [app]. symmetry. apply Permutation_middle. }
  split; [|split; [|split; [|split; [|split]]]]; cbn [w_segs w_packets w_queue w_active w_swept].
  - unfold orders. cbn. rewrite !map_app. cbn. rewrite O. f_equal. exact K1.
  - intros e He. rewrite E2 in He. destruct He as [<-|[<-|He]]; auto. apply filed_app. auto.
  - eapply Forall_impl; [|exact K3]. intros t. apply filed_app.
  - eapply Forall_impl; [|exact K4]. intros t. apply filed_app.
  - rewrite P. constructor; auto. intros I. eapply pieces_filed in I; eauto. apply filed_lt in I. lia.
  - exists (chains ++ [[s]]). split.
    + apply Forall2_app; auto. constructor; [|constructor]. cbn. apply ch_one; auto.
    + rewrite P, concat_app, K7. cbn. symmetry. apply Permutation_cons_append.
Qed.

Lemma edge_list_app : forall i a b, edge_list i (a ++ b) = edge_list i a ++ edge_list i b.
Proof. intros. unfold edge_list. now rewrite filter_app, map_app. Qed.

Lemma kept_contour : forall n i mode l E w w', kept E w -> ofold (add_edge n i mode) l w = Ok w' -> kept (E ++ edge_list i l) w'.
Proof.
  intros n i mode l. induction l as [|e l IH]; intros E w w' K H; cbn [ofold] in H.
  - inv H. cbn. now rewrite app_nil_r.
  - bind H w1 E1. apply (kept_add E) in E1; auto. apply (IH _ _ _ E1) in H.
    rewrite <- app_assoc, <- edge_list_app in H. exact H.
Qed.
Lemma kept_polygon : forall n i mode p E w w', kept E w ->
  ofold (fun w c => ofold (add_edge n i mode) (iter_segments c) w) p w = Ok w' ->
  kept (E ++ edge_list i (concat (map (fun c => around (c_points c)) p))) w'.
Proof.
  intros n i mode p. induction p as [|c p IH]; intros E w w' K H; cbn [ofold] in H.
  - inv H. cbn. now rewrite app_nil_r.
  - bind H w1 E1. apply (kept_contour _ _ _ _ E) in E1; auto. apply (IH _ _ _ E1) in H.
    rewrite <- app_assoc, around_segments, <- edge_list_app in H. exact H.
Qed.
Lemma kept_polygons : forall n polys i E w w', kept E w -> add_polygons n i polys w = Ok w' ->
  kept (E ++ concat (map (fun '(i, (p, _)) => edge_list i (concat (map (fun c => around (c_points c)) p)))
    (combine (seq i (length polys)) polys))) w'.
Proof.
  intros n polys. induction polys as [|[p mode] polys IH]; intros i E w w' K H; cbn [add_polygons] in H.
  - inv H. cbn. now rewrite app_nil_r.
  - bind H w1 E1. apply (kept_polygon _ _ _ _ E) in E1; auto. apply (IH _ _ _ _ E1) in H.
    rewrite <- app_assoc in H. exact H.
Qed.

Theorem pieces_kept : forall fuel polys w0 w,
  add_polygons (length polys) 0 polys (mk_sweep [] [] [] [] []) = Ok w0 -> sweep_loop fuel (length polys) w0 = Ok w ->
  exists chains, Forall2 cut_up (edges_of polys) chains
    /\ Permutation (concat chains) (w_swept w ++ w_active w) /\ NoDup (w_swept w ++ w_active w)
    /\ forall a b, In a (w_swept w ++ w_active w) -> In b (w_swept w ++ w_active w) -> s_index a = s_index b -> a = b.
Proof.
  intros fuel polys w0 w H0 H.
  apply (kept_polygons _ _ _ []) in H0.
  2:{ split; [reflexivity|]. split; [intros e []|]. split; [constructor|]. split; [constructor|]. split; [constructor|].
      exists []. split; constructor. }
  apply (kept_loop _ _ _ _ _ H0) in H. destruct H as [K Q].
  pose proof (fun s => pieces_filed _ w s K) as PF.
  pose proof K as (_ & _ & _ & _ & K5 & chains & K6 & K7). unfold pieces in *. rewrite Q in *. cbn [lefts filter map] in *. rewrite app_nil_r in *.
  exists chains. split; [exact K6|]. split; [exact K7|]. split; [exact K5|].
  intros a b A B. apply (filed_eq (w_segs w)); apply PF; assumption.
Qed.
