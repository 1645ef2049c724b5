(** Invariants of the sweep of [compute]. *)

From Coq Require Import List ZArith Bool Arith Lia.
From Verif Require Import Base BaseFacts Float Geometry Sweep Contours Compute SpecShape SpecCompute ShapeFacts ContainerFacts.
Import ListNotations.

Ltac bind H x E := apply obind_ok in H; destruct H as (x & E & H).
Ltac inv H := inversion H; subst; clear H.

(** ** Members of containers, whatever the order does *)

Lemma in_set_nth : forall {A} i (x y : A) l, In y (set_nth i x l) -> y = x \/ In y l.
Proof.
  intros A i x y l H. unfold set_nth in H. apply in_app_or in H. destruct H as [H|[H|H]]; auto.
  - right. rewrite <- (firstn_skipn i l). apply in_or_app. auto.
  - right. rewrite <- (firstn_skipn (S i) l). apply in_or_app. auto.
Qed.

Lemma index_nat_in : forall {A} (l : list A) i a, index_nat l i = Ok a -> In a l.
Proof. intros A l i a H. unfold index_nat in H. destruct (nth_error l i) eqn:E; inv H. eapply nth_error_In; eauto. Qed.
Lemma index_nat_nth : forall {A} (l : list A) i a, index_nat l i = Ok a -> nth_error l i = Some a.
Proof. intros A l i a H. unfold index_nat in H. destruct (nth_error l i) eqn:E; now inv H. Qed.

Section Any.
  Context {A : Type} (cmp : A -> A -> outcome comparison).

  Lemma sift_up_in : forall fuel l pos x l', sift_up cmp fuel l pos x = Ok l' -> incl l' (x :: l).
  Proof.
    induction fuel as [|fuel IH]; intros l [|p] x l' H; cbn [sift_up] in H; try discriminate.
    - inv H. intros y Hy. apply in_set_nth in Hy. destruct Hy; subst; cbn; auto.
    - inv H. intros y Hy. apply in_set_nth in Hy. destruct Hy; subst; cbn; auto.
    - bind H y Ey. bind H c Ec. apply index_nat_in in Ey.
      assert (D : incl (set_nth (S p) x l) (x :: l)).
      { intros z Hz. apply in_set_nth in Hz. destruct Hz; subst; cbn; auto. }
      destruct c; [inv H; exact D..|]. apply IH in H. intros z Hz. apply H in Hz. destruct Hz as [<-|Hz]; cbn; auto.
      apply in_set_nth in Hz. destruct Hz; subst; auto.
  Qed.

  Lemma heap_push_in : forall l x l', heap_push cmp l x = Ok l' -> incl l' (x :: l).
  Proof.
    intros l x l' H. unfold heap_push in H. apply sift_up_in in H. intros y Hy. apply H in Hy.
    destruct Hy as [<-|Hy]; cbn; auto. apply in_app_or in Hy. destruct Hy as [Hy|[<-|[]]]; auto.
  Qed.

  Lemma sift_down_in : forall fuel l pos l' p', sift_down cmp fuel l pos = Ok (l', p') -> incl l' l.
  Proof.
    induction fuel as [|fuel IH]; intros l pos l' p' H; cbn [sift_down] in H.
    - destruct (_ <=? _)%nat; inv H. intros y; auto.
    - destruct (_ <=? _)%nat; [inv H; intros y; auto|]. bind H y Ey. apply index_nat_in in Ey.
      assert (G : forall v k, In v l -> sift_down cmp fuel (set_nth pos v l) k = Ok (l', p') -> incl l' l).
      { intros v k Hv E. apply IH in E. intros z Hz. apply E in Hz. apply in_set_nth in Hz. destruct Hz; subst; auto. }
      destruct (nth_error l _) as [z|] eqn:Ez.
      + apply nth_error_In in Ez. bind H c Ec. destruct c; (eapply G; [|exact H]); assumption.
      + eapply G; [|exact H]; assumption.
  Qed.

  Lemma heap_pop_in : forall l top l', heap_pop cmp l = Ok (Some (top, l')) -> In top l /\ incl l' l.
  Proof.
    intros l top l' H. unfold heap_pop in H.
    destruct (rev l) as [|x r] eqn:Er; [discriminate|].
    assert (El : l = rev r ++ [x]) by (rewrite <- (rev_involutive l), Er; reflexivity).
    destruct (rev r) as [|t rest]; [inv H; subst; cbn; split; auto; intros ? []|].
    bind H q Eqq. destruct q as [l1 pos]. bind H l2 E2. inv H.
    apply sift_down_in in Eqq. apply sift_up_in in E2. split; [cbn; auto|].
    intros y Hy. apply E2 in Hy. rewrite in_app_iff. cbn. destruct Hy as [<-|Hy]; auto.
    apply Eqq in Hy. destruct Hy as [<-|Hy]; auto.
  Qed.

  Lemma in_insert : forall i (x y : A) l, In y (insert_at i x l) -> In y (x :: l).
  Proof. intros i x y l H. apply in_insert_at in H. destruct H; subst; cbn; auto. Qed.
  Lemma in_remove_any : forall i (y : A) l, In y (remove_at i l) -> In y l.
  Proof.
    intros i y l H. unfold remove_at in H. apply in_app_or in H. destruct H as [H|H].
    - rewrite <- (firstn_skipn i l). apply in_or_app. auto.
    - rewrite <- (firstn_skipn (S i) l). apply in_or_app. auto.
  Qed.

  Lemma sl_remove_in : forall l x f l', sl_remove cmp l x = Ok (f, l') -> incl l' l.
  Proof.
    intros l x f l' H. unfold sl_remove in H. bind H r Er. destruct r as [found ix].
    destruct found; inv H; intros y Hy; auto. eapply in_remove_any; eauto.
  Qed.
  Lemma sl_insert_in : forall l x l', sl_insert cmp l x = Ok l' -> incl l' (x :: l).
  Proof.
    intros l x l' H. unfold sl_insert in H. bind H r Er. destruct r as [found ix].
    destruct found; inv H; intros y Hy; [cbn; auto|]. eapply in_insert; eauto.
  Qed.
  Lemma before_in : forall (l : list A) i r, before l i = Ok (Some r) -> In r l.
  Proof. intros l [|i] r H; cbn in H; [discriminate|]. bind H e E. inv H. eapply index_nat_in; eauto. Qed.
  Lemma sl_remove_neighbors_in : forall l x f p q l', sl_remove_neighbors cmp l x = Ok (f, p, q, l') ->
    incl l' l /\ (forall y, p = Some y -> In y l) /\ (forall y, q = Some y -> In y l).
  Proof.
    intros l x f p q l' H. unfold sl_remove_neighbors in H. bind H r Er. destruct r as [found ix].
    bind H pr Ep. inv H.
    assert (I : incl (if f then remove_at ix l else l) l) by (destruct f; intros y; [apply in_remove_any|auto]).
    split; [exact I|]. split; intros y Hy.
    - subst. apply before_in in Ep. apply I, Ep.
    - apply nth_error_In in Hy. apply I, Hy.
  Qed.
  Lemma sl_insert_neighbors_in : forall l x p q l', sl_insert_neighbors cmp l x = Ok (p, q, l') ->
    incl l' (x :: l) /\ (forall y, p = Some y -> In y (x :: l)) /\ (forall y, q = Some y -> In y (x :: l)).
  Proof.
    intros l x p q l' H. unfold sl_insert_neighbors in H. bind H r Er. destruct r as [found ix].
    bind H pr Ep. inv H.
    assert (I : incl (if found then l else insert_at ix x l) (x :: l)) by (destruct found; intros y; [cbn; auto|apply in_insert]).
    split; [exact I|]. split; intros y Hy.
    - subst. apply before_in in Ep. apply I, Ep.
    - apply (nth_error_In _ (S ix)) in Hy. apply I, Hy.
  Qed.
  Lemma sl_previous_in : forall l x y, sl_previous cmp l x = Ok (Some y) -> In y l.
  Proof.
    intros l x y H. unfold sl_previous in H. bind H r Er. destruct r as [found ix].
    destruct found; [|discriminate]. eapply before_in; eauto.
  Qed.
End Any.

(** ** Folds *)

Lemma ofold_inv : forall {A S} (f : S -> A -> outcome S) (I : S -> Prop) l s s',
  I s -> (forall x s s', In x l -> I s -> f s x = Ok s' -> I s') -> ofold f l s = Ok s' -> I s'.
Proof.
  intros A S f I l. induction l as [|x l IH]; intros s s' HI Hf H; cbn [ofold] in H.
  - now inv H.
  - bind H s1 E. apply (IH s1 s'); auto.
    + eapply Hf; eauto. cbn. auto.
    + intros y t t' Hy. apply Hf. cbn. auto.
Qed.

Lemma Forall2_nth : forall {A B} (R : A -> B -> Prop) l m i a b, Forall2 R l m ->
  nth_error l i = Some a -> nth_error m i = Some b -> R a b.
Proof.
  intros A B R l m i a b F. revert i. induction F; intros [|i] H1 H2; cbn in *; try discriminate.
  - congruence.
  - eauto.
Qed.
Lemma Forall2_set : forall {A B} (R : A -> B -> Prop) l m i a b, Forall2 R l m ->
  nth_error l i = Some a -> R a b -> Forall2 R l (set_nth i b m).
Proof.
  intros A B R l m i a b F. revert i. induction F; intros [|i] H1 H2; cbn in *; try discriminate.
  - inv H1. constructor; assumption.
  - constructor; [assumption|]. apply IHF; assumption.
Qed.

Lemma Forall2_len : forall {A B} (R : A -> B -> Prop) l m, Forall2 R l m -> length l = length m.
Proof. intros A B R l m F. induction F; cbn; auto. Qed.

Lemma Forall2_map_r : forall {A B} (R : A -> B -> Prop) (f : B -> B) l m, Forall2 R l m ->
  (forall a b, R a b -> R a (f b)) -> Forall2 R l (map f m).
Proof. intros A B R f l m F Hf. induction F; cbn; constructor; auto. Qed.

(** ** Bit sets *)

Lemma bits_union_len : forall a b c, bits_union a b = Ok c -> length c = length a /\ length b = length a.
Proof.
  intros a b c H. unfold bits_union in H. destruct (Nat.eqb_spec (length a) (length b)) as [E|]; inv H.
  rewrite map_length, combine_length. lia.
Qed.
Lemma bits_union_nth : forall a b c i, bits_union a b = Ok c ->
  nth_error c i = match nth_error a i, nth_error b i with Some x, Some y => Some (x || y) | _, _ => None end.
Proof.
  intros a b c i H. unfold bits_union in H. destruct (Nat.eqb_spec (length a) (length b)) as [E|]; inv H.
  revert b i E. induction a as [|x a IH]; intros [|y b] [|i] E; cbn in *; try reflexivity; try discriminate.
  apply IH. lia.
Qed.
Lemma bits_set_len : forall a i b c, bits_set a i b = Ok c -> length c = length a /\ (i < length a)%nat.
Proof.
  intros a i b c H. unfold bits_set in H. destruct (Nat.ltb_spec i (length a)); inv H.
  rewrite set_nth_length; auto.
Qed.
Lemma bits_clear_len : forall a, length (bits_clear a) = length a.
Proof. intros. unfold bits_clear. apply repeat_length. Qed.

(** ** The invariant *)

Section Sweep.
  Variable polys : input.
  Local Notation n := (length polys).
  Local Notation modes := (map snd polys).

  Definition fresh (k : packet) : Prop :=
    k_left_done k = false /\ k_right_done k = false /\ k_left_contour k = None /\ k_right_contour k = None
    /\ k_left_index k = 0%nat /\ k_right_index k = 0%nat.

  Definition good (s : bseg) (k : packet) : Prop :=
    nth_error modes (k_polygon k) = Some (k_mode k)
    /\ length (k_left k) = n /\ length (k_right k) = n
    /\ (k_in_result k = true -> k_mode k <> RemoveEdges)
    /\ descends polys (k_polygon k) (s_left s) (s_right s)
    /\ fresh k.

  Definition known (segs : list bseg) (s : bseg) : Prop := nth_error segs (s_index s) = Some s.
  Definition oknown (segs : list bseg) (o : option bseg) : Prop := forall s, o = Some s -> known segs s.

  Definition wf (w : sweep) : Prop :=
    Forall2 good (w_segs w) (w_packets w)
    /\ (forall e, In e (w_queue w) -> known (w_segs w) (fst e))
    /\ (forall s, In s (w_active w) -> known (w_segs w) s)
    /\ (forall s, In s (w_swept w) -> known (w_segs w) s).

  Lemma known_app : forall segs l s, known segs s -> known (segs ++ l) s.
  Proof.
    unfold known. intros segs l s H. rewrite nth_error_app1; auto. apply nth_error_Some. congruence.
  Qed.

  Lemma get_good : forall segs ks s k, Forall2 good segs ks -> known segs s -> get_packet ks s = Ok k -> good s k.
  Proof. intros segs ks s k F K H. apply index_nat_nth in H. eapply Forall2_nth; eauto. Qed.
  Lemma put_good : forall segs ks s k, Forall2 good segs ks -> known segs s -> good s k ->
    Forall2 good segs (put_packet ks s k).
  Proof. intros segs ks s k F K H. unfold put_packet. eapply Forall2_set; eauto. Qed.

  Lemma sseg_new_ends : forall p0 p1 i o (s : bseg), sseg_new p0 p1 i o tt = Ok s ->
    s_index s = i /\ point_eqb p0 p1 = false /\ ((s_left s = p0 /\ s_right s = p1) \/ (s_left s = p1 /\ s_right s = p0)).
  Proof.
    intros p0 p1 i o s H. unfold sseg_new in H. destruct (point_eqb p0 p1) eqn:E; [discriminate|].
    destruct (_ || _); inv H; cbn; auto.
  Qed.

  (** *** Building the queue *)

  Lemma packet_new_good : forall i poly mode s, nth_error polys i = Some (poly, mode) ->
    descends polys i (s_left s) (s_right s) -> good s (packet_new i mode n).
  Proof.
    intros i poly mode s H D. unfold good, fresh, packet_new. cbn. rewrite !repeat_length.
    rewrite nth_error_map, H. cbn. repeat split; auto. discriminate.
  Qed.

  Lemma add_edge_wf : forall i poly mode w e w', nth_error polys i = Some (poly, mode) ->
    edge_of polys i (fst e) (snd e) -> wf w -> add_edge n i mode w e = Ok w' -> wf w'.
  Proof.
    intros i poly mode w [p0 p1] w' Hi He (W1 & W2 & W3 & W4) H. cbn [fst snd] in He. unfold add_edge in H.
    destruct (point_eqb p0 p1); [now inv H|].
    bind H s Es. bind H q1 E1. bind H q2 E2. inv H.
    apply sseg_new_ends in Es. destruct Es as (Hx & Hne & Hends).
    assert (Ks : known (w_segs w ++ [s]) s).
    { unfold known. rewrite Hx, nth_error_app2, Nat.sub_diag by lia. reflexivity. }
    unfold wf. cbn. split; [|split; [|split]].
    - apply Forall2_app; auto. constructor; auto. apply (packet_new_good i poly); auto.
      destruct Hends as [[-> ->]|[-> ->]]; [|apply d_swap]; apply d_edge; auto.
    - intros e He2. apply heap_push_in in E2. apply E2 in He2. destruct He2 as [<-|He2]; auto.
      apply heap_push_in in E1. apply E1 in He2. destruct He2 as [<-|He2]; auto. apply known_app; auto.
    - intros t Ht. apply known_app; auto.
    - intros t Ht. apply known_app; auto.
  Qed.

  Lemma add_polygons_wf : forall l i w w', (forall j x, nth_error l j = Some x -> nth_error polys (i + j) = Some x) ->
    wf w -> add_polygons n i l w = Ok w' -> wf w'.
  Proof.
    induction l as [|[poly mode] l IH]; intros i w w' Hl W H; cbn [add_polygons] in H.
    - now inv H.
    - bind H w1 E. apply (IH (S i) w1 w'); auto.
      + intros j x Hx. replace (S i + j)%nat with (i + S j)%nat by lia. now apply Hl.
      + assert (Hi : nth_error polys i = Some (poly, mode)) by (rewrite <- (Nat.add_0_r i); now apply Hl).
        revert E. apply ofold_inv; auto. intros c s s' Hc Is E.
        revert E. apply ofold_inv; auto. intros e t t' He It E. apply (add_edge_wf i poly mode t e t'); auto.
        apply In_nth_error in He. destruct He as [j Hj]. destruct e as [p q].
        apply (proj2 (segments_cycle c)) in Hj. exists poly, mode, c, j. tauto.
  Qed.

  (** *** Facing *)

  Lemma with_in_result_good : forall s k, good s k -> good s (with_in_result k (is_in_result k)).
  Proof.
    intros s k (G1 & G2 & G3 & G4 & G5 & G6). unfold good, fresh in *. cbn. repeat split; auto; try tauto.
    unfold is_in_result. destruct (is_non_contributing _); [discriminate|]. destruct (k_mode k); cbn; congruence.
  Qed.
  Lemma with_facing_good : forall s k u o l r b, good s k -> length l = n -> length r = n -> good s (with_facing k u o l r b).
  Proof. intros s k u o l r b (G1 & G2 & G3 & G4 & G5 & G6) Hl Hr. unfold good, fresh in *. cbn. tauto. Qed.
  Lemma with_edge_good : forall s k e, good s k -> good s (with_edge k e).
  Proof. intros s k e G. exact G. Qed.
  Lemma with_below_good : forall s k e, good s k -> good s (with_below k e).
  Proof. intros s k e G. exact G. Qed.

  Lemma update_good : forall segs ks s b ks', Forall2 good segs ks -> known segs s -> oknown segs b ->
    update_polygon_facing ks s b = Ok ks' -> Forall2 good segs ks'.
  Proof.
    intros segs ks s b ks' F K KB H. unfold update_polygon_facing in H.
    bind H k Ek. pose proof (get_good _ _ _ _ F K Ek) as G.
    bind H k' Ek'. inv H. apply put_good; auto. apply with_in_result_good.
    pose proof G as (_ & L1 & L2 & _).
    destruct b as [b|].
    - destruct (s_index b =? s_index s)%nat; [discriminate|].
      bind Ek' bk Eb. bind Ek' uo Eu. destruct uo as [up outside].
      bind Ek' l El. bind Ek' r Er. bind Ek' l' El'. inv Ek'.
      apply bits_union_len in El. apply bits_union_len in Er. apply bits_set_len in El'.
      rewrite bits_clear_len in *. apply with_facing_good; auto; lia.
    - bind Ek' l El. inv Ek'. apply bits_set_len in El. rewrite bits_clear_len in El.
      apply with_facing_good; auto; rewrite ?bits_clear_len; lia.
  Qed.

  (** *** Intersections *)

  Definition cuttable (s : bseg) (pt : point) : Prop :=
    exists j p' q', descends polys j p' q' /\ meets (s_left s) (s_right s) p' q' pt.
  Definition ocut (o : option bseg) (c : option point) : Prop :=
    forall pt, c = Some pt -> exists s, o = Some s /\ cuttable s pt.

  Lemma ocut_none : forall o, ocut o None.
  Proof. intros o pt H. discriminate. Qed.
  Lemma ocut_some : forall s pt, cuttable s pt -> ocut (Some s) (Some pt).
  Proof. intros s pt H p Hp. inv Hp. eauto. Qed.

  Lemma packet_exists : forall segs ks s, Forall2 good segs ks -> known segs s -> exists k, good s k.
  Proof.
    intros segs ks s F K. destruct (nth_error ks (s_index s)) as [k|] eqn:E.
    - exists k. eapply Forall2_nth; eauto.
    - apply nth_error_None in E. apply Forall2_len in F. unfold known in K.
      assert (nth_error segs (s_index s) <> None) as N by congruence. apply nth_error_Some in N. lia.
  Qed.

  Lemma handle_good : forall segs ks m1 m2 mode c1 c2 ks', Forall2 good segs ks -> oknown segs m1 -> oknown segs m2 ->
    handle_intersections ks m1 m2 = Ok (mode, c1, c2, ks') ->
    Forall2 good segs ks' /\ ocut m1 c1 /\ ocut m2 c2.
  Proof.
    intros segs ks m1 m2 mode c1 c2 ks' F K1 K2 H. unfold handle_intersections in H.
    destruct m1 as [s1|]; [|inv H; auto using ocut_none]. destruct m2 as [s2|]; [|inv H; auto using ocut_none].
    specialize (K1 s1 eq_refl). specialize (K2 s2 eq_refl).
    destruct (packet_exists _ _ _ F K1) as (k1' & _ & _ & _ & _ & D1 & _).
    destruct (packet_exists _ _ _ F K2) as (k2' & _ & _ & _ & _ & D2 & _).
    destruct (intersect_segments _ _) as [|p|u v] eqn:EI.
    - inv H. auto using ocut_none.
    - destruct (_ || _); inv H; [auto using ocut_none|].
      split; [auto|]. split.
      + destruct (_ && _); [|apply ocut_none]. apply ocut_some. exists (k_polygon k2'), (s_left s2), (s_right s2). split; auto.
        left. exact EI.
      + destruct (_ && _); [|apply ocut_none]. apply ocut_some. exists (k_polygon k1'), (s_left s1), (s_right s1). split; auto.
        right. left. exact EI.
    - assert (C1 : forall pt, pt = s_left s2 \/ pt = s_right s2 -> ocut (Some s1) (Some pt)).
      { intros pt Hpt. apply ocut_some. exists (k_polygon k2'), (s_left s2), (s_right s2). split; auto. right. right. eauto. }
      assert (C2 : forall pt, pt = s_left s1 \/ pt = s_right s1 -> ocut (Some s2) (Some pt)).
      { intros pt Hpt. apply ocut_some. exists (k_polygon k1'), (s_left s1), (s_right s1). split; auto. right. right. eauto. }
      bind H k1 Ek1. bind H k2 Ek2. destruct (_ =? _)%nat; [discriminate|].
      bind H lc Elc. bind H rc Erc. destruct (point_eqb (s_left s1) (s_left s2)).
      + bind H k2b Ek2b.
        assert (F1 : Forall2 good segs (put_packet ks s1 (with_edge k1 ENonContributing))).
        { apply put_good; auto. apply with_edge_good. eapply get_good; eauto. }
        match type of H with context [if ?b then _ else put_packet ?a ?s ?k] =>
          assert (F2 : Forall2 good segs (if b then a else put_packet a s k)) end.
        { destruct (is_non_contributing (k_edge k2b)); auto. apply put_good; auto.
          apply with_edge_good. eapply get_good; [exact F1|exact K2|exact Ek2b]. }
        destruct rc; inv H; auto using ocut_none.
      + destruct lc; inv H; auto using ocut_none.
  Qed.

  (** *** Splitting *)

  Definition extends (w w' : sweep) : Prop := exists l, w_segs w' = w_segs w ++ l.
  Lemma extends_refl : forall w, extends w w.
  Proof. intros w. exists []. now rewrite app_nil_r. Qed.
  Lemma extends_known : forall w w' s, extends w w' -> known (w_segs w) s -> known (w_segs w') s.
  Proof. intros w w' s [l ->] K. now apply known_app. Qed.
  Lemma extends_oknown : forall w w' s, extends w w' -> oknown (w_segs w) s -> oknown (w_segs w') s.
  Proof. intros w w' s X K t Ht. eapply extends_known; eauto. Qed.

  Lemma split_wf : forall w s pt l w', wf w -> known (w_segs w) s -> cuttable s pt ->
    split_segment n w s pt = Ok (l, w') -> wf w' /\ extends w w' /\ known (w_segs w') l.
  Proof.
    intros w s pt l w' (W1 & W2 & W3 & W4) K (j & p' & q' & D' & M) H. unfold split_segment in H.
    bind H k Ek. pose proof (get_good _ _ _ _ W1 K Ek) as (G1 & G2 & G3 & G4 & G5 & G6).
    bind H ls Els. bind H rs Ers. bind H bl Ebl. bind H br Ebr. bind H fa Efa. destruct fa as [found active].
    destruct found; cbn [negb] in H; [|discriminate].
    bind H act2 Eact. bind H q1 Eq1. bind H q2 Eq2. bind H q3 Eq3. inv H.
    apply sseg_new_ends in Els. destruct Els as (Lx & Ln & Le). apply sseg_new_ends in Ers. destruct Ers as (Rx & Rn & Re).
    assert (KL : known (w_segs w ++ [l; rs]) l).
    { unfold known. rewrite Lx, nth_error_app2, Nat.sub_diag by lia. reflexivity. }
    assert (KR : known (w_segs w ++ [l; rs]) rs).
    { unfold known. rewrite Rx, nth_error_app2 by lia. replace (S (length (w_segs w)) - length (w_segs w))%nat with 1%nat by lia. reflexivity. }
    split; [|split; [eexists; reflexivity|exact KL]].
    unfold wf. cbn [w_segs w_packets w_queue w_active w_swept]. split; [|split; [|split]].
    - assert (FB : Forall2 good (w_segs w ++ [l; rs])
        (w_packets w ++ [k; with_facing (packet_new (k_polygon k) (k_mode k) n) false false bl br None])).
      { apply Forall2_app; auto. constructor; [|constructor; [|constructor]].
        - unfold good. repeat split; auto; try apply G6.
          destruct Le as [[-> ->]|[-> ->]]; [|apply d_swap]; apply (d_cut polys (k_polygon k) (s_left s) (s_right s) j p' q'); auto.
        - rewrite nth_error_map in G1. destruct (nth_error polys (k_polygon k)) as [[poly md]|] eqn:Ep; [|discriminate].
          cbn in G1. inv G1. apply with_facing_good.
          + apply (packet_new_good _ poly); auto.
            destruct Re as [[-> ->]|[-> ->]]; [|apply d_swap]; apply (d_cut_right polys (k_polygon k) (s_left s) (s_right s) j p' q'); auto.
          + apply bits_union_len in Ebl. rewrite bits_clear_len in Ebl. cbn in Ebl. rewrite repeat_length in Ebl. lia.
          + apply bits_union_len in Ebr. rewrite bits_clear_len in Ebr. cbn in Ebr. rewrite repeat_length in Ebr. lia. }
      apply Forall2_map_r with (1 := FB). intros a b G. cbv beta.
      destruct (k_below b) as [i|]; [|exact G]. destruct (_ =? _)%nat; [|exact G]. apply with_below_good, G.
    - intros e He. apply heap_push_in in Eq3. apply Eq3 in He. destruct He as [<-|He]; auto.
      apply heap_push_in in Eq2. apply Eq2 in He. destruct He as [<-|He]; auto.
      apply heap_push_in in Eq1. apply Eq1 in He. destruct He as [<-|He]; auto. apply known_app. auto.
    - intros t Ht. apply sl_insert_in in Eact. apply Eact in Ht. destruct Ht as [<-|Ht]; auto.
      apply sl_remove_in in Efa. apply Efa in Ht. apply known_app. auto.
    - intros t Ht. apply known_app. auto.
  Qed.

  Lemma maybe_split_wf : forall w s c l w', wf w -> known (w_segs w) s -> ocut (Some s) c ->
    maybe_split n w s c = Ok (l, w') -> wf w' /\ extends w w' /\ known (w_segs w') l.
  Proof.
    intros w s [pt|] l w' W K C H; cbn [maybe_split] in H.
    - destruct (C pt eq_refl) as (s' & E & Hc). inv E. eapply split_wf; eauto.
    - inv H. auto using extends_refl.
  Qed.
  Lemma maybe_split_opt_wf : forall w s c l w', wf w -> oknown (w_segs w) s -> ocut s c ->
    maybe_split_opt n w s c = Ok (l, w') -> wf w' /\ extends w w' /\ oknown (w_segs w') l.
  Proof.
    intros w s [pt|] l w' W K C H; cbn [maybe_split_opt] in H.
    - destruct s as [s|]; [|discriminate]. bind H r Er. destruct r as [l0 w0]. inv H.
      destruct (C pt eq_refl) as (s' & E & Hc). inv E.
      destruct (split_wf w s' pt l0 w' W (K s' eq_refl) Hc Er) as (A & B & D). split; [auto|]. split; [auto|].
      intros t Ht. inv Ht. auto.
    - inv H. auto using extends_refl.
  Qed.

  Lemma with_packets_wf : forall w ks, wf w -> Forall2 good (w_segs w) ks -> wf (with_packets w ks).
  Proof. intros w ks (W1 & W2 & W3 & W4) F. unfold wf. cbn. auto. Qed.

  (** *** The events *)

  Lemma sweep_right_wf : forall w s w', wf w -> known (w_segs w) s -> sweep_right n w s = Ok w' -> wf w'.
  Proof.
    intros w s w' (W1 & W2 & W3 & W4) K H. unfold sweep_right in H.
    bind H r Er. destruct r as [[[found mb] ma] active].
    apply sl_remove_neighbors_in in Er. destruct Er as (I & IB & IA).
    cbn [w_segs w_packets w_queue w_active w_swept] in H.
    destruct found.
    2:{ inv H. unfold wf. cbn. split; [auto|]. split; [auto|]. split; auto. }
    set (w1 := mk_sweep (w_segs w) (w_packets w) (w_queue w) active (w_swept w ++ [s])) in *.
    assert (Ww1 : wf w1).
    { unfold wf, w1. cbn. split; [auto|]. split; [auto|]. split; [auto|].
      intros t Ht. apply in_app_or in Ht. destruct Ht as [Ht|[<-|[]]]; auto. }
    destruct ma as [above|]; [|now inv H]. destruct mb as [below|]; [|now inv H].
    bind H h Eh. destruct h as [[[mode c1] c2] ks].
    assert (KB : known (w_segs w1) below) by (apply W3, IB; auto).
    assert (KA : known (w_segs w1) above) by (apply W3, IA; auto).
    destruct (handle_good (w_segs w1) (w_packets w1) (Some below) (Some above) mode c1 c2 ks) as (F & C1 & C2); auto.
    { intros t Ht. now inv Ht. }
    { intros t Ht. now inv Ht. }
    bind H r1 Er1. destruct r1 as [x1 w2]. bind H r2 Er2. destruct r2 as [x2 w3]. inv H.
    destruct (maybe_split_wf (with_packets w1 ks) below c1 x1 w2) as (A1 & B1 & _); auto using with_packets_wf.
    destruct (maybe_split_wf w2 above c2 x2 w') as (A2 & _); auto.
    eapply extends_known; eauto.
  Qed.

  Lemma sweep_left_wf : forall w s w', wf w -> known (w_segs w) s -> sweep_left n w s = Ok w' -> wf w'.
  Proof.
    intros w s w' (W1 & W2 & W3 & W4) K H. unfold sweep_left in H.
    bind H r Er. destruct r as [[mb ma] active].
    apply sl_insert_neighbors_in in Er. destruct Er as (I & IB & IA).
    assert (KK : forall t, In t (s :: w_active w) -> known (w_segs w) t).
    { intros t [<-|Ht]; auto. }
    cbn [w_segs w_packets w_queue w_active w_swept] in H.
    set (w1 := mk_sweep (w_segs w) (w_packets w) (w_queue w) active (w_swept w)) in *.
    bind H ks0 Eks0. bind H h Eh. destruct h as [[[mode c1] c2] ks1].
    assert (KB : oknown (w_segs w1) mb) by (intros t Ht; apply KK, IB; auto).
    assert (KA : oknown (w_segs w1) ma) by (intros t Ht; apply KK, IA; auto).
    assert (Ww1 : wf w1).
    { unfold wf, w1. cbn. split; [auto|]. split; [auto|]. split; [|auto]. intros t Ht. apply KK, I, Ht. }
    pose proof (update_good (w_segs w1) _ s mb ks0 W1 K KB Eks0) as F0.
    destruct (handle_good (w_segs w1) ks0 (Some s) ma mode c1 c2 ks1) as (F1 & C1 & C2); auto.
    { intros t Ht. now inv Ht. }
    bind H r1 Er1. destruct r1 as [s1 w2]. bind H r2 Er2. destruct r2 as [ma1 w3].
    destruct (maybe_split_wf (with_packets w1 ks1) s c1 s1 w2) as (A1 & X1 & K1); auto using with_packets_wf.
    destruct (maybe_split_opt_wf w2 ma c2 ma1 w3) as (A2 & X2 & K2); auto.
    { eapply extends_oknown; [exact X1|]. exact KA. }
    assert (K1' : known (w_segs w3) s1) by (eapply extends_known; eauto).
    assert (KB3 : oknown (w_segs w3) mb).
    { eapply extends_oknown; [exact X2|]. eapply extends_oknown; [exact X1|]. exact KB. }
    bind H w4 Ew4.
    assert (A4 : wf w4 /\ w_segs w4 = w_segs w3).
    { destruct (mode =? 2)%nat; [|now inv Ew4].
      bind Ew4 ks2 Eks2. bind Ew4 ab Eab. bind Ew4 ks3 Eks3. inv Ew4. split; [|reflexivity].
      pose proof A2 as (F3 & _).
      pose proof (update_good _ _ s1 mb ks2 F3 K1' KB3 Eks2) as F4.
      apply with_packets_wf; auto. destruct ma1 as [a|]; inv Eab.
      apply (update_good _ ks2 ab (Some s1) ks3); auto. intros t Ht. now inv Ht. }
    destruct A4 as [A4 S4].
    bind H h2 Eh2. destruct h2 as [[[mode2 c3] c4] ks4].
    destruct (handle_good (w_segs w4) (w_packets w4) mb (Some s1) mode2 c3 c4 ks4) as (F5 & C3 & C4); auto.
    { apply A4. }
    { now rewrite S4. }
    { intros t Ht. inv Ht. now rewrite S4. }
    bind H r3 Er3. destruct r3 as [mb1 w5]. bind H r4 Er4. destruct r4 as [s2 w6].
    destruct (maybe_split_opt_wf (with_packets w4 ks4) mb c3 mb1 w5) as (A5 & X5 & K5); auto using with_packets_wf.
    { cbn. now rewrite S4. }
    destruct (maybe_split_wf w5 s1 c4 s2 w6) as (A6 & X6 & K6); auto.
    { eapply extends_known; [exact X5|]. cbn. now rewrite S4. }
    destruct (mode2 =? 2)%nat; [|now inv H].
    bind H bl Ebl. bind H pv Epv. bind H ks5 Eks5. bind H ks6 Eks6. inv H.
    destruct mb1 as [b1|]; inv Ebl.
    assert (KBl : known (w_segs w6) bl) by (eapply extends_known; [exact X6|]; apply K5; auto).
    pose proof A6 as (F6 & _ & AC6 & _).
    assert (KP : oknown (w_segs w6) pv).
    { intros t Ht. subst pv. apply sl_previous_in in Epv. auto. }
    pose proof (update_good _ _ bl pv ks5 F6 KBl KP Eks5) as F7.
    apply with_packets_wf; auto. apply (update_good _ ks5 s2 (Some bl) ks6); auto. intros t Ht. now inv Ht.
  Qed.

  Lemma sweep_loop_wf : forall fuel w w', wf w -> sweep_loop fuel n w = Ok w' -> wf w'.
  Proof.
    induction fuel as [|fuel IH]; intros w w' W H; cbn [sweep_loop] in H; bind H nx En.
    - destruct nx as [[[s e] q]|]; [discriminate|now inv H].
    - destruct nx as [[[s e] q]|]; [|now inv H].
      apply heap_pop_in in En. destruct En as [I1 I2]. pose proof W as (W1 & W2 & W3 & W4).
      bind H w1 Ew1. apply (IH w1 w'); auto.
      assert (Wq : wf (mk_sweep (w_segs w) (w_packets w) q (w_active w) (w_swept w))) by (unfold wf; cbn; auto).
      assert (K : known (w_segs w) s) by exact (W2 _ I1).
      destruct e; [apply (sweep_left_wf _ s w1 Wq K Ew1)|apply (sweep_right_wf _ s w1 Wq K Ew1)].
  Qed.

  Lemma sweep_wf : forall fuel w0 w, add_polygons n 0 polys (mk_sweep [] [] [] [] []) = Ok w0 ->
    sweep_loop fuel n w0 = Ok w -> wf w.
  Proof.
    intros fuel w0 w H1 H2. eapply sweep_loop_wf; eauto. apply (add_polygons_wf polys 0 _ _) in H1; auto.
    unfold wf. cbn. repeat split; auto; contradiction.
  Qed.
End Sweep.
