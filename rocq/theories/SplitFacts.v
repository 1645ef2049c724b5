(** What splitting a segment does to the sweep. *)

From Coq Require Import List ZArith Bool Arith Lia Sorting.Permutation.
From Verif Require Import Base BaseFacts Float Geometry Sweep Contours Compute SpecShape SpecCompute ShapeFacts
  ContainerFacts SweepFacts.
From Verif Require Import SpecSplit.
Import ListNotations.

(** ** Containers, whatever the order does *)

Section Any.
  Context {A : Type} (cmp : A -> A -> outcome comparison).

  Lemma sift_up_perm : forall fuel l pos x l', (pos < length l)%nat -> sift_up cmp fuel l pos x = Ok l' ->
    Permutation l' (set_nth pos x l).
  Proof.
    induction fuel as [|fuel IH]; intros l [|p] x l' L H; cbn [sift_up] in H; try discriminate.
    - inv H. reflexivity.
    - inv H. reflexivity.
    - assert (Q : (p / 2 <= p)%nat) by (apply Nat.div_le_upper_bound; lia).
      bind H y Ey. bind H c Ec. apply index_nat_nth in Ey.
      destruct c; [inv H; reflexivity..|]. apply IH in H.
      + rewrite H. apply set_nth_swap_perm; auto. lia.
      + rewrite set_nth_length; lia.
  Qed.

  Lemma heap_push_perm : forall l x l', heap_push cmp l x = Ok l' -> Permutation l' (x :: l).
  Proof.
    intros l x l' H. unfold heap_push in H. apply sift_up_perm in H; [|rewrite app_length; cbn; lia].
    rewrite H, set_nth_id; [symmetry; apply Permutation_cons_append|].
    rewrite nth_error_app2, Nat.sub_diag by lia. reflexivity.
  Qed.

  Lemma sift_down_perm : forall fuel l pos l' p' x, (pos < length l)%nat -> sift_down cmp fuel l pos = Ok (l', p') ->
    (p' < length l')%nat /\ length l' = length l /\ Permutation (set_nth p' x l') (set_nth pos x l).
  Proof.
    induction fuel as [|fuel IH]; intros l pos l' p' x L H; cbn [sift_down] in H.
    - destruct (_ <=? _)%nat; inv H. auto.
    - destruct (Nat.leb_spec (length l) (2 * pos + 1)); [inv H; auto|]. bind H y Ey. apply index_nat_nth in Ey.
      assert (G : forall v k, (pos < k)%nat -> (k < length l)%nat -> nth_error l k = Some v ->
        sift_down cmp fuel (set_nth pos v l) k = Ok (l', p') ->
        (p' < length l')%nat /\ length l' = length l /\ Permutation (set_nth p' x l') (set_nth pos x l)).
      { intros v k K1 K2 Kv E. apply (IH _ _ _ _ x) in E; [|rewrite set_nth_length; lia].
        destruct E as (E1 & E2 & E3). rewrite set_nth_length in E2 by lia. split; [auto|]. split; [auto|].
        rewrite E3. apply set_nth_swap_perm; auto. lia. }
      destruct (nth_error l (S (2 * pos + 1))) as [z|] eqn:Ez.
      + assert (LZ : (S (2 * pos + 1) < length l)%nat) by (apply nth_error_Some; congruence).
        bind H c Ec. destruct c; (eapply G; [| | |exact H]); auto; lia.
      + eapply G; [| | |exact H]; auto; lia.
  Qed.

  Lemma heap_pop_perm : forall l top l', heap_pop cmp l = Ok (Some (top, l')) -> Permutation l (top :: l').
  Proof.
    intros l top l' H. unfold heap_pop in H.
    destruct (rev l) as [|x r] eqn:Er; [discriminate|].
    assert (El : l = rev r ++ [x]) by (rewrite <- (rev_involutive l), Er; reflexivity).
    destruct (rev r) as [|t rest] eqn:Err; [inv H; reflexivity|].
    bind H q Eqq. destruct q as [l1 pos]. bind H l2 E2. inv H.
    apply (sift_down_perm _ _ _ _ _ x) in Eqq; [|cbn; lia]. destruct Eqq as (P1 & P2 & P3).
    apply sift_up_perm in E2; auto. rewrite E2, P3. change (set_nth 0 x (x :: rest)) with (x :: rest).
    rewrite <- Permutation_cons_append. apply perm_swap.
  Qed.
  Lemma heap_pop_none : forall l, heap_pop cmp l = Ok None -> l = [].
  Proof.
    intros l H. unfold heap_pop in H. destruct (rev l) as [|x r] eqn:Er.
    - rewrite <- (rev_involutive l), Er. reflexivity.
    - destruct (rev r); [discriminate|]. bind H q Eqq. destruct q. bind H l2 E2. discriminate.
  Qed.

  Lemma search_found : forall l x i, binary_search cmp l x = Ok (true, i) ->
    exists t, nth_error l i = Some t /\ cmp t x = Ok Eq.
  Proof.
    intros l x i H. unfold binary_search in H. destruct l as [|a l]; [discriminate|].
    bind H b Eb. bind H e Ee. bind H c Ec. destruct c; inv H. apply index_nat_nth in Ee. eauto.
  Qed.

  Lemma remove_at_split : forall l i (t : A), nth_error l i = Some t -> exists C D, l = C ++ t :: D /\ remove_at i l = C ++ D.
  Proof.
    intros l i t H. apply nth_error_split in H. destruct H as (C & D & -> & <-). exists C, D. split; auto.
    unfold remove_at. rewrite firstn_app, Nat.sub_diag, firstn_all. cbn [firstn]. rewrite app_nil_r. f_equal.
    rewrite skipn_app. replace (S (length C) - length C)%nat with 1%nat by lia. rewrite skipn_all2 by lia. reflexivity.
  Qed.
  Lemma insert_at_split : forall l i (t : A), exists C D, l = C ++ D /\ insert_at i t l = C ++ t :: D.
  Proof. intros l i t. exists (firstn i l), (skipn i l). split; [symmetry; apply firstn_skipn|reflexivity]. Qed.

  Lemma sl_remove_found : forall l x l', sl_remove cmp l x = Ok (true, l') ->
    exists C t D, l = C ++ t :: D /\ l' = C ++ D /\ cmp t x = Ok Eq.
  Proof.
    intros l x l' H. unfold sl_remove in H. bind H r Er. destruct r as [[] ix]; inv H.
    apply search_found in Er. destruct Er as (t & Ht & Hc). apply remove_at_split in Ht.
    destruct Ht as (C & D & -> & E). exists C, t, D. auto.
  Qed.
  Lemma sl_remove_neighbors_cases : forall l x f p q l', sl_remove_neighbors cmp l x = Ok (f, p, q, l') ->
    if f then exists C t D, l = C ++ t :: D /\ l' = C ++ D /\ cmp t x = Ok Eq else l' = l.
  Proof.
    intros l x f p q l' H. unfold sl_remove_neighbors in H. bind H r Er. destruct r as [found ix].
    bind H pr Ep. inv H. destruct f; auto.
    apply search_found in Er. destruct Er as (t & Ht & Hc). apply remove_at_split in Ht.
    destruct Ht as (C & D & -> & E). exists C, t, D. auto.
  Qed.
  Lemma sl_insert_cases : forall l x l', sl_insert cmp l x = Ok l' ->
    (exists t, In t l /\ cmp t x = Ok Eq) \/ exists C D, l = C ++ D /\ l' = C ++ x :: D.
  Proof.
    intros l x l' H. unfold sl_insert in H. bind H r Er. destruct r as [[] ix]; inv H.
    - left. apply search_found in Er. destruct Er as (t & Ht & Hc). exists t. split; auto. eapply nth_error_In; eauto.
    - right. apply insert_at_split.
  Qed.
  Lemma sl_insert_neighbors_cases : forall l x p q l', sl_insert_neighbors cmp l x = Ok (p, q, l') ->
    (exists t, In t l /\ cmp t x = Ok Eq) \/ exists C D, l = C ++ D /\ l' = C ++ x :: D.
  Proof.
    intros l x p q l' H. unfold sl_insert_neighbors in H. bind H r Er. destruct r as [found ix].
    bind H pr Ep. inv H. destruct found.
    - left. apply search_found in Er. destruct Er as (t & Ht & Hc). exists t. split; auto. eapply nth_error_In; eauto.
    - right. apply insert_at_split.
  Qed.
End Any.

(** ** Only a segment itself compares equal to it *)

Lemma fcmp_eq : forall a b, fcmp a b = Ok Eq -> f64_eq a b = true.
Proof.
  intros a b H. unfold fcmp, f64_cmp in H. unfold f64_eq, SpecFloat.SFeqb.
  destruct (SpecFloat.SFcompare a b) as [[]|]; try discriminate; auto.
Qed.
Lemma endpoint_cmp_eq : forall {T} (a b : endpoint T), endpoint_cmp a b = Ok Eq -> point_eqb (ep_point a) (ep_point b) = true.
Proof.
  intros T a b H. unfold endpoint_cmp in H. bind H cx Ex. bind H cy Ey. unfold point_eqb.
  destruct cx; cbn [cmp_then] in H; try discriminate. destruct cy; try discriminate.
  rewrite (fcmp_eq _ _ Ex), (fcmp_eq _ _ Ey). reflexivity.
Qed.
Lemma segment_cmp_eq : forall (a b : bseg), segment_cmp a b = Ok Eq -> s_index a = s_index b.
Proof.
  intros a b H. unfold segment_cmp in H. destruct (Nat.eqb_spec (s_index a) (s_index b)) as [|N]; auto.
  destruct (_ && _).
  - destruct (Nat.compare (s_order a) (s_order b)); try discriminate.
    destruct (point_eqb (s_left a) (s_left b)) eqn:P.
    + destruct (Nat.compare_spec (s_index a) (s_index b)); try discriminate. auto.
    + apply endpoint_cmp_eq in H. cbn [ep_point fst snd] in H. rewrite point_eqb_sym in H. congruence.
  - destruct (point_eqb _ _); [destruct (@below unit a (s_right b)); discriminate|]. bind H c Ec.
    destruct c; match type of H with context [if ?b then _ else _] => destruct b end; discriminate.
Qed.

(** ** Splitting *)

Lemma clear_union : forall n a c, bits_union (bits_clear (repeat false n)) a = Ok c -> c = a.
Proof.
  intros n a c H. unfold bits_clear in H. rewrite repeat_length in H. unfold bits_union in H. rewrite repeat_length in H.
  destruct (Nat.eqb_spec n (length a)) as [->|]; inv H. induction a as [|x a IH]; [reflexivity|]. cbn. now rewrite IH.
Qed.

Lemma sseg_new_order : forall p0 p1 i o (s : bseg), sseg_new p0 p1 i o tt = Ok s -> s_order s = o.
Proof.
  intros p0 p1 i o s H. unfold sseg_new in H. destruct (point_eqb p0 p1); [discriminate|]. destruct (_ || _); now inv H.
Qed.

Theorem split_effect : forall n w s pt l w', split_segment n w s pt = Ok (l, w') ->
  length (w_packets w) = length (w_segs w) -> Forall (filed (w_segs w)) (s :: w_active w) ->
  exists k r packets kl kr,
    nth_error (w_packets w) (s_index s) = Some k
    /\ point_eqb (s_left s) pt = false /\ point_eqb pt (s_right s) = false
    /\ joins l (s_left s) pt /\ joins r pt (s_right s)
    /\ s_order l = k_polygon k /\ s_order r = k_polygon k
    /\ w_segs w' = w_segs w ++ [l; r] /\ Forall (filed (w_segs w')) [l; r]
    /\ w_packets w' = packets ++ [kl; kr]
    /\ Forall2 (redirected (s_index s) (s_index l)) (w_packets w ++ [k]) (packets ++ [kl]) /\ fresh_like k kr
    /\ Permutation (w_queue w') ((l, RightEnd) :: (r, LeftEnd) :: (r, RightEnd) :: w_queue w)
    /\ (exists A B C D, w_active w = A ++ s :: B /\ A ++ B = C ++ D /\ w_active w' = C ++ l :: D)
    /\ w_swept w' = w_swept w.
Proof.
  intros n w s pt l w' H L F. unfold split_segment in H.
  bind H k Ek. bind H ls Els. bind H rs Ers. bind H bl Ebl. bind H br Ebr. bind H fa Efa. destruct fa as [found active].
  destruct found; cbn [negb] in H; [|discriminate].
  bind H act2 Eact. bind H q1 Eq1. bind H q2 Eq2. bind H q3 Eq3. inv H.
  pose proof (sseg_new_order _ _ _ _ _ Els) as OL. pose proof (sseg_new_order _ _ _ _ _ Ers) as OR.
  apply sseg_new_ends in Els. destruct Els as (Lx & Ln & Le). apply sseg_new_ends in Ers. destruct Ers as (Rx & Rn & Re).
  apply clear_union in Ebl. apply clear_union in Ebr. subst bl br.
  pose (fix_below := fun k0 : packet => match k_below k0 with
    | Some i => if (i =? s_index s)%nat then with_below k0 (Some (length (w_segs w))) else k0 | None => k0 end).
  exists k, rs, (map fix_below (w_packets w)), (fix_below k),
    (with_facing (packet_new (k_polygon k) (k_mode k) n) false false (k_left k) (k_right k) None).
  assert (FR : forall a, redirected (s_index s) (s_index l) a (fix_below a)).
  { intros a. unfold redirected, fix_below. rewrite Lx. destruct (k_below a) as [i|] eqn:E.
    - destruct (Nat.eqb_spec i (s_index s)); destruct (Nat.eq_dec i (s_index s)); try contradiction; cbn; repeat split; auto.
    - repeat split; auto. }
  cbn [w_segs w_packets w_queue w_active w_swept].
  split; [apply index_nat_nth; exact Ek|]. split; [exact Ln|]. split; [exact Rn|]. split; [exact Le|]. split; [exact Re|].
  split; [exact OL|]. split; [exact OR|]. split; [reflexivity|].
  split.
  { constructor; [|constructor; [|constructor]]; unfold filed.
    - rewrite Lx, nth_error_app2, Nat.sub_diag by lia. reflexivity.
    - rewrite Rx, nth_error_app2 by lia. replace (S (length (w_segs w)) - length (w_segs w))%nat with 1%nat by lia. reflexivity. }
  split; [rewrite map_app; reflexivity|].
  split.
  { change [fix_below k] with (map fix_below [k]). rewrite <- map_app. clear -FR. induction (w_packets w ++ [k]); cbn; constructor; auto. }
  split; [repeat split|].
  split.
  { rewrite (heap_push_perm _ _ _ _ Eq3), (heap_push_perm _ _ _ _ Eq2), (heap_push_perm _ _ _ _ Eq1).
    change (Permutation ([(rs, RightEnd); (rs, LeftEnd); (l, RightEnd)] ++ w_queue w)
      ([(l, RightEnd); (rs, LeftEnd); (rs, RightEnd)] ++ w_queue w)).
    apply Permutation_app_tail. symmetry. apply (Permutation_rev [(l, RightEnd); (rs, LeftEnd); (rs, RightEnd)]). }
  split; [|reflexivity].
  apply sl_remove_found in Efa. destruct Efa as (A & t & B & EA & -> & Et). apply segment_cmp_eq in Et.
  inversion F as [|? ? Fs FA]; subst. rewrite Forall_forall in FA.
  assert (t = s).
  { assert (Ft : filed (w_segs w) t) by (apply FA; rewrite EA; apply in_elt). unfold filed in *. congruence. }
  subst t. exists A, B.
  apply sl_insert_cases in Eact. destruct Eact as [(t & Ht & Etl)|(C & D & E1 & E2)]; [|exists C, D; auto].
  exfalso. apply segment_cmp_eq in Etl.
  assert (Ft : filed (w_segs w) t) by (apply FA; rewrite EA; rewrite in_app_iff in *; cbn; tauto).
  unfold filed in Ft. rewrite Etl, Lx in Ft. assert (nth_error (w_segs w) (length (w_segs w)) = None) by (apply nth_error_None; lia).
  congruence.
Qed.
