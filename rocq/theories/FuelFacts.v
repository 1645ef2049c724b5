(** Where [compute] can run for ever. *)

From Coq Require Import List ZArith Bool Arith Lia Sorting.Permutation.
From Verif Require Import Base BaseFacts Float Geometry Sweep Contours Compute SpecShape SpecCompute
  ShapeFacts ContainerFacts SweepFacts TraceFacts.
Import ListNotations.

Definition halts {A} (m : outcome A) : Prop := m <> Panic PFuel.

Lemma halts_bind : forall {A B} (m : outcome A) (k : A -> outcome B),
  halts m -> (forall a, m = Ok a -> halts (k a)) -> halts (obind m k).
Proof. intros A B [a|e|p] k Hm Hk; cbn; [now apply Hk|discriminate|intros E; apply Hm; congruence]. Qed.
Lemma halts_ok : forall {A} (a : A), halts (Ok a).
Proof. discriminate. Qed.
Lemma halts_index : forall {A} (l : list A) i, halts (index_nat l i).
Proof. intros A l i. unfold index_nat. destruct (nth_error l i); discriminate. Qed.
Lemma halts_fcmp : forall a b, halts (fcmp a b).
Proof. intros a b. unfold fcmp. destruct (f64_cmp _ _); discriminate. Qed.
Lemma halts_endpoint : forall {T} (a b : endpoint T), halts (endpoint_cmp a b).
Proof.
  intros T a b. unfold endpoint_cmp. apply halts_bind; [apply halts_fcmp|]. intros cx _.
  apply halts_bind; [apply halts_fcmp|]. intros cy _. destruct (cmp_then cx cy); try apply halts_ok.
  destruct (seg_end_eqb _ _); [|apply halts_ok]. apply halts_bind; [apply halts_fcmp|]. intros. apply halts_ok.
Qed.
Lemma halts_segment : forall {T} (a b : sseg T), halts (segment_cmp a b).
Proof.
  intros T a b. unfold segment_cmp. destruct (Nat.eqb _ _); [apply halts_ok|]. destruct (_ && _).
  - destruct (Nat.compare _ _); try apply halts_ok. destruct (if point_eqb _ _ then _ else _); try apply halts_ok.
    apply halts_endpoint.
  - destruct (point_eqb _ _); [apply halts_ok|]. apply halts_bind; [apply halts_endpoint|]. intros [] _; apply halts_ok.
Qed.

Section Any.
  Context {A : Type} (cmp : A -> A -> outcome comparison) (Hc : forall a b, halts (cmp a b)).

  Lemma bs_loop_halts : forall fuel l x base size, (size <= S fuel)%nat -> halts (bs_loop cmp fuel l x base size).
  Proof using Hc.
    induction fuel as [|fuel IH]; intros l x base size L; cbn [bs_loop]; destruct (Nat.leb_spec size 1); try apply halts_ok; [lia|].
    apply halts_bind; [apply halts_index|]. intros e _. apply halts_bind; [apply Hc|]. intros c _. apply IH.
    assert (1 <= size / 2)%nat by (apply Nat.div_le_lower_bound; lia). lia.
  Qed.
  Lemma binary_search_halts : forall l x, halts (binary_search cmp l x).
  Proof using Hc.
    intros l x. unfold binary_search. destruct l as [|y l]; [apply halts_ok|].
    apply halts_bind; [apply bs_loop_halts; lia|]. intros. apply halts_bind; [apply halts_index|]. intros.
    apply halts_bind; [apply Hc|]. intros. apply halts_ok.
  Qed.
  Lemma before_halts : forall (l : list A) i, halts (before l i).
  Proof using . intros l [|i]; cbn; [apply halts_ok|]. apply halts_bind; [apply halts_index|]. intros; apply halts_ok. Qed.
  Lemma sl_remove_halts : forall l x, halts (sl_remove cmp l x).
  Proof using Hc. intros. unfold sl_remove. apply halts_bind; [apply binary_search_halts|]. intros [] _. apply halts_ok. Qed.
  Lemma sl_insert_halts : forall l x, halts (sl_insert cmp l x).
  Proof using Hc. intros. unfold sl_insert. apply halts_bind; [apply binary_search_halts|]. intros [] _. apply halts_ok. Qed.
  Lemma sl_remove_neighbors_halts : forall l x, halts (sl_remove_neighbors cmp l x).
  Proof using Hc.
    intros. unfold sl_remove_neighbors. apply halts_bind; [apply binary_search_halts|]. intros [] _.
    apply halts_bind; [apply before_halts|]. intros. apply halts_ok.
  Qed.
  Lemma sl_insert_neighbors_halts : forall l x, halts (sl_insert_neighbors cmp l x).
  Proof using Hc.
    intros. unfold sl_insert_neighbors. apply halts_bind; [apply binary_search_halts|]. intros [] _.
    apply halts_bind; [apply before_halts|]. intros. apply halts_ok.
  Qed.
  Lemma sl_previous_halts : forall l x, halts (sl_previous cmp l x).
  Proof using Hc.
    intros. unfold sl_previous. apply halts_bind; [apply binary_search_halts|]. intros [[] ix] _; [apply before_halts|apply halts_ok].
  Qed.

  Lemma sift_up_halts : forall fuel l pos x, (pos <= fuel)%nat -> halts (sift_up cmp fuel l pos x).
  Proof using Hc.
    induction fuel as [|fuel IH]; intros l [|p] x L; cbn [sift_up]; try apply halts_ok; [lia|].
    apply halts_bind; [apply halts_index|]. intros y _. apply halts_bind; [apply Hc|]. intros [] _; try apply halts_ok.
    apply IH. assert (p / 2 <= p)%nat by (apply Nat.div_le_upper_bound; lia). lia.
  Qed.
  Lemma heap_push_halts : forall l x, halts (heap_push cmp l x).
  Proof using Hc. intros l x. unfold heap_push. apply sift_up_halts. lia. Qed.
  Lemma sift_down_halts : forall fuel l pos, (length l <= fuel + pos)%nat -> halts (sift_down cmp fuel l pos).
  Proof using Hc.
    induction fuel as [|fuel IH]; intros l pos L; cbn [sift_down]; destruct (Nat.leb_spec (length l) (2 * pos + 1)); try apply halts_ok; [lia|].
    apply halts_bind; [apply halts_index|]. intros y _.
    assert (G : forall v k, (pos < k)%nat -> halts (sift_down cmp fuel (set_nth pos v l) k)).
    { intros v k Hk. apply IH. rewrite set_nth_length by lia. lia. }
    destruct (nth_error l _).
    - apply halts_bind; [apply Hc|]. intros [] _; apply G; lia.
    - apply G; lia.
  Qed.
  Lemma sift_down_pos : forall fuel l pos l' p, (pos < length l)%nat -> sift_down cmp fuel l pos = Ok (l', p) -> (p < length l)%nat.
  Proof using Hc.
    induction fuel as [|fuel IH]; intros l pos l' p L H; cbn [sift_down] in H; destruct (Nat.leb_spec (length l) (2 * pos + 1)) as [G|G];
      try discriminate; try (inv H; lia).
    bind H y Ey.
    assert (D : forall v k, (k < length l)%nat -> sift_down cmp fuel (set_nth pos v l) k = Ok (l', p) -> (p < length l)%nat).
    { intros v k Hk E. apply IH in E; rewrite set_nth_length in *; auto. }
    destruct (nth_error l (S (2 * pos + 1))) eqn:En.
    - apply nth_lt in En. bind H c Ec. destruct c; (eapply D; [|exact H]); lia.
    - eapply D; [|exact H]. lia.
  Qed.
  Lemma heap_pop_halts : forall l, halts (heap_pop cmp l).
  Proof using Hc.
    intros l. unfold heap_pop. destruct (rev l) as [|x r] eqn:Er; [apply halts_ok|].
    assert (El : l = rev r ++ [x]) by (rewrite <- (rev_involutive l), Er; reflexivity).
    destruct (rev r) as [|t rest]; [apply halts_ok|].
    assert (Ll : length l = S (S (length rest))) by (rewrite El, app_length; cbn; lia).
    apply halts_bind; [apply sift_down_halts; cbn [length]; lia|]. intros [l' pos] E.
    apply (sift_down_pos) in E; [|cbn; lia]. cbn [length] in E.
    apply halts_bind; [apply sift_up_halts; lia|]. intros. apply halts_ok.
  Qed.
End Any.

(** ** The sweep *)

Lemma halts_union : forall a b, halts (bits_union a b).
Proof. intros. unfold bits_union. destruct (_ =? _)%nat; discriminate. Qed.
Lemma halts_set : forall a i b, halts (bits_set a i b).
Proof. intros. unfold bits_set. destruct (_ <? _)%nat; discriminate. Qed.
Lemma halts_sseg : forall {T} p q i o (d : T), halts (sseg_new p q i o d).
Proof. intros. unfold sseg_new. destruct (point_eqb _ _); [discriminate|]. destruct (_ || _); discriminate. Qed.
Lemma halts_unwrap : forall {A} (o : option A), halts (unwrap o).
Proof. intros A [a|]; discriminate. Qed.
Lemma halts_points : forall p q, halts (compare_points p q).
Proof.
  intros. unfold compare_points. apply halts_bind; [apply halts_fcmp|]. intros. apply halts_bind; [apply halts_fcmp|].
  intros. apply halts_ok.
Qed.

Ltac halt := repeat first
  [ apply halts_ok | apply halts_index | apply halts_union | apply halts_set | apply halts_sseg | apply halts_unwrap
  | apply halts_points | apply halts_endpoint | apply halts_segment
  | apply heap_push_halts; apply halts_endpoint | apply heap_pop_halts; apply halts_endpoint
  | apply sl_remove_halts; apply halts_segment | apply sl_insert_halts; apply halts_segment
  | apply sl_remove_neighbors_halts; apply halts_segment | apply sl_insert_neighbors_halts; apply halts_segment
  | apply sl_previous_halts; apply halts_segment
  | (unfold get_packet; apply halts_index)
  | (apply halts_bind; [|intros]) ].

Lemma update_halts : forall ks s b, halts (update_polygon_facing ks s b).
Proof.
  intros ks s b. unfold update_polygon_facing. halt. destruct b as [b|].
  - destruct (_ =? _)%nat; [discriminate|]. halt. destruct (_ =? _)%nat; halt. destruct a1. halt.
  - halt.
Qed.
Ltac halt_upd := repeat first [apply update_halts | apply halts_ok | apply halts_unwrap | apply sl_previous_halts; apply halts_segment | (apply halts_bind; [|intros])].
Lemma handle_halts : forall ks a b, halts (handle_intersections ks a b).
Proof.
  intros ks [s1|] [s2|]; cbn [handle_intersections]; halt.
  destruct (intersect_segments _ _); halt.
  - destruct (_ || _); halt.
  - destruct (_ =? _)%nat; [discriminate|]. halt. destruct (point_eqb _ _); halt.
    destruct a1; halt. discriminate.
Qed.
Lemma split_halts : forall n w s p, halts (split_segment n w s p).
Proof.
  intros. unfold split_segment. halt. destruct a4 as [[] active]; cbn [negb]; [|discriminate]. halt.
Qed.
Lemma maybe_split_halts : forall n w s p, halts (maybe_split n w s p).
Proof. intros n w s [p|]; cbn; [apply split_halts|apply halts_ok]. Qed.
Lemma maybe_split_opt_halts : forall n w s p, halts (maybe_split_opt n w s p).
Proof.
  intros n w [s|] [p|]; cbn; try discriminate; try apply halts_ok. apply halts_bind; [apply split_halts|]. intros [] _. apply halts_ok.
Qed.
Lemma sweep_right_halts : forall n w s, halts (sweep_right n w s).
Proof.
  intros. unfold sweep_right. halt. destruct a as [[[f b] a] ac]. destruct f; halt. destruct a; halt. destruct b; halt.
  { apply handle_halts. }
  destruct a as [[[m c1] c2] ks]. apply halts_bind; [apply maybe_split_halts|]. intros [] _.
  apply halts_bind; [apply maybe_split_halts|]. intros [] _. halt.
Qed.
Lemma sweep_left_halts : forall n w s, halts (sweep_left n w s).
Proof.
  intros. unfold sweep_left. halt. destruct a as [[b a] ac].
  apply halts_bind; [apply update_halts|]. intros ks _. apply halts_bind; [apply handle_halts|]. intros [[[m c1] c2] ks1] _.
  apply halts_bind; [apply maybe_split_halts|]. intros [s1 w1] _. apply halts_bind; [apply maybe_split_opt_halts|]. intros [ma w2] _.
  apply halts_bind.
  { destruct (_ =? _)%nat; halt_upd. }
  intros w3 _. apply halts_bind; [apply handle_halts|]. intros [[[m2 c3] c4] ks2] _.
  apply halts_bind; [apply maybe_split_opt_halts|]. intros [mb w4] _. apply halts_bind; [apply maybe_split_halts|]. intros [s2 w5] _.
  destruct (_ =? _)%nat; halt_upd.
Qed.

Lemma sweep_loop_fuel : forall fuel n w, sweep_loop fuel n w = Panic PFuel ->
  exists w', sweeps n fuel w w' /\ exists x, heap_pop endpoint_cmp (w_queue w') = Ok (Some x).
Proof.
  induction fuel as [|fuel IH]; intros n w H; cbn [sweep_loop] in H;
    (destruct (heap_pop endpoint_cmp (w_queue w)) as [nx|e|p] eqn:En; cbn [obind] in H;
     [|discriminate|exfalso; apply (heap_pop_halts endpoint_cmp halts_endpoint (w_queue w)); rewrite En; congruence]).
  - exists w. split; [constructor|]. destruct nx as [x|]; [eauto|discriminate].
  - destruct nx as [[[s e] q]|]; [|discriminate].
    match type of H with obind ?m _ = _ => destruct m as [w1|er|p] eqn:E1 end; cbn [obind] in H; try discriminate.
    + destruct (IH n w1 H) as (w' & S1 & X). exists w'. split; [|exact X]. eapply s_event; eauto.
    + exfalso. inv H. destruct e; [eapply sweep_left_halts; eauto|eapply sweep_right_halts; eauto].
Qed.

Lemma sweep_loop_more : forall f f' n w r, sweep_loop f n w = r -> r <> Panic PFuel -> (f <= f')%nat -> sweep_loop f' n w = r.
Proof.
  induction f as [|f IH]; intros f' n w r H N L; cbn [sweep_loop] in H.
  - destruct f'; cbn [sweep_loop]; destruct (heap_pop endpoint_cmp (w_queue w)) as [nx|e|p]; cbn [obind] in *; auto;
      destruct nx as [[[s e] q]|]; auto; congruence.
  - destruct f' as [|f']; [lia|]. cbn [sweep_loop]. destruct (heap_pop endpoint_cmp (w_queue w)) as [nx|e|p]; cbn [obind] in *; auto.
    destruct nx as [[[s e] q]|]; auto.
    match type of H with obind ?m _ = _ => destruct m as [w1|er|p] eqn:E1 end; cbn [obind] in *; auto.
    apply IH; auto. lia.
Qed.

Lemma ofold_halts : forall {A S} (f : S -> A -> outcome S) l s, (forall s x, halts (f s x)) -> halts (ofold f l s).
Proof.
  intros A S f l. induction l as [|x l IH]; intros s H; cbn [ofold]; [apply halts_ok|]. apply halts_bind; auto.
Qed.
Lemma add_edge_halts : forall n i mode w e, halts (add_edge n i mode w e).
Proof. intros n i mode w [p q]. unfold add_edge. destruct (point_eqb _ _); halt. Qed.
Lemma add_polygons_halts : forall n l i w, halts (add_polygons n i l w).
Proof.
  intros n l. induction l as [|[p m] l IH]; intros i w; cbn [add_polygons]; [apply halts_ok|].
  apply halts_bind; [|intros; apply IH]. apply ofold_halts. intros. apply ofold_halts. intros. apply add_edge_halts.
Qed.

(** ** The trace *)

Section Pending.
  Variable included : list bend.

  Definition pending (ks : list packet) : nat :=
    length (filter (fun e => match is_processed ks e with Ok true => false | _ => true end) included).

  Lemma processed_spec : forall ks s e, is_processed ks (s, e) =
    match nth_error ks (s_index s) with Some k => Ok (side_done k e) | None => Panic PIndex end.
  Proof using .
    intros ks s e. unfold is_processed, get_packet, index_nat. cbn [fst]. destruct (nth_error ks (s_index s)); cbn; [|reflexivity].
    destruct e; reflexivity.
  Qed.

  Lemma filter_len : forall (f g : bend -> bool) l, (forall x, g x = true -> f x = true) ->
    (length (filter g l) <= length (filter f l))%nat.
  Proof using .
    intros f g l H. induction l as [|x l IH]; cbn; [lia|]. specialize (H x). destruct (g x), (f x); cbn; intuition (try discriminate; try lia).
  Qed.
  Lemma filter_less : forall (f g : bend -> bool) l x, (forall x, g x = true -> f x = true) -> In x l -> f x = true -> g x = false ->
    (length (filter g l) < length (filter f l))%nat.
  Proof using .
    intros f g l x H. induction l as [|y l IH]; intros Hin Hf Hg; [destruct Hin|]. cbn. destruct Hin as [->|Hin].
    - rewrite Hf, Hg. cbn. pose proof (filter_len f g l H). lia.
    - specialize (IH Hin Hf Hg). specialize (H y). destruct (g y), (f y); cbn; intuition (try discriminate; try lia).
  Qed.

  Definition mark (ks : list packet) (e : bend) (k : packet) (cid : nat) : list packet :=
    put_packet ks (fst e) (with_done k (snd e) cid).

  Lemma mark_stays : forall ks e k cid x, nth_error ks (s_index (fst e)) = Some k ->
    is_processed (mark ks e k cid) x <> Ok true -> is_processed ks x <> Ok true.
  Proof using .
    intros ks [s e] k cid [t d] Ek H. rewrite processed_spec in *. unfold mark, put_packet in H. cbn [fst snd] in *.
    pose proof (nth_lt _ _ _ Ek) as L. destruct (Nat.eq_dec (s_index s) (s_index t)) as [E|E].
    - rewrite <- E in *. rewrite nth_set_same in H by auto. rewrite Ek. intros X. inv X. apply H.
      f_equal. destruct e, d; cbn in *; auto.
    - rewrite nth_set_other in H by auto. exact H.
  Qed.
  Lemma mark_done : forall ks e k cid, nth_error ks (s_index (fst e)) = Some k -> is_processed (mark ks e k cid) e = Ok true.
  Proof using .
    intros ks [s e] k cid Ek. rewrite processed_spec. unfold mark, put_packet. cbn [fst snd] in *.
    rewrite nth_set_same by (eapply nth_lt; eauto). destruct e; reflexivity.
  Qed.

  Definition isp (ks : list packet) (e : bend) : bool := match is_processed ks e with Ok true => false | _ => true end.
  Lemma isp_true : forall ks e, isp ks e = true <-> is_processed ks e <> Ok true.
  Proof using . intros ks e. unfold isp. destruct (is_processed ks e) as [[]|er|p]; split; intros; try discriminate; try congruence; auto. Qed.

  Lemma pending_less : forall ks e k cid, In e included -> nth_error ks (s_index (fst e)) = Some k ->
    is_processed ks e = Ok false -> (pending (mark ks e k cid) < pending ks)%nat.
  Proof using .
    intros ks e k cid Hin Ek Ed. unfold pending. apply filter_less with (x := e); auto.
    - intros x Hx. apply isp_true. apply isp_true in Hx. eapply mark_stays; eauto.
    - now rewrite Ed.
    - now rewrite mark_done.
  Qed.

  Lemma find_next_halts : forall ks cur, halts (find_next_segment ks cur included).
  Proof using .
    intros ks cur. unfold find_next_segment. apply halts_bind.
    - generalize included. induction included0 as [|e l IH]; cbn [seek_point]; [discriminate|]. destruct (point_eqb _ _); [discriminate|exact IH].
    - intros l _. apply halts_bind.
      + generalize (f64_nan, @None bend, false). revert l. induction l as [|e l IH]; intros b; cbn [scan_ends]; [apply halts_ok|].
        apply halts_bind. { destruct e. rewrite processed_spec. destruct (nth_error _ _); discriminate. }
        intros [] _; [apply IH|]. halt. destruct a; [apply IH| |]; (halt; destruct a; [apply IH| |]; (destruct (point_eqb _ _); [apply IH|apply halts_ok])).
      + intros [[d [c|]] b] _; discriminate.
  Qed.

  Lemma trace_loop_halts : forall fuel cid start cur c ks,
    (forall k, nth_error ks (s_index (fst cur)) = Some k -> (2 + pending (mark ks cur k cid) <= fuel)%nat) ->
    (1 <= fuel)%nat -> halts (trace_loop fuel included cid start cur c ks).
  Proof using .
    induction fuel as [|fuel IH]; intros cid start cur c ks L L1; [lia|]. cbn [trace_loop].
    apply halts_bind; [apply halts_index|]. intros k Ek. apply index_nat_nth in Ek. specialize (L k Ek).
    apply halts_bind; [apply halts_union|]. intros from _. destruct (point_eqb _ _); [apply halts_ok|].
    apply halts_bind; [apply find_next_halts|]. intros nx En. apply find_next_in in En. destruct En as (I1 & I2 & I3).
    apply IH; [|lia]. intros k' Ek'. fold (mark ks cur k cid) in *.
    pose proof (pending_less (mark ks cur k cid) nx k' cid I1 Ek' I3). lia.
  Qed.

  Lemma pending_le : forall ks, (pending ks <= length included)%nat.
  Proof using .
    intros ks. unfold pending. generalize (fun e : bend => match is_processed ks e with Ok true => false | _ => true end).
    intros f. induction included as [|e l IH]; cbn; [lia|]. destruct (f e); cbn; lia.
  Qed.

  Lemma trace_one_halts : forall segs st e, halts (trace_one segs included st e).
  Proof using .
    intros segs [ks final] [s e]. unfold trace_one. apply halts_bind.
    { rewrite processed_spec. destruct (nth_error _ _); discriminate. }
    intros [] _; [apply halts_ok|]. apply halts_bind; [apply halts_index|]. intros k Ek. apply halts_bind; [apply halts_index|].
    intros cur Ecur. apply halts_bind.
    - apply trace_loop_halts; [|lia]. intros k' _. pose proof (pending_le (mark ks cur k' (length final))). lia.
    - intros [[c ks1] cur1] _. apply halts_bind.
      { unfold clockwise. destruct (c_cache c); [discriminate|]. destruct (c_points c); discriminate. }
      intros [[] c1] _; [|apply halts_ok]. halt. destruct (k_below _); halt; unfold update_nat; halt.
  Qed.
End Pending.

Lemma assign_indexes_halts : forall l i ks, halts (assign_indexes i l ks).
Proof. induction l as [|[s e] l IH]; intros; cbn [assign_indexes]; halt. apply IH. Qed.
Lemma assign_neighbors_halts : forall ks r e, halts (assign_neighbors ks r e).
Proof.
  intros. unfold assign_neighbors. halt. destruct (k_right_contour a); halt. destruct (k_left_contour a); halt; unfold update_nat; halt.
Qed.
Lemma include_all_halts : forall m ks l, halts (include_all m ks l).
Proof.
  intros. unfold include_all. apply halts_bind; [|intros; apply halts_ok].
  induction l as [|s l IH]; cbn [omap]; [apply halts_ok|]. apply halts_bind.
  - unfold include_one. halt. destruct (negb _); halt. destruct (_ && _); halt.
  - intros a _. apply halts_bind; [exact IH|]. intros. apply halts_ok.
Qed.

(** ** The whole *)

Lemma compute_fuel : forall std fuel polys op, std_laws std -> compute std fuel polys op = Panic PFuel ->
  exists w0 w, add_polygons (length polys) 0 polys (mk_sweep [] [] [] [] []) = Ok w0
    /\ sweeps (length polys) fuel w0 w /\ exists x, heap_pop endpoint_cmp (w_queue w) = Ok (Some x).
Proof.
  intros std fuel polys op SL H. unfold compute in H.
  destruct (add_polygons (length polys) 0 polys _) as [w0|e|p] eqn:E0; cbn [obind] in H; [|discriminate|].
  2:{ exfalso. inv H. eapply add_polygons_halts; eauto. }
  destruct (sweep_loop fuel (length polys) w0) as [w|e|p] eqn:E1; cbn [obind] in H; [|discriminate|].
  2:{ inv H. exists w0. destruct (sweep_loop_fuel _ _ _ E1) as (w & A & B). eauto. }
  exfalso. revert H. fold (@halts polygon).
  match goal with |- ?m = _ -> False => change (halts m) end.
  apply halts_bind; [apply include_all_halts|]. intros [ss es] _.
  apply halts_bind.
  { intros E. apply (sort_panic _ SL) in E. destruct E as (a & b & _ & _ & E). now apply halts_segment in E. }
  intros _ _. apply halts_bind.
  { intros E. apply (sort_panic _ SL) in E. destruct E as (a & b & _ & _ & E). now apply halts_endpoint in E. }
  intros included _. apply halts_bind; [apply assign_indexes_halts|]. intros ks _.
  apply halts_bind; [apply ofold_halts; intros; apply trace_one_halts|]. intros [ks1 final] _.
  apply ofold_halts. intros. apply assign_neighbors_halts.
Qed.

Lemma compute_more : forall std f f' polys op r, compute std f polys op = r -> r <> Panic PFuel -> (f <= f')%nat ->
  compute std f' polys op = r.
Proof.
  intros std f f' polys op r H N L. unfold compute in *.
  destruct (add_polygons (length polys) 0 polys _) as [w0|e|p]; cbn [obind] in *; auto.
  destruct (sweep_loop f (length polys) w0) as [w|e|p] eqn:E1; cbn [obind] in H.
  - rewrite (sweep_loop_more f f' _ _ _ E1); auto. discriminate.
  - rewrite (sweep_loop_more f f' _ _ _ E1); auto. discriminate.
  - rewrite (sweep_loop_more f f' _ _ _ E1); auto. congruence.
Qed.
