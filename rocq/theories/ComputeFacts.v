(** What [compute] returns. *)

From Coq Require Import List ZArith Bool Arith Lia Sorting.Permutation.
From Verif Require Import Base BaseFacts Float Geometry Sweep Contours Compute SpecShape SpecCompute
  ShapeFacts OrientFacts ContainerFacts SweepFacts TraceFacts.
Import ListNotations.

Section Trace.
  Variable polys : input.
  Variable segs : list bseg.
  Variable ks0 : list packet.
  Hypothesis F0 : Forall2 (good polys) segs ks0.

  Definition traced (st : list packet * polygon) : Prop :=
    Forall2 static ks0 (fst st) /\ (forall c, In c (snd st) -> contour_ok polys c) /\ holes_ok (snd st)
    /\ marked polys segs (fst st) (snd st).

  (** Contours with the same points, sources and neighbours. *)
  Definition like (c c' : contour) : Prop :=
    c_points c' = c_points c /\ c_from c' = c_from c /\ c_neighbors c' = c_neighbors c.

  Lemma like_ok : forall c c', like c c' -> contour_ok polys c -> contour_ok polys c'.
  Proof using . intros c c' (A & B & C) H. unfold contour_ok in *. rewrite A, B, C. exact H. Qed.

  Lemma marked_like : forall ks l l', Forall2 like l l' -> marked polys segs ks l -> marked polys segs ks l'.
  Proof using .
    intros ks l l' F M s k e c Ks Ek Ec. destruct (M s k e c Ks Ek Ec) as (A & ct & B & D). split; [auto|].
    destruct (nth_error l' c) as [ct'|] eqn:E.
    - exists ct'. split; auto. pose proof (Forall2_nth _ _ _ _ _ _ F B E) as (P & _). rewrite P. exact D.
    - apply nth_error_None in E. apply Forall2_len in F. apply nth_lt in B. lia.
  Qed.
  Lemma like_refl : forall l, Forall2 like l l.
  Proof using . induction l; constructor; auto. unfold like. auto. Qed.
  Lemma like_set : forall l i c c', nth_error l i = Some c -> like c c' -> Forall2 like l (set_nth i c' l).
  Proof using . intros l i c c' H L. eapply Forall2_set; eauto using like_refl. Qed.
  Lemma like_all : forall l l', Forall2 like l l' -> (forall c, In c l -> contour_ok polys c) ->
    forall c, In c l' -> contour_ok polys c.
  Proof using .
    intros l l' F. induction F as [|x y l l' L F IH]; intros Hl c' Hc; [destruct Hc|]. destruct Hc as [<-|Hc].
    - eapply like_ok; eauto. apply Hl. cbn. auto.
    - apply IH; auto. intros c Hin. apply Hl. cbn. auto.
  Qed.
  Lemma like_trans : forall l m r, Forall2 like l m -> Forall2 like m r -> Forall2 like l r.
  Proof using .
    intros l m r F. revert r. induction F; intros r G; inversion G; subst; constructor; auto.
    unfold like in *. intuition congruence.
  Qed.

  Lemma trace_one_traced : forall included st e st', (forall x, In x included -> inc polys segs ks0 x) -> In e included ->
    traced st -> trace_one segs included st e = Ok st' -> traced st'.
  Proof using F0.
    intros included [ks final] e st' HI He (T1 & T2 & T3 & T4) H. cbn [fst snd] in T1, T2, T3, T4. unfold trace_one in H.
    bind H done Ed. destruct done; [inv H; unfold traced; auto|].
    destruct e as [s end_]. bind H k Ek. bind H cur Ecur. bind H r Er. destruct r as [[c ks1] cur1].
    pose proof (HI _ He) as (Ks & k0 & Ek0 & _ & Sk0). cbn [fst snd] in Ks, Ek0, Sk0.
    apply index_nat_nth in Ek. assert (Sk : static k0 k) by (eapply Forall2_nth; eauto).
    apply (trace_loop_spec polys segs ks0 F0 1) in Er; auto.
    2:{ apply HI. eapply index_nat_in; eauto. }
    2:{ change (from_ok polys (side k end_)). rewrite (static_side k0 k); auto. }
    2:{ intros a Hl. cbn in Hl. lia. }
    destruct Er as (S1 & S2 & S3 & S4 & S5 & S6 & S7 & (ps & S8) & S9 & S10).
    cbn [c_holes c_neighbors c_external c_cache c_points contour_add set_points set_from contour_new app length] in S4, S5, S6, S7, S8, S9.
    assert (NE : c_points c <> []) by (rewrite S8; discriminate).
    assert (KP : kept_piece polys (s_left s) (s_right s)).
    { pose proof (inc_piece polys segs ks0 F0 _ (HI _ He)) as (i & m & D & Hm). cbn in D. exists i, m. split; [|exact Hm].
      destruct end_; cbn in D; [exact D|apply d_swap; exact D]. }
    assert (OK : contour_ok polys c).
    { split; [exact S3|]. split; [exact S5|]. split; [|intros j a b Hj; apply S9; lia].
      intros p Hp. apply In_nth_error in Hp. destruct Hp as [[|j] Hj].
      - rewrite S8 in Hj. cbn in Hj. inv Hj. exists (s_left s), (s_right s). split; [exact KP|left; reflexivity].
      - pose proof (nth_lt _ _ _ Hj) as Lj.
        destruct (nth_error_lt (c_points c) (S (S j) mod length (c_points c))) as [b Hb].
        { apply Nat.mod_upper_bound. lia. }
        destruct (S9 (S j) p b) as (a' & b' & KP' & SA & _); [lia|lia|split; auto|].
        exists a', b'. auto. }
    destruct (clockwise_fresh c S7 NE) as (cw & Ecw & Ocw).
    bind H q Eq0. rewrite Ecw in Eq0. inv Eq0.
    set (c2 := set_cache c (Some cw)) in *.
    assert (OK2 : contour_ok polys c2) by exact OK.
    assert (P1 : holes_ok (final ++ [c2])) by (apply holes_push; auto).
    assert (M1 : marked polys segs ks1 (final ++ [c2])).
    { intros t k1 e1 ci Kt Ek1 Eci.
      destruct (nth_error ks (s_index t)) as [kt|] eqn:Ekt.
      2:{ apply nth_error_None in Ekt. apply Forall2_len in S1. apply Forall2_len in T1. apply nth_lt in Ek1. lia. }
      destruct (S10 t kt k1 e1 Kt Ekt Ek1) as [B|[B1 B2]].
      - rewrite B in Eci. destruct (T4 t kt e1 ci Kt Ekt Eci) as (A & ct & B1 & B2). split; [auto|].
        exists ct. split; auto. rewrite nth_error_app1; auto. eapply nth_lt; eauto.
      - rewrite B1 in Eci. inv Eci. destruct B2 as [B2 B3]. split; [exact B2|].
        exists c2. split; [|exact B3]. rewrite nth_error_app2, Nat.sub_diag by lia. reflexivity. }
    assert (A1 : forall x, In x (final ++ [c2]) -> contour_ok polys x).
    { intros x Hx. apply in_app_or in Hx. destruct Hx as [Hx|[<-|[]]]; auto. }
    destruct cw; [|inv H; unfold traced; auto].
    bind H kl Ekl. destruct (k_below kl) as [bid|]; [|inv H; unfold traced; auto].
    bind H bsg Ebs. bind H bk Ebk. bind H pid Epar. bind H f1 Ef1. bind H f2 Ef2. inv H.
    apply update_nat_ok in Ef1. destruct Ef1 as (cp & cp' & N1 & N2 & ->). inv N2.
    apply update_nat_ok in Ef2. destruct Ef2 as (ch & ch' & N3 & N4 & ->). inv N4.
    set (cid := length final) in *.
    assert (L1 : Forall2 like (final ++ [c2]) (set_nth pid (add_hole cp cid) (final ++ [c2]))).
    { eapply like_set; eauto. unfold like. auto. }
    assert (L2 : Forall2 like (final ++ [c2]) (set_nth cid (set_external ch false) (set_nth pid (add_hole cp cid) (final ++ [c2])))).
    { eapply like_trans; [exact L1|]. eapply like_set; eauto. unfold like. auto. }
    assert (Ec2 : nth_error (final ++ [c2]) cid = Some c2).
    { unfold cid. rewrite nth_error_app2, Nat.sub_diag by lia. reflexivity. }
    assert (Pch : c_points ch = c_points c2) by exact (proj1 (Forall2_nth _ _ _ _ _ _ L1 Ec2 N3)).
    unfold traced. cbn [fst snd]. split; [exact S1|]. split; [eapply like_all; eauto|]. split; [|eapply marked_like; eauto].
    eapply (holes_add (final ++ [c2]) pid cp cid); eauto.
    - apply nth_lt in N1. rewrite app_length in N1. cbn in N1. unfold cid. lia.
    - intros i x Hi Hin. destruct (Nat.lt_ge_cases i (length final)) as [Li|Li].
      + rewrite nth_error_app1 in Hi by auto. destruct T3 as (_ & T3 & _). destruct (T3 i x cid Hi Hin) as (_ & y & Hy & _).
        apply nth_lt in Hy. unfold cid in Hy. lia.
      + rewrite nth_error_app2 in Hi by auto. destruct (i - length final)%nat as [|[|m]]; cbn in Hi; try discriminate.
        inv Hi. cbn in Hin. rewrite S4 in Hin. destruct Hin.
    - rewrite Pch. exact Ocw.
  Qed.

  Lemma trace_all : forall included ks ks' final, (forall x, In x included -> inc polys segs ks0 x) ->
    Forall2 static ks0 ks -> (forall k, In k ks -> clean k) ->
    ofold (trace_one segs included) included (ks, []) = Ok (ks', final) -> traced (ks', final).
  Proof using F0.
    intros included ks ks' final HI HS HC H. revert H. apply ofold_inv.
    - unfold traced. cbn [fst snd]. split; [exact HS|]. split; [contradiction|]. split.
      + split; [constructor|]. split; intros i c; destruct i; discriminate.
      + intros s k e c Ks Ek Ec. apply nth_error_In in Ek. destruct (HC k Ek e) as [_ Hn]. congruence.
    - intros e s s' He. apply trace_one_traced; auto.
  Qed.
End Trace.

(** ** Neighbours *)

Section Neighbors.
  Variable polys : input.
  Variable segs : list bseg.
  Variable ks : list packet.

  Definition shares (r : polygon) (i j : nat) : Prop :=
    exists p q ci cj, kept_piece polys p q /\ nth_error r i = Some ci /\ nth_error r j = Some cj
      /\ passes 1 (c_points ci) p q /\ passes 1 (c_points cj) q p.
  Definition all_but (c c' : contour) : Prop :=
    c_points c' = c_points c /\ c_from c' = c_from c /\ c_holes c' = c_holes c /\ c_external c' = c_external c.
  Definition nb (r : polygon) (i j : nat) : option bool :=
    match nth_error r i with Some c => nth_error (c_neighbors c) j | None => None end.

  Definition nbs (r0 r : polygon) : Prop :=
    Forall2 all_but r0 r /\ neighbors_ok r /\ (forall i j, nb r i j = Some true -> shares r0 i j).

  Lemma all_but_refl : forall l, Forall2 all_but l l.
  Proof using . induction l; constructor; auto. unfold all_but. auto. Qed.
  Lemma all_but_trans : forall l m r, Forall2 all_but l m -> Forall2 all_but m r -> Forall2 all_but l r.
  Proof using .
    intros l m r F. revert r. induction F; intros r G; inversion G; subst; constructor; auto.
    unfold all_but in *. intuition congruence.
  Qed.

  Lemma shares_sym : forall r i j, shares r i j -> shares r j i.
  Proof using .
    intros r i j (p & q & ci & cj & (x & m & D & M) & A & B & C & E). exists q, p, cj, ci.
    split; [exists x, m; split; [apply d_swap|]; auto|]. auto.
  Qed.

  Lemma set_bit : forall r r' l x, (forall c, In c r -> length (c_neighbors c) = length r) ->
    update_nat r l (fun c => let* b := bits_set (c_neighbors c) x true in Ok (set_neighbors c b)) = Ok r' ->
    Forall2 all_but r r' /\ length r' = length r /\ (forall c, In c r' -> length (c_neighbors c) = length r)
    /\ (l < length r)%nat /\ (x < length r)%nat
    /\ (forall i j, nb r' i j = if Nat.eqb i l && Nat.eqb j x then Some true else nb r i j).
  Proof using .
    intros r r' l x HL H. apply update_nat_ok in H. destruct H as (c & c' & N1 & N2 & ->).
    bind N2 b Eb. inv N2. pose proof (bits_set_len _ _ _ _ Eb) as [B1 B2].
    pose proof (nth_lt _ _ _ N1) as Ll. pose proof (HL c (nth_error_In _ _ N1)) as Lc.
    split; [eapply Forall2_set; [apply all_but_refl|exact N1|unfold all_but; auto]|].
    split; [apply set_nth_length; auto|]. split.
    { intros y Hy. apply in_set_nth in Hy. destruct Hy as [->|Hy]; [cbn; lia|auto]. }
    split; [auto|]. split; [lia|].
    intros i j. unfold nb. destruct (Nat.eqb_spec i l) as [->|Ni]; cbn [andb].
    - rewrite nth_set_same by auto. rewrite N1. cbn.
      unfold bits_set in Eb. destruct (_ <? _)%nat; inv Eb.
      destruct (Nat.eqb_spec j x) as [->|Nj]; [apply nth_set_same; lia|apply nth_set_other; [lia|auto]].
    - rewrite nth_set_other; auto.
  Qed.

  Lemma nb_sym_ok : forall r, (forall c, In c r -> length (c_neighbors c) = length r) ->
    (forall i j, (i < length r)%nat -> (j < length r)%nat -> nb r i j = nb r j i) -> neighbors_ok r.
  Proof using .
    intros r HL HS. split; [exact HL|]. intros i j ci cj Hi Hj.
    specialize (HS i j (nth_lt _ _ _ Hi) (nth_lt _ _ _ Hj)). unfold nb in HS. now rewrite Hi, Hj in HS.
  Qed.
  Lemma nb_ok_sym : forall r i j, neighbors_ok r -> nb r i j = nb r j i.
  Proof using .
    intros r i j [A B]. unfold nb. destruct (nth_error r i) as [ci|] eqn:Ei; destruct (nth_error r j) as [cj|] eqn:Ej; auto.
    - apply nth_error_None in Ej. apply nth_error_None. apply nth_error_In in Ei. rewrite (A _ Ei). exact Ej.
    - apply nth_error_None in Ei. symmetry. apply nth_error_None. apply nth_error_In in Ej. rewrite (A _ Ej). exact Ei.
  Qed.

  Lemma assign_neighbors_nbs : forall r0 r e r', known segs (fst e) -> marked polys segs ks r0 ->
    nbs r0 r -> assign_neighbors ks r e = Ok r' -> nbs r0 r'.
  Proof using .
    intros r0 r e r' K M (A & B & C) H. unfold assign_neighbors in H. bind H k Ek. apply index_nat_nth in Ek.
    destruct (k_right_contour k) as [cr|] eqn:ER; [|inv H; unfold nbs; auto].
    destruct (k_left_contour k) as [cl|] eqn:EL; [|inv H; unfold nbs; auto].
    bind H r1 E1.
    destruct (set_bit r r1 cl cr (proj1 B) E1) as (D1 & D2 & D3 & D4 & D5 & D6).
    rewrite <- D2 in D3. destruct (set_bit r1 r' cr cl D3 H) as (G1 & G2 & G3 & G4 & G5 & G6).
    split; [eapply all_but_trans; [|exact G1]; eapply all_but_trans; eauto|]. split.
    - apply nb_sym_ok; [rewrite G2; exact G3|]. intros i j _ _. rewrite !G6, !D6, (nb_ok_sym r i j B).
      destruct (Nat.eqb i cr), (Nat.eqb j cl), (Nat.eqb i cl), (Nat.eqb j cr); reflexivity.
    - assert (S : shares r0 cl cr).
      { destruct (M (fst e) k LeftEnd cl K Ek EL) as (P1 & c1 & P2 & P3).
        destruct (M (fst e) k RightEnd cr K Ek ER) as (_ & c2 & P5 & P6).
        exists (s_left (fst e)), (s_right (fst e)), c1, c2. cbn in *. auto. }
      intros i j. rewrite G6, D6. destruct (Nat.eqb i cr && Nat.eqb j cl) eqn:E2.
      { intros _. apply andb_prop in E2. destruct E2 as [Q1 Q2]. apply Nat.eqb_eq in Q1, Q2. subst. apply shares_sym, S. }
      destruct (Nat.eqb i cl && Nat.eqb j cr) eqn:E3; [|apply C].
      intros _. apply andb_prop in E3. destruct E3 as [Q1 Q2]. apply Nat.eqb_eq in Q1, Q2. subst. exact S.
  Qed.
End Neighbors.

(** ** The whole *)

Lemma passes_runs : forall l p q, passes 1 l p q -> runs_along l p q.
Proof. intros l p q (k & a & b & A & B & C). exists k, a, b. split; auto. split; auto. intros N. apply C. lia. Qed.

Lemma shares_share : forall polys r0 r i j, Forall2 all_but r0 r -> shares polys r0 i j -> share_piece polys r i j.
Proof.
  intros polys r0 r i j F (p & q & ci & cj & A & B & C & D & E).
  assert (G : forall x c, nth_error r0 x = Some c -> exists c', nth_error r x = Some c' /\ c_points c' = c_points c).
  { intros x c Hx. destruct (nth_error r x) as [c'|] eqn:Ex.
    - exists c'. split; auto. exact (proj1 (Forall2_nth _ _ _ _ _ _ F Hx Ex)).
    - apply nth_error_None in Ex. apply Forall2_len in F. apply nth_lt in Hx. lia. }
  destruct (G i ci B) as (ci' & B1 & B2). destruct (G j cj C) as (cj' & C1 & C2).
  exists p, q, ci', cj'. rewrite B2, C2. auto 10 using passes_runs.
Qed.

Lemma Forall2_flip_in : forall {A B} (R : A -> B -> Prop) l m b, Forall2 R l m -> In b m -> exists a, In a l /\ R a b.
Proof.
  intros A B R l m b F H. induction F; [destruct H|]. destruct H as [<-|H]; [exists x; cbn; auto|].
  destruct (IHF H) as (a & ? & ?). exists a. cbn. auto.
Qed.

Lemma holes_all_but : forall r r', Forall2 all_but r r' -> holes_ok r -> holes_ok r'.
Proof.
  intros r r' F (H1 & H2 & H3).
  assert (M : map c_holes r' = map c_holes r).
  { clear - F. induction F as [|x y l l' (_ & _ & E & _)]; cbn; congruence. }
  assert (V : forall x c, nth_error r x = Some c -> exists c', nth_error r' x = Some c' /\ all_but c c').
  { intros x c Hx. destruct (nth_error r' x) as [c'|] eqn:Ex.
    - exists c'. split; auto. exact (Forall2_nth _ _ _ _ _ _ F Hx Ex).
    - apply nth_error_None in Ex. apply Forall2_len in F. apply nth_lt in Hx. lia. }
  split; [rewrite M; auto|]. split.
  - intros i c h Hi Hin. destruct (Forall2_nth_l _ _ _ _ _ F Hi) as (c0 & E0 & (_ & _ & B & _)). rewrite B in Hin.
    destruct (H2 i c0 h E0 Hin) as (L & ch & C1 & C2 & C3). split; [auto|].
    destruct (V h ch C1) as (ch' & D1 & (D2 & _ & _ & D3)). exists ch'. rewrite D2, D3. auto.
  - intros h ch Hh He. destruct (Forall2_nth_l _ _ _ _ _ F Hh) as (c0 & E0 & (_ & _ & _ & B)). rewrite B in He.
    destruct (H3 h c0 E0 He) as (i & ci & C1 & C2). destruct (V i ci C1) as (ci' & D1 & (_ & _ & D2 & _)).
    exists i, ci'. rewrite D2. auto.
Qed.

Lemma map_grow : forall m (l : list contour),
  Forall2 all_but l (map (fun c => set_neighbors c (c_neighbors c ++ repeat false m)) l).
Proof. intros m l. induction l; cbn; constructor; auto. unfold all_but. auto. Qed.

Theorem compute_result : forall std fuel polys op r, std_laws std -> compute std fuel polys op = Ok r ->
  (forall c, In c r -> from_ok polys (c_from c) /\ (forall p, In p (c_points c) -> vertex_ok polys p)
     /\ (forall k a b, (1 <= k)%nat -> contour_edge (c_points c) k a b -> near_piece polys a b))
  /\ holes_ok r
  /\ neighbors_ok r
  /\ (forall i j ci, nth_error r i = Some ci -> nth_error (c_neighbors ci) j = Some true -> share_piece polys r i j).
Proof.
  intros std fuel polys op r SL H. unfold compute in H.
  bind H w0 E0. bind H w E1. pose proof (sweep_wf polys fuel w0 w E0 E1) as (W1 & W2 & W3 & W4).
  bind H se E2. destruct se as [ss es]. bind H u E3. bind H included E4. bind H ks E5. bind H kf E6. destruct kf as [ks' final].
  assert (HI : forall x, In x included -> inc polys (w_segs w) (w_packets w) x).
  { intros x Hx. apply (sort_perm _ SL) in E4. apply (Permutation_in x (Permutation_sym E4)) in Hx.
    exact (include_all_inc polys (w_segs w) (w_packets w) W1 _ _ _ W4 E2 x Hx). }
  assert (T : traced polys (w_segs w) (w_packets w) (ks', final)).
  { eapply trace_all; [exact W1|exact HI| | |exact E6].
    - eapply assign_indexes_static; eauto. apply static_refl.
    - eapply assign_indexes_clean; eauto. intros k Hk. destruct (Forall2_flip_in _ _ _ _ W1 Hk) as (s & _ & G).
      eapply good_clean; eauto. }
  destruct T as (T1 & T2 & T3 & T4). cbn [fst snd] in *.
  set (m := length final) in *.
  assert (N : nbs polys final r).
  { revert H. apply ofold_inv.
    - split; [apply map_grow|].
      assert (NB : forall i j, nb (map (fun c => set_neighbors c (c_neighbors c ++ repeat false m)) final) i j
        = if (i <? m)%nat then if (j <? m)%nat then Some false else None else None).
      { intros i j. unfold nb. rewrite nth_error_map. destruct (Nat.ltb_spec i m) as [Li|Li].
        - destruct (nth_error_lt final i Li) as [c Ec]. rewrite Ec. cbn [option_map c_neighbors set_neighbors].
          destruct (T2 c (nth_error_In _ _ Ec)) as (_ & B & _). rewrite B, app_nil_l.
          destruct (Nat.ltb_spec j m) as [Lj|Lj].
          + rewrite (nth_error_nth' _ false) by (rewrite repeat_length; auto). f_equal; apply nth_repeat.
          + apply nth_error_None. rewrite repeat_length. auto.
        - apply nth_error_None in Li. rewrite Li. reflexivity. }
      split.
      + apply nb_sym_ok.
        * intros c Hc. apply in_map_iff in Hc. destruct Hc as (c0 & <- & Hc). cbn.
          destruct (T2 c0 Hc) as (_ & B & _). rewrite B. cbn. now rewrite repeat_length, map_length.
        * intros i j. rewrite map_length. fold m. intros Hi Hj. rewrite !NB.
          apply Nat.ltb_lt in Hi, Hj. now rewrite Hi, Hj.
      + intros i j Hn. rewrite NB in Hn. destruct (i <? m)%nat; [|discriminate]. destruct (j <? m)%nat; discriminate.
    - intros e s s' He. apply (assign_neighbors_nbs polys (w_segs w) ks'); auto. exact (proj1 (HI e He)). }
  destruct N as (N1 & N2 & N3).
  split; [|split; [eapply holes_all_but; eauto|split; [exact N2|]]].
  - intros c Hc. destruct (Forall2_flip_in _ _ _ _ N1 Hc) as (c0 & Hc0 & (A & B & _)). rewrite A, B.
    destruct (T2 c0 Hc0) as (P1 & _ & P2 & P3). auto.
  - intros i j ci Hi Hj. eapply shares_share; [exact N1|]. apply N3. unfold nb. now rewrite Hi.
Qed.

(** The parts of [compute_result] by themselves. *)
Lemma compute_sources : forall std fuel polys op r c, std_laws std -> compute std fuel polys op = Ok r -> In c r ->
  length (c_from c) = length polys
  /\ (exists i, nth_error (c_from c) i = Some true)
  /\ (forall i, nth_error (c_from c) i = Some true -> ~ exists poly, nth_error polys i = Some (poly, RemoveInterior)).
Proof. intros std fuel polys op r c L H Hin. apply (proj1 (compute_result std fuel polys op r L H) c Hin). Qed.
Lemma compute_neighbors : forall std fuel polys op r, std_laws std -> compute std fuel polys op = Ok r ->
  (forall c, In c r -> length (c_neighbors c) = length r)
  /\ (forall i j ci cj, nth_error r i = Some ci -> nth_error r j = Some cj ->
        nth_error (c_neighbors ci) j = nth_error (c_neighbors cj) i)
  /\ (forall i j ci, nth_error r i = Some ci -> nth_error (c_neighbors ci) j = Some true -> share_piece polys r i j).
Proof.
  intros std fuel polys op r L H. destruct (compute_result std fuel polys op r L H) as (_ & _ & (A & B) & C). auto.
Qed.
Lemma compute_hole_lists : forall std fuel polys op r, std_laws std -> compute std fuel polys op = Ok r -> holes_ok r.
Proof. intros std fuel polys op r L H. apply (compute_result std fuel polys op r L H). Qed.
Lemma compute_vertices : forall std fuel polys op r c, std_laws std -> compute std fuel polys op = Ok r -> In c r ->
  (forall p, In p (c_points c) -> vertex_ok polys p)
  /\ (forall k a b, (1 <= k)%nat -> contour_edge (c_points c) k a b -> near_piece polys a b).
Proof. intros std fuel polys op r c L H Hin. apply (proj1 (compute_result std fuel polys op r L H) c Hin). Qed.
Lemma operation_ignored : forall std fuel polys op op', compute std fuel polys op = compute std fuel polys op'.
Proof. reflexivity. Qed.
