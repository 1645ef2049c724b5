(** Tracing the result of [compute]. *)

From Coq Require Import List ZArith Bool Arith Lia Sorting.Permutation.
From Verif Require Import Base BaseFacts Float Geometry Sweep Contours Compute SpecShape SpecCompute
  ShapeFacts OrientFacts ContainerFacts SweepFacts.
Import ListNotations.

Definition side (k : packet) (e : seg_end) : list bool :=
  match e with LeftEnd => k_left k | RightEnd => k_right k end.
Definition side_done (k : packet) (e : seg_end) : bool :=
  match e with LeftEnd => k_left_done k | RightEnd => k_right_done k end.
Definition side_contour (k : packet) (e : seg_end) : option nat :=
  match e with LeftEnd => k_left_contour k | RightEnd => k_right_contour k end.
Definition side_index (k : packet) (e : seg_end) : nat :=
  match e with LeftEnd => k_left_index k | RightEnd => k_right_index k end.

(** Nothing but the bookkeeping of the trace differs. *)
Definition static (k k' : packet) : Prop :=
  k_polygon k' = k_polygon k /\ k_mode k' = k_mode k /\ k_left k' = k_left k /\ k_right k' = k_right k
  /\ k_in_result k' = k_in_result k /\ k_below k' = k_below k.
Lemma static_side : forall k k' e, static k k' -> side k' e = side k e.
Proof. intros k k' [] (_ & _ & A & B & _); assumption. Qed.
Lemma static_done : forall k k' e c, static k k' -> static k (with_done k' e c).
Proof. intros k k' e c S. exact S. Qed.
Lemma static_index : forall k k' e c, static k k' -> static k (with_index k' e c).
Proof. intros k k' e c S. exact S. Qed.
Lemma static_refl : forall l, Forall2 static l l.
Proof. induction l; constructor; auto. unfold static. tauto. Qed.

Lemma nth_lt : forall {A} (l : list A) i a, nth_error l i = Some a -> (i < length l)%nat.
Proof. intros A l i a H. apply nth_error_Some. congruence. Qed.

Lemma Forall2_set_at : forall {A B} (R : A -> B -> Prop) l m i b, Forall2 R l m ->
  (forall a, nth_error l i = Some a -> R a b) -> (i < length m)%nat -> Forall2 R l (set_nth i b m).
Proof.
  intros A B R l m i b F Hr Hi. pose proof (Forall2_len _ _ _ F) as L.
  destruct (nth_error l i) as [a|] eqn:E.
  - eapply Forall2_set; eauto.
  - apply nth_error_None in E. lia.
Qed.

Lemma Forall2_nth_l : forall {A B} (R : A -> B -> Prop) l m i b, Forall2 R l m -> nth_error m i = Some b ->
  exists a, nth_error l i = Some a /\ R a b.
Proof.
  intros A B R l m i b F H. destruct (nth_error l i) as [a|] eqn:E.
  - exists a. split; auto. eapply Forall2_nth; eauto.
  - apply nth_error_None in E. pose proof (Forall2_len _ _ _ F). apply nth_lt in H. lia.
Qed.

(** ** The endpoints kept *)

Section Trace.
  Variable polys : input.
  Local Notation n := (length polys).
  Local Notation modes := (map snd polys).
  Variable segs : list bseg.
  Variable ks0 : list packet.
  Hypothesis F0 : Forall2 (good polys) segs ks0.

  Definition inc (e : bend) : Prop :=
    known segs (fst e)
    /\ exists k, nth_error ks0 (s_index (fst e)) = Some k /\ k_in_result k = true /\ from_ok polys (side k (snd e)).

  Lemma skip_side_ok : forall l, length l = n -> skip_side modes l = false -> from_ok polys l.
  Proof using .
    intros l L H. unfold skip_side in H. apply orb_false_iff in H. destruct H as [H1 H2].
    split; [auto|]. split.
    - unfold bits_none in H2. clear H1. revert H2. clear L. induction l as [|[] l IH]; cbn; intros H; [discriminate| |].
      + exists 0%nat. reflexivity.
      + destruct (IH H) as [i Hi]. exists (S i). exact Hi.
    - intros i Hi (poly & Hp).
      assert (Hm : nth_error modes i = Some RemoveInterior) by (rewrite nth_error_map, Hp; reflexivity).
      clear - H1 Hi Hm. revert i l H1 Hi Hm. generalize modes.
      induction l as [|m ms IH]; intros [|i] [|b l] H1 Hi Hm; cbn in *; try discriminate.
      + inv Hi. inv Hm. discriminate.
      + apply orb_false_iff in H1. destruct H1. eapply IH; eauto.
  Qed.

  Lemma include_one_inc : forall s r, known segs s -> include_one modes ks0 s = Ok r -> forall e, In e (snd r) -> inc e.
  Proof using F0.
    intros s r K H e He. unfold include_one in H. bind H k Ek.
    pose proof (get_good _ _ _ _ _ F0 K Ek) as (G1 & G2 & G3 & _). apply index_nat_nth in Ek.
    destruct (k_in_result k) eqn:Er; cbn [negb] in H; [|inv H; destruct He].
    destruct (skip_side modes (k_left k)) eqn:SL; destruct (skip_side modes (k_right k)) eqn:SR; cbn in H; inv H; cbn in He;
      repeat (destruct He as [<-|He]; [split; [exact K|]; exists k; split; [exact Ek|]; split; [exact Er|]; cbn; apply skip_side_ok; auto|]);
      destruct He.
  Qed.

  Lemma include_all_inc : forall l a b, (forall s, In s l -> known segs s) -> include_all modes ks0 l = Ok (a, b) ->
    forall e, In e b -> inc e.
  Proof using F0.
    intros l a b K H e He. unfold include_all in H. bind H r Er. inv H. apply omap_ok in Er.
    apply in_flat_map in He. destruct He as (x & Hx & He).
    assert (exists s, In s l /\ include_one modes ks0 s = Ok x) as (s & Hs & Es).
    { clear - Er Hx. induction Er; [destruct Hx|]. destruct Hx as [<-|Hx]; [cbn; eauto|].
      destruct (IHEr Hx) as (s & ? & ?). exists s. cbn. auto. }
    eapply include_one_inc; eauto.
  Qed.

  Lemma inc_piece : forall e, inc e -> kept_piece polys (ep_point e) (ep_other e).
  Proof using F0.
    intros e (K & k & Ek & Er & _).
    pose proof (Forall2_nth _ _ _ _ _ _ F0 K Ek) as (G1 & _ & _ & G4 & G5 & _).
    exists (k_polygon k), (k_mode k). split; [|split; auto].
    - destruct e as [s []]; cbn; [auto|apply d_swap; auto].
    - rewrite nth_error_map in G1. destruct (nth_error polys (k_polygon k)) as [[poly m]|] eqn:E; [|discriminate].
      cbn in G1. inv G1. exists poly. exact E.
  Qed.

  Lemma from_ok_union : forall a b c, from_ok polys a -> from_ok polys b -> bits_union a b = Ok c -> from_ok polys c.
  Proof using .
    intros a b c (A1 & (i & A2) & A3) (B1 & _ & B3) H. pose proof (bits_union_len _ _ _ H) as [L1 L2].
    split; [lia|]. split.
    - exists i. rewrite (bits_union_nth _ _ _ i H), A2.
      destruct (nth_error b i) as [y|] eqn:E; [reflexivity|]. apply nth_error_None in E. apply nth_lt in A2. lia.
    - intros j Hj. rewrite (bits_union_nth _ _ _ j H) in Hj.
      destruct (nth_error a j) as [x|] eqn:Ea; [|discriminate]. destruct (nth_error b j) as [y|] eqn:Eb; [|discriminate].
      inv Hj. destruct x; cbn in *; subst; auto.
  Qed.

  (** ** Indexes *)

  Definition indexed (included : list bend) (ks : list packet) : Prop :=
    forall s k, known segs s -> nth_error ks (s_index s) = Some k ->
      nth_error included (k_left_index k) = Some (s, LeftEnd) \/ k_left_index k = 0%nat.

  Lemma assign_indexes_static : forall l i ks ks', Forall2 static ks0 ks -> assign_indexes i l ks = Ok ks' ->
    Forall2 static ks0 ks'.
  Proof using .
    induction l as [|[s e] l IH]; intros i ks ks' F H; cbn [assign_indexes] in H.
    - now inv H.
    - bind H k Ek. eapply (IH (S i)); [|exact H]. apply index_nat_nth in Ek. unfold put_packet.
      apply Forall2_set_at; [auto| |eapply nth_lt; eauto].
      intros a Ha. apply static_index. eapply Forall2_nth; eauto.
  Qed.

  (** The bookkeeping a packet starts the trace with. *)
  Definition clean (k : packet) : Prop := forall e, side_done k e = false /\ side_contour k e = None.
  Lemma good_clean : forall s k, good polys s k -> clean k.
  Proof using . intros s k (_ & _ & _ & _ & _ & G) []; unfold fresh in G; cbn; tauto. Qed.

  Lemma assign_indexes_clean : forall l i ks ks', (forall k, In k ks -> clean k) -> assign_indexes i l ks = Ok ks' ->
    forall k, In k ks' -> clean k.
  Proof using .
    induction l as [|[s e] l IH]; intros i ks ks' C H; cbn [assign_indexes] in H.
    - now inv H.
    - bind H k Ek. eapply (IH (S i)); [|exact H]. intros k' Hk'. unfold put_packet in Hk'. apply in_set_nth in Hk'.
      destruct Hk' as [->|Hk']; auto. apply index_nat_in in Ek. exact (C _ Ek).
  Qed.

  (** ** One contour *)

  Local Notation near_piece := (SpecCompute.near_piece polys).
  Local Notation vertex_ok := (SpecCompute.vertex_ok polys).

  Lemma scan_ends_in : forall ks cur v p l b d e c,
    scan_ends ks cur v p l b = Ok (d, Some e, c) ->
    (snd (fst b) = Some e) \/ (In e l /\ point_eqb p (ep_point e) = true /\ is_processed ks e = Ok false).
  Proof using .
    induction l as [|x l IH]; intros b d e c H; cbn [scan_ends] in H.
    - inv H. cbn. auto.
    - bind H done Ed. destruct done.
      + apply IH in H. cbn. tauto.
      + bind H c1 Ec1.
        assert (R : scan_ends ks cur v p l b = Ok (d, Some e, c) ->
          snd (fst b) = Some e \/ In e (x :: l) /\ point_eqb p (ep_point e) = true /\ is_processed ks e = Ok false).
        { intros H'. apply IH in H'. cbn. tauto. }
        assert (T : match c1 with Eq => scan_ends ks cur v p l b | _ =>
            let* c := segment_cmp (fst x) (fst cur) in
            match c with Eq => scan_ends ks cur v p l b | _ =>
              if point_eqb p (ep_point x) then scan_ends ks cur v p l (consider_end v b x) else Ok b end end = Ok (d, Some e, c)).
        { destruct c1; exact H. }
        clear H. destruct c1; [now apply R| |]; (bind T c2 Ec2; destruct c2; [now apply R| |];
          (destruct (point_eqb p (ep_point x)) eqn:Ep; [|inv T; cbn; auto];
           apply IH in T; destruct T as [T|T]; [|cbn; tauto];
           destruct b as [[bd bc] bs]; unfold consider_end in T; cbn [fst snd] in T |- *;
           destruct (_ && _); [cbn in T; inv T; right; cbn; auto|];
           destruct (_ && _); [cbn in T; auto|];
           destruct (_ || _); cbn in T; [inv T; right; cbn; auto|auto])).
  Qed.

  Lemma seek_point_incl : forall l p l', seek_point l p = Ok l' -> incl l' l.
  Proof using .
    induction l as [|e l IH]; intros p l' H; cbn [seek_point] in H; [discriminate|].
    destruct (point_eqb _ _); [inv H; apply incl_refl|]. apply IH in H. intros x Hx. right. auto.
  Qed.

  Lemma find_next_in : forall ks cur included e, find_next_segment ks cur included = Ok e ->
    In e included /\ point_eqb (ep_other cur) (ep_point e) = true /\ is_processed ks e = Ok false.
  Proof using .
    intros ks cur included e H. unfold find_next_segment in H. bind H l El. bind H r Er. destruct r as [[d c] b].
    destruct c as [c|]; inv H. apply scan_ends_in in Er. destruct Er as [Er|(A & B & C)]; [discriminate|].
    split; auto. eapply seek_point_incl; eauto.
  Qed.

  (** The piece [p]-[q] is run along from [p] to [q]; of the edges before position
      [lo] only the end is known. *)
  Definition passes (lo : nat) (pts : list point) (p q : point) : Prop :=
    exists k a b, contour_edge pts k a b /\ same_spot b q /\ ((lo <= k)%nat -> same_spot a p).

  Definition at_end (lo : nat) (pts : list point) (p : point) : Prop :=
    forall a, (lo < length pts)%nat -> nth_error pts (length pts - 1) = Some a -> same_spot a p.

  (** Only sides that [P] holds of change contour. *)
  Definition marks (cid : nat) (ks ks' : list packet) (P : point -> point -> Prop) : Prop :=
    forall s k k' e, known segs s -> nth_error ks (s_index s) = Some k -> nth_error ks' (s_index s) = Some k' ->
      side_contour k' e = side_contour k e
      \/ (side_contour k' e = Some cid /\ P (ep_point (s, e)) (ep_other (s, e))).

  Lemma put_static : forall ks (s : bseg) k k', Forall2 static ks0 ks -> nth_error ks (s_index s) = Some k ->
    (forall a, static a k -> static a k') -> Forall2 static ks0 (put_packet ks s k').
  Proof using .
    intros ks s k k' F E H. unfold put_packet. apply Forall2_set_at; [auto| |eapply nth_lt; eauto].
    intros a Ha. apply H. eapply Forall2_nth; eauto.
  Qed.

  Lemma same_index : forall s t, known segs s -> known segs t -> s_index s = s_index t -> s = t.
  Proof using . unfold known. intros s t A B C. rewrite C in A. congruence. Qed.

  Lemma put_nth : forall ks (s : bseg) k (t : bseg) k', (s_index s < length ks)%nat -> nth_error (put_packet ks s k) (s_index t) = Some k' ->
    (s_index t = s_index s /\ k' = k) \/ (s_index t <> s_index s /\ nth_error ks (s_index t) = Some k').
  Proof using .
    intros ks s k t k' L H. unfold put_packet in H. destruct (Nat.eq_dec (s_index t) (s_index s)) as [E|E].
    - rewrite E, nth_set_same in H by auto. inv H. auto.
    - rewrite nth_set_other in H by auto. auto.
  Qed.

  Lemma trace_loop_spec : forall lo fuel included cid start cur c ks c' ks' cur',
    (forall e, In e included -> inc e) -> inc cur -> Forall2 static ks0 ks ->
    from_ok polys (c_from c) -> nth_error (c_points c) 0 = Some start -> at_end lo (c_points c) (ep_point cur) ->
    trace_loop fuel included cid start cur c ks = Ok (c', ks', cur') ->
    Forall2 static ks0 ks' /\ inc cur' /\ from_ok polys (c_from c')
    /\ c_holes c' = c_holes c /\ c_neighbors c' = c_neighbors c /\ c_external c' = c_external c /\ c_cache c' = c_cache c
    /\ (exists ps, c_points c' = c_points c ++ ps)
    /\ (forall k a b, (lo <= k)%nat -> (length (c_points c) <= S k)%nat -> contour_edge (c_points c') k a b -> near_piece a b)
    /\ marks cid ks ks' (fun p q => kept_piece polys p q /\ passes lo (c_points c') p q).
  Proof using F0.
    intros lo fuel. induction fuel as [|fuel IH]; intros included cid start cur c ks c' ks' cur' HI HC HS HF H0 HE H;
      cbn [trace_loop] in H; [discriminate|].
    bind H k Ek. apply index_nat_nth in Ek. bind H from Efrom.
    pose proof HC as (Kc & kc & Ekc & _ & Sc).
    assert (Skc : static kc k) by (eapply Forall2_nth; eauto).
    assert (HF' : from_ok polys from).
    { apply (from_ok_union (c_from c) (side k (snd cur)) from HF); [|exact Efrom].
      rewrite (static_side kc k); auto. }
    assert (HS' : Forall2 static ks0 (put_packet ks (fst cur) (with_done k (snd cur) cid))).
    { eapply put_static; eauto. }
    set (ks1 := put_packet ks (fst cur) (with_done k (snd cur) cid)) in *.
    assert (M1 : forall P : point -> point -> Prop, P (ep_point cur) (ep_other cur) -> marks cid ks ks1 P).
    { intros P HP s k1 k2 e Ks E1 E2. apply put_nth in E2; [|eapply nth_lt; eauto].
      destruct E2 as [[Ei ->]|[Ei E2]]; [|left; congruence].
      assert (s = fst cur) by (apply same_index; auto). subst s. rewrite Ek in E1. inv E1.
      destruct cur as [s []], e; cbn in *; auto. }
    assert (N0 : (0 < length (c_points c))%nat) by (eapply nth_lt; eauto).
    assert (NL : exists a, nth_error (c_points c) (length (c_points c) - 1) = Some a).
    { apply nth_error_lt. lia. }
    destruct NL as [a0 Ea0].
    destruct (point_eqb (ep_other cur) start) eqn:Estop.
    - inv H. split; [exact HS'|]. split; [exact HC|]. split; [exact HF'|].
      do 4 (split; [reflexivity|]). split; [exists []; cbn; now rewrite app_nil_r|].
      assert (SS : same_spot start (ep_other cur')) by (right; rewrite point_eqb_sym; exact Estop).
      split.
      + intros j a b Hlo Hj [Ha Hb]. cbn [c_points set_from] in *. pose proof (nth_lt _ _ _ Ha) as Lj.
        assert (j = length (c_points c) - 1)%nat by lia. subst j.
        replace (S (length (c_points c) - 1)) with (length (c_points c)) in Hb by lia.
        rewrite Nat.mod_same in Hb by lia. rewrite H0 in Hb. inv Hb.
        exists (ep_point cur'), (ep_other cur'). split; [apply inc_piece; auto|]. split; [|exact SS].
        apply HE; auto. lia.
      + apply M1. split; [apply inc_piece; auto|]. exists (length (c_points c) - 1)%nat, a0, start. cbn [c_points set_from]. split; [|split; [exact SS|]].
        * split; [exact Ea0|]. replace (S (length (c_points c) - 1)) with (length (c_points c)) by lia.
          rewrite Nat.mod_same by lia. exact H0.
        * intros Hlo. apply HE; auto. lia.
    - bind H nx En. apply find_next_in in En. destruct En as (I1 & I2 & I3).
      set (c1 := contour_add (set_from c from) (ep_other cur)) in *.
      assert (P1 : c_points c1 = c_points c ++ [ep_other cur]) by reflexivity.
      assert (L1 : length (c_points c1) = S (length (c_points c))) by (rewrite P1, app_length; cbn; lia).
      apply IH in H; auto.
      2:{ rewrite P1, nth_error_app1 by lia. exact H0. }
      2:{ intros a Hl Ha. rewrite L1 in Ha. replace (S (length (c_points c)) - 1)%nat with (length (c_points c)) in Ha by lia.
          rewrite P1, nth_error_app2, Nat.sub_diag in Ha by lia. cbn in Ha. inv Ha. right. exact I2. }
      destruct H as (A1 & A2 & A3 & A4 & A5 & A6 & A7 & (ps & A8) & A9 & A10).
      split; [auto|]. split; [auto|]. split; [auto|]. do 4 (split; [assumption|]).
      split; [exists (ep_other cur :: ps); rewrite A8, P1, <- app_assoc; reflexivity|].
      assert (LL : length (c_points c') = (S (length (c_points c)) + length ps)%nat) by (rewrite A8, app_length; lia).
      assert (Q1 : nth_error (c_points c') (length (c_points c) - 1) = Some a0).
      { rewrite A8, nth_error_app1 by lia. rewrite P1, nth_error_app1 by lia. exact Ea0. }
      assert (Q2 : nth_error (c_points c') (S (length (c_points c) - 1) mod length (c_points c')) = Some (ep_other cur)).
      { rewrite Nat.mod_small by lia. replace (S (length (c_points c) - 1)) with (length (c_points c)) by lia.
        rewrite A8, nth_error_app1 by lia. rewrite P1, nth_error_app2, Nat.sub_diag by lia. reflexivity. }
      split.
      + intros j a b Hlo Hj Hab. destruct (Nat.eq_dec (S j) (length (c_points c))) as [Ej|Ej].
        * assert (j = length (c_points c) - 1)%nat by lia. subst j. destruct Hab as [Ha Hb].
          rewrite Q1 in Ha. rewrite Q2 in Hb. inv Ha. inv Hb.
          exists (ep_point cur), (ep_other cur). split; [apply inc_piece; auto|]. split; [|left; reflexivity].
          apply HE; auto. lia.
        * apply (A9 j); auto. lia.
      + intros s k1 k2 e Ks E1 E2.
        destruct (nth_error ks1 (s_index s)) as [k3|] eqn:E3.
        2:{ exfalso. apply nth_error_None in E3. apply Forall2_len in HS'. apply nth_lt in E2.
            apply Forall2_len in A1. lia. }
        destruct (A10 s k3 k2 e Ks E3 E2) as [B|B]; [|right; exact B]. rewrite B.
        apply (M1 (fun p q => kept_piece polys p q /\ passes lo (c_points c') p q)); auto. split; [apply inc_piece; auto|].
        exists (length (c_points c) - 1)%nat, a0, (ep_other cur). split; [split; [exact Q1|exact Q2]|].
        split; [left; reflexivity|]. intros Hlo. apply HE; auto. lia.
  Qed.

  (** ** All contours *)

  Definition contour_ok (c : contour) : Prop :=
    from_ok polys (c_from c) /\ c_neighbors c = []
    /\ (forall p, In p (c_points c) -> vertex_ok p)
    /\ (forall k a b, (1 <= k)%nat -> contour_edge (c_points c) k a b -> near_piece a b).

  Definition marked (ks : list packet) (final : polygon) : Prop :=
    forall s k e c, known segs s -> nth_error ks (s_index s) = Some k -> side_contour k e = Some c ->
      kept_piece polys (ep_point (s, e)) (ep_other (s, e))
      /\ exists ct, nth_error final c = Some ct /\ passes 1 (c_points ct) (ep_point (s, e)) (ep_other (s, e)).
End Trace.

(** ** Holes *)

Lemma set_nth_split : forall {A} (l : list A) i c x, nth_error l i = Some c ->
  l = firstn i l ++ c :: skipn (S i) l /\ set_nth i x l = firstn i l ++ x :: skipn (S i) l.
Proof.
  intros A l i c x H. split; [|reflexivity]. revert i H. induction l as [|y l IH]; intros [|i] H; cbn in *; try discriminate.
  - now inv H.
  - f_equal. apply IH, H.
Qed.

Lemma update_nat_ok : forall {A} (l l' : list A) i f, update_nat l i f = Ok l' ->
  exists x y, nth_error l i = Some x /\ f x = Ok y /\ l' = set_nth i y l.
Proof.
  intros A l l' i f H. unfold update_nat in H. bind H x Ex. bind H y Ey. inv H. apply index_nat_nth in Ex. eauto.
Qed.

Lemma set_nth_nth : forall {A} (l : list A) i j x c y, nth_error l i = Some c -> nth_error (set_nth i x l) j = Some y ->
  (j = i /\ y = x) \/ (j <> i /\ nth_error l j = Some y).
Proof.
  intros A l i j x c y Hc H. destruct (Nat.eq_dec j i) as [->|E].
  - rewrite nth_set_same in H by (eapply nth_lt; eauto). inv H. auto.
  - rewrite nth_set_other in H; auto. eapply nth_lt; eauto.
Qed.
Lemma set_nth_at : forall {A} (l : list A) i c x, nth_error l i = Some c -> nth_error (set_nth i x l) i = Some x.
Proof. intros. apply nth_set_same. eapply nth_lt; eauto. Qed.

Lemma holes_push : forall r c, holes_ok r -> c_holes c = [] -> c_external c = true -> holes_ok (r ++ [c]).
Proof.
  intros r c (H1 & H2 & H3) Hh He. split; [|split].
  - rewrite map_app, concat_app. cbn. rewrite Hh. cbn. now rewrite app_nil_r.
  - intros i ci h Hi Hin. destruct (Nat.lt_ge_cases i (length r)) as [L|L].
    + rewrite nth_error_app1 in Hi by auto. destruct (H2 i ci h Hi Hin) as (A & ch & B & C). split; [auto|].
      exists ch. split; [|auto]. rewrite nth_error_app1; auto. eapply nth_lt; eauto.
    + rewrite nth_error_app2 in Hi by auto. destruct (i - length r)%nat as [|m]; cbn in Hi.
      * inv Hi. rewrite Hh in Hin. destruct Hin.
      * destruct m; discriminate.
  - intros h ch Hc Hx. destruct (Nat.lt_ge_cases h (length r)) as [L|L].
    + rewrite nth_error_app1 in Hc by auto. destruct (H3 h ch Hc Hx) as (i & ci & A & B).
      exists i, ci. split; [|auto]. rewrite nth_error_app1; auto. eapply nth_lt; eauto.
    + rewrite nth_error_app2 in Hc by auto. destruct (h - length r)%nat as [|m]; cbn in Hc.
      * inv Hc. congruence.
      * destruct m; discriminate.
Qed.

Lemma holes_add : forall r p cp h r1 ch, holes_ok r -> nth_error r p = Some cp -> (p <= h)%nat ->
  (forall i c, nth_error r i = Some c -> ~ In h (c_holes c)) ->
  r1 = set_nth p (add_hole cp h) r -> nth_error r1 h = Some ch -> orientation_of (c_points ch) = Ok true ->
  holes_ok (set_nth h (set_external ch false) r1).
Proof.
  intros r p cp h r1 ch (H1 & H2 & H3) Hp Hle Hfresh Er1 Hh Ho.
  assert (M : map c_holes (set_nth h (set_external ch false) r1) = map c_holes r1).
  { destruct (set_nth_split r1 h ch (set_external ch false) Hh) as [E1 ->]. rewrite E1 at 3. rewrite !map_app. reflexivity. }
  assert (PP : Permutation (concat (map c_holes r1)) (h :: concat (map c_holes r))).
  { subst r1. destruct (set_nth_split r p cp (add_hole cp h) Hp) as [E1 ->]. rewrite E1 at 3.
    rewrite !map_app, !concat_app. cbn [map concat c_holes add_hole]. rewrite <- !app_assoc.
    rewrite (app_assoc (concat _) (c_holes cp) (concat _)). rewrite (app_assoc (concat _) (c_holes cp)). cbn.
    symmetry. apply Permutation_middle. }
  assert (NI : ~ In h (concat (map c_holes r))).
  { intros Hin. apply in_concat in Hin. destruct Hin as (l & Hl & Hin). apply in_map_iff in Hl. destruct Hl as (c & <- & Hc).
    apply In_nth_error in Hc. destruct Hc as [i Hi]. exact (Hfresh i c Hi Hin). }
  (* what is at an index of the new list *)
  assert (Q : forall i c, nth_error (set_nth h (set_external ch false) r1) i = Some c ->
     exists c0, nth_error r i = Some c0 /\ c_points c = c_points c0
       /\ c_holes c = c_holes c0 ++ (if Nat.eqb i p then [h] else []) /\ c_external c = (if Nat.eqb i h then false else c_external c0)).
  { intros i c Hi. destruct (set_nth_nth _ _ _ _ _ _ Hh Hi) as [[-> ->]|[Ne Hi']].
    - rewrite Nat.eqb_refl. rewrite Er1 in Hh. destruct (set_nth_nth _ _ _ _ _ _ Hp Hh) as [[Ep ->]|[Ne2 Hh']].
      + rewrite <- Ep in Hp. exists cp. rewrite Ep, Nat.eqb_refl. rewrite <- Ep. auto.
      + exists ch. destruct (Nat.eqb_spec h p); [congruence|]. rewrite app_nil_r. auto.
    - destruct (Nat.eqb_spec i h); [congruence|]. rewrite Er1 in Hi'.
      destruct (set_nth_nth _ _ _ _ _ _ Hp Hi') as [[-> ->]|[Ne2 Hh']].
      + exists cp. rewrite Nat.eqb_refl. auto.
      + exists c. destruct (Nat.eqb_spec i p); [congruence|]. rewrite app_nil_r. auto. }
  assert (V : forall i c0, nth_error r i = Some c0 -> exists c, nth_error (set_nth h (set_external ch false) r1) i = Some c).
  { intros i c0 Hi. apply nth_error_lt. rewrite set_nth_length by (eapply nth_lt; eauto). rewrite Er1.
    rewrite set_nth_length by (eapply nth_lt; eauto). eapply nth_lt; eauto. }
  split; [|split].
  - rewrite M. apply (Permutation_NoDup (Permutation_sym PP)). constructor; auto.
  - intros i c x Hi Hx. destruct (Q i c Hi) as (c0 & Q1 & Q2 & Q3 & Q4). rewrite Q3 in Hx. apply in_app_or in Hx.
    destruct Hx as [Hx|Hx].
    + destruct (H2 i c0 x Q1 Hx) as (A & cx & B & C & D). split; [auto|].
      destruct (V x cx B) as (cx' & Ecx'). exists cx'. split; [auto|].
      destruct (Q x cx' Ecx') as (c1 & R1 & R2 & R3 & R4). assert (c1 = cx) by congruence. subst c1.
      rewrite R4, R2. destruct (Nat.eqb x h); auto.
    + destruct (Nat.eqb_spec i p) as [->|]; [|destruct Hx]. destruct Hx as [<-|[]]. split; [auto|].
      exists (set_external ch false). split; [eapply set_nth_at; eauto|]. cbn. auto.
  - intros x cx Hx Hex. destruct (Q x cx Hx) as (c1 & R1 & R2 & R3 & R4).
    destruct (Nat.eqb_spec x h) as [->|Nx].
    + destruct (V p cp Hp) as (c & Hc). exists p, c. split; [auto|].
      destruct (Q p c Hc) as (c0 & _ & _ & Q3 & _). rewrite Q3, Nat.eqb_refl. apply in_or_app. cbn. auto.
    + rewrite R4 in Hex. destruct (H3 x c1 R1 Hex) as (i & ci & B & C).
      destruct (V i ci B) as (c & Hc). exists i, c. split; [auto|].
      destruct (Q i c Hc) as (c0 & S1 & _ & Q3 & _). rewrite Q3. apply in_or_app. left. congruence.
Qed.
