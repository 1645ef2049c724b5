(** Tracing the kept sides of tidy polygons. *)

From Coq Require Import List ZArith Bool Lia Arith Permutation Sorted.
From Verif Require Import Base BaseFacts Float Geometry Sweep Contours Compute SpecShape SpecOrder SpecIntersect SpecTurn SpecHandle SpecTidy SpecCompute
  OrderFacts ContainerFacts TurnFacts3 TurnSamples SweepFacts TraceFacts TidyGeo TidyParity TidySetup TidyLine TidyPackets TidySweep TidyFacts TidyCorner TidyPair
  TidyNext TidyWalk.
Import ListNotations.
Local Open Scope Z_scope.

Lemma bits_again : forall n f, bits_union (bits n f) (bits n f) = Ok (bits n f).
Proof.
  intros n f. unfold bits_union. rewrite Nat.eqb_refl. f_equal. unfold bits. generalize 0%nat.
  induction n as [|n IH]; intros a; [reflexivity|]. cbn. rewrite orb_diag. f_equal. apply IH.
Qed.

Lemma nth_app_last : forall A (l : list A) x, nth_error (l ++ [x]) (length l) = Some x.
Proof. intros. rewrite nth_error_app2 by lia. now rewrite Nat.sub_diag. Qed.

Lemma nth_app_cases : forall A (l : list A) x i y, nth_error (l ++ [x]) i = Some y -> nth_error l i = Some y \/ (i = length l /\ y = x).
Proof.
  intros A l x i y H. destruct (Nat.lt_ge_cases i (length l)) as [L|L].
  - rewrite nth_error_app1 in H by exact L. now left.
  - right. assert (i < length (l ++ [x]))%nat by (apply nth_error_Some; congruence). rewrite app_length in H0. cbn in H0.
    assert (i = length l) by lia. subst. rewrite nth_app_last in H. split; congruence.
Qed.

Lemma nth_app_more : forall A (l : list A) x i y, nth_error l i = Some y -> nth_error (l ++ [x]) i = Some y.
Proof. intros A l x i y H. rewrite nth_error_app1; [exact H|]. apply nth_error_Some. congruence. Qed.

Lemma concat_last : forall A (l : list (list A)) x, concat (l ++ [x]) = concat l ++ x.
Proof. intros. rewrite concat_app. cbn. now rewrite app_nil_r. Qed.

Lemma forall2_intro : forall A B (R : A -> B -> Prop) l m, length l = length m ->
  (forall i a b, nth_error l i = Some a -> nth_error m i = Some b -> R a b) -> Forall2 R l m.
Proof.
  intros A B R l. induction l as [|x l IH]; intros [|y m] L H; try discriminate; constructor.
  - apply (H 0%nat); reflexivity.
  - apply IH; [now injection L|]. intros i a b Ha Hb. now apply (H (S i)).
Qed.

Lemma forall2_weaken : forall A B (R R' : A -> B -> Prop) l m, (forall a b, R a b -> R' a b) -> Forall2 R l m -> Forall2 R' l m.
Proof. intros A B R R' l m H F. induction F; constructor; auto. Qed.

Lemma in_last : forall A (l : list A) x, In (last l x) (x :: l).
Proof. intros A l. induction l as [|y l IH]; intros x; [now left|]. right. rewrite last_cons. apply IH. Qed.

Section Trace.
Variables (zs : list corners) (modes : list polygon_mode) (S : list bseg) (ks : list packet) (act sw : list bseg) (I : list bend).
Notation n := (length modes).
Notation E := (edges zs).
Notation eg := (eg (edges zs)).
Hypothesis (D : drawn E S) (V : inv zs S modes [] ks act sw) (Polys : forall s, In s S -> (e_poly (eg s) < n)%nat).
Hypothesis (PI : Permutation (flat_map (sides_of modes ks) sw) I) (II : increasing endpoint_cmp I).
Hypothesis (Short : forall e, In e E -> short (vsub (e_right e) (e_left e))).
Hypothesis (NE : covered modes zs).

Notation src := (src zs).
Notation dst := (dst zs).
Notation face := (face zs).
Notation next := (next zs S I).
Notation chain := (chain zs S I).
Notation walk := (walk zs S I).

(** What the packet [k] of [s] says when the traces so far are [Ts]. *)
Definition told (Ts : list (list bend)) (s : bseg) (k : packet) : Prop :=
  (forall x, side k x = bits n (face (s, x))) /\ noted zs S s (k_below k)
  /\ (forall x, side_done k x = true <-> In (s, x) (concat Ts))
  /\ (forall x c, side_contour k x = Some c -> exists T, nth_error Ts c = Some T /\ In (s, x) T)
  /\ (forall x, In (s, x) (concat Ts) -> exists c, side_contour k x = Some c)
  /\ (forall i, nth_error I i = Some (s, LeftEnd) -> k_left_index k = i).

Definition state (ks' : list packet) (Ts : list (list bend)) : Prop :=
  length ks' = length S /\ forall s, In s S -> exists k, nth_error ks' (s_index s) = Some k /\ told Ts s k.

Lemma state_get : forall ks' Ts s, state ks' Ts -> In s S -> exists k, get_packet ks' s = Ok k /\ nth_error ks' (s_index s) = Some k /\ told Ts s k.
Proof using.
  intros ks' Ts s (L & H) Hs. destruct (H s Hs) as (k & K1 & K2). exists k. split; [now apply index_nat_some|auto].
Qed.

Lemma state_new : forall ks' Ts, state ks' Ts -> state ks' (Ts ++ [[]]).
Proof using.
  intros ks' Ts (L & H). split; [exact L|]. intros s Hs. destruct (H s Hs) as (k & K & T1 & T2 & T3 & T4 & T5 & T6). exists k. split; [exact K|].
  unfold told. rewrite concat_last, app_nil_r. repeat (split; [assumption|]). split; [|auto]. intros x c Hc.
  destruct (T4 x c Hc) as (T & A & B). exists T. split; [now apply nth_app_more|exact B].
Qed.

Lemma state_mark : forall ks' Ts cur d k, state ks' (Ts ++ [cur]) -> In (fst d) S -> nth_error ks' (s_index (fst d)) = Some k ->
  state (put_packet ks' (fst d) (with_done k (snd d) (length Ts))) (Ts ++ [cur ++ [d]]).
Proof using D.
  intros ks' Ts cur d k (L & H) Hs K. assert (B : (s_index (fst d) < length ks')%nat) by (apply nth_error_Some; congruence).
  assert (Keep : forall c T e, nth_error (Ts ++ [cur]) c = Some T -> In e T -> exists T', nth_error (Ts ++ [cur ++ [d]]) c = Some T' /\ In e T').
  { intros c T e Hc He. apply nth_app_cases in Hc. destruct Hc as [Hc|[-> ->]].
    - exists T. split; [now apply nth_app_more|exact He].
    - exists (cur ++ [d]). split; [apply nth_app_last|]. apply in_or_app. now left. }
  assert (C : forall e, In e (concat (Ts ++ [cur ++ [d]])) <-> In e (concat (Ts ++ [cur])) \/ e = d).
  { intros e. rewrite !concat_last, app_assoc, !in_app_iff. cbn. intuition. }
  split; [unfold put_packet; now rewrite set_nth_length|]. intros s' Hs'. destruct (H s' Hs') as (k' & K' & T1 & T2 & T3 & T4 & T5 & T6).
  destruct (Nat.eq_dec (s_index s') (s_index (fst d))) as [Q|Q].
  - apply (index_eq _ _ D) in Q; auto. subst s'. rewrite K in K'. injection K' as <-. eexists. split; [now apply nth_set_same|].
    destruct d as [s y]. cbn [fst snd] in *. unfold told. split; [exact T1|]. split; [exact T2|]. split; [|split; [|split; [|exact T6]]].
    + intros x. rewrite C, <- T3. destruct x, y; cbn [with_done side_done k_left_done k_right_done]; split; intros X; auto;
        try (destruct X as [X|X]; [exact X|discriminate]); now right.
    + intros x c. destruct x, y; cbn [with_done side_contour k_left_contour k_right_contour]; intros X.
      1,4: injection X as <-; eexists; split; [apply nth_app_last|]; apply in_or_app; right; now left.
      all: first [destruct (T4 LeftEnd c X) as (T & A1 & A2)|destruct (T4 RightEnd c X) as (T & A1 & A2)]; eapply Keep; eassumption.
    + intros x Hx. apply C in Hx. destruct x, y; cbn [with_done side_contour k_left_contour k_right_contour]; eauto;
        (destruct Hx as [Hx|Hx]; [exact (T5 _ Hx)|discriminate]).
  - exists k'. split; [unfold put_packet; rewrite nth_set_other; [exact K'|exact B|congruence]|].
    unfold told. split; [exact T1|]. split; [exact T2|]. split; [|split; [|split; [|exact T6]]].
    + intros x. rewrite C, T3. split; [now left|]. intros [X|X]; [exact X|]. exfalso. apply Q. now rewrite <- X.
    + intros x c Hc. destruct (T4 x c Hc) as (T & A1 & A2). eapply Keep; eassumption.
    + intros x Hx. apply C in Hx. destruct Hx as [Hx|Hx]; [auto|]. exfalso. apply Q. now rewrite <- Hx.
Qed.

(** *** One contour *)

(** The contour so far. *)
Definition drawing (c : contour) (T : list bend) (e : bend) : Prop :=
  Forall2 at_z (c_points c) (map src T) /\ c_from c = bits n (face e)
  /\ c_holes c = [] /\ c_neighbors c = [] /\ c_external c = true /\ c_cache c = None.

Lemma open_next : forall ks' Ts e l d w, state ks' (Ts ++ [e :: l]) -> Forall walk Ts ->
  (forall h t x, In (h :: t) Ts -> In x I -> dst x = src h -> In x (concat Ts) \/ src h = src e) ->
  NoDup (concat Ts ++ e :: l) -> chain e l -> In e I -> d = last l e -> dst d <> src e -> next d w ->
  ~ In w (concat Ts ++ e :: l) /\ open_end ks' d w.
Proof using D V Polys PI NE.
  intros ks' Ts e l d w St Ws Old ND Ch He -> NQ Nx.
  assert (Hd : In (last l e) I).
  { destruct l as [|x l] using rev_ind; [exact He|]. rewrite last_last. apply (chain_in zs S I (l ++ [x]) e); [exact Ch|]. apply in_or_app. right. now left. }
  assert (Hd' : In (last l e) (e :: l)) by apply in_last.
  assert (ND' : forall a b, concat Ts ++ e :: l = a ++ b -> forall x, In x a -> In x b -> False).
  { intros a b Q x Xa Xb. rewrite Q in ND. apply in_split in Xa. destruct Xa as (a1 & a2 & ->). rewrite <- app_assoc in ND. cbn in ND.
    apply NoDup_remove_2 in ND. apply ND. rewrite !in_app_iff. auto. }
  assert (N : ~ In w (concat Ts ++ e :: l)).
  { intros Hw. apply in_app_or in Hw. destruct Hw as [Hw|[Hw|Hw]].
    - apply in_concat in Hw. destruct Hw as (T & HT & Hw). assert (WT : walk T) by (rewrite Forall_forall in Ws; auto).
      assert (X : ~ In (last l e) (concat Ts)) by (intros X; exact (ND' (concat Ts) (e :: l) eq_refl _ X Hd')).
      destruct (walk_prev zs S I T w WT Hw) as [(t & ->)|(m & M1 & M2)].
      + destruct (Old w t (last l e) HT Hd) as [X'|X']; [symmetry; apply Nx|now apply X|].
        apply NQ. rewrite <- X'. symmetry. apply Nx.
      + apply X. replace (last l e) with m; [apply in_concat; eauto|].
        apply (next_once zs modes S ks act sw I D V Polys PI NE m (last l e) w); auto. apply (walk_in zs S I T); auto.
    - subst w. apply NQ. symmetry. apply Nx.
    - destruct (chain_prev zs S I l e w Ch Hw) as (m & M1 & M2).
      assert (Im : In m (e :: l)).
      { rewrite (app_removelast_last e (l := e :: l)) by discriminate. apply in_or_app. now left. }
      assert (Hm : In m I) by (destruct Im as [<-|Im]; [exact He|now apply (chain_in zs S I l e)]).
      assert (Q : m = last l e) by (apply (next_once zs modes S ks act sw I D V Polys PI NE m (last l e) w); auto).
      apply (ND' (concat Ts ++ removelast (e :: l)) [last l e]) with (x := m).
      + rewrite <- app_assoc. f_equal. rewrite (app_removelast_last e (l := e :: l)) at 1 by discriminate. now rewrite last_cons.
      + apply in_or_app. now right.
      + left. now symmetry. }
  split; [exact N|]. destruct Nx as (Hw & _ & Nf & _).
  pose proof (kept_seg zs modes S ks act sw I D V Polys PI NE w Hw) as Sw. pose proof (kept_seg zs modes S ks act sw I D V Polys PI NE _ Hd) as Sd.
  split; [intros Q; apply Nf; now apply (index_eq _ _ D)|]. destruct St as (_ & H). destruct (H _ Sw) as (k & K & _ & _ & T3 & _).
  exists k. split; [exact K|]. change (side_done k (snd w) = false). apply not_true_iff_false. rewrite T3, concat_last.
  rewrite <- surjective_pairing. exact N.
Qed.

Lemma loop : forall e Ts, In e I -> snd e = LeftEnd -> Forall walk Ts ->
  (forall h t x, In (h :: t) Ts -> In x I -> dst x = src h -> In x (concat Ts) \/ src h = src e) ->
  forall fuel cur d c ks' l, cur ++ [d] = e :: l -> state ks' (Ts ++ [cur]) -> NoDup (concat Ts ++ e :: l) -> chain e l ->
  (forall m, In m cur -> dst m <> src e) -> drawing c (e :: l) e -> (length I < fuel + length cur)%nat ->
  exists c' ks'' d' l', trace_loop fuel I (length Ts) (s_left (fst e)) d c ks' = Ok (c', ks'', d')
    /\ walk (e :: l') /\ d' = last l' e /\ state ks'' (Ts ++ [e :: l']) /\ NoDup (concat Ts ++ e :: l') /\ drawing c' (e :: l') e.
Proof using D V Polys PI II Short NE.
  intros e Ts He Le Ws Old. induction fuel as [|fuel IH]; intros cur d c ks' l Q St ND Ch Op Dr Lt.
  - exfalso. assert (L : (length (e :: l) <= length I)%nat).
    { apply NoDup_incl_length.
      - clear - ND. induction (concat Ts) as [|x r IHr]; [exact ND|]. inversion ND. auto.
      - intros x [<-|Hx]; [exact He|now apply (chain_in zs S I l e)]. }
    rewrite <- Q, app_length in L. cbn in L. lia.
  - assert (Qd : d = last l e) by (rewrite <- (last_cons _ l e e), <- Q; now rewrite last_last).
    assert (Qc : cur = removelast (e :: l)) by (rewrite <- Q; now rewrite removelast_last).
    assert (Id : In d (e :: l)) by (rewrite <- Q; apply in_or_app; right; now left).
    assert (Hd : In d I) by (destruct Id as [<-|X]; [exact He|now apply (chain_in zs S I l e)]).
    pose proof (kept_seg zs modes S ks act sw I D V Polys PI NE d Hd) as Sd.
    destruct (state_get _ _ _ St Sd) as (k & K1 & K2 & K3). cbn [trace_loop]. rewrite K1. cbn [obind].
    assert (St' : state (put_packet ks' (fst d) (with_done k (snd d) (length Ts))) (Ts ++ [e :: l])) by (rewrite <- Q; exact (state_mark ks' Ts cur d k St Sd K2)).
    change (match snd d with LeftEnd => k_left k | RightEnd => k_right k end) with (side k (snd d)).
    assert (Sf : side k (snd d) = bits n (face e)).
    { rewrite (proj1 K3). rewrite <- surjective_pairing. apply bits_ext. intros i. destruct Id as [<-|X]; [reflexivity|].
      now apply (chain_face zs S I l). }
    destruct Dr as (P1 & P2 & P3 & P4 & P5 & P6). rewrite Sf, P2, bits_again. cbn [obind].
    pose proof (end_of zs S D d Sd) as Ed. pose proof (kept_seg zs modes S ks act sw I D V Polys PI NE e He) as Se.
    pose proof (end_of zs S D e Se) as Ee. pose proof (end_eqb _ _ _ _ _ _ Ed Ee) as Eq.
    replace (ep_point e) with (s_left (fst e)) in Eq by (unfold ep_point; now rewrite Le).
    destruct (point_eqb (ep_other d) (s_left (fst e))) eqn:X.
    + exists (set_from c (bits n (face e))), (put_packet ks' (fst d) (with_done k (snd d) (length Ts))), d, l.
      split; [reflexivity|]. split; [|split; [exact Qd|split; [exact St'|split; [exact ND|]]]].
      * exists e, l. repeat (split; [assumption || reflexivity|]). split; [rewrite <- Qd; now apply Eq|]. rewrite <- Qc. exact Op.
      * unfold drawing. cbn. repeat (split; [assumption || reflexivity|]). exact P6.
    + assert (NQ : dst d <> src e) by (intros Y; apply Eq in Y; congruence).
      destruct (next_exists zs modes S ks act sw I D V Polys PI NE d Hd) as (w & Nw).
      destruct (open_next _ Ts e l d w St' Ws Old ND Ch He Qd NQ Nw) as (Nin & Oe).
      rewrite (next_found zs modes S ks act sw I D V Polys PI II Short NE _ d w); [| |exact Hd|exact Nw|exact Oe].
      2:{ unfold put_packet. rewrite set_nth_length; [apply St|]. apply nth_error_Some. congruence. }
      cbn [obind]. destruct (IH (e :: l) w (contour_add (set_from c (bits n (face e))) (ep_other d))
        (put_packet ks' (fst d) (with_done k (snd d) (length Ts))) (l ++ [w])) as (c' & ks'' & d' & l' & R); [reflexivity|exact St'| | | | | |].
      * change (e :: l ++ [w]) with ((e :: l) ++ [w]). rewrite app_assoc. apply (Permutation_NoDup (Permutation_cons_append _ w)).
        constructor; [exact Nin|exact ND].
      * apply (chain_app zs S I); [exact Ch|]. now rewrite <- Qd.
      * intros m Hm. rewrite <- Q in Hm. apply in_app_or in Hm. destruct Hm as [Hm|[<-|[]]]; [now apply Op|exact NQ].
      * unfold drawing. cbn [c_points contour_add set_points set_from c_from c_holes c_neighbors c_external c_cache].
        split; [|repeat (split; [assumption || reflexivity|]); exact P6].
        change (e :: l ++ [w]) with ((e :: l) ++ [w]). rewrite map_app. apply Forall2_app; [exact P1|]. constructor; [|constructor].
        destruct Nw as (_ & Nw & _). rewrite Nw. apply (end_at_points _ _ _ Ed).
      * rewrite <- Q, app_length. cbn [length]. lia.
      * exists c', ks'', d', l'. exact R.
Qed.

(** *** The start *)

Definition only_index (k k' : packet) : Prop :=
  side k' = side k /\ k_below k' = k_below k /\ side_done k' = side_done k /\ side_contour k' = side_contour k.

Lemma indexed : forall l i ks0, (forall d, In d l -> In (fst d) S) -> NoDup l -> length ks0 = length S ->
  exists ks1, assign_indexes i l ks0 = Ok ks1 /\ length ks1 = length S
  /\ forall s k, In s S -> nth_error ks0 (s_index s) = Some k -> exists k', nth_error ks1 (s_index s) = Some k'
    /\ (forall x, side k' x = side k x /\ side_done k' x = side_done k x /\ side_contour k' x = side_contour k x) /\ k_below k' = k_below k
    /\ (forall j, nth_error l j = Some (s, LeftEnd) -> k_left_index k' = (i + j)%nat)
    /\ (~ In (s, LeftEnd) l -> k_left_index k' = k_left_index k).
Proof using D.
  clear V Polys. induction l as [|[a x] l IH]; intros i ks0 HS ND Len.
  - exists ks0. split; [reflexivity|]. split; [exact Len|]. intros s k Hs K. exists k. split; [exact K|].
    split; [auto|]. split; [reflexivity|]. split; [intros j Hj; destruct j; discriminate|reflexivity].
  - assert (Ha : In a S) by (apply (HS (a, x)); now left). destruct (in_seg _ _ D a Ha) as (A1 & _).
    assert (La : (s_index a < length ks0)%nat) by (rewrite Len; apply nth_error_Some; congruence).
    destruct (nth_error ks0 (s_index a)) as [ka|] eqn:Ka; [|apply nth_error_None in Ka; lia].
    inversion ND as [|? ? NI ND']; subst.
    destruct (IH (Datatypes.S i) (put_packet ks0 a (with_index ka x i))) as (ks1 & E1 & L1 & H1);
      [intros d Hd; apply HS; now right|exact ND'|unfold put_packet; now rewrite set_nth_length|].
    exists ks1. split.
    { cbn [assign_indexes]. unfold get_packet. rewrite (index_nat_some _ _ _ Ka). exact E1. }
    split; [exact L1|]. intros s k Hs K. destruct (Nat.eq_dec (s_index s) (s_index a)) as [Q|Q].
    + apply (index_eq _ _ D) in Q; auto. subst a. rewrite Ka in K. injection K as <-.
      destruct (H1 s (with_index ka x i) Hs) as (k' & B1 & B2 & B3 & B4 & B5); [now apply nth_set_same|].
      exists k'. split; [exact B1|]. split.
      { intros y. destruct (B2 y) as (C1 & C2 & C3). rewrite C1, C2, C3. destruct x, y; auto. }
      split; [now rewrite B3|]. split.
      * intros [|j] Hj; cbn in Hj.
        -- injection Hj as ->. rewrite B5 by exact NI. cbn. lia.
        -- rewrite (B4 j Hj). lia.
      * intros N. rewrite B5; [|intros X; apply N; now right]. destruct x; [exfalso; apply N; now left|reflexivity].
    + destruct (H1 s k Hs) as (k' & B1 & B2 & B3 & B4 & B5).
      { unfold put_packet. rewrite nth_set_other; auto. }
      exists k'. split; [exact B1|]. split; [exact B2|]. split; [exact B3|]. split.
      * intros [|j] Hj; cbn in Hj; [injection Hj as -> _; congruence|]. rewrite (B4 j Hj). lia.
      * intros N. apply B5. intros X. apply N. now right.
Qed.

Lemma state_start : exists ks1, assign_indexes 0 I ks = Ok ks1 /\ state ks1 [].
Proof using D V Polys PI NE.
  destruct (indexed I 0 ks) as (ks1 & E1 & L1 & H1).
  - apply (kept_seg zs modes S ks act sw I D V Polys PI NE).
  - apply (I_once zs modes S ks act sw I D V PI).
  - apply (v_len _ _ _ _ _ _ _ V).
  - exists ks1. split; [exact E1|]. split; [exact L1|]. intros s Hs.
    destruct (good_at _ _ _ _ _ _ V s Hs) as (k & K & _ & G1 & G2 & G3 & G4 & G5 & G6 & G7).
    destruct (H1 s k Hs K) as (k' & B1 & B2 & B3 & B4 & B5). exists k'. split; [exact B1|].
    destruct G3 as (F1 & F2 & _), G7 as (D1 & D2 & D3 & D4).
    split; [intros x; destruct (B2 x) as (-> & _); destruct x; [exact F1|exact F2]|].
    split; [now rewrite B3|]. cbn [concat].
    split; [intros x; destruct (B2 x) as (_ & -> & _); destruct x; cbn; rewrite ?D1, ?D2; split; [discriminate|intros []|discriminate|intros []]|].
    split; [intros x c; destruct (B2 x) as (_ & _ & ->); destruct x; cbn; rewrite ?D3, ?D4; discriminate|].
    split; [intros x []|]. intros i Hi. now apply B4.
Qed.

(** *** The next contour *)

Lemma later_left : forall i j a b, nth_error I i = Some (a, LeftEnd) -> nth_error I j = Some (b, LeftEnd) -> (i < j)%nat ->
  e_left (eg a) = e_left (eg b) -> 0 <= orient (e_left (eg b)) (e_right (eg a)) (e_right (eg b)).
Proof using D V Polys PI II NE.
  intros i j a b Hi Hj L Q. destruct (ss_nth _ _ _ II i j _ _ Hi Hj L) as (C & _).
  apply nth_error_In in Hi, Hj. apply (kept_seg zs modes S ks act sw I D V Polys PI NE) in Hi, Hj. cbn [fst] in Hi, Hj.
  destruct (seg_spec _ _ D _ Hi) as (A1 & _), (seg_spec _ _ D _ Hj) as (B1 & _).
  rewrite (endpoint_cmp_int _ (a, LeftEnd) (b, LeftEnd) _ _ _ _ A1 B1) in C. unfold event_before_z in C. cbn [fst snd end_z other_z] in C.
  rewrite Q, lex_refl in C. 
  assert (O : orient (e_left (eg b)) (e_right (eg a)) (e_right (eg b)) = - orient (e_left (eg b)) (e_right (eg b)) (e_right (eg a))) by (unfold orient; ring).
  destruct (Z.compare_spec (orient (e_left (eg b)) (e_right (eg b)) (e_right (eg a))) 0); try lia. discriminate.
Qed.

Lemma turn_trans : forall p a b c, lex_z p a = Lt -> lex_z p b = Lt -> lex_z p c = Lt -> 0 <= orient p a b -> 0 < orient p b c -> 0 < orient p a c.
Proof using.
  clear. intros [px py] [ax ay] [bx by_] [cx cy] A B C. apply lex_lt in A, B, C. unfold orient. cbn [fst snd] in *. intros H1 H2.
  assert (Ex : exists x1 y1 x2 y2 x3 y3, ax = px + x1 /\ ay = py + y1 /\ bx = px + x2 /\ by_ = py + y2 /\ cx = px + x3 /\ cy = py + y3).
  { exists (ax - px), (ay - py), (bx - px), (by_ - py), (cx - px), (cy - py). repeat split; ring. }
  destruct Ex as (x1 & y1 & x2 & y2 & x3 & y3 & -> & -> & -> & -> & -> & ->).
  assert (A' : 0 < x1 \/ (x1 = 0 /\ 0 < y1)) by lia. assert (B' : 0 < x2 \/ (x2 = 0 /\ 0 < y2)) by lia. assert (C' : 0 < x3 \/ (x3 = 0 /\ 0 < y3)) by lia.
  clear A B C. replace ((px + x1 - px) * (py + y2 - py) - (py + y1 - py) * (px + x2 - px)) with (x1 * y2 - y1 * x2) in H1 by ring.
  replace ((px + x2 - px) * (py + y3 - py) - (py + y2 - py) * (px + x3 - px)) with (x2 * y3 - y2 * x3) in H2 by ring.
  replace ((px + x1 - px) * (py + y3 - py) - (py + y1 - py) * (px + x3 - px)) with (x1 * y3 - y1 * x3) by ring.
  destruct B' as [B'|[-> B']]; [|exfalso; destruct C' as [C'|[-> C']]; nia].
  assert (X1 : 0 < x1) by (destruct A' as [A'|[-> A']]; [exact A'|nia]).
  assert (Id : x2 * (x1 * y3 - y1 * x3) = x1 * (x2 * y3 - y2 * x3) + x3 * (x1 * y2 - y1 * x2)) by ring.
  assert (0 <= x3 * (x1 * y2 - y1 * x2)) by (apply Z.mul_nonneg_nonneg; [destruct C' as [C'|[-> _]]; lia|exact H1]).
  assert (0 < x1 * (x2 * y3 - y2 * x3)) by (now apply Z.mul_pos_pos).
  nia.
Qed.

(** What is shown of a trace. *)
Definition under_side (b s : bseg) : Prop :=
  In b S /\ last_edge zs (eg b) /\ (forall i, TidyLine.LS zs (eg b) i = TidyLine.RS zs (eg s) i)
  /\ (lex_z (e_left (eg b)) (e_left (eg s)) = Lt \/ (e_left (eg b) = e_left (eg s) /\ 0 < orient (e_left (eg s)) (e_right (eg b)) (e_right (eg s))))
  /\ next_below zs (eg b) (eg s).

Definition first (T : list bend) : Prop := forall e l d, T = e :: l -> In d T -> lex_z (src e) (src d) <> Gt.

(** [T] is to be listed before [T'], going by where they start. *)
Definition listed (T T' : list bend) : Prop := forall e l e' l', T = e :: l -> T' = e' :: l' ->
  lex_z (src e) (src e') = Lt \/ (src e = src e' /\ 0 <= orient (src e) (dst e) (dst e')).

Definition shown (Ts : list (list bend)) (T : list bend) (c : contour) : Prop :=
  Forall2 at_z (c_points c) (map src T) /\ (forall d, In d T -> c_from c = bits n (face d)) /\ c_neighbors c = []
  /\ (exists c0, c_points c0 = c_points c /\ c_cache c0 = None /\ clockwise c0 = Ok (negb (c_external c), set_cache c0 (Some (negb (c_external c)))))
  /\ forall h, In h (c_holes c) -> exists T' s b, nth_error Ts h = Some T' /\ last T' (s, LeftEnd) = (s, RightEnd) /\ In (b, LeftEnd) T /\ under_side b s.

Record traces (pre : list bend) (ks' : list packet) (final : polygon) (Ts : list (list bend)) : Prop := mk_traces {
  t_state : state ks' Ts;
  t_walks : Forall walk Ts;
  t_first : Forall first Ts;
  t_once : NoDup (concat Ts);
  t_done : forall d, In d pre -> In d (concat Ts);
  t_heads : forall h l, In (h :: l) Ts -> In h pre;
  t_final : Forall2 (shown Ts) Ts final;
  t_order : ForallOrdPairs listed Ts }.

(** The walk [T] goes round to the left at its first corner, and yet is taken for a clockwise one. *)
Definition mistaken : Prop := exists e l c, walk (e :: l) /\ first (e :: l) /\ NoDup (e :: l)
  /\ Forall2 at_z (c_points c) (map src (e :: l)) /\ c_cache c = None /\ clockwise c = Ok (true, set_cache c (Some true))
  /\ 0 < orient (src e) (dst e) (src (last l e)).

Lemma shown_more : forall Ts T T' c, shown Ts T c -> shown (Ts ++ [T']) T c.
Proof using.
  intros Ts T T' c (A & B & C & F & H). repeat (split; [assumption|]). intros h Hh. destruct (H h Hh) as (T1 & s & b & X & Y).
  exists T1, s, b. split; [now apply nth_app_more|exact Y].
Qed.

Lemma clockwise_new : forall c, c_cache c = None -> c_points c <> [] -> exists b, clockwise c = Ok (b, set_cache c (Some b)).
Proof using. intros c H N. unfold clockwise. rewrite H. destruct (c_points c); [congruence|]. eauto. Qed.

Lemma trace_one_eq : forall segs included ks0 final (e : bend), trace_one segs included (ks0, final) e =
  (let* done := is_processed ks0 e in
   if done : bool then Ok (ks0, final)
   else
    let cid := length final in
    let* k := get_packet ks0 (fst e) in
    let c := contour_add (set_from contour_new (side k (snd e))) (s_left (fst e)) in
    let* current := index_nat included (k_left_index k) in
    let* (c, ks0, current) := trace_loop (Datatypes.S (Datatypes.S (length included))) included cid (s_left (fst e)) current c ks0 in
    let* (cw, c) := clockwise c in
    let final := final ++ [c] in
    if cw : bool then
      let* k := get_packet ks0 (fst current) in
      match k_below k with
      | Some below_id =>
          let* below := index_nat segs below_id in
          let* bk := get_packet ks0 below in
          let* parent := unwrap (k_left_contour bk) in
          let* final := update_nat final parent (fun c => Ok (add_hole c cid)) in
          let* final := update_nat final cid (fun c => Ok (set_external c false)) in
          Ok (ks0, final)
      | None => Ok (ks0, final)
      end
    else Ok (ks0, final)).
Proof using. intros segs included ks0 final [s x]. reflexivity. Qed.

Section Step.
Variables (pre post : list bend) (e : bend) (ks' : list packet) (final : polygon) (Ts : list (list bend)).
Hypothesis (Cut : I = pre ++ e :: post) (Tr : traces pre ks' final Ts).

Lemma e_in : In e I.
Proof using Cut. rewrite Cut. apply in_or_app. right. now left. Qed.

Lemma e_place : nth_error I (length pre) = Some e.
Proof using Cut. rewrite Cut, nth_error_app2 by lia. now rewrite Nat.sub_diag. Qed.

Lemma step_done : In e (concat Ts) -> trace_one S I (ks', final) e = Ok (ks', final) /\ traces (pre ++ [e]) ks' final Ts.
Proof using D V Polys PI NE Cut Tr.
  intros He. pose proof (kept_seg zs modes S ks act sw I D V Polys PI NE e e_in) as Se.
  destruct (state_get _ _ _ (t_state _ _ _ _ Tr) Se) as (k & K1 & K2 & K3). split.
  - unfold trace_one, is_processed. rewrite K1. cbn [obind]. change (match snd e with LeftEnd => k_left_done k | RightEnd => k_right_done k end) with (side_done k (snd e)).
    replace (side_done k (snd e)) with true; [reflexivity|]. symmetry. apply K3. now rewrite <- surjective_pairing.
  - destruct Tr as [A1 A2 A3 A4 A5 A6 A7 A8]. constructor; auto.
    + intros d Hd. apply in_app_or in Hd. destruct Hd as [Hd|[<-|[]]]; auto.
    + intros h l Hh. apply in_or_app. left. eauto.
Qed.

(** What has not been traced yet is not before [e]. *)
Lemma step_later : forall d, In d I -> ~ In d (concat Ts) -> lex_z (src e) (src d) <> Gt.
Proof using D V Polys PI II NE Cut Tr.
  intros d Hd N L. apply N, (t_done _ _ _ _ Tr). apply (before zs modes S ks act sw I D V Polys PI II NE pre post e Cut d Hd). now apply lex_gt.
Qed.

(** What has been traced is listed before what starts with [e]. *)
Lemma step_order : forall T l, snd e = LeftEnd -> In T Ts -> listed T (e :: l).
Proof using D V Polys PI II NE Cut Tr.
  intros T l Le HT h t e' l' -> Q. injection Q as <- <-. pose proof (t_heads _ _ _ _ Tr h t HT) as Hh.
  assert (Lh : snd h = LeftEnd).
  { pose proof (t_walks _ _ _ _ Tr) as W. rewrite Forall_forall in W. destruct (W _ HT) as (e1 & l1 & Q1 & L1 & _). injection Q1 as <- _. exact L1. }
  apply In_nth_error in Hh. destruct Hh as (i & Hi). assert (Li : (i < length pre)%nat) by (apply nth_error_Some; congruence).
  assert (Ii : nth_error I i = Some h) by (rewrite Cut, nth_error_app1 by exact Li; exact Hi).
  pose proof (I_lex zs modes S ks act sw I D V Polys PI II NE i (length pre) h e Ii e_place) as G.
  assert (G' : lex_z (src h) (src e) <> Gt) by (apply G; lia). destruct (lex_z (src h) (src e)) eqn:K; [right|now left|now destruct G'].
  apply lex_eq in K. split; [exact K|]. pose proof e_place as Pe. generalize dependent e. intros e0. intros. destruct h as [sh xh], e0 as [s x]. cbn [snd] in Lh, Le. subst xh x.
  unfold TidyNext.src, TidyNext.dst in K |- *. cbn [fst snd end_z other_z] in K |- *. rewrite K. apply (later_left i (length pre)); auto.
Qed.

Lemma pairs_last : forall A (R : A -> A -> Prop) l y, ForallOrdPairs R l -> (forall x, In x l -> R x y) -> ForallOrdPairs R (l ++ [y]).
Proof using.
  clear. intros A R l y H. induction H as [|x l Hx H IH]; intros G; cbn [app]; [constructor; [constructor|constructor]|].
  constructor; [|apply IH; intros z Hz; apply G; now right]. apply Forall_app. split; [exact Hx|]. constructor; [apply G; now left|constructor].
Qed.

Lemma step_new : ~ In e (concat Ts) ->
  (exists ks'' final' Ts', trace_one S I (ks', final) e = Ok (ks'', final') /\ traces (pre ++ [e]) ks'' final' Ts')
  \/ (trace_one S I (ks', final) e = Panic PUnwrap /\ mistaken).
Proof using D V Polys PI II Short NE Cut Tr.
  intros He. pose proof e_in as Ie. pose proof (kept_seg zs modes S ks act sw I D V Polys PI NE e Ie) as Se.
  pose proof (first_left zs modes S ks act sw I D V Polys PI II NE pre post e Ts Cut (t_walks _ _ _ _ Tr) (t_once _ _ _ _ Tr) (t_done _ _ _ _ Tr) He) as Le.
  destruct (state_get _ _ _ (t_state _ _ _ _ Tr) Se) as (k & K1 & K2 & K3).
  rewrite trace_one_eq. unfold is_processed. rewrite K1. cbn [obind]. change (match snd e with LeftEnd => k_left_done k | RightEnd => k_right_done k end) with (side_done k (snd e)).
  replace (side_done k (snd e)) with false.
  2:{ symmetry. apply not_true_iff_false. intros X. apply K3 in X. rewrite <- surjective_pairing in X. contradiction. }
  set (s0 := fst e) in *. assert (Fe : s0 = fst e) by reflexivity. clearbody s0.
  assert (Qe : e = (s0, LeftEnd)) by (rewrite Fe, <- Le; now rewrite <- surjective_pairing).
  cbn [obind]. destruct K3 as (T1 & T2 & T3 & T4 & T5 & T6). rewrite (T6 (length pre)) by (etransitivity; [exact e_place|now f_equal]).
  rewrite (index_nat_some _ _ _ e_place). cbn [obind]. rewrite (T1 (snd e)), Le.
  pose proof (loop e Ts Ie Le (t_walks _ _ _ _ Tr)) as LP.
  specialize (LP (fun h t x => heads_done zs modes S ks act sw I D V Polys PI II NE pre post e Ts Cut (t_walks _ _ _ _ Tr) (t_once _ _ _ _ Tr) (t_done _ _ _ _ Tr) (t_heads _ _ _ _ Tr) h t x)).
  pose proof (Forall2_len _ _ _ (t_final _ _ _ _ Tr)) as Len.
  destruct (LP (Datatypes.S (Datatypes.S (length I))) [] e (contour_add (set_from contour_new (bits n (face (s0, LeftEnd)))) (s_left s0)) ks' [] eq_refl) as (c & ks'' & d' & l' & L1 & L2 & L3 & L4 & L5 & L6).
  { now apply state_new, (t_state _ _ _ _ Tr). }
  { apply (Permutation_NoDup (Permutation_cons_append (concat Ts) e)). constructor; [exact He|apply (t_once _ _ _ _ Tr)]. }
  { exact Logic.I. }
  { intros m []. }
  { unfold drawing. cbn. split; [|split; [|auto]].
    - constructor; [|constructor]. rewrite Fe. replace (s_left (fst e)) with (ep_point e) by (unfold ep_point; now rewrite Le).
      apply (end_at_points _ _ _ (end_of zs S D e (eq_ind _ (fun x => In x S) Se _ Fe))).
    - now rewrite Qe. }
  { cbn [length]. lia. }
  rewrite <- Fe, Len in L1. 
  replace (trace_loop _ I (length final) (s_left s0) e _ ks') with (Ok (c, ks'', d')) by (symmetry; exact L1). cbn [obind].
  assert (Fst : first (e :: l')).
  { intros e1 l1 d Q Hd. injection Q as <- _. apply step_later; [now apply (walk_in zs S I (e :: l'))|]. intros X.
    apply in_split in Hd. destruct Hd as (a1 & a2 & Qa). rewrite Qa, app_assoc in L5. apply NoDup_remove_2 in L5. apply L5. rewrite !in_app_iff. auto. }
  destruct L6 as (P1 & P2 & P3 & P4 & P5 & P6).
  destruct (clockwise_new c P6) as (cw & CW).
  { intros X. rewrite X in P1. inversion P1. }
  rewrite CW. cbn [obind].
  assert (From : forall d, In d (e :: l') -> c_from c = bits n (face d)).
  { intros d Hd. rewrite P2. apply bits_ext. intros i. apply (walk_face zs S I (e :: l')); [exact L2|now left|exact Hd]. }
  assert (TR : forall final', Forall2 (shown (Ts ++ [e :: l'])) (Ts ++ [e :: l']) final' -> traces (pre ++ [e]) ks'' final' (Ts ++ [e :: l'])).
  { intros final' Hf. constructor; auto.
    - apply Forall_app. split; [apply (t_walks _ _ _ _ Tr)|now constructor].
    - apply Forall_app. split; [apply (t_first _ _ _ _ Tr)|now constructor].
    - now rewrite concat_last.
    - intros d Hd. rewrite concat_last. apply in_app_or in Hd. apply in_or_app. destruct Hd as [Hd|[<-|[]]]; [left; now apply (t_done _ _ _ _ Tr)|right; now left].
    - intros h l Hh. apply in_app_or in Hh. apply in_or_app. destruct Hh as [Hh|[Hh|[]]]; [left; now apply (t_heads _ _ _ _ Tr h l)|right; injection Hh as <- _; now left].
    - apply pairs_last; [apply (t_order _ _ _ _ Tr)|]. intros T HT. now apply step_order. }
  assert (Old : Forall2 (shown (Ts ++ [e :: l'])) Ts final).
  { apply (forall2_weaken _ _ (shown Ts)); [intros T c1; apply shown_more|apply (t_final _ _ _ _ Tr)]. }
  destruct cw.
  2:{ left. exists ks'', (final ++ [set_cache c (Some false)]), (Ts ++ [e :: l']). split; [reflexivity|]. apply TR. apply Forall2_app; [exact Old|].
      constructor; [|constructor]. split; [exact P1|]. split; [exact From|]. split; [exact P4|]. split.
      - exists c. cbn. rewrite P5. auto.
      - cbn. rewrite P3. intros h []. }
  (* clockwise *)
  assert (Id : In d' (e :: l')) by (rewrite L3; apply in_last).
  assert (Hd : In d' I) by (now apply (walk_in zs S I (e :: l'))).
  pose proof (kept_seg zs modes S ks act sw I D V Polys PI NE d' Hd) as Sd.
  assert (Qs : dst d' = src e).
  { destruct L2 as (e1 & l1 & Q & _ & _ & _ & Q2 & _). injection Q as <- <-. now rewrite L3. }
  assert (Rd : snd d' = RightEnd).
  { destruct (snd d') eqn:X; [exfalso|reflexivity]. apply (Fst e l' d' eq_refl Id). rewrite <- Qs. unfold TidyNext.src, TidyNext.dst. rewrite X. cbn [end_z other_z].
    apply lex_gt. now apply (seg_spec _ _ D). }
  destruct (state_get _ _ _ L4 Sd) as (kd & KD1 & KD2 & KD3). rewrite KD1. cbn [obind].
  pose proof KD3 as (_ & Nt & _). unfold noted in Nt. destruct (k_below kd) as [j|].
  2:{ exfalso. apply (kept_iff zs modes S ks act sw I D V Polys PI NE) in Hd. destruct Hd as (_ & _ & (i & _ & X) & _). unfold TidyNext.face in X. rewrite Rd, Nt in X. discriminate. }
  destruct Nt as (b & B1 & B2 & B3 & B4 & B5 & Bn). destruct (in_seg _ _ D b B1) as (B6 & _).
  rewrite B2 in B6. rewrite (index_nat_some _ _ _ B6). cbn [obind].
  destruct (state_get _ _ _ L4 B1) as (kb & KB1 & KB2 & KB3). rewrite KB1. cbn [obind].
  assert (LB : last_edge zs (eg b)).
  { intros i Hi. apply (has_edge_seg _ _ D) in Hi. destruct Hi as (t & H1 & <- & H2). now apply B3. }
  assert (Us : under_side b (fst d')) by (split; [exact B1|split; [exact LB|split; [exact B4|split; [exact B5|exact Bn]]]]).
  assert (Ib : In (b, LeftEnd) I).
  { apply (kept_iff zs modes S ks act sw I D V Polys PI NE). split; [exact B1|]. split; [exact LB|].
    apply (kept_iff zs modes S ks act sw I D V Polys PI NE) in Hd. destruct Hd as (_ & _ & (i & X1 & X2) & X3).
    assert (F : forall i, face (b, LeftEnd) i = face d' i) by (intros i'; unfold TidyNext.face; rewrite Rd; apply B4).
    split; [exists i; split; [exact X1|now rewrite F]|]. intros i'. rewrite F. apply X3. }
  assert (Ld : e_left (eg (fst d')) = src e) by (rewrite <- Qs; unfold TidyNext.dst; now rewrite Rd).
  destruct (k_left_contour kb) as [pa|] eqn:Qb; cbn [unwrap obind].
  - left. destruct KB3 as (_ & _ & _ & KB4 & _). destruct (KB4 LeftEnd pa Qb) as (Tp & Tp1 & Tp2).
    assert (Lp : (pa < length (final ++ [set_cache c (Some true)]))%nat).
    { apply nth_lt in Tp1. rewrite app_length in Tp1 |- *. cbn [length] in *. lia. }
    destruct (nth_error (final ++ [set_cache c (Some true)]) pa) as [cp|] eqn:Cp; [|apply nth_error_None in Cp; lia].
    unfold update_nat at 1. rewrite (index_nat_some _ _ _ Cp). cbn [obind].
    set (f1 := set_nth pa (add_hole cp (length final)) (final ++ [set_cache c (Some true)])).
    assert (L1f : length f1 = length (final ++ [set_cache c (Some true)])) by (apply set_nth_length; exact Lp).
    destruct (nth_error f1 (length final)) as [ch|] eqn:Ch; [|apply nth_error_None in Ch; rewrite L1f, app_length in Ch; cbn in Ch; lia].
    unfold update_nat. rewrite (index_nat_some _ _ _ Ch). cbn [obind].
    exists ks'', (set_nth (length final) (set_external ch false) f1), (Ts ++ [e :: l']). split; [reflexivity|]. apply TR.
    assert (Hole : exists T' s b0, nth_error (Ts ++ [e :: l']) (length final) = Some T' /\ last T' (s, LeftEnd) = (s, RightEnd) /\ In (b0, LeftEnd) Tp /\ under_side b0 s).
    { exists (e :: l'), (fst d'), b. split; [rewrite <- Len; apply nth_app_last|]. split; [|split; [exact Tp2|exact Us]].
      etransitivity; [exact (last_cons _ l' e _)|]. rewrite <- L3, <- Rd. now rewrite <- surjective_pairing. }
    assert (Mid : forall i T c1, nth_error (Ts ++ [e :: l']) i = Some T -> nth_error (final ++ [set_cache c (Some true)]) i = Some c1 ->
      (i <> length final -> shown (Ts ++ [e :: l']) T c1) /\ (i = length final -> T = e :: l' /\ c1 = set_cache c (Some true))).
    { intros i T c1 H1 H2. apply nth_app_cases in H1, H2. destruct H1 as [H1|[X1 X2]], H2 as [H2|[Y1 Y2]].
      - split; [intros _; exact (Forall2_nth _ _ _ _ _ _ Old H1 H2)|]. apply nth_lt in H2. lia.
      - apply nth_lt in H1. lia.
      - apply nth_lt in H2. lia.
      - split; [congruence|auto]. }
    apply forall2_intro; [rewrite set_nth_length, L1f, !app_length by (apply nth_lt in Ch; exact Ch); cbn; lia|].
    intros i T c1 H1 H2. destruct (set_nth_nth f1 _ _ _ _ _ Ch H2) as [(-> & ->)|(N1 & H3)].
    + rewrite <- Len in H1. rewrite nth_app_last in H1. injection H1 as <-.
      assert (Base : (ch = set_cache c (Some true) /\ pa <> length final) \/ (ch = add_hole (set_cache c (Some true)) (length final) /\ Tp = e :: l')).
      { destruct (set_nth_nth _ _ _ _ _ _ Cp Ch) as [(Q1 & ->)|(Q1 & Q2)].
        - right. rewrite <- Q1, nth_app_last in Cp. injection Cp as <-. rewrite <- Q1, <- Len, nth_app_last in Tp1. injection Tp1 as <-. auto.
        - left. rewrite nth_app_last in Q2. injection Q2 as <-. split; [reflexivity|congruence]. }
      destruct Base as [[-> _]|[-> ->]]; (split; [exact P1|]; split; [exact From|]; split; [exact P4|]; split; [exists c; cbn; auto|]); cbn; rewrite P3; [intros h []|].
      intros h [<-|[]]. exact Hole.
    + destruct (set_nth_nth _ _ _ _ _ _ Cp H3) as [(-> & ->)|(N2 & H4)].
      * rewrite Tp1 in H1. injection H1 as <-. destruct (proj1 (Mid pa Tp cp Tp1 Cp) N1) as (X1 & X2 & X3 & X4 & X5).
        split; [exact X1|]. split; [exact X2|]. split; [exact X3|]. split; [exact X4|]. cbn. intros h Hh. apply in_app_or in Hh.
        destruct Hh as [Hh|[<-|[]]]; [auto|exact Hole].
      * now apply (Mid i T c1).
  - right. split; [reflexivity|]. exists e, l', c. split; [exact L2|]. split; [exact Fst|].
    split; [clear - L5; induction (concat Ts) as [|x r IHr]; [exact L5|inversion L5; auto]|].
    split; [exact P1|]. split; [exact P6|]. split; [exact CW|]. rewrite <- L3.
    assert (Nb : ~ In (b, LeftEnd) (concat (Ts ++ [e :: l']))).
    { intros X. destruct KB3 as (_ & _ & _ & _ & KB5 & _). destruct (KB5 LeftEnd X) as (q & Hq). cbn in Hq. congruence. }
    rewrite concat_last, in_app_iff in Nb.
    assert (Nb1 : ~ In (b, LeftEnd) (concat Ts)) by tauto. pose proof (step_later _ Ib Nb1) as Lb.
    destruct B5 as [B5|(B5 & B7)].
    { exfalso. apply Lb. rewrite <- Ld. apply lex_gt. exact B5. }
    assert (O1 : 0 <= orient (e_left (eg b)) (e_right (eg s0)) (e_right (eg b))).
    { pose proof Ib as Ib'. rewrite Cut in Ib'. apply in_app_or in Ib'. destruct Ib' as [X|[X|X]].
      - exfalso. apply Nb1. now apply (t_done _ _ _ _ Tr).
      - exfalso. apply Nb. right. now left.
      - destruct (In_nth_error _ _ X) as (q & Hq). apply (later_left (length pre) (length pre + 1 + q)).
        + etransitivity; [exact e_place|now f_equal].
        + rewrite Cut, nth_error_app2 by lia. replace (length pre + 1 + q - length pre)%nat with (Datatypes.S q) by lia. exact Hq.
        + lia.
        + rewrite B5, Ld. unfold TidyNext.src. now rewrite Qe. }
    assert (S0 : src e = e_left (eg s0)) by (unfold TidyNext.src; now rewrite Qe).
    assert (D0 : dst e = e_right (eg s0)) by (unfold TidyNext.dst; now rewrite Qe).
    assert (S1 : src d' = e_right (eg (fst d'))) by (unfold TidyNext.src; now rewrite Rd).
    rewrite D0, S1. rewrite B5, Ld in O1. rewrite Ld in B7. apply (turn_trans _ _ (e_right (eg b))); auto.
    + rewrite S0. now apply (seg_spec _ _ D).
    + rewrite <- Ld, <- B5. now apply (seg_spec _ _ D).
    + rewrite <- Ld. now apply (seg_spec _ _ D).
Qed.
End Step.

End Trace.
