(** The next segment around a contour of the overlay, and the next edge around a sector. *)

From Coq Require Import List ZArith Bool Lia.
From Verif Require Import Base BaseFacts Float SpecFloat64 FloatFacts FloatOrder MapFacts Geometry Sweep Compute SectorPolys
  SpecShape ShapeFacts SpecOrder OrderFacts SpecIntersect SpecTurn IntersectFacts TurnFacts TurnFacts2.
Import ListNotations.
Local Open Scope Z_scope.

(** *** Choosing among candidates *)

Section Choose.
Context {A : Type}.
Variables (vec : A -> point) (u : point) (zu : Z * Z).
Hypothesis (Iu : vint u zu) (Su : short zu).

Definition valid (e : A) : Prop := exists z, vint (vec e) z /\ short z.

(** [c] is the best of [cs]. *)
Definition leftmost (cs : list A) (c : A) : Prop :=
  In c cs /\ forall e z w, In e cs -> vint (vec c) z -> vint (vec e) w -> as_left zu z w.

Definition next_best (v x : A) : A := if replaces u (vec v) (vec x) then x else v.

Lemma vint_inj : forall p z w, vint p z -> vint p w -> z = w.
Proof using.
  intros p [a b] [c d] [A1 A2] [B1 B2]. cbn [fst snd] in *.
  pose proof (eq_int _ _ _ _ A1 B1) as E1. pose proof (eq_int _ _ _ _ A1 A1) as E2.
  pose proof (eq_int _ _ _ _ A2 B2) as E3. pose proof (eq_int _ _ _ _ A2 A2) as E4.
  rewrite Z.eqb_refl in E2, E4. rewrite E2 in E1. rewrite E4 in E3.
  symmetry in E1, E3. apply Z.eqb_eq in E1, E3. congruence.
Qed.

Lemma leftmost_step : forall cs c x, Forall valid cs -> valid x -> leftmost cs c -> leftmost (cs ++ [x]) (next_best c x).
Proof using Iu Su.
  intros cs c x V (zx & Ix & Sx) [Hc L]. pose proof V as V'. rewrite Forall_forall in V.
  destruct (V c Hc) as (zc & Ic & Sc).
  pose proof (turn_step _ _ _ _ _ _ Iu Ic Ix Su Sc Sx) as T. unfold next_best.
  destruct (replaces u (vec c) (vec x)); (split; [apply in_app_iff; cbn; tauto|]); intros e z w He Iz Iw;
    apply in_app_iff in He; destruct He as [He|[<-|[]]].
  - rewrite (vint_inj _ _ _ Iz Ix). destruct (V e He) as (ze & Ie & Se). rewrite (vint_inj _ _ _ Iw Ie).
    apply (as_left_trans _ _ zc); [apply Su|apply Sc|exact T|]. eapply L; eassumption.
  - rewrite (vint_inj _ _ _ Iz Iw). apply as_left_refl.
  - eapply L; eassumption.
  - rewrite (vint_inj _ _ _ Iz Ic), (vint_inj _ _ _ Iw Ix). exact T.
Qed.

Lemma leftmost_fold : forall rest cs c, Forall valid cs -> Forall valid rest -> leftmost cs c ->
  leftmost (cs ++ rest) (fold_left next_best rest c).
Proof using Iu Su.
  induction rest as [|x rest IH]; intros cs c V W L; cbn [fold_left].
  - now rewrite app_nil_r.
  - inversion W as [|? ? Vx Wr]; subst.
    replace (cs ++ x :: rest) with ((cs ++ [x]) ++ rest) by (rewrite <- app_assoc; reflexivity).
    apply IH; [apply Forall_app; auto|assumption|now apply leftmost_step].
Qed.

Lemma leftmost_all : forall rest c, valid c -> Forall valid rest -> leftmost (c :: rest) (fold_left next_best rest c).
Proof using Iu Su.
  intros rest c V W. apply (leftmost_fold rest [c] c); [auto|assumption|].
  split; [now left|]. intros e z w [<-|[]] Iz Iw. rewrite (vint_inj _ _ _ Iz Iw). apply as_left_refl.
Qed.
End Choose.

(** *** The overlay *)

Definition end_vec (e : bend) : point := p_sub (ep_other e) (ep_point e).

Lemma consider_none : forall u d e, consider_end u (d, None, false) e
  = (cosine u (end_vec e), Some e, f64_gt (v_cross u (end_vec e)) f64_zero).
Proof.
  intros u d e. unfold consider_end, cosine, end_vec. destruct (f64_gt _ _); reflexivity.
Qed.

Definition holding (u : point) (e : bend) : best := (cosine u (end_vec e), Some e, f64_gt (v_cross u (end_vec e)) f64_zero).

Lemma consider_some : forall u c e, consider_end u (holding u c) e = holding u (next_best end_vec u c e).
Proof.
  intros u c e. unfold consider_end, holding, next_best, replaces. fold (end_vec e). fold (cosine u (end_vec e)).
  set (lt := f64_lt (cosine u (end_vec e)) (cosine u (end_vec c))). set (gt := f64_gt (cosine u (end_vec e)) (cosine u (end_vec c))).
  destruct (f64_gt (v_cross u (end_vec e)) f64_zero) eqn:X, (f64_gt (v_cross u (end_vec c)) f64_zero) eqn:V, lt, gt;
    cbn [andb orb negb]; rewrite ?X, ?V; reflexivity.
Qed.

Lemma consider_fold : forall u cs c, fold_left (consider_end u) cs (holding u c) = holding u (fold_left (next_best end_vec u) cs c).
Proof.
  intros u cs. induction cs as [|e cs IH]; intros c; cbn [fold_left]; [reflexivity|].
  now rewrite consider_some, IH.
Qed.

Lemma end_at_points : forall e a b, end_at e a b -> at_z (ep_point e) a /\ at_z (ep_other e) b /\ within (2 ^ 24) a /\ within (2 ^ 24) b /\ a <> b.
Proof.
  intros [s []] a b H; unfold end_at, seg_z, ep_point, ep_other in *; cbn [fst snd] in *;
    destruct H as (H1 & H2 & H3 & H4 & H5); repeat (split; [assumption|]); intros ->;
    rewrite (proj2 (lex_eq b b) eq_refl) in H3; discriminate.
Qed.

Lemma end_at_vec : forall e a b, end_at e a b -> vint (end_vec e) (vsub b a).
Proof.
  intros e a b H. destruct (end_at_points _ _ _ H) as (A & B & WA & WB & _).
  apply sub_vint; auto; now apply at_z_vint.
Qed.

Lemma end_at_inj : forall e a b a' b', end_at e a b -> end_at e a' b' -> a = a' /\ b = b'.
Proof.
  intros e a b a' b' H H'. destruct (end_at_points _ _ _ H) as (A & B & WA & WB & _).
  destruct (end_at_points _ _ _ H') as (A' & B' & WA' & WB' & _).
  split; eapply vint_inj; apply at_z_vint; eassumption.
Qed.

Lemma end_at_seg : forall e a b, end_at e a b -> exists l r, seg_z (fst e) l r /\ end_z l r (snd e) = a /\ other_z l r (snd e) = b.
Proof. intros [s []] a b H; unfold end_at in H; cbn [fst snd] in *; eauto. Qed.

Lemma end_eqb : forall e e' a b a' b', end_at e a b -> end_at e' a' b' -> (point_eqb (ep_other e) (ep_point e') = true <-> b = a').
Proof.
  intros e e' a b a' b' H H'. destruct (end_at_points _ _ _ H) as (A & B & WA & WB & _).
  destruct (end_at_points _ _ _ H') as (A' & B' & WA' & WB' & _).
  destruct (point_cmp_int _ _ _ _ B A' WB WA') as (_ & _ & ->). rewrite <- lex_eq.
  destruct (lex_z b a'); split; congruence.
Qed.

Lemma ends_compare : forall e e' a b a' b', end_at e a b -> end_at e' a' b' ->
  exists c, endpoint_cmp e e' = Ok c /\ (c = Eq -> a = a').
Proof.
  intros e e' a b a' b' H H'. destruct (end_at_seg _ _ _ H) as (l & r & S & E1 & E2).
  destruct (end_at_seg _ _ _ H') as (l' & r' & S' & E1' & E2').
  rewrite (endpoint_cmp_int _ _ _ _ _ _ _ S S'), E1, E2, E1', E2'. eexists. split; [reflexivity|].
  unfold event_before_z. destruct (lex_z a a') eqn:L; [now apply lex_eq in L|discriminate..].
Qed.

Lemma segs_compare : forall e e' a b a' b', end_at e a b -> end_at e' a' b' ->
  exists c, segment_cmp (fst e) (fst e') = Ok c /\ (c = Eq <-> s_index (fst e) = s_index (fst e')).
Proof.
  intros e e' a b a' b' H H'. destruct (end_at_seg _ _ _ H) as (l & r & S & _).
  destruct (end_at_seg _ _ _ H') as (l' & r' & S' & _).
  destruct (Nat.eq_dec (s_index (fst e)) (s_index (fst e'))) as [E|E].
  - exists Eq. unfold segment_cmp. rewrite E, Nat.eqb_refl. tauto.
  - destruct (segment_anti _ (fst e) (fst e') (ex_intro _ l (ex_intro _ r S)) (ex_intro _ l' (ex_intro _ r' S')) E) as (c & H1 & _ & H2).
    exists c. split; [assumption|]. split; intros; tauto.
Qed.

Section Next.
Variables (ks : list packet) (current : bend) (za zb : Z * Z).
Hypothesis (HC : end_at current za zb) (SC : short (vsub zb za)).

Definition candidate (e : bend) : Prop := open_end ks current e /\ exists b, end_at e zb b.

(** Once an endpoint is elsewhere, so are all later ones. *)
Definition run_first (l : list bend) : Prop :=
  forall i j e e' b, (i <= j)%nat -> nth_error l i = Some e -> nth_error l j = Some e' -> end_at e' zb b -> exists b', end_at e zb b'.

Lemma run_tail : forall e l, run_first (e :: l) -> run_first l.
Proof using.
  intros e l H i j e1 e2 b Hij H1 H2. apply (H (S i) (S j) e1 e2 b); [lia|assumption..].
Qed.

Lemma run_elsewhere : forall e l a b, run_first (e :: l) -> end_at e a b -> a <> zb -> forall e', In e' l -> ~ candidate e'.
Proof using.
  intros e l a b R H N e' He [_ (b' & H')]. apply In_nth_error in He. destruct He as (j & Hj).
  destruct (R 0%nat (S j) e e' b' ltac:(lia) eq_refl Hj H') as (b'' & H'').
  destruct (end_at_inj _ _ _ _ _ H H''). congruence.
Qed.

Lemma scan_spec : forall l b, Forall (fun e => short_end e /\ (s_index (fst e) < length ks)%nat) l -> run_first l ->
  exists cs, scan_ends ks current (end_vec current) (ep_other current) l b = Ok (fold_left (consider_end (end_vec current)) cs b)
    /\ forall e, In e cs <-> In e l /\ candidate e.
Proof using HC SC.
  induction l as [|e l IH]; intros b F R; cbn [scan_ends].
  - exists []. split; [reflexivity|]. intros e. cbn. tauto.
  - inversion F as [|? ? [(a & b' & HE & SE) HI] Fl]; subst.
    specialize (IH) with (1 := Fl) (2 := run_tail _ _ R).
    destruct (nth_error ks (s_index (fst e))) as [k|] eqn:Ek; [|apply nth_error_None in Ek; lia].
    unfold is_processed, get_packet, index_nat. rewrite Ek. cbn [obind].
    assert (SKIP : ~ candidate e -> exists cs,
      scan_ends ks current (end_vec current) (ep_other current) l b = Ok (fold_left (consider_end (end_vec current)) cs b)
      /\ forall e0, In e0 cs <-> In e0 (e :: l) /\ candidate e0).
    { intros N. destruct (IH b) as (cs & H1 & H2). exists cs. split; [assumption|]. intros e0. rewrite H2. cbn [In].
      split; [tauto|]. intros [[<-|?] ?]; tauto. }
    destruct (match snd e with LeftEnd => k_left_done k | RightEnd => k_right_done k end) eqn:Ed.
    { apply SKIP. intros [(_ & k' & K1 & K2) _]. rewrite Ek in K1. injection K1 as <-. rewrite Ed in K2. discriminate. }
    destruct (ends_compare _ _ _ _ _ _ HE HC) as (c1 & E1 & Q1). rewrite E1. cbn [obind].
    destruct (end_at_points _ _ _ HC) as (_ & _ & _ & _ & NC).
    assert (SKIP1 : c1 = Eq -> ~ candidate e).
    { intros H [_ (b0 & H0)]. apply Q1 in H. destruct (end_at_inj _ _ _ _ _ HE H0). congruence. }
    destruct (segs_compare _ _ _ _ _ _ HE HC) as (c2 & E2 & Q2).
    assert (SKIP2 : c2 = Eq -> ~ candidate e).
    { intros H [(X & _) _]. apply Q2 in H. congruence. }
    assert (REST : exists cs, (let* c := segment_cmp (fst e) (fst current) in
        match c with
        | Eq => scan_ends ks current (end_vec current) (ep_other current) l b
        | _ => if point_eqb (ep_other current) (ep_point e)
               then scan_ends ks current (end_vec current) (ep_other current) l (consider_end (end_vec current) b e)
               else Ok b
        end) = Ok (fold_left (consider_end (end_vec current)) cs b) /\ forall e0, In e0 cs <-> In e0 (e :: l) /\ candidate e0).
    { rewrite E2. cbn [obind].
      assert (GO : c2 <> Eq -> exists cs, (if point_eqb (ep_other current) (ep_point e)
               then scan_ends ks current (end_vec current) (ep_other current) l (consider_end (end_vec current) b e)
               else Ok b) = Ok (fold_left (consider_end (end_vec current)) cs b) /\ forall e0, In e0 cs <-> In e0 (e :: l) /\ candidate e0).
      { intros N. pose proof (end_eqb _ _ _ _ _ _ HC HE) as EQ.
        destruct (point_eqb (ep_other current) (ep_point e)).
        - destruct (IH (consider_end (end_vec current) b e)) as (cs & H1 & H2). exists (e :: cs).
          split; [exact H1|]. intros e0. cbn [In]. rewrite H2. split; [|tauto].
          intros [<-|?]; [|tauto]. split; [now left|]. split.
          + split; [intros X; apply N; now apply Q2|]. eauto.
          + rewrite (proj1 EQ eq_refl). eauto.
        - exists []. split; [reflexivity|]. intros e0. split; [intros []|].
          assert (NE : a <> zb) by (intros ->; destruct EQ as [_ EQ]; discriminate (EQ eq_refl)).
          intros [[<-|Hin] CE].
          + destruct CE as [_ (b0 & H0)]. destruct (end_at_inj _ _ _ _ _ HE H0). congruence.
          + exfalso. eapply run_elsewhere; eassumption. }
      destruct c2; [apply SKIP; auto|apply GO; discriminate..]. }
    destruct c1; [apply SKIP; auto|exact REST..].
Qed.

Lemma seek_spec : forall l, Forall (fun e => short_end e /\ (s_index (fst e) < length ks)%nat) l ->
  match seek_point l (ep_other current) with
  | Ok l' => exists pre, l = pre ++ l' /\ (forall e, In e pre -> ~ candidate e)
      /\ exists e t b, l' = e :: t /\ end_at e zb b
  | Err _ => False
  | Panic _ => forall e, In e l -> ~ candidate e
  end.
Proof using HC.
  induction l as [|e l IH]; intros F; cbn [seek_point].
  - intros e [].
  - inversion F as [|? ? [(a & b' & HE & SE) HI] Fl]; subst. specialize (IH Fl).
    assert (EQ : point_eqb (ep_point e) (ep_other current) = true <-> a = zb).
    { destruct (end_at_points _ _ _ HC) as (_ & B & _ & WB & _). destruct (end_at_points _ _ _ HE) as (A' & _ & WA' & _).
      destruct (point_cmp_int _ _ _ _ A' B WA' WB) as (_ & _ & ->). rewrite <- lex_eq. destruct (lex_z a zb); split; congruence. }
    destruct (point_eqb (ep_point e) (ep_other current)).
    + exists []. split; [reflexivity|]. split; [intros ? []|]. exists e, l, b'. split; [reflexivity|].
      rewrite <- (proj1 EQ eq_refl). exact HE.
    + assert (NC : ~ candidate e).
      { intros [_ (b0 & H0)]. destruct (end_at_inj _ _ _ _ _ HE H0) as [-> _]. destruct EQ as [_ EQ]. discriminate (EQ eq_refl). }
      destruct (seek_point l (ep_other current)).
      * destruct IH as (pre & -> & H1 & H2). exists (e :: pre). split; [reflexivity|]. split; [|assumption].
        intros e0 [<-|?]; auto.
      * assumption.
      * intros e0 [<-|?]; auto.
Qed.

Lemma grouped_run : forall pre e t b, grouped (pre ++ e :: t) -> end_at e zb b -> run_first (e :: t).
Proof using.
  intros pre e t b G H i j ei ej b' Hij Hi Hj Hb.
  apply (G (length pre) (length pre + i)%nat (length pre + j)%nat e ei ej zb b b'); try lia; try assumption;
    rewrite ?nth_error_app2 by lia.
  - now rewrite Nat.sub_diag.
  - now replace (length pre + i - length pre)%nat with i by lia.
  - now replace (length pre + j - length pre)%nat with j by lia.
Qed.

Lemma next_leftmost : forall included,
  Forall (fun e => short_end e /\ (s_index (fst e) < length ks)%nat) included -> grouped included ->
  ((exists e, In e included /\ candidate e) ->
   exists e b, find_next_segment ks current included = Ok e /\ In e included /\ open_end ks current e /\ end_at e zb b
     /\ forall e' b', In e' included -> open_end ks current e' -> end_at e' zb b' -> as_left (vsub zb za) (vsub b zb) (vsub b' zb))
  /\ ((forall e, In e included -> ~ candidate e) -> exists p, find_next_segment ks current included = Panic p).
Proof using HC SC.
  intros included F G. unfold find_next_segment. fold (end_vec current).
  pose proof (seek_spec included F) as S. destruct (seek_point included (ep_other current)) as [l|x|x]; cbn [obind].
  2:{ destruct S. }
  2:{ split; [intros (e & H1 & H2); now apply S in H2|]. intros _. eauto. }
  destruct S as (pre & -> & NP & e0 & t & b0 & -> & H0).
  apply Forall_app in F. destruct F as [_ F].
  destruct (scan_spec (e0 :: t) (f64_nan, None, false) F (grouped_run _ _ _ _ G H0)) as (cs & E & H). rewrite E. cbn [obind].
  destruct cs as [|c cs].
  - cbn [fold_left]. split.
    + intros (e & H1 & H2). exfalso. apply in_app_iff in H1. destruct H1 as [H1|H1]; [now apply NP in H1|].
      now apply (proj2 (H e)).
    + intros _. eauto.
  - cbn [fold_left]. rewrite consider_none. fold (holding (end_vec current) c). rewrite consider_fold.
    assert (V : forall e, In e (c :: cs) -> valid end_vec e).
    { intros e He. apply H in He. destruct He as [He [_ (b & Hb)]]. rewrite Forall_forall in F.
      destruct (F e He) as [(a & b' & HE & SE) _]. exists (vsub b' a). split; [now apply end_at_vec|assumption]. }
    pose proof (leftmost_all end_vec (end_vec current) (vsub zb za) (end_at_vec _ _ _ HC) SC cs c
                  (V c (or_introl eq_refl)) (proj2 (Forall_forall _ _) (fun e He => V e (or_intror He)))) as [L1 L2].
    set (w := fold_left (next_best end_vec (end_vec current)) cs c) in *. unfold holding.
    split.
    + intros _. destruct (proj1 (H w) L1) as [I1 [I2 (b & I3)]]. exists w, b. split; [reflexivity|].
      split; [apply in_app_iff; tauto|]. split; [assumption|]. split; [assumption|].
      intros e' b' H1 H2 H3. apply (L2 e').
      * apply H. split; [|split; eauto]. apply in_app_iff in H1. destruct H1 as [H1|H1]; [|assumption].
        exfalso. apply (NP _ H1). split; eauto.
      * now apply end_at_vec.
      * now apply end_at_vec.
    + intros N. exfalso. apply (N c); [|now apply H; left]. apply in_app_iff. right. now apply H; left.
Qed.
End Next.
