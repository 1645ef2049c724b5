(** [compute_holes] settles one contour after the other. *)

From Coq Require Import List ZArith QArith Bool Arith Lia Permutation Sorting.Sorted.
From Verif Require Import Base BaseFacts Float SpecFloat64 SpecShape SpecOrder SpecIntersect SpecHandle SpecTidy SpecOverlay SpecHoles SpecCompute SpecContainers Geometry Sweep
  Contours Compute OrderFacts SweepFacts ContainerFacts TraceFacts HolesFacts TidyGeo TidyParity TidySetup TidyLine TidyFacts NestGeo NestPlace NestSweep.
Import ListNotations.

Notation count_true l := (count_occ Bool.bool_dec l true).

Lemma count_set : forall l i, nth_error l i = Some false -> count_true (set_nth i true l) = Datatypes.S (count_true l).
Proof.
  induction l as [|x l IH]; intros [|i] H; try discriminate; cbn [nth_error] in H.
  - injection H as ->. reflexivity.
  - change (set_nth (Datatypes.S i) true (x :: l)) with (x :: set_nth i true l). cbn [count_occ]. rewrite (IH i H). destruct (Bool.bool_dec x true); reflexivity.
Qed.
Lemma count_all : forall l, (length l <= count_true l)%nat -> forall i b, nth_error l i = Some b -> b = true.
Proof.
  induction l as [|x l IH]; intros H i b Hi; [now destruct i|]. cbn [count_occ length] in H. pose proof (count_occ_bound Bool.bool_dec true l) as B.
  destruct (Bool.bool_dec x true) as [->|]; [|lia]. destruct i as [|i]; cbn in Hi; [congruence|]. apply (IH ltac:(lia) i b Hi).
Qed.

Lemma make_hole_cached : forall cs p i cp ci b, p <> i -> nth_error cs p = Some cp -> nth_error cs i = Some ci -> c_cache cp = Some b -> c_cache ci = Some false ->
  exists cs', make_hole cs p i = Ok cs' /\ length cs' = length cs /\ nth_error cs' p = Some (add_hole cp i)
    /\ nth_error cs' i = Some (if b then set_external ci false else change_orientation (set_external ci false))
    /\ forall k, k <> p -> k <> i -> nth_error cs' k = nth_error cs k.
Proof.
  intros cs p i cp ci b N Hp Hi Bp Bi. pose proof (nth_lt _ _ _ Hp) as Lp. pose proof (nth_lt _ _ _ Hi) as Li.
  set (c1 := set_external ci false). set (cs1 := set_nth i c1 cs). assert (L1 : length cs1 = length cs) by (now apply set_nth_length).
  assert (P1 : nth_error cs1 p = Some cp) by (unfold cs1; rewrite nth_set_other by auto; exact Hp).
  set (cs2 := set_nth p (add_hole cp i) cs1). assert (L2 : length cs2 = length cs) by (unfold cs2; rewrite set_nth_length; lia).
  assert (P2 : nth_error cs2 p = Some (add_hole cp i)) by (apply nth_set_same; lia).
  set (cs3 := set_nth p (add_hole cp i) cs2). assert (L3 : length cs3 = length cs) by (unfold cs3; rewrite set_nth_length; lia).
  assert (I3 : nth_error cs3 i = Some c1).
  { unfold cs3. rewrite nth_set_other by (auto; lia). unfold cs2. rewrite nth_set_other by (auto; lia). apply nth_set_same. lia. }
  assert (I3p : nth_error cs3 p = Some (add_hole cp i)) by (apply nth_set_same; lia).
  assert (IN : forall (l : list contour) k x, nth_error l k = Some x -> index_nat l k = Ok x) by (intros l k x H; unfold index_nat; now rewrite H).
  set (c2 := if b then c1 else change_orientation c1).
  exists (set_nth i c2 cs3). split.
  { unfold make_hole. unfold update_nat at 1. rewrite (IN _ _ _ Hi). cbn [obind]. fold c1. fold cs1. unfold update_nat at 1. rewrite (IN _ _ _ P1). cbn [obind]. fold cs2.
    rewrite (IN _ _ _ P2). cbn [obind]. unfold counterclockwise, clockwise. cbn [add_hole c_cache]. rewrite Bp. cbn [obind]. fold (add_hole cp i). fold cs3.
    unfold update_nat. rewrite (IN _ _ _ I3). cbn [obind]. unfold set_clockwise, set_counterclockwise, counterclockwise, clockwise. change (c_cache c1) with (c_cache ci). rewrite Bi.
    unfold c2. destruct b; reflexivity. }
  split; [rewrite set_nth_length; lia|]. split; [rewrite nth_set_other by (auto; lia); exact I3p|]. split; [apply nth_set_same; lia|].
  intros k K1 K2. rewrite nth_set_other by (auto; lia). unfold cs3. rewrite nth_set_other by (auto; lia). unfold cs2. rewrite nth_set_other by (auto; lia). unfold cs1. rewrite nth_set_other by (auto; lia). reflexivity.
Qed.

Section Loop.
Variable z : corners.
Notation zs := (map (fun l : list (Z * Z) => [l]) z).
Notation E := (edges zs).
Notation eg := (eg (edges zs)).
Variable S : list bseg.
Hypothesis (D : drawn E S) (F : ForallOrdPairs apart E) (CC : forall i l, nth_error z i = Some l -> goes_once 1 l)
  (NS : forall i j, i <> j -> has_inside z i j \/ has_inside z j i \/ separate z i j).
Notation poly s := (e_poly (eg s)).
Notation L s := (e_left (eg s)).
Notation R s := (e_right (eg s)).
Variables (T : list hseg) (pr : hseg -> bseg).
Hypothesis (Tin : forall t, In t T -> In (pr t) S /\ sloped (eg (pr t)) /\ seg_z t (L (pr t)) (R (pr t)) /\ s_order t = 0%nat /\ s_data t = poly (pr t)
              /\ s_out t = negb (LS zs (eg (pr t)) (poly (pr t))))
  (Tinj : forall a b, In a T -> In b T -> pr a = pr b \/ s_index a = s_index b -> a = b)
  (Tonto : forall s, In s S -> sloped (eg s) -> exists t, In t T /\ pr t = s).
Variables (std : std_impl) (cs0 : list contour).
Hypothesis (Laws : set_laws std) (Len : length cs0 = length z)
  (Base : forall i c, nth_error cs0 i = Some c -> c_cache c = Some false /\ plain c).

Notation asym := (lies_asym z S D F CC NS).
Notation chain := (direct_chain z S D F CC NS).
Notation unique := (direct_unique z S D F CC NS).

Definition enclosers (i : nat) (ds : list nat) : Prop := NoDup ds /\ forall j, In j ds <-> lies_in z j i.

Definition done_right (st : holes_state) (i : nat) (c : contour) (b : bool) : Prop :=
  exists ds, enclosers i ds /\ b = Nat.odd (length ds) /\ (c_external c = true <-> ds = [])
    /\ match ds with
       | [] => nth_error (hs_hole_of st) i = Some None
       | _ => exists p, nth_error (hs_hole_of st) i = Some (Some p) /\ directly_in z p i /\ nth_error (hs_processed st) p = Some true
       end.

Record hst (d : list hend) (st : holes_state) : Prop := mk_hst {
  st_n1 : length (hs_processed st) = length z;
  st_n2 : length (hs_hole_of st) = length z;
  st_n3 : length (hs_contours st) = length z;
  st_np : hs_nprocessed st = count_true (hs_processed st);
  st_pc : forall i, nth_error (hs_processed st) i = Some true <-> exists t, In t T /\ s_data t = i /\ In (t, LeftEnd) d;
  st_c : forall i c, nth_error (hs_contours st) i = Some c -> exists c0 b, nth_error cs0 i = Some c0 /\ c_cache c = Some b
    /\ c_points c = (if b then rev (c_points c0) else c_points c0)
    /\ NoDup (c_holes c) /\ (forall j, In j (c_holes c) <-> nth_error (hs_processed st) j = Some true /\ directly_in z i j)
    /\ (nth_error (hs_processed st) i = Some true -> done_right st i c b)
    /\ (nth_error (hs_processed st) i = Some false -> b = false /\ c_external c = true /\ nth_error (hs_hole_of st) i = Some None) }.

Lemma data_lt : forall t, In t T -> (s_data t < length z)%nat.
Proof using Tin D.
  intros t H. destruct (Tin t H) as (H1 & _ & _ & _ & -> & _). destruct (seg_spec _ _ D _ H1) as (_ & _ & _ & H2). destruct (ring_edge z _ H2) as (l & sd & H3 & _).
  apply nth_error_Some. congruence.
Qed.

Lemma hst_more : forall d d' st, hst d st -> (forall i, (exists t, In t T /\ s_data t = i /\ In (t, LeftEnd) d) <-> (exists t, In t T /\ s_data t = i /\ In (t, LeftEnd) d')) ->
  forall act, hst d' (mk_hs (hs_contours st) act (hs_processed st) (hs_hole_of st) (hs_nprocessed st)).
Proof using.
  intros d d' st [N1 N2 N3 NP PC C] H act. constructor; cbn [hs_contours hs_active hs_processed hs_hole_of hs_nprocessed]; auto.
  intros i. rewrite PC. apply H.
Qed.

Definition parent_ok (st : holes_state) (i : nat) (parent : option nat) : Prop :=
  match parent with
  | None => forall j, ~ lies_in z j i
  | Some p => directly_in z p i /\ nth_error (hs_processed st) p = Some true
  end.

Lemma settled : forall d st s parent, hst d st -> In s T -> nth_error (hs_processed st) (s_data s) = Some false -> parent_ok st (s_data s) parent ->
  exists cs, (match parent with
              | None => update_nat (hs_contours st) (s_data s) set_counterclockwise
              | Some p => make_hole (hs_contours st) p (s_data s)
              end) = Ok cs
    /\ forall act, hst (d ++ [(s, LeftEnd)])
         (mk_hs cs act (set_nth (s_data s) true (hs_processed st))
           (match parent with Some p => set_nth (s_data s) (Some p) (hs_hole_of st) | None => hs_hole_of st end) (Datatypes.S (hs_nprocessed st))).
Proof using Tin Tinj D F CC NS Len Base.
  intros d st s parent [N1 N2 N3 NP PC C] Hs Hi PO. set (i := s_data s) in *. pose proof (data_lt s Hs) as Li. fold i in Li.
  destruct (nth_error (hs_contours st) i) as [ci|] eqn:Hc; [|apply nth_error_None in Hc; lia].
  destruct (C i ci Hc) as (c0 & b & C1 & C2 & C3 & C4 & C5 & _ & C6). destruct (C6 Hi) as (-> & C7 & C8). clear C6.
  assert (PN : forall k, nth_error (set_nth i true (hs_processed st)) k = Some true <-> k = i \/ nth_error (hs_processed st) k = Some true).
  { intros k. destruct (Nat.eq_dec k i) as [->|N]; [rewrite nth_set_same by lia; tauto|]. rewrite nth_set_other by (auto; lia). tauto. }
  assert (PC' : forall k, nth_error (set_nth i true (hs_processed st)) k = Some true <-> exists t, In t T /\ s_data t = k /\ In (t, LeftEnd) (d ++ [(s, LeftEnd)])).
  { intros k. rewrite PN, PC. split.
    - intros [->|(t & A1 & A2 & A3)]; [exists s|exists t]; (split; [assumption|]; split; [auto|]; apply in_or_app); [right; now left|now left].
    - intros (t & A1 & A2 & A3). apply in_app_or in A3. destruct A3 as [A3|[A3|[]]]; [right; eauto|]. injection A3 as A3. subst t. left. now symmetry. }
  assert (PF : forall k, nth_error (set_nth i true (hs_processed st)) k = Some false -> k <> i /\ nth_error (hs_processed st) k = Some false).
  { intros k H. assert (N : k <> i) by (intros ->; rewrite nth_set_same in H by lia; discriminate). split; [exact N|]. now rewrite nth_set_other in H by (auto; lia). }
  assert (Ni : forall k, nth_error (hs_processed st) k = Some true -> k <> i) by (intros k H ->; congruence).
  destruct parent as [p|]; cbn [parent_ok] in PO.
  - destruct PO as (PO & Pp). pose proof (Ni p Pp) as Npi. pose proof (nth_lt _ _ _ Pp) as Lp.
    destruct (nth_error (hs_contours st) p) as [cp|] eqn:Hp; [|apply nth_error_None in Hp; lia].
    destruct (C p cp Hp) as (p0 & bp & P1 & P2 & P3 & P4 & P5 & P6 & _). destruct (P6 Pp) as (ds & (ND & DS) & B1 & B2 & B3).
    destruct (make_hole_cached _ p i cp ci bp Npi Hp Hc P2 C2) as (cs & M1 & M2 & M3 & M4 & M5). exists cs. split; [exact M1|]. intros act.
    assert (ENC : enclosers i (p :: ds)).
    { split; [constructor; [|exact ND]; intros H; apply DS in H; destruct H; congruence|]. intros j. rewrite (chain p i j PO). cbn [In]. rewrite DS. intuition. }
    assert (HO : forall k, k <> i -> nth_error (set_nth i (Some p) (hs_hole_of st)) k = nth_error (hs_hole_of st) k) by (intros k N; apply nth_set_other; auto; lia).
    assert (DR : forall k c b0, k <> i -> forall c', done_right st k c b0 -> c_external c' = c_external c ->
      done_right (mk_hs cs act (set_nth i true (hs_processed st)) (set_nth i (Some p) (hs_hole_of st)) (Datatypes.S (hs_nprocessed st))) k c' b0).
    { intros k c b0 N c' (es & X1 & X2 & X3 & X4) Q. exists es. split; [exact X1|]. split; [exact X2|]. split; [now rewrite Q|]. cbn [hs_hole_of hs_processed]. rewrite HO by exact N.
      destruct es; [exact X4|]. destruct X4 as (r & Y1 & Y2 & Y3). exists r. split; [exact Y1|]. split; [exact Y2|]. apply PN. now right. }
    constructor; cbn [hs_contours hs_active hs_processed hs_hole_of hs_nprocessed].
    + rewrite set_nth_length; lia.
    + rewrite set_nth_length; lia.
    + lia.
    + rewrite count_set, NP by exact Hi. reflexivity.
    + exact PC'.
    + intros k c Hk. destruct (Nat.eq_dec k i) as [->|Nk]; [|destruct (Nat.eq_dec k p) as [->|Nkp]].
      * rewrite M4 in Hk. injection Hk as <-. exists c0, (negb bp). split; [exact C1|].
        assert (Ho : c_holes (if bp then set_external ci false else change_orientation (set_external ci false)) = c_holes ci) by (destruct bp; reflexivity).
        split; [destruct bp; cbn; now rewrite C2|]. split; [destruct bp; cbn; now rewrite C3|]. rewrite Ho. split; [exact C4|]. split.
        { intros j. rewrite C5, PN. split; [tauto|]. intros ([->|H] & H2); [|tauto]. destruct H2 as ((H2 & _) & _). congruence. }
        split; [|intros H; now apply PF in H]. intros _. exists (p :: ds). split; [exact ENC|].
        split; [cbn [length]; rewrite Nat.odd_succ, <- Nat.negb_odd; now rewrite B1|]. split; [destruct bp; cbn; split; discriminate|]. cbn [hs_hole_of hs_processed].
        exists p. split; [apply nth_set_same; lia|]. split; [exact PO|]. apply PN. now right.
      * rewrite M3 in Hk. injection Hk as <-. exists p0, bp. split; [exact P1|]. split; [exact P2|]. split; [exact P3|]. cbn [add_hole c_holes]. split.
        { apply NoDup_join; [exact P4|repeat constructor; intros []|]. intros j Hj [<-|[]]. apply P5 in Hj. destruct Hj as (Hj & _). now apply Ni in Hj. }
        split; [intros j; rewrite in_app_iff, P5, PN; cbn [In]; split; [intros [H|[<-|[]]]; [tauto|auto]|intros ([->|H] & H2); auto]|].
        split; [intros _; apply (DR p cp bp Nk); [auto|reflexivity]|]. intros H. apply PF in H. destruct H as (_ & H). congruence.
      * rewrite M5 in Hk by assumption. destruct (C k c Hk) as (k0 & bk & K1 & K2 & K3 & K4 & K5 & K6 & K7). exists k0, bk. split; [exact K1|]. split; [exact K2|]. split; [exact K3|].
        split; [exact K4|]. split.
        { intros j. rewrite K5, PN. split; [tauto|]. intros ([->|H] & H2); [|tauto]. exfalso. apply Nkp, (unique k p i H2 PO). }
        split; [intros H; apply PN in H; destruct H as [H|H]; [congruence|]; apply (DR k c bk Nk); auto|]. intros H. apply PF in H. destruct H as (_ & H).
        rewrite HO by exact Nk. auto.
  - assert (UP : update_nat (hs_contours st) i set_counterclockwise = Ok (set_nth i ci (hs_contours st))).
    { unfold update_nat, index_nat. rewrite Hc. cbn [obind]. unfold set_counterclockwise, clockwise. rewrite C2. reflexivity. }
    exists (set_nth i ci (hs_contours st)). split; [exact UP|]. intros act.
    assert (SN : forall k, nth_error (set_nth i ci (hs_contours st)) k = nth_error (hs_contours st) k).
    { intros k. destruct (Nat.eq_dec k i) as [->|N]; [rewrite nth_set_same by lia; congruence|]. apply nth_set_other; auto. lia. }
    constructor; cbn [hs_contours hs_active hs_processed hs_hole_of hs_nprocessed].
    + rewrite set_nth_length; lia.
    + exact N2.
    + rewrite set_nth_length; lia.
    + rewrite count_set, NP by exact Hi. reflexivity.
    + exact PC'.
    + intros k c Hk. rewrite SN in Hk. destruct (C k c Hk) as (k0 & bk & K1 & K2 & K3 & K4 & K5 & K6 & K7). exists k0, bk. split; [exact K1|]. split; [exact K2|]. split; [exact K3|].
      split; [exact K4|]. split.
      { intros j. rewrite K5, PN. split; [tauto|]. intros ([->|H] & H2); [|tauto]. exfalso. apply (PO k), H2. }
      split.
      * intros H. apply PN in H. destruct H as [->|H].
        { assert (c = ci) by congruence. subst c. assert (bk = false) by congruence. subst bk. exists []. split; [split; [constructor|]; intros j; split; [intros []|apply PO]|].
          split; [reflexivity|]. split; [tauto|]. exact C8. }
        destruct (K6 H) as (es & X1 & X2 & X3 & X4). exists es. split; [exact X1|]. split; [exact X2|]. split; [exact X3|]. cbn [hs_hole_of hs_processed].
        destruct es; [exact X4|]. destruct X4 as (r & Y1 & Y2 & Y3). exists r. split; [exact Y1|]. split; [exact Y2|]. apply PN. now right.
      * intros H. apply PF in H. destruct H as (_ & H). auto.
Qed.

(** What contour the one below is taken to lie in. *)
Lemma found_parent : forall d q s act st l r, Permutation (both_ends T) (d ++ (s, LeftEnd) :: q) -> increasing endpoint_cmp (d ++ (s, LeftEnd) :: q) ->
  line T pr d ((s, LeftEnd) :: q) act -> hst d st -> nth_error (hs_processed st) (s_data s) = Some false -> act = l ++ r ->
  ((l = [] /\ forall i, RS zs (eg (pr s)) i = false) \/ (exists l' y, l = l' ++ [y] /\ forall i, RS zs (eg (pr s)) i = LS zs (eg (pr y)) i)) ->
  match rev l with
  | [] => parent_ok st (s_data s) None
  | y :: _ => exists parent, (if negb (s_out y) then Ok (Some (s_data y)) else index_nat (hs_hole_of st) (s_data y)) = Ok parent /\ parent_ok st (s_data s) parent
  end.
Proof using Tin Tinj Tonto D F CC NS.
  intros d q s act st l r QP QS Ln H Hi Ea PL. pose proof (s_in T d q s QP) as Is. destruct (Tin s Is) as (S1 & S2 & S3 & S4 & S5 & S6).
  destruct PL as [(-> & PL)|(l' & y & -> & PL)].
  - cbn [rev parent_ok]. intros j Hj. assert (N : j <> poly (pr s)) by (destruct Hj as (N & _); congruence). rewrite S5 in Hj. apply (below_lies z S D F CC NS _ _ S1 S2 N) in Hj.
    rewrite PL in Hj. discriminate.
  - rewrite rev_app_distr. cbn [rev app]. assert (Iy : In y act) by (rewrite Ea; apply in_or_app; left; apply in_or_app; right; now left).
    pose proof (proj1 (proj2 Ln y) Iy) as (Ty & Dy & _). destruct (Tin y Ty) as (Y1 & Y2 & Y3 & Y4 & Y5 & Y6).
    assert (Pk : nth_error (hs_processed st) (s_data y) = Some true) by (apply (st_pc _ _ H); eauto).
    assert (NB : forall t, In t act -> s_data t <> s_data s).
    { intros t Ht Q. apply (proj2 Ln) in Ht. destruct Ht as (A1 & A2 & _). assert (X : nth_error (hs_processed st) (s_data s) = Some true) by (apply (st_pc _ _ H); eauto). congruence. }
    assert (Nk : s_data y <> s_data s) by (now apply NB).
    pose proof (not_begun z S D F T pr Tin Tinj Tonto d q s act QP QS Ln NB) as RI.
    set (k := s_data y) in *. set (i := s_data s) in *.
    assert (BS : forall j, j <> i -> LS zs (eg (pr y)) j = true <-> lies_in z j i).
    { intros j N. rewrite <- PL, S5. apply (below_lies z S D F CC NS _ _ S1 S2). congruence. }
    assert (BY : forall j, j <> k -> LS zs (eg (pr y)) j = true <-> lies_in z j k).
    { intros j N. rewrite (above_own z S D F _ j Y1). rewrite <- Y5. destruct (Nat.eqb_spec j k) as [|_]; [contradiction|]. rewrite xorb_false_r.
      rewrite (below_lies z S D F CC NS _ j Y1 Y2) by congruence. now rewrite <- Y5. }
    assert (NI : ~ lies_in z i k) by (rewrite <- BY by auto; rewrite <- PL, RI; discriminate).
    rewrite <- Y5 in Y6. rewrite Y6, negb_involutive. destruct (LS zs (eg (pr y)) k) eqn:Q.
    + exists (Some k). split; [reflexivity|]. cbn [parent_ok]. split; [|exact Pk]. split; [now apply BS|]. intros j N Hj. apply BY; [exact N|]. apply BS; [|exact Hj]. intros ->. now destruct Hj.
    + assert (EQ : forall j, lies_in z j i <-> lies_in z j k).
      { intros j. destruct (Nat.eq_dec j i) as [->|N1]; [split; [intros (X & _); congruence|intros; contradiction]|].
        destruct (Nat.eq_dec j k) as [->|N2]; [|rewrite <- BS, BY by auto; reflexivity]. rewrite <- BS, Q by auto. split; [discriminate|]. intros (X & _). congruence. }
      pose proof (nth_lt _ _ _ Pk) as Lk. rewrite (st_n1 _ _ H), <- (st_n3 _ _ H) in Lk. destruct (nth_error_lt _ _ Lk) as (ck & Hk).
      destruct (st_c _ _ H k ck Hk) as (k0 & bk & _ & _ & _ & _ & _ & K6 & _). destruct (K6 Pk) as (ds & (ND & DS) & _ & _ & HO). unfold index_nat. destruct ds as [|x ds].
      * rewrite HO. exists None. split; [reflexivity|]. cbn [parent_ok]. intros j Hj. apply EQ, DS in Hj. exact Hj.
      * destruct HO as (p & HO & (D1 & D2) & Pp). rewrite HO. exists (Some p). split; [reflexivity|]. cbn [parent_ok]. split; [|exact Pp]. split; [now apply EQ|].
        intros j N Hj. apply D2; [exact N|]. now apply EQ.
Qed.

Lemma step_ok : forall d q e act cs ps ho n, Permutation (both_ends T) (d ++ e :: q) -> increasing endpoint_cmp (d ++ e :: q) ->
  line T pr d (e :: q) act -> hst d (mk_hs cs act ps ho n) ->
  exists st', holes_step std (mk_hs cs act ps ho n) e = Ok st' /\ line T pr (d ++ [e]) q (hs_active st') /\ hst (d ++ [e]) st'.
Proof using Tin Tinj Tonto D F CC NS Laws Len Base.
  intros d q [s en] act cs ps ho n QP QS Ln H. set (st := mk_hs cs act ps ho n) in *. destruct en.
  - pose proof (s_in T d q s QP) as Is. destruct (place z S D F T pr Tin Tinj Tonto d q s act QP QS Ln) as (l & r & Ea & Ln' & IN & PL).
    assert (INS : bt_insert std _ segment_cmp act s = Ok (l ++ s :: r)) by (rewrite Ea; apply (set_insert _ Laws); [exact IN|apply segment_cmp_self]).
    unfold holes_step. change (hs_active st) with act. rewrite INS. cbn [obind]. pose proof (data_lt s Is) as Li. rewrite <- (st_n1 _ _ H) in Li.
    destruct (nth_error_lt _ _ Li) as (b & Hb). unfold index_nat at 1. rewrite Hb. cbn [obind]. destruct b.
    + exists (mk_hs cs (l ++ s :: r) ps ho n). split; [reflexivity|]. split; [exact Ln'|]. apply (hst_more d _ st H). intros i. split; intros (t & A1 & A2 & A3).
      * exists t. split; [exact A1|]. split; [exact A2|]. apply in_or_app. now left.
      * apply in_app_or in A3. destruct A3 as [A3|[A3|[]]]; [eauto|]. injection A3 as <-. rewrite <- A2. now apply (st_pc _ _ H).
    + pose proof (found_parent d q s act st l r QP QS Ln H Hb Ea PL) as FP. destruct PL as [(-> & _)|(l' & y & -> & _)].
      * cbn [app] in *. rewrite (set_first _ Laws) by (try exact IN; apply segment_cmp_self). cbn [obind]. cbn [rev] in FP.
        destruct (settled d st s None H Is Hb FP) as (cs' & U & K). rewrite U. cbn [obind]. eexists. split; [reflexivity|]. split; [exact Ln'|]. apply K.
      * rewrite rev_app_distr in FP. cbn [rev app] in FP. rewrite <- app_assoc in *. cbn [app] in *.
        rewrite (set_before _ Laws) by (try exact IN; apply segment_cmp_self). cbn [obind]. destruct FP as (parent & FP & PO). rewrite FP. cbn [obind].
        destruct (settled d st s parent H Is Hb PO) as (cs' & U & K). destruct parent as [p|]; rewrite U; cbn [obind]; eexists; (split; [reflexivity|]; split; [exact Ln'|]; apply K).
  - destruct (leave z S D F T pr Tin Tinj d q s act QP QS Ln) as (l & r & Ea & Ln' & IN).
    unfold holes_step. change (hs_active st) with act.
    assert (RM : bt_remove std _ segment_cmp act s = Ok (l ++ r)) by (rewrite Ea in *; apply (set_remove _ Laws); [exact IN|apply segment_cmp_self]).
    rewrite RM. cbn [obind]. eexists. split; [reflexivity|]. split; [exact Ln'|]. apply (hst_more d _ st H). intros i.
    split; intros (t & A1 & A2 & A3); exists t; (split; [exact A1|]; split; [exact A2|]); [apply in_or_app; now left|].
    apply in_app_or in A3. destruct A3 as [A3|[A3|[]]]; [exact A3|discriminate].
Qed.

Lemma loop_ok : forall q d act cs ps ho n, Permutation (both_ends T) (d ++ q) -> increasing endpoint_cmp (d ++ q) ->
  line T pr d q act -> hst d (mk_hs cs act ps ho n) ->
  exists d' st', holes_loop std q (mk_hs cs act ps ho n) = Ok st' /\ hst d' st' /\ forall i, (i < length z)%nat -> nth_error (hs_processed st') i = Some true.
Proof using Tin Tinj Tonto D F CC NS Laws Len Base.
  induction q as [|e q IH]; intros d act cs ps ho n QP QS Ln H.
  - cbn [holes_loop]. exists d. eexists. split; [reflexivity|]. split; [exact H|]. intros i Li. destruct (nth_error z i) as [l|] eqn:Hl; [|apply nth_error_None in Hl; lia].
    destruct (has_sloped z S D CC i l Hl) as (s & Hs & Sl & Ps). destruct (Tonto s Hs Sl) as (t & Ht & <-). apply (st_pc _ _ H). exists t. split; [exact Ht|].
    destruct (Tin t Ht) as (_ & _ & _ & _ & Q & _). split; [congruence|]. rewrite app_nil_r in QP. apply (Permutation_in _ QP), in_both. exact Ht.
  - cbn [holes_loop]. destruct (Nat.leb_spec (length (hs_contours (mk_hs cs act ps ho n))) (hs_nprocessed (mk_hs cs act ps ho n))) as [Q|Q].
    + exists d. eexists. split; [reflexivity|]. split; [exact H|]. intros i Li. rewrite (st_n3 _ _ H), <- (st_n1 _ _ H), (st_np _ _ H) in Q.
      rewrite <- (st_n1 _ _ H) in Li. destruct (nth_error_lt _ _ Li) as (b & Hb). now rewrite (count_all _ Q i b Hb) in Hb.
    + destruct (step_ok d q e act cs ps ho n QP QS Ln H) as (st' & St & Ln' & H'). rewrite St. cbn [obind]. destruct st' as [cs' act' ps' ho' n'].
      apply (IH (d ++ [e])); [rewrite <- app_assoc; assumption..|exact Ln'|exact H'].
Qed.

Lemma start_hst : hst [] (mk_hs cs0 [] (repeat false (length cs0)) (repeat None (length cs0)) 0).
Proof using Len Base.
  assert (G : forall (A : Type) (x y : A) n i, nth_error (repeat x n) i = Some y -> y = x) by (intros A x y n i H; apply nth_error_In, repeat_spec in H; exact H).
  constructor; cbn [hs_contours hs_active hs_processed hs_hole_of hs_nprocessed].
  - rewrite repeat_length. exact Len.
  - rewrite repeat_length. exact Len.
  - exact Len.
  - clear. induction (length cs0) as [|m IH]; [reflexivity|]. cbn. exact IH.
  - intros i. split; [intros H; apply G in H; discriminate|]. intros (t & _ & _ & []).
  - intros i c Hc. destruct (Base i c Hc) as (B1 & B2 & B3). exists c, false. split; [exact Hc|]. split; [exact B1|]. split; [reflexivity|]. rewrite B2. split; [constructor|].
    split; [intros j; split; [intros []|intros (H & _); apply G in H; discriminate]|]. split; [intros H; apply G in H; discriminate|].
    intros _. split; [reflexivity|]. split; [exact B3|]. apply nth_error_repeat. apply nth_error_Some. congruence.
Qed.
End Loop.
