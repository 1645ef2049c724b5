(** Holes of closed lines that do not cross: from the contours to the sweep. *)

From Coq Require Import List ZArith QArith Bool Arith Lia Permutation Sorting.Sorted.
From Verif Require Import Base BaseFacts Float SpecFloat64 SpecShape SpecOrder SpecIntersect SpecHandle SpecTidy SpecOverlay SpecHoles SpecCompute SpecContainers Geometry Sweep
  Contours Compute StdRef FloatFacts ShapeFacts IntersectFacts OrderFacts OrientFacts SweepFacts ContainerFacts TraceFacts HolesFacts TidyGeo TidyParity TidySetup TidyLine TidyStart TidyFacts NestGeo NestPlace NestSweep NestHoles.
Import ListNotations.
Local Open Scope Z_scope.

(** *** Turning the contours *)

Definition matches (c : contour) (l : list (Z * Z)) : Prop := Forall2 at_z (c_points c) l.

Definition turned_ccw (c : contour) (l : list (Z * Z)) (c' : contour) (l' : list (Z * Z)) : Prop :=
  set_counterclockwise c = Ok c' /\ c_cache c' = Some false /\ plain c' /\ matches c' l' /\ goes_once 1 l'
  /\ ((c_points c' = c_points c /\ l' = l) \/ (c_points c' = rev (c_points c) /\ l' = rev l)).

Lemma ccw_ok : forall c l m, raw c -> matches c l -> Forall (within m) l -> Z.of_nat (length l) * (2 * (m * m)) < 2 ^ 53 ->
  (goes_once 1 l /\ 0 < shoelace l) \/ (goes_once (-1) l /\ shoelace l < 0) ->
  exists c' l', turned_ccw c l c' l'.
Proof.
  intros c l m ((Pl1 & Pl2) & Rc) M W B G. pose proof (Forall2_len _ _ _ M) as LE.
  assert (N : c_points c <> []).
  { intros Q. unfold matches in M. rewrite Q in M. inversion M; subst. destruct G as [(((x & y & G) & _) & _)|(((x & y & G) & _) & _)]; now apply G. }
  assert (B' : Z.of_nat (length (c_points c)) * (2 * (m * m)) < 2 ^ 53) by (rewrite LE; exact B).
  pose proof (orientation_int m _ _ M W N B') as O. unfold orientation_of in O.
  assert (CW : exists c1, clockwise c = Ok (shoelace l <? 0, c1) /\ c_cache c1 = Some (shoelace l <? 0) /\ c_points c1 = c_points c /\ c_holes c1 = c_holes c /\ c_external c1 = c_external c).
  { unfold clockwise in *. cbn [set_points contour_new c_cache c_points] in O. rewrite Rc. destruct (c_points c) as [|q t] eqn:Q; [congruence|]. cbn [obind] in O.
    cbv zeta in *. set (b := f64_lt _ f64_zero) in *. assert (Qb : b = (shoelace l <? 0)) by congruence. clearbody b. subst b. eexists. split; [reflexivity|]. cbn. rewrite Q. auto. }
  destruct CW as (c1 & C1 & C2 & C3 & C4 & C5). unfold turned_ccw, set_counterclockwise. rewrite C1. cbn [obind]. destruct G as [(G & A)|(G & A)].
  - replace (shoelace l <? 0) with false in * by (symmetry; apply Z.ltb_ge; lia). exists c1, l. split; [reflexivity|]. split; [exact C2|]. unfold plain. rewrite C4, C5.
    split; [auto|]. unfold matches. rewrite C3. auto.
  - replace (shoelace l <? 0) with true in * by (symmetry; apply Z.ltb_lt; lia). exists (change_orientation c1), (rev l). split; [reflexivity|].
    cbn [change_orientation set_cache set_points c_cache c_points]. rewrite C2. split; [reflexivity|]. unfold plain. cbn. rewrite C4, C5. split; [auto|].
    unfold matches. cbn. rewrite C3. split; [now apply Forall2_rev|]. split; [|auto]. now apply once_rev in G.
Qed.

(** *** The segments *)

Definition slopedb (e : edge) : bool := fst (e_left e) <? fst (e_right e).
Lemma slopedb_iff : forall e, slopedb e = true <-> sloped e.
Proof. intros e. apply Z.ltb_lt. Qed.

(** The segment is of edge [e], which is of a side of [l]. *)
Definition taken (l : list (Z * Z)) (t : hseg) (e : edge) : Prop :=
  seg_z t (e_left e) (e_right e) /\ s_order t = 0%nat /\ s_data t = e_poly e
  /\ exists sd, In sd (sides l) /\ left_to_right (e_poly e) sd = [e] /\ s_out t = negb (0 <? dir sd).

Definition numbered (k : nat) (ts : list hseg) : Prop := forall j t, nth_error ts j = Some t -> s_index t = (k + j)%nat.

Lemma numbered_app : forall k a b, numbered k a -> numbered (k + length a) b -> numbered k (a ++ b).
Proof.
  intros k a b Ha Hb j t H. destruct (Nat.lt_ge_cases j (length a)) as [L|L].
  - rewrite nth_error_app1 in H by exact L. now apply Ha.
  - rewrite nth_error_app2 in H by exact L. apply Hb in H. lia.
Qed.

Lemma segments_ok : forall l cid sl zl acc, Forall2 side_z sl zl -> incl zl (sides l) -> exists ts, hole_segments cid sl acc = Ok (acc ++ ts)
  /\ Forall2 (taken l) ts (filter slopedb (flat_map (left_to_right cid) zl)) /\ numbered (length acc) ts.
Proof.
  intros l cid sl zl acc H. revert acc. induction H as [|[p q] [zp zq] sl zl (Hp & Hq & Wp & Wq) H IH]; intros acc I; cbn [fst snd] in *.
  - exists []. cbn [hole_segments]. rewrite app_nil_r. split; [reflexivity|]. split; [constructor|]. intros [|j] t; discriminate.
  - assert (I1 : In (zp, zq) (sides l)) by (apply I; now left). assert (I2 : incl zl (sides l)) by (intros x Hx; apply I; now right).
    assert (II : forall (r : point) (v : Z * Z), at_z r v -> within (2 ^ 24) v -> is_int (px r) (fst v) /\ is_int (py r) (snd v)).
    { intros r [x y] Hr [W1 W2]. cbn [fst snd] in W1, W2. destruct (at_z_int _ _ Hr) as [J1 J2]; cbn [fst snd] in *; [pow_lia; lia..|]. auto. }
    destruct (II p zp Hp Wp) as [P1 P2], (II q zq Hq Wq) as [Q1 Q2].
    cbn [hole_segments flat_map]. rewrite filter_app, (eq_int _ _ _ _ P1 Q1). destruct (Z.eqb_spec (fst zp) (fst zq)) as [V|V].
    + destruct (IH acc I2) as (ts & E1 & E2 & E3). exists ts. split; [exact E1|]. split; [|exact E3].
      replace (filter slopedb (left_to_right cid (zp, zq))) with (@nil edge); [exact E2|]. unfold left_to_right. cbn [fst snd].
      destruct (lex_z zp zq); cbn [filter]; [reflexivity| |]; unfold slopedb; cbn [e_left e_right]; rewrite V, Z.ltb_irrefl; reflexivity.
    + destruct (point_cmp_int _ _ _ _ Hp Hq Wp Wq) as (_ & _ & Eq). unfold sseg_new. rewrite Eq.
      rewrite (lt_int _ _ _ _ P1 Q1), (eq_int _ _ _ _ P1 Q1), (lt_int _ _ _ _ P2 Q2).
      assert (Tk : exists t, (if match lex_z zp zq with Eq => true | _ => false end then Panic PAssert
          else if (fst zp <? fst zq) || (fst zp =? fst zq) && (snd zp <? snd zq) then Ok (mk_sseg p q false (length acc) 0 cid) else Ok (mk_sseg q p true (length acc) 0 cid)) = Ok t
          /\ s_index t = length acc /\ Forall2 (taken l) [t] (filter slopedb (left_to_right cid (zp, zq)))).
      { unfold left_to_right. cbn [fst snd]. destruct (lex_z zp zq) eqn:Lx.
        - apply lex_eq in Lx. congruence.
        - pose proof Lx as Lx'. apply lex_lt in Lx'. replace (fst zp <? fst zq) with true by (symmetry; apply Z.ltb_lt; lia). cbn [orb]. eexists. split; [reflexivity|]. split; [reflexivity|].
          cbn [filter]. unfold slopedb. cbn [e_left e_right]. replace (fst zp <? fst zq) with true by (symmetry; apply Z.ltb_lt; lia). constructor; [|constructor].
          split; [split; [exact Hp|]; split; [exact Hq|]; split; [exact Lx|]; split; [exact Wp|exact Wq]|]. split; [reflexivity|]. split; [reflexivity|]. exists (zp, zq). split; [exact I1|]. cbn [e_poly].
          unfold left_to_right, dir. cbn [fst snd]. rewrite Lx. auto.
        - pose proof Lx as Lx'. apply lex_gt in Lx'. pose proof Lx' as Lx2. apply lex_lt in Lx2. replace (fst zp <? fst zq) with false by (symmetry; apply Z.ltb_ge; lia).
          replace (fst zp =? fst zq) with false by (symmetry; apply Z.eqb_neq; lia). cbn [orb andb]. eexists. split; [reflexivity|]. split; [reflexivity|].
          cbn [filter]. unfold slopedb. cbn [e_left e_right]. replace (fst zq <? fst zp) with true by (symmetry; apply Z.ltb_lt; lia). constructor; [|constructor].
          split; [split; [exact Hq|]; split; [exact Hp|]; split; [exact Lx'|]; split; [exact Wq|exact Wp]|]. split; [reflexivity|]. split; [reflexivity|]. exists (zp, zq). split; [exact I1|]. cbn [e_poly].
          unfold left_to_right, dir. cbn [fst snd]. rewrite Lx. auto. }
      destruct Tk as (t & T1 & T2 & T3). rewrite T1. cbn [obind]. destruct (IH (acc ++ [t]) I2) as (ts & E1 & E2 & E3). exists (t :: ts).
      split; [rewrite E1, <- app_assoc; reflexivity|]. split; [change (t :: ts) with ([t] ++ ts); apply Forall2_app; assumption|].
      change (t :: ts) with ([t] ++ ts). apply numbered_app; [|rewrite app_length in E3; exact E3].
      intros [|[|j]] u Hu; try discriminate. injection Hu as <-. rewrite T2. cbn [length]. lia.
Qed.

Lemma collect_ok : forall p z, Forall2 (fun c l => exists c' l', turned_ccw c l c' l') p z -> Forall (Forall (within (2 ^ 24))) z -> forall cid acc,
  exists cs z' ts, collect_holes cid p acc = Ok (cs, acc ++ ts) /\ length cs = length p /\ length z' = length z
    /\ (forall i c, nth_error cs i = Some c -> exists c0 l l', nth_error p i = Some c0 /\ nth_error z i = Some l /\ nth_error z' i = Some l' /\ turned_ccw c0 l c l')
    /\ Forall2 (fun t e => exists l, nth_error z' (e_poly e - cid) = Some l /\ (cid <= e_poly e)%nat /\ taken l t e) ts (filter slopedb (edges_from cid (map (fun l => [l]) z')))
    /\ numbered (length acc) ts.
Proof.
  intros p z H. induction H as [|c l p z (c' & l' & C) H IH]; intros W cid acc.
  - exists [], [], []. cbn [collect_holes]. rewrite app_nil_r. split; [reflexivity|]. split; [reflexivity|]. split; [reflexivity|]. split; [intros [|i] c; discriminate|].
    split; [constructor|]. intros [|j] t; discriminate.
  - inversion W as [|? ? W1 W2]; subst. pose proof C as (C1 & C2 & C3 & C4 & C5 & C6).
    assert (W' : Forall (within (2 ^ 24)) l') by (destruct C6 as [(_ & ->)|(_ & ->)]; [exact W1|now apply Forall_rev]).
    destruct (segments_ok l' cid _ _ acc (sides_z c' l' C4 W') (incl_refl _)) as (t1 & S1 & S2 & S3).
    destruct (IH W2 (S cid) (acc ++ t1)) as (cs & z' & ts & E1 & E2 & E3 & E4 & E5 & E6).
    exists (c' :: cs), (l' :: z'), (t1 ++ ts). cbn [collect_holes]. rewrite C1. cbn [obind]. rewrite S1. cbn [obind]. rewrite E1. cbn [obind].
    split; [now rewrite app_assoc|]. split; [cbn [length]; now rewrite E2|]. split; [cbn [length]; now rewrite E3|]. split.
    { intros [|i] d Hd; cbn [nth_error] in *; [injection Hd as <-; exists c, l, l'; auto|]. now apply E4. }
    split; [|rewrite app_length in E6; now apply numbered_app].
    cbn [map edges_from]. rewrite filter_app. apply Forall2_app.
    + unfold polygon_edges. cbn [flat_map]. rewrite app_nil_r.
      assert (P : forall e, In e (filter slopedb (flat_map (left_to_right cid) (sides l'))) -> e_poly e = cid).
      { intros e He. apply filter_In in He. destruct He as (He & _). apply in_flat_map in He. destruct He as (s & _ & He). unfold left_to_right in He.
        destruct (lex_z _ _); [destruct He|destruct He as [<-|[]]; reflexivity..]. }
      revert S2 P. generalize (filter slopedb (flat_map (left_to_right cid) (sides l'))). intros es0 S2. clear - S2. induction S2 as [|t e ts' es HT S2 IH2]; intros P; constructor.
      * exists l'. rewrite (P e (or_introl eq_refl)), Nat.sub_diag. split; [reflexivity|]. split; [lia|exact HT].
      * apply IH2. intros f Hf. apply P. now right.
    + eapply HolesFacts.Forall2_weaken; [|exact E5]. intros t e (m & M1 & M2 & M3). exists m. split; [|split; [lia|exact M3]].
      replace (e_poly e - cid)%nat with (S (e_poly e - S cid)) by lia. exact M1.
Qed.

(** *** Turning changes nothing about what lies in what *)

Section Turned.
Variables z z' : corners.
Hypothesis H : Forall2 turned_z z z'.

Lemma turned_nth : forall i l', nth_error z' i = Some l' -> exists l, nth_error z i = Some l /\ turned_z l l'.
Proof using H.
  revert z z' H. intros a b G. induction G as [|x y a b Q G IH]; intros [|i] l' Hl; try discriminate; cbn [nth_error] in *; [injection Hl as <-; eauto|auto].
Qed.
Lemma turned_nth_l : forall i l, nth_error z i = Some l -> exists l', nth_error z' i = Some l' /\ turned_z l l'.
Proof using H.
  revert z z' H. intros a b G. induction G as [|x y a b Q G IH]; intros [|i] l' Hl; try discriminate; cbn [nth_error] in *; [injection Hl as <-; eauto|auto].
Qed.
Lemma turned_inside : forall i j, has_inside z i j <-> has_inside z' i j.
Proof using H.
  intros i j. split; intros G a b Ha Hb x y I.
  - destruct (turned_nth i a Ha) as (a0 & A1 & A2), (turned_nth j b Hb) as (b0 & B1 & B2). apply (inside_turned a0 a x y A2), (G a0 b0 A1 B1), (inside_turned b0 b x y B2), I.
  - destruct (turned_nth_l i a Ha) as (a0 & A1 & A2), (turned_nth_l j b Hb) as (b0 & B1 & B2). apply (inside_turned a a0 x y A2), (G a0 b0 A1 B1), (inside_turned b b0 x y B2), I.
Qed.
Lemma turned_separate : forall i j, separate z i j -> separate z' i j.
Proof using H.
  intros i j G a b Ha Hb x y (I & J). destruct (turned_nth i a Ha) as (a0 & A1 & A2), (turned_nth j b Hb) as (b0 & B1 & B2). apply (G a0 b0 A1 B1 x y).
  split; [now apply (inside_turned a0 a x y A2)|now apply (inside_turned b0 b x y B2)].
Qed.
Lemma turned_lies : forall i j, lies_in z i j <-> lies_in z' i j.
Proof using H. intros i j. unfold lies_in. rewrite turned_inside, (Forall2_len _ _ _ H). reflexivity. Qed.
Lemma turned_directly : forall i j, directly_in z i j <-> directly_in z' i j.
Proof using H. intros i j. unfold directly_in. rewrite turned_lies. split; intros (G1 & G2); (split; [exact G1|]); intros k N K; apply turned_lies, G2; auto; now apply turned_lies. Qed.
End Turned.

Lemma end_self : forall T (a : endpoint T), int_event a -> endpoint_cmp a a = Ok Eq.
Proof.
  intros T a (l & r & A). rewrite (endpoint_cmp_int _ a a _ _ _ _ A A). unfold event_before_z. rewrite lex_refl, Nat.compare_refl. destruct (snd a); cbn [end_z other_z cmp_then].
  - replace (orient l r r) with 0 by (unfold orient; ring). reflexivity.
  - replace (orient r l l) with 0 by (unfold orient; ring). reflexivity.
Qed.

(** *** One contour, and many *)

Lemma all_turn : forall p z, has_corners p z -> Forall raw p -> rings z -> Forall2 (fun c l => exists c' l', turned_ccw c l c' l') p z.
Proof.
  intros p z HC RW (W & F & G & _ & B). pose proof (ring_drawn z W F) as D. pose proof (Forall2_len _ _ _ HC) as LE.
  apply nth_Forall2; [exact LE|]. intros i c l Hc Hl. pose proof (Forall2_nth _ _ _ _ _ _ HC Hc Hl) as M.
  rewrite Forall_forall in RW, G, B. pose proof (RW c (nth_error_In _ _ Hc)) as R. destruct (B l (nth_error_In _ _ Hl)) as (m & B1 & B2).
  apply (ccw_ok c l m R M B1 B2). destruct (G l (nth_error_In _ _ Hl)) as [O|O]; [left|right]; (split; [exact O|]).
  - pose proof (line_area z _ D F i l 1 Hl (or_introl eq_refl) O). lia.
  - pose proof (line_area z _ D F i l (-1) Hl (or_intror eq_refl) O). lia.
Qed.

Lemma many : forall std p z c1 c2 p', sorts std -> set_laws std -> has_corners p z -> Forall raw p -> rings z -> p = c1 :: c2 :: p' ->
  exists r, compute_holes std p = Ok r /\ holes_found z p r.
Proof.
  intros std p z k1 k2 p' SO SL HC RW RG Ep. pose proof (all_turn p z HC RW RG) as AT. destruct RG as (W & F & G & NS0 & B).
  destruct (collect_ok p z AT W 0 []) as (cs & z' & T & C1 & C2 & C3 & C4 & C5 & C6). cbn [app length] in C1, C6.
  pose proof (Forall2_len _ _ _ HC) as LE. assert (Lcs : length cs = length z') by congruence.
  assert (At : forall i l', nth_error z' i = Some l' -> exists c c0 l, nth_error cs i = Some c /\ nth_error p i = Some c0 /\ nth_error z i = Some l /\ turned_ccw c0 l c l').
  { intros i l' Hl. pose proof (nth_lt _ _ _ Hl) as Li. rewrite <- Lcs in Li. destruct (nth_error_lt _ _ Li) as (c & Hc). destruct (C4 i c Hc) as (c0 & l & l2 & X1 & X2 & X3 & X4).
    exists c, c0, l. replace l' with l2 by congruence. auto. }
  assert (TZ : Forall2 turned_z z z').
  { apply nth_Forall2; [congruence|]. intros i l l' Hl Hl'. destruct (At i l' Hl') as (c & c0 & l2 & _ & _ & X3 & X4). assert (l2 = l) by congruence. subst l2.
    destruct X4 as (_ & _ & _ & _ & _ & [(_ & X)|(_ & X)]); [now left|now right]. }
  assert (W' : Forall (Forall (within (2 ^ 24))) z').
  { apply Forall_forall. intros l' Hl. apply In_nth_error in Hl. destruct Hl as (i & Hl). destruct (turned_nth z z' TZ i l' Hl) as (l & X1 & X2). rewrite Forall_forall in W.
    pose proof (W l (nth_error_In _ _ X1)) as Wl. destruct X2 as [->| ->]; [exact Wl|now apply Forall_rev]. }
  assert (F' : ForallOrdPairs apart (ring_edges z')).
  { apply (pairs_perm apart (ring_edges z)); [|apply edges_turned; exact TZ|exact F]. intros a b Ha Hb. apply apart_sym; [exact (edges_lr _ 0 a Ha)|exact (edges_lr _ 0 b Hb)]. }
  pose proof (ring_drawn z' W' F') as D. set (S := draw 0 (ring_edges z')) in *. set (zs := map (fun l : list (Z * Z) => [l]) z') in *. change (ring_edges z') with (edges zs) in *.
  assert (CC : forall i l, nth_error z' i = Some l -> goes_once 1 l) by (intros i l Hl; destruct (At i l Hl) as (c & c0 & l2 & _ & _ & _ & X4); apply X4).
  assert (NS : forall i j, i <> j -> has_inside z' i j \/ has_inside z' j i \/ separate z' i j).
  { intros i j N. rewrite <- !(turned_inside z z' TZ). destruct (NS0 i j N) as [Q|[Q|Q]]; [now left|right; now left|right; right; now apply (turned_separate z z' TZ)]. }
  (* the segments *)
  set (egz := eg (edges zs)) in *. set (SF := filter (fun s => slopedb (egz s)) S).
  assert (ND : NoDup S).
  { apply NoDup_nth_error. intros i j Li Q. destruct (nth_error_lt _ _ Li) as (s & Hs). rewrite Hs in Q. symmetry in Q. pose proof (dr_index _ _ D _ _ Hs). pose proof (dr_index _ _ D _ _ Q). congruence. }
  assert (ES : map egz S = edges zs).
  { apply nth_ext_error. intros i. rewrite nth_error_map. destruct (nth_error S i) as [s|] eqn:Hs.
    - destruct (in_seg _ _ D s (nth_error_In _ _ Hs)) as (_ & X). rewrite (dr_index _ _ D _ _ Hs) in X. cbn. symmetry. exact X.
    - symmetry. apply nth_error_None in Hs. apply nth_error_None. rewrite (dr_len _ _ D) in Hs. exact Hs. }
  assert (EF : filter slopedb (edges zs) = map egz SF).
  { rewrite <- ES. unfold SF. clear. induction S as [|s l IH]; [reflexivity|]. cbn [map filter]. destruct (slopedb (egz s)); cbn [map]; now rewrite IH. }
  change (edges_from 0 zs) with (edges zs) in C5. rewrite EF in C5. pose proof (Forall2_len _ _ _ C5) as LT. rewrite map_length in LT.
  set (pr := fun t : hseg => nth (s_index t) SF (mk_sseg (point_z (0, 0)) (point_z (0, 0)) false 0 0 tt)).
  assert (Pn : forall k t, nth_error T k = Some t -> s_index t = k /\ nth_error SF k = Some (pr t)).
  { intros k t Hk. pose proof (C6 k t Hk) as I. cbn in I. split; [exact I|]. unfold pr. rewrite I. apply nth_error_nth'. rewrite <- LT. exact (nth_lt _ _ _ Hk). }
  assert (SFin : forall s, In s SF <-> In s S /\ sloped (egz s)) by (intros s; unfold SF; rewrite filter_In, slopedb_iff; reflexivity).
  assert (Tin : forall t, In t T -> In (pr t) S /\ sloped (egz (pr t)) /\ seg_z t (e_left (egz (pr t))) (e_right (egz (pr t))) /\ s_order t = 0%nat /\ s_data t = e_poly (egz (pr t))
              /\ s_out t = negb (LS zs (egz (pr t)) (e_poly (egz (pr t))))).
  { intros t Ht. apply In_nth_error in Ht. destruct Ht as (k & Hk). destruct (Pn k t Hk) as (I & HF). pose proof (proj1 (SFin _) (nth_error_In _ _ HF)) as (X1 & X2).
    assert (HE : nth_error (map egz SF) k = Some (egz (pr t))) by (rewrite nth_error_map, HF; reflexivity).
    destruct (Forall2_nth _ _ _ _ _ _ C5 Hk HE) as (l & Y1 & _ & Y2 & Y3 & Y4 & sd & Y5 & Y6 & Y7). rewrite Nat.sub_0_r in Y1.
    split; [exact X1|]. split; [exact X2|]. split; [exact Y2|]. split; [exact Y3|]. split; [exact Y4|]. rewrite Y7. f_equal. symmetry.
    apply (above_dir z' S D F' CC NS (pr t) l sd X1 X2 Y1 Y5 Y6). }
  assert (NF : NoDup SF) by (apply NoDup_filter; exact ND).
  assert (Tinj : forall a b, In a T -> In b T -> pr a = pr b \/ s_index a = s_index b -> a = b).
  { intros a b Ha Hb Q. apply In_nth_error in Ha, Hb. destruct Ha as (i & Ha), Hb as (j & Hb). destruct (Pn i a Ha) as (I1 & J1), (Pn j b Hb) as (I2 & J2).
    assert (i = j); [|congruence]. destruct Q as [Q|Q]; [|congruence]. apply (proj1 (NoDup_nth_error SF) NF); [exact (nth_lt _ _ _ J1)|congruence]. }
  assert (Tonto : forall s, In s S -> sloped (egz s) -> exists t, In t T /\ pr t = s).
  { intros s Hs Sl. assert (Hf : In s SF) by (now apply SFin). apply In_nth_error in Hf. destruct Hf as (k & Hk). pose proof (nth_lt _ _ _ Hk) as Lk. rewrite <- LT in Lk.
    destruct (nth_error_lt _ _ Lk) as (t & Ht). exists t. split; [now apply nth_error_In in Ht|]. destruct (Pn k t Ht) as (_ & X). congruence. }
  assert (NT : NoDup T).
  { apply NoDup_nth_error. intros i j Li Q. destruct (nth_error_lt _ _ Li) as (s & Hs). rewrite Hs in Q. symmetry in Q. destruct (Pn _ _ Hs), (Pn _ _ Q). congruence. }
  destruct (t_sorted z' S D F' T pr Tin Tinj NT) as (q & QP & QS).
  assert (SQ : std_sort std _ endpoint_cmp (both_ends T) = Ok q).
  { apply SO; [exact QP| |exact QS]. intros a Ha. apply end_self. apply in_both in Ha. eexists _, _. now apply Tin. }
  assert (Base : forall i c, nth_error cs i = Some c -> c_cache c = Some false /\ plain c) by (intros i c Hc; destruct (C4 i c Hc) as (c0 & l & l' & _ & _ & _ & X); split; apply X).
  destruct (loop_ok z' S D F' CC NS T pr Tin Tinj Tonto std cs SL Lcs Base q [] [] cs (repeat false (length cs)) (repeat None (length cs)) 0) as (d' & st & L1 & L2 & L3).
  { exact QP. } { exact QS. }
  { split; [exact Logic.I|]. intros t. split; [intros []|intros (_ & [] & _)]. }
  { apply start_hst; assumption. }
  exists (hs_contours st). split.
  { rewrite Ep in *. unfold compute_holes. rewrite C1. cbn [obind]. rewrite SQ. cbn [obind]. rewrite L1. reflexivity. }
  split; [rewrite (st_n3 _ _ _ _ _ L2); congruence|]. intros i c Hc.
  destruct (st_c _ _ _ _ _ L2 i c Hc) as (c0 & b & X1 & X2 & X3 & X4 & X5 & X6 & _).
  assert (Li : (i < length z')%nat) by (rewrite <- (st_n3 _ _ _ _ _ L2); exact (nth_lt _ _ _ Hc)).
  destruct (X6 (L3 i Li)) as (ds & (Y1 & Y2) & Y3 & Y4 & _). destruct (C4 i c0 X1) as (k & l & l' & Z1 & Z2 & Z3 & Z4). destruct Z4 as (_ & _ & _ & _ & Z5 & Z6). split; [|split; [exact X4|]].
  - exists k, l, (if b then rev l' else l'). split; [exact Z1|]. split; [exact Z2|]. split.
    { rewrite X3. destruct Z6 as [(-> & ->)|(-> & ->)], b; rewrite ?rev_involutive; auto. }
    exists ds. split; [exact Y1|]. split; [intros j; rewrite Y2; symmetry; apply (turned_lies z z' TZ)|]. split; [|split; [|exact Y4]].
    + rewrite <- Nat.negb_odd, <- Y3. destruct b; cbn [negb]; [now apply once_rev in Z5|exact Z5].
    + rewrite <- Y3. apply clockwise_cached. exact X2.
  - intros j. rewrite X5, (turned_directly z z' TZ). split; [tauto|]. intros Q. split; [|exact Q]. apply L3. destruct Q as ((_ & _ & Q & _) & _). exact Q.
Qed.

Lemma one : forall std c z, has_corners [c] z -> raw c -> rings z -> exists r, compute_holes std [c] = Ok r /\ holes_found z [c] r.
Proof.
  intros std c z HC RW RG. pose proof (all_turn [c] z HC (Forall_cons _ RW (Forall_nil _)) RG) as AT. inversion AT as [|? l ? z0 (c' & l' & T1 & T2 & (T3 & T4) & T5 & T6 & T7) AT']; subst. inversion AT'; subst.
  unfold set_counterclockwise in T1. cbn [compute_holes]. bind T1 q Ecw. destruct q as (b & c1). rewrite Ecw. cbn [obind]. injection T1 as T1. exists [c']. split; [now rewrite T1|]. split; [reflexivity|].
  intros [|[|i]] d Hd; try discriminate. injection Hd as <-. assert (NL : forall i j, ~ lies_in [l] i j) by (intros i j (N & A & B & _); cbn [length] in A, B; lia).
  split; [|split].
  - exists c, l, l'. split; [reflexivity|]. split; [reflexivity|]. split; [exact T7|]. exists []. split; [constructor|].
    split; [intros j; split; [intros []|intros Q; now apply NL in Q]|]. split; [exact T6|]. split; [apply clockwise_cached; exact T2|]. rewrite T4. tauto.
  - rewrite T3. constructor.
  - intros j. rewrite T3. split; [intros []|]. intros (Q & _). now apply NL in Q.
Qed.

Theorem nested_holes : forall std p z, sorts std -> set_laws std -> has_corners p z -> Forall raw p -> rings z ->
  exists r, compute_holes std p = Ok r /\ holes_found z p r.
Proof.
  intros std p z SO SL HC RW RG. destruct p as [|c1 [|c2 p]].
  - exists []. split; [reflexivity|]. split; [reflexivity|]. intros [|i] c; discriminate.
  - inversion RW; subst. now apply one.
  - now apply (many std _ z c1 c2 p).
Qed.

(** *** The sets modelled as lists are as assumed *)

Lemma ref_sets : set_laws std_ref.
Proof.
  constructor; cbn [std_ref bt_insert bt_remove bt_last_before].
  - intros A cmp l r x H E. induction l as [|y l IH]; cbn [app node_insert] in *.
    + inversion H as [|? ? H1 H2]; subst. destruct r as [|y r]; [reflexivity|]. inversion H2 as [|? ? (H3 & _) _]; subst. cbn [node_insert]. rewrite H3. reflexivity.
    + inversion H as [|? ? H1 H2]; subst. rewrite Forall_forall in H2. destruct (H2 x) as (_ & H3); [apply in_or_app; right; now left|]. rewrite H3. cbn [obind]. rewrite IH by exact H1. reflexivity.
  - intros A cmp l r x H E. induction l as [|y l IH]; cbn [app node_remove] in *.
    + rewrite E. reflexivity.
    + inversion H as [|? ? H1 H2]; subst. rewrite Forall_forall in H2. destruct (H2 x) as (_ & H3); [apply in_or_app; right; now left|]. rewrite H3. cbn [obind]. rewrite IH by exact H1. reflexivity.
  - intros A cmp r x H E. cbn [node_last_before]. rewrite E. reflexivity.
  - intros A cmp l r y x H E.
    assert (G : forall acc, node_last_before cmp (l ++ y :: x :: r) x acc = Ok (Some y)); [|apply G]. induction l as [|w l IH]; intros acc; cbn [app node_last_before] in *.
    + inversion H as [|? ? H1 H2]; subst. inversion H2 as [|? ? (_ & H3) _]; subst. rewrite H3. cbn [obind]. rewrite E. reflexivity.
    + inversion H as [|? ? H1 H2]; subst. rewrite Forall_forall in H2. destruct (H2 x) as (_ & H3); [apply in_or_app; right; right; now left|]. rewrite H3. cbn [obind]. now apply IH.
Qed.
