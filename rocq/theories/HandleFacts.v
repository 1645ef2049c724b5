(** What the sweep does with two neighbouring segments with integer ends. *)

From Coq Require Import List ZArith Bool Reals Lra Lia QArith Qreals.
From Verif Require Import Base BaseFacts Float SpecFloat64 FloatFacts Geometry Sweep Contours Compute MapFacts SpecShape ShapeFacts
  SpecOrder OrderFacts SpecIntersect SpecHandle RealFacts RealFacts2 IntersectFacts CrossingFacts InLineFacts.
Import ListNotations.
Local Open Scope Z_scope.

Lemma lex_dir : forall l1 r1 l2 r2, lex_z l1 r1 = Lt -> lex_z l2 r2 = Lt -> vcross (vsub r1 l1) (vsub r2 l2) = 0 ->
  0 < vdot (vsub r1 l1) (vsub r2 l2).
Proof.
  intros [a b] [c d] [e f] [g h]. unfold lex_z, vcross, vdot, vsub. cbn [fst snd].
  destruct (Z.compare_spec a c); destruct (Z.compare_spec e g); try discriminate.
  - rewrite !Z.compare_lt_iff. subst. intros. nia.
  - rewrite !Z.compare_lt_iff. subst. intros. nia.
  - rewrite !Z.compare_lt_iff. subst. intros. nia.
  - intros _ _ E. assert (X : 0 < (c - a) * (g - e)) by nia.
    assert (Y : 0 <= (d - b) * (h - f)); [|lia].
    assert ((c - a) * (h - f) = (d - b) * (g - e)) by lia.
    destruct (Z_le_gt_dec 0 (d - b)).
    + assert (0 <= h - f) by nia. nia.
    + assert (h - f < 0) by nia. nia.
Qed.

(** The three outcomes of the intersection test. *)
Lemma intersect_cases : forall a b c d l1 r1 l2 r2,
  at_z a l1 -> at_z b r1 -> at_z c l2 -> at_z d r2 -> lex_z l1 r1 = Lt -> lex_z l2 r2 = Lt ->
  within (2 ^ 24) l1 -> within (2 ^ 24) r1 -> within (2 ^ 24) l2 -> within (2 ^ 24) r2 ->
  tellable l1 r1 l2 r2 ->
  match intersect_segments (a, b) (c, d) with
  | INone => disjoint l1 r1 l2 r2
  | IPoint p => exists x y, meet_at l1 r1 l2 r2 x y /\ near eps p x y
      /\ forall e, In e [l1; r1; l2; r2] -> is_at e x y -> at_z p e
  | ISegment _ _ => overlap l1 r1 l2 r2 /\ in_line l1 r1 l2 r2
  end.
Proof.
  intros a b c d l1 r1 l2 r2 Ha Hb Hc Hd O1 O2 Wa Wb Wc Wd [T|[T [S|S]]].
  - pose proof (crossing_spec _ _ _ _ _ _ _ _ Ha Hb Hc Hd Wa Wb Wc Wd T) as X.
    destruct (intersect_segments (a, b) (c, d)) as [|p|p q]; [exact X| |contradiction].
    destruct X as (x & y & B & N & E). exists x, y. split; [|split; [exact N|]].
    + split; [exact B|]. intros x' y' B'. destruct T as [K _].
      destruct (both_params _ _ _ _ _ _ B K) as (_ & _ & X1 & Y1). destruct (both_params _ _ _ _ _ _ B' K) as (_ & _ & X2 & Y2).
      split; apply eqR_Qeq; congruence.
    + intros e He [E1 E2]. auto.
  - destruct (parallel_apart _ _ _ _ _ _ _ _ Ha Hb Hc Hd Wa Wb Wc Wd T S) as [-> H]. exact H.
  - assert (HL : in_line l1 r1 l2 r2) by (split; [exact T|]; split; [exact S|]; now apply lex_dir).
    pose proof (in_line_spec _ _ _ _ _ _ _ _ Ha Hb Hc Hd Wa Wb Wc Wd HL) as X.
    destruct (intersect_segments (a, b) (c, d)) as [|p|p q]; [exact X| |].
    + destruct X as (e & He & Pe & Me). exists (inject_Z (fst e)), (inject_Z (snd e)). split; [|split].
      * split; [apply Me; split; reflexivity|]. intros x' y' B'. apply Me in B'. exact B'.
      * assert (We : within (2 ^ 24) e) by (destruct He as [<-|[<-|[<-|[<-|[]]]]]; assumption).
        destruct (at_z_vint _ _ Pe We) as [I1 I2].
        destruct (is_int_val _ _ I1) as [F1 V1]. destruct (is_int_val _ _ I2) as [F2 V2].
        apply near_of; auto; rewrite ?V1, ?V2, Q2R_Z, Rminus_diag_eq, Rabs_R0 by reflexivity; lra.
      * intros e' He' [E1 E2]. assert (e' = e) as ->; [|exact Pe].
        destruct e as [ex ey], e' as [fx fy]. cbn [fst snd] in *. apply (proj1 (inject_Z_injective _ _)) in E1, E2. congruence.
    + destruct X as (e & e' & N & _ & _ & B1 & B2 & _). split; [|exact HL].
      exists (inject_Z (fst e)), (inject_Z (snd e)), (inject_Z (fst e')), (inject_Z (snd e')).
      split; [exact B1|]. split; [exact B2|]. intros [E1 E2]. apply N.
      destruct e as [ex ey], e' as [fx fy]. cbn [fst snd] in *. apply (proj1 (inject_Z_injective _ _)) in E1, E2. congruence.
Qed.

Lemma overlap_not_meet : forall l1 r1 l2 r2 x y, overlap l1 r1 l2 r2 -> meet_at l1 r1 l2 r2 x y -> False.
Proof.
  intros l1 r1 l2 r2 x y (a & b & c & d & B1 & B2 & N) [_ M].
  destruct (M _ _ B1) as [E1 E2], (M _ _ B2) as [E3 E4]. apply N. split.
  - rewrite E1, E3. reflexivity.
  - rewrite E2, E4. reflexivity.
Qed.

Section Two.
Variables (s1 s2 : bseg) (l1 r1 l2 r2 : Z * Z) (ks : list packet).
Hypothesis (S1 : seg_z s1 l1 r1) (S2 : seg_z s2 l2 r2) (T : tellable l1 r1 l2 r2).

Lemma cases_here :
  match intersect_segments (s_left s1, s_right s1) (s_left s2, s_right s2) with
  | INone => disjoint l1 r1 l2 r2
  | IPoint p => exists x y, meet_at l1 r1 l2 r2 x y /\ near eps p x y
      /\ forall e, In e [l1; r1; l2; r2] -> is_at e x y -> at_z p e
  | ISegment _ _ => overlap l1 r1 l2 r2 /\ in_line l1 r1 l2 r2
  end.
Proof using S1 S2 T.
  destruct S1 as (A1 & A2 & A3 & A4 & A5), S2 as (B1 & B2 & B3 & B4 & B5). now apply intersect_cases.
Qed.

Lemma handle_disjoint : disjoint l1 r1 l2 r2 ->
  handle_intersections ks (Some s1) (Some s2) = Ok (0%nat, None, None, ks).
Proof using S1 S2 T.
  intros D. pose proof cases_here as C. unfold handle_intersections.
  destruct (intersect_segments _ _) as [|p|p q]; [reflexivity| |].
  - destruct C as (x & y & [B _] & _). now apply D in B.
  - destruct C as [(x & y & _ & _ & B & _) _]. now apply D in B.
Qed.

Lemma eqb_z : forall p q zp zq, at_z p zp -> at_z q zq -> within (2 ^ 24) zp -> within (2 ^ 24) zq ->
  (point_eqb p q = true <-> zp = zq).
Proof using.
  intros p q zp zq Hp Hq Wp Wq. destruct (point_cmp_int _ _ _ _ Hp Hq Wp Wq) as (_ & _ & ->).
  rewrite <- lex_eq. destruct (lex_z zp zq); split; congruence.
Qed.

(** Comparing a computed point with an end. *)
Lemma eqb_near : forall p q z x y, near eps p x y -> at_z q z -> within (2 ^ 24) z -> point_eqb q p = true -> close_to z x y.
Proof using.
  intros p q z x y (F1 & F2 & N1 & N2 & N3 & N4) Hq Wq E.
  destruct (at_z_vint _ _ Hq Wq) as [I1 I2].
  destruct (is_int_val _ _ I1) as [G1 V1]. destruct (is_int_val _ _ I2) as [G2 V2].
  apply finite64_fin in F1, F2.
  unfold point_eqb in E. apply andb_prop in E. destruct E as [E1 E2].
  rewrite eq_val in E1, E2 by assumption.
  destruct (Raux.Req_bool_spec (val (px q)) (val (px p))) as [X|]; [|discriminate].
  destruct (Raux.Req_bool_spec (val (py q)) (val (py p))) as [Y|]; [|discriminate].
  assert (QX : (f64_Q (px p) == inject_Z (fst z))%Q) by (apply eqR_Qeq; rewrite f64_Q_val, Q2R_Z; congruence).
  assert (QY : (f64_Q (py p) == inject_Z (snd z))%Q) by (apply eqR_Qeq; rewrite f64_Q_val, Q2R_Z; congruence).
  rewrite QX in N1, N2. rewrite QY in N3, N4. repeat split; assumption.
Qed.

Lemma splits_at : forall (s : bseg) l r l' r' p x y, seg_z s l r -> near eps p x y ->
  (forall e, In e [l; r; l'; r'] -> is_at e x y -> at_z p e) ->
  splits l r l' r' x y (if negb (point_eqb (s_left s) p) && negb (point_eqb (s_right s) p) then Some p else None).
Proof using.
  intros s l r l' r' p x y (A1 & A2 & A3 & A4 & A5) N E.
  destruct (point_eqb (s_left s) p) eqn:E1.
  { cbn. left. eapply eqb_near; eassumption. }
  destruct (point_eqb (s_right s) p) eqn:E2.
  { cbn. right. eapply eqb_near; eassumption. }
  cbn. split; [|split; [|split; [exact N|split]]].
  - intros I. apply E in I; [|now left].
    assert (point_eqb (s_left s) p = true) by (now apply (eqb_z _ _ l l)). congruence.
  - intros I. apply E in I; [|right; now left].
    assert (point_eqb (s_right s) p = true) by (now apply (eqb_z _ _ r r)). congruence.
  - intros I. apply E in I; [exact I|right; right; now left].
  - intros I. apply E in I; [exact I|right; right; right; now left].
Qed.

Lemma handle_meet : forall x y, meet_at l1 r1 l2 r2 x y ->
  (l1 = l2 \/ r1 = r2 -> handle_intersections ks (Some s1) (Some s2) = Ok (0%nat, None, None, ks))
  /\ (l1 <> l2 -> r1 <> r2 -> exists o1 o2, handle_intersections ks (Some s1) (Some s2) = Ok (1%nat, o1, o2, ks)
        /\ splits l1 r1 l2 r2 x y o1 /\ splits l2 r2 l1 r1 x y o2).
Proof using S1 S2 T.
  intros x y M. pose proof cases_here as C. unfold handle_intersections.
  destruct (intersect_segments _ _) as [|p|p q].
  - destruct M as [B _]. now apply C in B.
  - destruct C as (x' & y' & M' & N & E).
    assert (SP : same_point x' y' x y) by (apply M; apply M'). destruct SP as [SX SY].
    assert (N' : near eps p x y) by (unfold near in *; now rewrite SX, SY in N).
    assert (E' : forall e, In e [l1; r1; l2; r2] -> is_at e x y -> at_z p e).
    { intros e He I. apply E; [exact He|]. unfold is_at in *. rewrite SX, SY. exact I. }
    pose proof S1 as (A1 & A2 & A3 & A4 & A5). pose proof S2 as (B1 & B2 & B3 & B4 & B5).
    pose proof (eqb_z _ _ _ _ A1 B1 A4 B4) as EL. pose proof (eqb_z _ _ _ _ A2 B2 A5 B5) as ER.
    split.
    + intros [Q|Q]; [apply EL in Q|apply ER in Q]; rewrite Q; [reflexivity|]. now rewrite orb_true_r.
    + intros NL NR.
      replace (point_eqb (s_left s1) (s_left s2)) with false by (symmetry; apply not_true_is_false; intros Q; now apply EL in Q).
      replace (point_eqb (s_right s1) (s_right s2)) with false by (symmetry; apply not_true_is_false; intros Q; now apply ER in Q).
      cbn [orb]. eexists _, _. split; [reflexivity|]. split; apply splits_at; auto.
      intros e He. apply E'. cbn in He |- *. tauto.
  - exfalso. destruct C as [C _]. eapply overlap_not_meet; eassumption.
Qed.

Lemma compare_z : forall p q zp zq, at_z p zp -> at_z q zq -> within (2 ^ 24) zp -> within (2 ^ 24) zq ->
  compare_points p q = Ok (lex_z zp zq).
Proof using.
  intros p q zp zq Hp Hq Wp Wq. destruct (point_cmp_int _ _ _ _ Hp Hq Wp Wq) as (C1 & C2 & _).
  unfold compare_points. rewrite C1, C2. cbn [obind]. now rewrite lex_then.
Qed.

Lemma nth_set_nth : forall (A : Type) (i j : nat) (a : A) l, (i < length l)%nat ->
  nth_error (set_nth i a l) j = if Nat.eqb j i then Some a else nth_error l j.
Proof using.
  induction i as [|i IH]; intros j a [|b l] H; cbn in H; try lia; destruct j as [|j]; cbn; auto.
  apply IH. lia.
Qed.

Lemma handle_overlap : forall k1 k2, overlap l1 r1 l2 r2 ->
  nth_error ks (s_index s1) = Some k1 -> nth_error ks (s_index s2) = Some k2 -> k_polygon k1 <> k_polygon k2 ->
  (l1 = l2 -> exists o1 o2 ks', handle_intersections ks (Some s1) (Some s2) = Ok (2%nat, o1, o2, ks')
     /\ match lex_z r1 r2 with
        | Lt => o1 = None /\ o2 = Some (s_right s1)
        | Gt => o1 = Some (s_right s2) /\ o2 = None
        | Eq => o1 = None /\ o2 = None
        end
     /\ nth_error ks' (s_index s1) = Some (with_edge k1 ENonContributing)
     /\ nth_error ks' (s_index s2) = Some (with_edge k2
          (if is_non_contributing (k_edge k2) then ENonContributing
           else if Bool.eqb (k_up_out k1) (k_up_out k2) then ESameTransition else EDifferentTransition))
     /\ forall i, i <> s_index s1 -> i <> s_index s2 -> nth_error ks' i = nth_error ks i)
  /\ (lex_z l1 l2 = Lt -> handle_intersections ks (Some s1) (Some s2) = Ok (3%nat, Some (s_left s2), None, ks))
  /\ (lex_z l1 l2 = Gt -> handle_intersections ks (Some s1) (Some s2) = Ok (3%nat, None, Some (s_left s1), ks)).
Proof using S1 S2 T.
  intros k1 k2 O N1 N2 NP. pose proof cases_here as C. unfold handle_intersections.
  destruct (intersect_segments _ _) as [|p|p q].
  { exfalso. destruct O as (x & y & _ & _ & B & _). now apply C in B. }
  { exfalso. destruct C as (x' & y' & M' & _). eapply overlap_not_meet; eassumption. }
  unfold get_packet, index_nat. rewrite N1, N2. cbn [obind].
  replace (k_polygon k1 =? k_polygon k2)%nat with false by (symmetry; now apply Nat.eqb_neq).
  pose proof S1 as (A1 & A2 & A3 & A4 & A5). pose proof S2 as (B1 & B2 & B3 & B4 & B5).
  rewrite (compare_z _ _ _ _ A1 B1 A4 B4), (compare_z _ _ _ _ A2 B2 A5 B5). cbn [obind].
  pose proof (eqb_z _ _ _ _ A1 B1 A4 B4) as EL.
  assert (L1 : (s_index s1 < length ks)%nat) by (apply nth_error_Some; congruence).
  assert (L2 : (s_index s2 < length ks)%nat) by (apply nth_error_Some; congruence).
  assert (NI : s_index s1 <> s_index s2) by (intros Q; rewrite Q in N1; congruence).
  split; [|split].
  - intros Q. apply EL in Q. rewrite Q. unfold put_packet.
    assert (N2' : nth_error (set_nth (s_index s1) (with_edge k1 ENonContributing) ks) (s_index s2) = Some k2).
    { rewrite nth_set_nth by exact L1. destruct (Nat.eqb_spec (s_index s2) (s_index s1)); [congruence|exact N2]. }
    rewrite N2'. cbn [obind].
    assert (LS : (s_index s2 < length (set_nth (s_index s1) (with_edge k1 ENonContributing) ks))%nat)
      by (apply nth_error_Some; congruence).
    set (ks' := if is_non_contributing (k_edge k2) then _ else _).
    assert (K : nth_error ks' (s_index s1) = Some (with_edge k1 ENonContributing)
      /\ nth_error ks' (s_index s2) = Some (with_edge k2
          (if is_non_contributing (k_edge k2) then ENonContributing
           else if Bool.eqb (k_up_out k1) (k_up_out k2) then ESameTransition else EDifferentTransition))
      /\ forall i, i <> s_index s1 -> i <> s_index s2 -> nth_error ks' i = nth_error ks i).
    { unfold ks'. destruct (is_non_contributing (k_edge k2)) eqn:NC.
      - split; [|split].
        + rewrite nth_set_nth by exact L1. now rewrite Nat.eqb_refl.
        + rewrite N2'. f_equal. destruct k2; cbn in *. destruct k_edge; try discriminate. reflexivity.
        + intros i H1 H2. rewrite nth_set_nth by exact L1. destruct (Nat.eqb_spec i (s_index s1)); [congruence|reflexivity].
      - split; [|split].
        + rewrite nth_set_nth by exact LS. destruct (Nat.eqb_spec (s_index s1) (s_index s2)); [congruence|].
          rewrite nth_set_nth by exact L1. now rewrite Nat.eqb_refl.
        + rewrite nth_set_nth by exact LS. now rewrite Nat.eqb_refl.
        + intros i H1 H2. rewrite nth_set_nth by exact LS. destruct (Nat.eqb_spec i (s_index s2)); [congruence|].
          rewrite nth_set_nth by exact L1. destruct (Nat.eqb_spec i (s_index s1)); [congruence|reflexivity]. }
    destruct (lex_z r1 r2); eexists _, _, ks'; (split; [reflexivity|]); split; auto.
  - intros Q. rewrite Q.
    replace (point_eqb (s_left s1) (s_left s2)) with false; [reflexivity|].
    symmetry. apply not_true_is_false. intros X. apply EL in X. apply lex_eq in X. congruence.
  - intros Q. rewrite Q.
    replace (point_eqb (s_left s1) (s_left s2)) with false; [reflexivity|].
    symmetry. apply not_true_is_false. intros X. apply EL in X. apply lex_eq in X. congruence.
Qed.

Lemma handle_same_polygon : forall k1 k2, overlap l1 r1 l2 r2 ->
  nth_error ks (s_index s1) = Some k1 -> nth_error ks (s_index s2) = Some k2 -> k_polygon k1 = k_polygon k2 ->
  handle_intersections ks (Some s1) (Some s2) = Panic PAssert.
Proof using S1 S2 T.
  intros k1 k2 O N1 N2 NP. pose proof cases_here as C. unfold handle_intersections.
  destruct (intersect_segments _ _) as [|p|p q].
  { exfalso. destruct O as (x & y & _ & _ & B & _). now apply C in B. }
  { exfalso. destruct C as (x' & y' & M' & _). eapply overlap_not_meet; eassumption. }
  unfold get_packet, index_nat. rewrite N1, N2. cbn [obind]. rewrite NP, Nat.eqb_refl. reflexivity.
Qed.
End Two.
