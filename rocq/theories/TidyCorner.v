(** What lies around a corner of tidy polygons. *)

From Coq Require Import List ZArith QArith Bool Lia Lqa.
From Verif Require Import Base Float SpecShape SpecOrder SpecIntersect SpecTurn SpecHandle SpecTidy OrderFacts TidyGeo TidyParity.
Import ListNotations.
Local Open Scope Z_scope.

Definition same_z (a b : Z * Z) : bool := match lex_z a b with Eq => true | _ => false end.
Lemma same_z_iff : forall a b, same_z a b = true <-> a = b.
Proof. intros a b. unfold same_z. rewrite <- lex_eq. destruct (lex_z a b); split; congruence. Qed.
Lemma same_z_false : forall a b, same_z a b = false <-> a <> b.
Proof. intros a b. rewrite <- same_z_iff. destruct (same_z a b); split; congruence. Qed.

Definition at_left (v : Z * Z) (e : edge) : bool := same_z (e_left e) v.
Definition at_right (v : Z * Z) (e : edge) : bool := same_z (e_right e) v.
Definition inc (v : Z * Z) (e : edge) : bool := at_left v e || at_right v e.

(** The direction in which [e] leaves [v]. *)
Definition out (v : Z * Z) (e : edge) : Z * Z := if at_left v e then vsub (e_right e) v else vsub (e_left e) v.

(** Counter-clockwise around [v] beginning just after straight down, [a] comes before [b]. *)
Definition bef (v : Z * Z) (a b : edge) : bool :=
  match at_left v a, at_left v b with
  | true, false => true
  | false, true => false
  | _, _ => 0 <? vcross (out v a) (out v b)
  end.

(** [e] passes strictly below [v], just right of it. *)
Definition lower_right (v : Z * Z) (e : edge) : bool :=
  (fst (e_left e) <=? fst v) && (fst v <? fst (e_right e)) && (0 <? orient (e_left e) (e_right e) v).
(** [e] passes strictly below [v], just left of it. *)
Definition lower_left (v : Z * Z) (e : edge) : bool :=
  (fst (e_left e) <? fst v) && (fst v <=? fst (e_right e)) && (0 <? orient (e_left e) (e_right e) v).
(** [e] comes straight up to [v]. *)
Definition from_below (v : Z * Z) (e : edge) : bool := at_right v e && (fst (e_left e) =? fst (e_right e)).

Lemma lower_right_iff : forall v e, lower_right v e = true <->
  (xl e <= inject_Z (fst v) /\ inject_Z (fst v) < xr e /\ yat e (inject_Z (fst v)) < inject_Z (snd v))%Q.
Proof.
  intros v e. unfold lower_right. rewrite !andb_true_iff, Z.leb_le, !Z.ltb_lt.
  rewrite <- Zle_Qle, <- Zlt_Qlt. split.
  - intros [[H1 H2] H3]. split; [exact H1|]. split; [exact H2|]. apply orient_above; [unfold sloped; lia|exact H3].
  - intros (H1 & H2 & H3). split; [split; assumption|]. apply orient_above; [unfold sloped; lia|exact H3].
Qed.
Lemma lower_left_iff : forall v e, lower_left v e = true <->
  (xl e < inject_Z (fst v) /\ inject_Z (fst v) <= xr e /\ yat e (inject_Z (fst v)) < inject_Z (snd v))%Q.
Proof.
  intros v e. unfold lower_left. rewrite !andb_true_iff, Z.leb_le, !Z.ltb_lt.
  rewrite <- Zle_Qle, <- Zlt_Qlt. split.
  - intros [[H1 H2] H3]. split; [exact H1|]. split; [exact H2|]. apply orient_above; [unfold sloped; lia|exact H3].
  - intros (H1 & H2 & H3). split; [split; assumption|]. apply orient_above; [unfold sloped; lia|exact H3].
Qed.

(** The corner [v] lies on no edge but at its ends. *)
Definition clean (v : Z * Z) (e : edge) : Prop := on e (inject_Z (fst v)) (inject_Z (snd v)) -> v = e_left e \/ v = e_right e.

Lemma related_clean : forall e t v, related e t -> v = e_left t \/ v = e_right t -> clean v e.
Proof.
  intros e t v [[E1 E2]|A] V O; [rewrite E1, E2; exact V|].
  assert (O' : on t (inject_Z (fst v)) (inject_Z (snd v))).
  { destruct V as [-> | ->]; [apply on_left|apply on_right]. }
  destruct (apart_end e t _ _ A O O') as (w & W1 & W2 & X & Y). apply point_ext in X; [|exact Y]. subst w. exact W1.
Qed.

(** *** The sides of an edge, counted at its right end *)

Lemma half : forall a b : Z, (inject_Z a <= inject_Z b - (1 # 2))%Q <-> a < b.
Proof.
  intros a b. split; intros H.
  - rewrite Zlt_Qlt. lra.
  - assert (a <= b - 1) by lia. rewrite Zle_Qle, inject_sub in H0. change (inject_Z 1) with 1%Q in H0. lra.
Qed.
Lemma half' : forall a b : Z, (inject_Z b - (1 # 2) < inject_Z a)%Q <-> b <= a.
Proof.
  intros a b. split; intros H.
  - destruct (Z_lt_le_dec a b) as [L|L]; [|exact L]. apply half in L. lra.
  - rewrite Zle_Qle in H. lra.
Qed.

Lemma slope_right : forall e x, sloped e -> (yat e x == yr e - slope e * (xr e - x))%Q.
Proof. intros e x S. rewrite <- (yat_right e S). unfold yat. ring. Qed.

Lemma sloped_lr : forall e, sloped e -> lr e.
Proof. intros e S. unfold lr. apply lex_lt. unfold sloped in S. lia. Qed.

Lemma orient_slope_right : forall e f, sloped e -> sloped f -> e_right e = e_right f ->
  (0 < orient (e_left e) (e_right e) (e_left f)) <-> (slope f < slope e)%Q.
Proof.
  intros e f Se Sf E. rewrite orient_above by assumption. rewrite <- (yat_left f). rewrite !slope_right by assumption. rewrite E.
  pose proof (sloped_q f Sf). split; intros H'; nra.
Qed.

(** [e] passes below the end of [t]. *)
Lemma arrives : forall e t, lr e -> sloped t -> related e t ->
  passes_below e (xr t - (1 # 2)) (yat t (xr t - (1 # 2)))
  = xorb (lower_left (e_right t) e) (at_right (e_right t) e && negb (fst (e_left e) =? fst (e_right e)) && (0 <? orient (e_left e) (e_right e) (e_left t))).
Proof.
  intros e t L S R. set (x := (xr t - (1 # 2))%Q).
  assert (Xt : (xl t <= x)%Q) by (apply half; exact S).
  assert (XX : (x < xr t)%Q) by (unfold x; lra).
  assert (P : passes_below e x (yat t x) = true <-> (xl e <= x /\ x < xr e /\ yat e x < yat t x)%Q) by now apply passes_iff.
  assert (F : xorb (lower_left (e_right t) e) (at_right (e_right t) e && negb (fst (e_left e) =? fst (e_right e)) && (0 <? orient (e_left e) (e_right e) (e_left t))) = true
    <-> (xl e < xr t /\ xr t <= xr e)%Q /\ ((yat e (xr t) < yr t)%Q \/ (e_right e = e_right t /\ 0 < orient (e_left e) (e_right e) (e_left t)))).
  { pose proof (lower_left_iff (e_right t) e) as LL. set (b := lower_left (e_right t) e) in *.
    set (c := at_right (e_right t) e && negb (fst (e_left e) =? fst (e_right e)) && (0 <? orient (e_left e) (e_right e) (e_left t))).
    assert (C : c = true <-> e_right e = e_right t /\ sloped e /\ 0 < orient (e_left e) (e_right e) (e_left t)).
    { unfold c, at_right, sloped. rewrite !andb_true_iff, same_z_iff, negb_true_iff, Z.eqb_neq, Z.ltb_lt.
      unfold lr in L. apply lex_lt in L. split; intros; intuition lia. }
    assert (N : b = true -> c = true -> False).
    { intros B C'. apply LL in B. apply C in C'. destruct C' as (E & Se & _), B as (_ & _ & B). rewrite <- E in B.
      rewrite (yat_right e Se) in B. lra. }
    destruct b, c; cbn; split; intros H; try congruence; try (exfalso; now apply N).
    - destruct (proj1 LL eq_refl) as (H1 & H2 & H3). split; [split; assumption|now left].
    - destruct (proj1 C eq_refl) as (H1 & H2 & H3). apply sloped_q in H2. rewrite <- H1. split; [split; lra|now right].
    - destruct H as [[H1 H2] [H3|[H3 H4]]].
      + apply LL. auto.
      + apply C. split; [exact H3|]. split; [|exact H4]. unfold sloped. rewrite Zlt_Qlt. rewrite H3. lra. }
  apply eq_true_iff_eq. rewrite P, F. clear P F.
  assert (E1 : (xl e <= x)%Q <-> (xl e < xr t)%Q) by (unfold x; rewrite half, <- Zlt_Qlt; tauto).
  assert (E2 : (x < xr e)%Q <-> (xr t <= xr e)%Q) by (unfold x; rewrite half', <- Zle_Qle; tauto).
  rewrite E1, E2. destruct R as [[R1 R2]|A].
  { assert (Y : forall z, (yat e z == yat t z)%Q) by (intros z; unfold yat, slope; rewrite R1, R2; reflexivity).
    split.
    - intros (_ & _ & H). rewrite Y in H. lra.
    - intros [_ [H|[_ H]]]; exfalso; [rewrite Y, (yat_right t S) in H; lra|].
      rewrite <- R1 in H. unfold orient in H. lia. }
  split.
  - intros (H1 & H2 & H3). split; [split; assumption|]. apply E1 in H1 as H1'. apply E2 in H2 as H2'.
    pose proof (lr_sloped e x L H1' H2') as Se.
    pose proof (same_side e t x (xr t) A Se S) as SS.
    assert (LE : (yat e (xr t) <= yat t (xr t))%Q) by (apply SS; lra).
    rewrite (yat_right t S) in LE. destruct (Qlt_le_dec (yat e (xr t)) (yr t)) as [G|G]; [now left|right].
    destruct (level e t (xr t) A Se S) as (w & W1 & W2 & X' & Y'); try lra. { rewrite (yat_right t S). lra. }
    assert (Hw : w = e_right e). { destruct W1 as [W|W]; [|exact W]. rewrite W in X'. lra. }
    assert (Hw' : w = e_right t). { destruct W2 as [W|W]; [|exact W]. rewrite W in X'. lra. }
    assert (ER : e_right e = e_right t) by congruence. split; [exact ER|].
    apply (orient_slope_right e t Se S ER). rewrite !slope_right in H3 by assumption. rewrite ER in H3. nra.
  - intros [[H1 H2] H]. split; [exact H1|]. split; [exact H2|]. apply E1 in H1 as H1'. apply E2 in H2 as H2'.
    pose proof (lr_sloped e x L H1' H2') as Se.
    destruct H as [H|[ER H]].
    + destruct (Qlt_le_dec (yat e x) (yat t x)) as [G|G]; [exact G|exfalso].
      destruct (Qlt_le_dec (yat t x) (yat e x)) as [G'|G'].
      * assert (LE : (yat t (xr t) <= yat e (xr t))%Q) by (apply (same_side t e x (xr t) (apart_sym _ _ L (sloped_lr t S) A) S Se); lra).
        rewrite (yat_right t S) in LE. lra.
      * destruct (level e t x A Se S) as (w & W1 & W2 & X' & Y'); try lra.
        assert (N : forall z, ~ (x == inject_Z z)%Q).
        { intros z Q. unfold x in Q. assert (Q1 : (inject_Z (fst (e_right t)) == inject_Z z + (1 # 2))%Q) by lra.
          unfold Qeq in Q1. cbn in Q1. lia. }
        exact (N _ X').
    + apply (orient_slope_right e t Se S ER) in H. rewrite !slope_right by assumption. rewrite ER. nra.
Qed.

(** *** One edge, seen from a corner *)

(** Straight below [v]. *)
Definition straight_below (v w : Z * Z) : bool := (fst w =? fst v) && (snd w <? snd v).

Lemma flow_edge : forall v e, lr e -> clean v e ->
  xorb (lower_left v e) (xorb (lower_right v e) (from_below v e)) = xorb (straight_below v (e_left e)) (straight_below v (e_right e)).
Proof.
  intros v e L C. unfold lr in L. apply lex_lt in L.
  unfold lower_left, lower_right, from_below, straight_below, at_right.
  destruct (Z.eq_dec (fst (e_left e)) (fst (e_right e))) as [V|V].
  - assert (Y : snd (e_left e) < snd (e_right e)) by lia.
    destruct (same_z (e_right e) v) eqn:SZ.
    + apply same_z_iff in SZ. rewrite SZ in V, Y. rewrite V, SZ. rewrite !Z.eqb_refl, Z.ltb_irrefl.
      rewrite !Z.ltb_irrefl. replace (snd (e_left e) <? snd v) with true by lia.
      rewrite !andb_false_r. reflexivity.
    + cbn [andb]. assert (N : ~ (fst (e_right e) = fst v /\ snd (e_left e) < snd v <= snd (e_right e))).
      { intros (Q1 & Q2 & Q3). destruct C as [C|C].
        - apply on_upright; auto.
          + rewrite <- Zle_Qle. lia.
          + rewrite <- Zle_Qle. lia.
          + rewrite V, Q1. reflexivity.
        - rewrite C in Q2. lia.
        - rewrite C in SZ. apply same_z_false in SZ. congruence. }
      rewrite V. destruct (fst (e_right e) =? fst v) eqn:Q; [|lia].
      destruct (snd (e_left e) <? snd v) eqn:Q1, (snd (e_right e) <? snd v) eqn:Q2; try lia.
  - assert (S : sloped e) by (unfold sloped; lia). replace (fst (e_left e) =? fst (e_right e)) with false by lia. rewrite andb_false_r.
    rewrite xorb_false_r.
    destruct (Z.eq_dec (fst (e_left e)) (fst v)) as [X1|X1].
    { rewrite X1, Z.eqb_refl. replace (fst (e_right e) =? fst v) with false by lia.
      replace (fst v <? fst v) with false by lia. replace (fst v <=? fst v) with true by lia. replace (fst v <? fst (e_right e)) with true by lia.
      cbn [andb xorb]. rewrite xorb_false_r. pose proof (orient_above e v S) as O. rewrite <- X1, yat_left, <- Zlt_Qlt in O.
      destruct (0 <? orient (e_left e) (e_right e) v) eqn:A, (snd (e_left e) <? snd v) eqn:B; try reflexivity; lia. }
    replace (fst (e_left e) =? fst v) with false by lia.
    destruct (Z.eq_dec (fst (e_right e)) (fst v)) as [X2|X2].
    { rewrite X2, Z.eqb_refl. replace (fst v <? fst v) with false by lia. replace (fst v <=? fst v) with true by lia.
      replace (fst (e_left e) <? fst v) with true by lia. replace (fst (e_left e) <=? fst v) with true by lia.
      cbn [andb xorb]. pose proof (orient_above e v S) as O. rewrite <- X2, (yat_right e S), <- Zlt_Qlt in O.
      destruct (0 <? orient (e_left e) (e_right e) v) eqn:A, (snd (e_right e) <? snd v) eqn:B; try reflexivity; lia. }
    replace (fst (e_right e) =? fst v) with false by lia. cbn [andb xorb].
    replace (fst v <=? fst (e_right e)) with (fst v <? fst (e_right e)) by lia.
    replace (fst (e_left e) <=? fst v) with (fst (e_left e) <? fst v) by lia. apply xorb_nilpotent.
Qed.

Lemma at_left_here : forall v e, e_left e = v -> at_left v e = true.
Proof. intros v e H. apply same_z_iff. exact H. Qed.
Lemma at_right_not : forall v e, lr e -> e_right e = v -> at_left v e = false.
Proof. intros v e L H. apply same_z_false. intros Q. unfold lr in L. rewrite H, Q, lex_refl in L. discriminate. Qed.

(** Below an edge that starts at [v]. *)
Lemma start_edge : forall v e t, lr e -> lr t -> e_left t = v -> under e t = xorb (lower_right v e) (inc v e && bef v e t).
Proof.
  intros v e t L Lt HL. unfold bef, inc. rewrite (at_left_here v t HL).
  assert (U : under e t = true <-> lower_right v e = true \/ (at_left v e = true /\ 0 < vcross (out v e) (out v t))).
  { rewrite under_iff, lower_right_iff, HL. unfold at_left at 1. rewrite same_z_iff.
    assert (O : e_left e = v -> orient (e_left e) (e_right e) (e_right t) = vcross (out v e) (out v t)).
    { intros H. unfold out. rewrite !at_left_here by assumption. rewrite orient_cross, H. reflexivity. }
    split.
    - intros [[H1 H2] [H|[H3 H4]]]; [left; auto|right]. split; [exact H3|]. rewrite <- O; auto.
    - intros [(H1 & H2 & H3)|[H3 H4]]; [split; auto|]. rewrite H3. split; [|right; split; [reflexivity|]].
      + split; [lra|]. rewrite <- H3, <- Zlt_Qlt. unfold lr in L, Lt. apply lex_lt in L. apply lex_lt in Lt.
        unfold out in H4. rewrite !at_left_here in H4 by assumption. unfold vcross, vsub in H4. cbn [fst snd] in H4.
        rewrite H3 in *. rewrite HL in *. destruct (Z_lt_le_dec (fst v) (fst (e_right e))) as [|G]; [assumption|].
        assert (Q : fst (e_right e) = fst v) by lia. rewrite Q in H4. nia.
      + rewrite <- H3, O; auto. }
  assert (N : lower_right v e = true -> at_left v e = true -> False).
  { intros B A. apply lower_right_iff in B. apply same_z_iff in A. rewrite <- A in B.
    rewrite yat_left in B. lra. }
  destruct (at_left v e) eqn:A; cbn [orb andb].
  - destruct (lower_right v e) eqn:B; [exfalso; auto|]. cbn [xorb]. apply eq_true_iff_eq. rewrite U, <- Z.ltb_lt.
    destruct (0 <? _); intuition congruence.
  - rewrite andb_false_r, xorb_false_r. apply eq_true_iff_eq. rewrite U. intuition congruence.
Qed.

(** Below an upright edge that ends at [v]. *)
Lemma upright_edge : forall v e t, lr e -> lr t -> related e t -> e_right t = v -> fst (e_left t) = fst (e_right t) ->
  under e t = lower_right v e /\ inc v e && bef v t e = false.
Proof.
  intros v e t L Lt R HR V. pose proof (at_right_not v t Lt HR) as AT.
  assert (OT : out v t = vsub (e_left t) v) by (unfold out; now rewrite AT).
  unfold lr in Lt. apply lex_lt in Lt. assert (Y : snd (e_left t) < snd (e_right t)) by lia. split.
  {
    apply eq_true_iff_eq. rewrite under_iff, lower_right_iff. rewrite <- HR. rewrite <- V.
    destruct R as [[E1 E2]|A].
    { split; [intros [[H1 H2] _]|intros (H1 & H2 & _)]; exfalso; rewrite E2, <- V in H2; lra. }
    split.
    * intros [[H1 H2] H]. split; [exact H1|]. split; [exact H2|].
      assert (Y' : (yl t < yr t)%Q) by (rewrite <- Zlt_Qlt; exact Y).
      destruct H as [H|[H _]]; [lra|]. rewrite <- H, yat_left, H. exact Y'.
    * intros (H1 & H2 & H3). split; [split; assumption|].
      destruct (Qlt_le_dec (yat e (xl t)) (yl t)) as [G|G]; [now left|right].
      pose proof (lr_sloped e _ L H1 H2) as S.
      destruct (apart_end e t (xl t) (yat e (xl t)) A) as (w & W1 & W2 & X' & Y').
      { apply on_sloped; auto. lra. }
      { apply on_upright; auto; lra. }
      assert (HV : w = e_left e) by (destruct W1 as [W|W]; [exact W|]; rewrite W in X'; lra).
      assert (HV' : w = e_left t) by (destruct W2 as [W|W]; [exact W|]; rewrite W in Y'; lra).
      assert (EL : e_left e = e_left t) by congruence. split; [exact EL|].
      unfold orient. rewrite EL. rewrite <- V. assert (fst (e_left t) < fst (e_right e)) by (rewrite Zlt_Qlt; exact H2). nia. }
  unfold bef. rewrite AT.
  destruct (at_left v e) eqn:A; [apply andb_false_r|]. unfold inc. rewrite A. cbn [orb].
  destruct (at_right v e) eqn:B; [|reflexivity]. cbn [andb]. apply Z.ltb_ge. unfold out. rewrite A, AT.
  apply same_z_iff in B. unfold lr in L. apply lex_lt in L. rewrite B in L. unfold vcross, vsub. cbn [fst snd].
  rewrite HR in V, Y. rewrite V. nia.
Qed.

(** The edges that come after a sloped edge that ends at [v]. *)
Lemma after_edge : forall v e t, lr e -> lr t -> sloped t -> e_right t = v ->
  xorb (from_below v e) (at_right v e && negb (fst (e_left e) =? fst (e_right e)) && (0 <? orient (e_left e) (e_right e) (e_left t)))
  = inc v e && bef v t e.
Proof.
  intros v e t L Lt S HR. pose proof (at_right_not v t Lt HR) as AT.
  assert (OT : out v t = vsub (e_left t) v) by (unfold out; now rewrite AT).
  unfold lr in L. apply lex_lt in L. unfold from_below, inc, bef. rewrite AT.
  destruct (at_left v e) eqn:A.
  { destruct (at_right v e) eqn:B; [|reflexivity]. apply same_z_iff in A, B. rewrite A, B in L. lia. }
  cbn [orb]. destruct (at_right v e) eqn:B; [|reflexivity]. cbn [andb]. apply same_z_iff in B.
  assert (OE : out v e = vsub (e_left e) v) by (unfold out; now rewrite A).
  assert (O : orient (e_left e) (e_right e) (e_left t) = vcross (out v t) (out v e)).
  { rewrite OE, OT, B. unfold orient, vcross, vsub. cbn [fst snd]. ring. }
  rewrite O. destruct (fst (e_left e) =? fst (e_right e)) eqn:VE; cbn [negb andb xorb].
  + symmetry. apply Z.ltb_lt. rewrite OE, OT. unfold vcross, vsub. cbn [fst snd]. unfold sloped in S. rewrite HR in S.
    rewrite B in VE, L. nia.
  + destruct (0 <? _); reflexivity.
Qed.

(** *** Parities around a corner *)

Section Corner.
  Variable zs : list (list (list (Z * Z))).
  Variable v : Z * Z.
  Notation E := (edges zs).
  Hypothesis Cl : forall e, In e E -> clean v e.

  Definition around (i : nat) (P : edge -> bool) : bool := parity (fun e => of_poly i e && (inc v e && P e)) E.
  Definition base (i : nat) : bool := parity (fun e => of_poly i e && lower_right v e) E.

  (** Every polygon has an even number of edges at the corner. *)
  Lemma degree : forall i, around i (fun _ => true) = false.
  Proof using.
    intros i. unfold around. rewrite (parity_and_ext _ _ (fun e => xorb (same_z (e_left e) v) (same_z (e_right e) v))).
    - apply (region_parity (fun w => same_z w v)).
    - intros e He. apply edges_lr in He. rewrite andb_true_r. unfold inc, at_left, at_right.
      destruct (same_z (e_left e) v) eqn:E1, (same_z (e_right e) v) eqn:E2; try reflexivity.
      apply same_z_iff in E1, E2. unfold lr in He. rewrite E1, E2, lex_refl in He. discriminate.
  Qed.

  (** Left and right of the corner differ by what comes straight up to it. *)
  Lemma flow : forall i, parity (fun e => of_poly i e && lower_left v e) E
    = xorb (base i) (parity (fun e => of_poly i e && from_below v e) E).
  Proof using Cl.
    intros i. unfold base. rewrite <- parity_and_xor. apply xorb_eq. rewrite <- parity_and_xor.
    rewrite (parity_and_ext _ _ (fun e => xorb (straight_below v (e_left e)) (straight_below v (e_right e)))).
    { apply (region_parity (straight_below v)). }
    intros e He. apply flow_edge; [eapply edges_lr; eassumption|now apply Cl].
  Qed.

  (** The right side of an edge that starts at the corner. *)
  Lemma starts_right : forall i t, lr t -> (forall e, In e E -> related e t) -> e_left t = v ->
    parity (fun e => of_poly i e && under e t) E = xorb (base i) (around i (fun e => bef v e t)).
  Proof using.
    clear Cl. intros i t Lt R HL. unfold base, around. rewrite <- parity_and_xor. apply parity_and_ext. intros e He.
    apply start_edge; auto. eapply edges_lr; eassumption.
  Qed.

  (** The right side of an edge that ends at the corner. *)
  Lemma ends_right : forall i t, lr t -> (forall e, In e E -> related e t) -> e_right t = v ->
    parity (fun e => of_poly i e && under e t) E = xorb (base i) (around i (fun e => bef v t e)).
  Proof using Cl.
    intros i t Lt R HR.
    destruct (Z.eq_dec (fst (e_left t)) (fst (e_right t))) as [V|V].
    - unfold around.
      rewrite (parity_false (fun e => of_poly i e && (inc v e && bef v t e))), xorb_false_r.
      + unfold base. apply parity_and_ext. intros e He. apply upright_edge; auto. eapply edges_lr; eassumption.
      + intros e He. apply andb_false_iff. right. apply upright_edge; auto. eapply edges_lr; eassumption.
    - assert (S : sloped t) by (unfold lr in Lt; apply lex_lt in Lt; unfold sloped; lia).
      assert (Q1 : (xl t <= xr t - (1 # 2))%Q) by (apply half; exact S).
      set (x := (xr t - (1 # 2))%Q) in *.
      assert (Q2 : (xl t < x)%Q).
      { destruct (Qlt_le_dec (xl t) x) as [G|G]; [exact G|exfalso]. assert (Q : (xl t == xr t - (1 # 2))%Q) by (unfold x in *; lra).
        unfold Qeq in Q. cbn in Q. lia. }
      rewrite (along_parity zs i t x S R Q2) by (unfold x; lra).
      rewrite (parity_and_ext _ _ (fun e => xorb (lower_left v e) (at_right v e && negb (fst (e_left e) =? fst (e_right e)) && (0 <? orient (e_left e) (e_right e) (e_left t))))).
      2:{ intros e He. rewrite <- HR. apply arrives; auto. eapply edges_lr; eassumption. }
      rewrite parity_and_xor, flow, xorb_assoc. f_equal. unfold around. rewrite <- parity_and_xor. apply parity_and_ext.
      intros e He. apply after_edge; auto. eapply edges_lr; eassumption.
  Qed.
End Corner.
