(** Geometry of edges that do not cross. *)

From Coq Require Import List ZArith QArith Bool Lia Lqa.
From Verif Require Import Base Float SpecShape SpecOrder SpecIntersect SpecHandle SpecTidy OrderFacts.
Import ListNotations.
Local Open Scope Q_scope.

Notation xl e := (inject_Z (fst (e_left e))).
Notation yl e := (inject_Z (snd (e_left e))).
Notation xr e := (inject_Z (fst (e_right e))).
Notation yr e := (inject_Z (snd (e_right e))).
Definition lr (e : edge) : Prop := lex_z (e_left e) (e_right e) = Lt.
Definition sloped (e : edge) : Prop := (fst (e_left e) < fst (e_right e))%Z.
Definition slope (e : edge) : Q := (yr e - yl e) / (xr e - xl e).
(** The height of the line of [e] at abscissa [x]. *)
Definition yat (e : edge) (x : Q) : Q := yl e + slope e * (x - xl e).

Notation on e x y := (on_segment (e_left e) (e_right e) x y).

Lemma inject_sub : forall a b, inject_Z (a - b) == inject_Z a - inject_Z b.
Proof. intros a b. unfold Z.sub. rewrite inject_Z_plus, inject_Z_opp. reflexivity. Qed.

Lemma sloped_q : forall e, sloped e -> xl e < xr e.
Proof. intros e H. unfold sloped in H. now rewrite <- Zlt_Qlt. Qed.

Lemma slope_eq : forall e, sloped e -> slope e * (xr e - xl e) == yr e - yl e.
Proof. intros e H. apply sloped_q in H. unfold slope. field. lra. Qed.

Lemma yat_left : forall e, yat e (xl e) == yl e.
Proof. intros e. unfold yat. ring. Qed.
Lemma yat_right : forall e, sloped e -> yat e (xr e) == yr e.
Proof. intros e H. unfold yat. rewrite slope_eq by auto. ring. Qed.

#[export] Instance yat_proper (e : edge) : Proper (Qeq ==> Qeq) (yat e).
Proof. intros x y H. unfold yat. now rewrite H. Qed.

Lemma on_sloped : forall e x, sloped e -> xl e <= x -> x <= xr e -> on e x (yat e x).
Proof.
  intros e x S H1 H2. pose proof (sloped_q e S) as L. exists ((x - xl e) / (xr e - xl e)).
  assert (D : 0 < xr e - xl e) by lra.
  split; [apply Qle_shift_div_l; lra|]. split; [apply Qle_shift_div_r; lra|].
  rewrite !inject_sub. unfold yat, slope. split; field; lra.
Qed.

Lemma on_inv : forall e x y, sloped e -> on e x y -> xl e <= x /\ x <= xr e /\ y == yat e x.
Proof.
  intros e x y S (t & T0 & T1 & X & Y). pose proof (sloped_q e S) as L. rewrite !inject_sub in *.
  assert (X1 : x - xl e == t * (xr e - xl e)) by (rewrite X; ring).
  split; [nra|]. split; [nra|]. unfold yat. rewrite X1, Y, <- (slope_eq e S). ring.
Qed.

Lemma on_proper : forall e x y x' y', x == x' -> y == y' -> on e x y -> on e x' y'.
Proof. intros e x y x' y' Hx Hy (t & T0 & T1 & X & Y). exists t. rewrite <- Hx, <- Hy. auto. Qed.

Lemma on_upright : forall e x y, fst (e_left e) = fst (e_right e) -> yl e <= y -> y <= yr e -> x == xl e ->
  (snd (e_left e) < snd (e_right e))%Z -> on e x y.
Proof.
  intros e x y V H1 H2 X L. rewrite Zlt_Qlt in L. exists ((y - yl e) / (yr e - yl e)).
  split; [apply Qle_shift_div_l; lra|]. split; [apply Qle_shift_div_r; lra|].
  rewrite !inject_sub, <- V. split; [rewrite X; ring|field; lra].
Qed.

Lemma on_left : forall e, on e (xl e) (yl e).
Proof. intros e. exists 0. repeat split; try lra; ring. Qed.
Lemma on_right : forall e, on e (xr e) (yr e).
Proof. intros e. exists 1. rewrite !inject_sub. repeat split; try lra; ring. Qed.

(** *** Symmetry *)

Lemma on_both_sym : forall a b c d x y, on_both a b c d x y <-> on_both c d a b x y.
Proof. unfold on_both. tauto. Qed.

Lemma parallel_scale : forall u v d, (vcross u v = 0 -> vcross d v * vcross d v * vlen2 u = vcross d u * vcross d u * vlen2 v)%Z.
Proof.
  intros [ux uy] [vx vy] [dx dy]. unfold vcross, vlen2, vdot. cbn [fst snd]. intros H.
  assert (E : ((dx * vy - dy * vx) * (dx * vy - dy * vx) * (ux * ux + uy * uy)
    - (dx * uy - dy * ux) * (dx * uy - dy * ux) * (vx * vx + vy * vy)
    = (ux * vy - uy * vx) * ((dx * vy - dy * vx) * (dx * ux + dy * uy) + (dx * uy - dy * ux) * (dx * vx + dy * vy)))%Z) by ring.
  rewrite H in E. lia.
Qed.

Lemma vlen2_pos : forall u, (u <> (0, 0) -> 0 < vlen2 u)%Z.
Proof.
  intros [a b] H. unfold vlen2, vdot. cbn [fst snd].
  destruct (Z.eq_dec a 0) as [->|]; [|nia]. destruct (Z.eq_dec b 0) as [->|]; [congruence|nia].
Qed.

Lemma clearly_parallel : forall u v d, u <> (0, 0)%Z -> v <> (0, 0)%Z -> vcross u v = 0%Z ->
  clearly_crossing d u -> clearly_crossing d v.
Proof.
  intros u v d Hu Hv P [C1 C2]. apply vlen2_pos in Hu, Hv. pose proof (parallel_scale u v d P) as S.
  assert (C : (0 < vcross d u * vcross d u)%Z) by nia.
  split; [nia|]. apply (Zmult_le_reg_r _ _ (vlen2 u)); [lia|].
  replace (10 ^ 10 * (vcross d v * vcross d v) * vlen2 u)%Z with (10 ^ 10 * (vcross d v * vcross d v * vlen2 u))%Z by ring.
  rewrite S. replace (1001 * (vlen2 d * vlen2 v) * vlen2 u)%Z with (1001 * (vlen2 d * vlen2 u) * vlen2 v)%Z by ring.
  replace (10 ^ 10 * (vcross d u * vcross d u * vlen2 v))%Z with (10 ^ 10 * (vcross d u * vcross d u) * vlen2 v)%Z by ring.
  apply Zmult_le_compat_r; lia.
Qed.

Lemma clearly_swap : forall u v, clearly_crossing u v -> clearly_crossing v u.
Proof.
  intros u v [C1 C2]. assert (E : vcross v u = (- vcross u v)%Z) by (unfold vcross; ring).
  split; rewrite E; [lia|]. replace (- vcross u v * - vcross u v)%Z with (vcross u v * vcross u v)%Z by ring.
  now rewrite (Z.mul_comm (vlen2 v)).
Qed.
Lemma clearly_neg : forall p q v, clearly_crossing (vsub p q) v -> clearly_crossing (vsub q p) v.
Proof.
  intros p q v [C1 C2]. assert (E : vcross (vsub q p) v = (- vcross (vsub p q) v)%Z) by (unfold vcross, vsub; cbn; ring).
  assert (L : vlen2 (vsub q p) = vlen2 (vsub p q)) by (unfold vlen2, vdot, vsub; cbn; ring).
  split; rewrite E; [lia|]. rewrite L. replace (- vcross (vsub p q) v * - vcross (vsub p q) v)%Z with (vcross (vsub p q) v * vcross (vsub p q) v)%Z by ring.
  exact C2.
Qed.

Lemma lr_dir : forall l r, lex_z l r = Lt -> vsub r l <> (0, 0)%Z.
Proof. intros [a b] [c d] H. apply lex_lt in H. unfold vsub. cbn [fst snd] in *. intros E. inversion E. lia. Qed.

Lemma tellable_sym : forall l1 r1 l2 r2, lex_z l1 r1 = Lt -> lex_z l2 r2 = Lt -> tellable l1 r1 l2 r2 -> tellable l2 r2 l1 r1.
Proof.
  intros l1 r1 l2 r2 L1 L2 [H|(P & H)].
  - left. now apply clearly_swap.
  - right. assert (P' : vcross (vsub r2 l2) (vsub r1 l1) = 0%Z) by (unfold vcross in *; lia).
    split; [exact P'|]. destruct H as [H|H].
    + left. apply (clearly_parallel (vsub r1 l1)); auto using lr_dir. now apply clearly_neg.
    + right. pose proof (parallel_scale _ _ (vsub l1 l2) P) as S.
      assert (E : vcross (vsub l1 l2) (vsub r1 l1) = 0%Z) by (unfold vcross, vsub in *; cbn [fst snd] in *; lia).
      rewrite E in S. apply lr_dir, vlen2_pos in L1, L2. nia.
Qed.

Lemma apart_sym : forall e f, lr e -> lr f -> apart e f -> apart f e.
Proof.
  intros e f Le Lf [T H]. split; [now apply tellable_sym|]. destruct H as [H|(v & V1 & V2 & M & U)].
  - left. intros x y O. apply on_both_sym in O. now apply (H x y).
  - right. exists v. split; [exact V2|]. split; [exact V1|]. split; [now apply on_both_sym|].
    intros x y O. apply on_both_sym in O. now apply U.
Qed.

Lemma coincide_sym : forall e f, coincide e f -> coincide f e.
Proof. intros e f (A & B & C). repeat split; auto. Qed.

(** *** Edges that are apart have at most an end in common *)

Lemma apart_end : forall e f x y, apart e f -> on e x y -> on f x y ->
  exists v, is_end v e /\ is_end v f /\ x == inject_Z (fst v) /\ y == inject_Z (snd v).
Proof.
  intros e f x y [_ [D|(v & V1 & V2 & _ & U)]] O1 O2.
  - exfalso. apply (D x y). split; assumption.
  - exists v. split; [exact V1|]. split; [exact V2|]. apply U. split; assumption.
Qed.

Lemma inject_inj : forall a b, inject_Z a == inject_Z b -> a = b.
Proof. intros a b H. unfold Qeq in H. cbn in H. lia. Qed.

(** Only one common point. *)
Lemma apart_once : forall e f x y x' y', apart e f -> on e x y -> on f x y -> on e x' y' -> on f x' y' -> x == x' /\ y == y'.
Proof.
  intros e f x y x' y' [_ [D|(v & V1 & V2 & _ & U)]] O1 O2 O3 O4.
  - exfalso. apply (D x y). split; assumption.
  - destruct (U x y (conj O1 O2)) as [A B]. destruct (U x' y' (conj O3 O4)) as [C E]. split; lra.
Qed.

(** On one line and more than touching: not apart. *)
Lemma on_line : forall e z, lr e -> orient (e_left e) (e_right e) z = 0%Z ->
  lex_z z (e_left e) <> Lt -> lex_z (e_right e) z <> Lt -> on e (inject_Z (fst z)) (inject_Z (snd z)).
Proof.
  intros e z L O H1 H2. unfold lr in L. apply lex_lt in L.
  assert (A : ~ (fst z < fst (e_left e) \/ fst z = fst (e_left e) /\ snd z < snd (e_left e))%Z) by (intros X; apply H1; now apply lex_lt).
  assert (B : ~ (fst (e_right e) < fst z \/ fst (e_right e) = fst z /\ snd (e_right e) < snd z)%Z) by (intros X; apply H2; now apply lex_lt).
  clear H1 H2. unfold orient in O. destruct L as [L|[L1 L2]].
  - assert (S : sloped e) by exact L. pose proof (sloped_q e S) as Q.
    apply (on_proper e (inject_Z (fst z)) (yat e (inject_Z (fst z)))); [reflexivity| |].
    + unfold yat, slope. assert (E : (yr e - yl e) * (inject_Z (fst z) - xl e) == (xr e - xl e) * (inject_Z (snd z) - yl e)).
      { rewrite <- !inject_sub, <- !inject_Z_mult. rewrite inject_Z_injective. lia. }
      setoid_replace ((yr e - yl e) / (xr e - xl e) * (inject_Z (fst z) - xl e))
        with ((yr e - yl e) * (inject_Z (fst z) - xl e) / (xr e - xl e)) by (field; lra).
      rewrite E. field. lra.
    + apply on_sloped; [exact S|rewrite <- Zle_Qle; lia..].
  - apply on_upright; auto.
    + rewrite <- Zle_Qle. nia.
    + rewrite <- Zle_Qle. nia.
    + rewrite inject_Z_injective. nia.
Qed.

Lemma lex_refl : forall a, lex_z a a = Eq.
Proof. intros a. now apply lex_eq. Qed.
Lemma lex_not : forall a b, lex_z a b <> Lt -> a = b \/ lex_z b a = Lt.
Proof. intros a b H. destruct (lex_z a b) eqn:E; [left; now apply lex_eq|congruence|right; now apply lex_gt]. Qed.
Lemma lex_lt_not : forall a b, lex_z a b = Lt -> lex_z b a <> Lt.
Proof. intros a b H E. rewrite lex_anti, H in E. discriminate. Qed.
Lemma lex_le_trans : forall a b c, lex_z b a <> Lt -> lex_z b c = Lt -> lex_z a c = Lt.
Proof. intros a b c H1 H2. destruct (lex_not _ _ H1) as [->|H]; [exact H2|]. eapply lex_trans; eassumption. Qed.
Lemma lex_lt_trans : forall a b c, lex_z a b = Lt -> lex_z c b <> Lt -> lex_z a c = Lt.
Proof. intros a b c H1 H2. destruct (lex_not _ _ H2) as [->|H]; [exact H1|]. eapply lex_trans; eassumption. Qed.

Lemma point_ext : forall a b : Z * Z, inject_Z (fst a) == inject_Z (fst b) -> inject_Z (snd a) == inject_Z (snd b) -> a = b.
Proof. intros [a b] [c d] H1 H2. cbn [fst snd] in *. apply inject_inj in H1, H2. congruence. Qed.

Lemma apart_line : forall e f, lr e -> lr f -> apart e f ->
  orient (e_left e) (e_right e) (e_left f) = 0%Z -> orient (e_left e) (e_right e) (e_right f) = 0%Z ->
  lex_z (e_left e) (e_right f) = Lt -> lex_z (e_left f) (e_right e) = Lt -> False.
Proof.
  intros e f Le Lf A C1 C2 H1 H2.
  destruct (collinear_sym _ _ _ _ Le C1 C2) as [C3 C4].
  set (m := if match lex_z (e_left e) (e_left f) with Lt => true | _ => false end then e_left f else e_left e).
  set (M := if match lex_z (e_right e) (e_right f) with Lt => true | _ => false end then e_right e else e_right f).
  assert (Hm : orient (e_left e) (e_right e) m = 0%Z /\ orient (e_left f) (e_right f) m = 0%Z
    /\ lex_z m (e_left e) <> Lt /\ lex_z m (e_left f) <> Lt /\ lex_z m (e_right e) = Lt /\ lex_z m (e_right f) = Lt).
  { unfold m. destruct (lex_z (e_left e) (e_left f)) eqn:E.
    - apply lex_eq in E. rewrite <- E in *. rewrite lex_refl. repeat split; auto; try discriminate; unfold orient; ring.
    - split; [exact C1|]. split; [unfold orient; ring|]. split; [now apply lex_lt_not|]. split; [rewrite lex_refl; discriminate|]. auto.
    - split; [unfold orient; ring|]. split; [exact C3|]. split; [rewrite lex_refl; discriminate|]. split; [rewrite E; discriminate|]. auto. }
  assert (HM : orient (e_left e) (e_right e) M = 0%Z /\ orient (e_left f) (e_right f) M = 0%Z
    /\ lex_z (e_right e) M <> Lt /\ lex_z (e_right f) M <> Lt /\ lex_z M (e_left e) <> Lt /\ lex_z M (e_left f) <> Lt).
  { unfold M. destruct (lex_z (e_right e) (e_right f)) eqn:E.
    - apply lex_eq in E. rewrite <- E in *. rewrite !lex_refl. split; [unfold orient; ring|]. split; [unfold orient; ring|].
      split; [discriminate|]. split; [discriminate|]. split; apply lex_lt_not; assumption.
    - split; [unfold orient; ring|]. split; [exact C4|]. rewrite lex_refl. split; [discriminate|].
      split; [now apply lex_lt_not|]. split; apply lex_lt_not; assumption.
    - split; [exact C2|]. split; [unfold orient; ring|]. rewrite lex_refl, E. split; [discriminate|]. split; [discriminate|].
      split; apply lex_lt_not; assumption. }
  destruct Hm as (m1 & m2 & m3 & m4 & m5 & m6), HM as (M1 & M2 & M3 & M4 & M5 & M6).
  assert (LM : lex_z m M = Lt).
  { unfold M. destruct (match lex_z (e_right e) (e_right f) with Lt => true | _ => false end); assumption. }
  destruct (apart_once e f _ _ _ _ A (on_line e m Le m1 m3 (lex_lt_not _ _ m5)) (on_line f m Lf m2 m4 (lex_lt_not _ _ m6))
    (on_line e M Le M1 M5 M3) (on_line f M Lf M2 M6 M4)) as [X Y].
  apply point_ext in X; [|exact Y]. rewrite X, lex_refl in LM. discriminate.
Qed.

(** *** One edge stays on one side of the other *)

Lemma end_x : forall e v x, sloped e -> is_end v e -> x == inject_Z (fst v) -> xl e < x -> x < xr e -> False.
Proof. intros e v x S [->| ->] E H1 H2; lra. Qed.

(** Level at [x]: a common end. *)
Lemma level : forall e f x, apart e f -> sloped e -> sloped f -> xl e <= x -> x <= xr e -> xl f <= x -> x <= xr f ->
  yat e x == yat f x -> exists v, is_end v e /\ is_end v f /\ x == inject_Z (fst v) /\ yat e x == inject_Z (snd v).
Proof.
  intros e f x A Se Sf E1 E2 F1 F2 Y.
  apply (apart_end e f x (yat e x) A); [now apply on_sloped|].
  apply (on_proper f x (yat f x)); [reflexivity|now symmetry|now apply on_sloped].
Qed.

Lemma same_side : forall e f x1 x2, apart e f -> sloped e -> sloped f ->
  xl e <= x1 -> x1 <= xr e -> xl f <= x1 -> x1 <= xr f -> xl e <= x2 -> x2 <= xr e -> xl f <= x2 -> x2 <= xr f ->
  yat e x1 < yat f x1 -> yat e x2 <= yat f x2.
Proof.
  intros e f x1 x2 A Se Sf E1 E2 F1 F2 E3 E4 F3 F4 Y.
  destruct (Qlt_le_dec (yat f x2) (yat e x2)) as [G|]; [exfalso|assumption].
  set (d1 := yat f x1 - yat e x1) in *. set (d2 := yat e x2 - yat f x2) in *.
  assert (D1 : 0 < d1) by (unfold d1; lra). assert (D2 : 0 < d2) by (unfold d2; lra).
  set (x := (x1 * d2 + x2 * d1) / (d1 + d2)).
  assert (X : x * (d1 + d2) == x1 * d2 + x2 * d1) by (unfold x; field; lra).
  assert (XX : ~ x1 == x2). { intros Q. unfold d1, d2 in *. rewrite Q in Y. lra. }
  assert (B : (x1 < x /\ x < x2) \/ (x2 < x /\ x < x1)).
  { clearbody x d1 d2. clear - X XX D1 D2. destruct (Q_dec x1 x2) as [[L|L]|L]; [left|right|contradiction]; split; nra. }
  assert (L : yat e x == yat f x).
  { assert (Q : (yat f x - yat e x) * (d1 + d2) == 0).
    { set (k := slope f - slope e).
      assert (A1 : yat f x - yat e x == d1 + k * (x - x1)) by (unfold d1, k, yat; ring).
      assert (A2 : - d2 == d1 + k * (x2 - x1)) by (unfold d1, d2, k, yat; ring).
      rewrite A1. setoid_replace ((d1 + k * (x - x1)) * (d1 + d2)) with (d1 * (d1 + d2) + k * (x * (d1 + d2)) - k * x1 * (d1 + d2)) by ring.
      rewrite X. setoid_replace (d1 * (d1 + d2) + k * (x1 * d2 + x2 * d1) - k * x1 * (d1 + d2))
        with (d1 * (d1 + k * (x2 - x1) + d2)) by ring. rewrite <- A2. ring. }
    destruct (Qmult_integral _ _ Q); lra. }
  destruct (level e f x A Se Sf) as (v & V1 & V2 & X' & _); try (destruct B; lra); auto.
  apply (end_x e v x Se V1 X'); destruct B; lra.
Qed.

(** Strictly so where they do not end together. *)
Lemma same_side_strict : forall e f x1 x2, apart e f -> sloped e -> sloped f ->
  xl e <= x1 -> x1 <= xr e -> xl f <= x1 -> x1 <= xr f -> xl e <= x2 -> x2 <= xr e -> xl f <= x2 -> x2 <= xr f ->
  yat e x1 < yat f x1 -> (xl f < x2 /\ x2 < xr f) \/ (xl e < x2 /\ x2 < xr e) -> yat e x2 < yat f x2.
Proof.
  intros e f x1 x2 A Se Sf E1 E2 F1 F2 E3 E4 F3 F4 Y I.
  pose proof (same_side e f x1 x2 A Se Sf E1 E2 F1 F2 E3 E4 F3 F4 Y) as L.
  destruct (Qlt_le_dec (yat e x2) (yat f x2)) as [|G]; [assumption|exfalso].
  destruct (level e f x2 A Se Sf) as (v & V1 & V2 & X' & _); auto; [lra|].
  destruct I as [[I1 I2]|[I1 I2]]; [apply (end_x f v x2)|apply (end_x e v x2)]; auto.
Qed.

(** Leaving one point, the steeper one stays above. *)
Lemma fan : forall e f x, sloped e -> sloped f -> e_left e = e_left f -> slope e < slope f -> xl e < x -> yat e x < yat f x.
Proof. intros e f x Se Sf E S X. unfold yat. rewrite <- E. nra. Qed.
Lemma fan_le : forall e f x, sloped e -> sloped f -> e_left e = e_left f -> slope e < slope f -> xl e <= x -> yat e x <= yat f x.
Proof. intros e f x Se Sf E S X. unfold yat. rewrite <- E. nra. Qed.

(** [orient] as a comparison of heights and slopes. *)
Lemma orient_yat : forall e z, sloped e ->
  inject_Z (orient (e_left e) (e_right e) z) == (xr e - xl e) * (inject_Z (snd z) - yat e (inject_Z (fst z))).
Proof.
  intros e z S. unfold orient. rewrite inject_sub, !inject_Z_mult, !inject_sub. unfold yat.
  rewrite <- (slope_eq e S). ring.
Qed.
Lemma orient_above : forall e z, sloped e -> (0 < orient (e_left e) (e_right e) z)%Z <-> yat e (inject_Z (fst z)) < inject_Z (snd z).
Proof.
  intros e z S. pose proof (orient_yat e z S) as O. pose proof (sloped_q e S) as L. rewrite Zlt_Qlt. change (inject_Z 0) with 0.
  rewrite O. split; intros H; nra.
Qed.
Lemma orient_below : forall e z, sloped e -> (orient (e_left e) (e_right e) z < 0)%Z <-> inject_Z (snd z) < yat e (inject_Z (fst z)).
Proof.
  intros e z S. pose proof (orient_yat e z S) as O. pose proof (sloped_q e S) as L. rewrite Zlt_Qlt. change (inject_Z 0) with 0.
  rewrite O. split; intros H; nra.
Qed.
Lemma orient_slope : forall e f, sloped e -> sloped f -> e_left e = e_left f ->
  (0 < orient (e_left e) (e_right e) (e_right f))%Z <-> slope e < slope f.
Proof.
  intros e f Se Sf E. rewrite orient_above by assumption. rewrite <- (yat_right f Sf). unfold yat. rewrite E.
  pose proof (sloped_q f Sf). split; intros H'; nra.
Qed.
