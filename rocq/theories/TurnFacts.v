(** The choice of the next edge: comparing cosines in floats is exact for short vectors. *)

From Coq Require Import List ZArith Bool Lia Reals Lra Psatz.
From Verif Require Import Base BaseFacts Float SpecFloat64 FloatFacts MapFacts Geometry Sweep Compute
  SpecShape ShapeFacts SpecOrder OrderFacts SpecIntersect SpecTurn RealFacts RealFacts2 IntersectFacts.
From Flocq Require Import Core.
Import ListNotations.
Local Open Scope Z_scope.

(** *** Integer geometry *)

Lemma cross_dot : forall u v w, vlen2 u * vcross v w = vdot u v * vcross u w - vcross u v * vdot u w.
Proof. intros [a b] [c d] [e f]. unfold vlen2, vdot, vcross. cbn [fst snd]. ring. Qed.

Lemma cos_gap : forall u v w,
  vdot u v * vdot u v * vlen2 w - vdot u w * vdot u w * vlen2 v
  = vcross v w * (vcross u w * vdot u v + vcross u v * vdot u w).
Proof. intros [a b] [c d] [e f]. unfold vlen2, vdot, vcross. cbn [fst snd]. ring. Qed.

Lemma vlen2_pos : forall v, v <> (0, 0) -> 0 < vlen2 v.
Proof.
  intros [a b] H. unfold vlen2, vdot. cbn [fst snd].
  assert (a <> 0 \/ b <> 0) as [X|X] by (destruct (Z.eq_dec a 0); [right; congruence|now left]); nia.
Qed.

Lemma short_len : forall v, within 4000 v -> vlen2 v <= 32000000.
Proof. intros [a b] [H1 H2]. unfold vlen2, vdot. cbn [fst snd] in *. nia. Qed.

Lemma short_dot : forall u v, within 4000 u -> within 4000 v -> Z.abs (vdot u v) <= 32000000.
Proof.
  intros [a b] [c d] [H1 H2] [H3 H4]. unfold vdot. cbn [fst snd] in *.
  assert (Z.abs (a * c) <= 4000 * 4000) by (rewrite Z.abs_mul; apply Z.mul_le_mono_nonneg; lia).
  assert (Z.abs (b * d) <= 4000 * 4000) by (rewrite Z.abs_mul; apply Z.mul_le_mono_nonneg; lia). lia.
Qed.

(** *** Floats *)
Local Open Scope R_scope.

Lemma sq_le : forall a b, 0 <= a -> 0 <= b -> a * a <= b * b -> a <= b.
Proof. intros. nra. Qed.

Lemma rel_bounds : forall x, bpow radix2 (-1000) <= x -> x * (1 - ulp1) <= rnd x <= x * (1 + ulp1).
Proof.
  intros x H. pose proof (bpow_gt_0 radix2 (-1000)). pose proof (rnd_rel x) as E.
  rewrite (Rabs_pos_eq x) in E by lra. specialize (E H). apply Rabs_le_inv in E. lra.
Qed.

Lemma tiny_le : forall x, / 1000000000000000 <= x -> bpow radix2 (-1000) <= x.
Proof.
  intros x H. apply Rle_trans with (bpow radix2 (-60)); [apply bpow_le; lia|]. simpl. lra.
Qed.

(** The quotient of an integer and a rounded square root. *)
Lemma quot_root : forall x p, 1 <= x <= 32000000 -> 1 <= p <= 32000000 ->
  let s := rnd (sqrt p) in let r := rnd (x / s) in
  0 < s /\ 0 < r < 64000000 /\ x * (1 - ulp1) <= r * sqrt p * (1 + ulp1) /\ r * sqrt p * (1 - ulp1) <= x * (1 + ulp1).
Proof.
  intros x p Hx Hp s r.
  assert (P1 : 1 <= sqrt p) by (rewrite <- sqrt_1; apply sqrt_le_1_alt; lra).
  assert (P2 : sqrt p <= 6000).
  { apply sq_le; [lra|lra|]. rewrite sqrt_sqrt by lra. lra. }
  pose proof (rel_bounds (sqrt p) (tiny_le (sqrt p) ltac:(lra))) as S. fold s in S.
  assert (S1 : 9 / 10 <= s <= 7000) by lra.
  assert (D : x / s * s = x) by (field; lra).
  assert (Q1 : / 7000 <= x / s).
  { apply Rmult_le_reg_r with s; [lra|]. rewrite D. nra. }
  assert (Q2 : x / s <= 40000000).
  { apply Rmult_le_reg_r with s; [lra|]. rewrite D. nra. }
  pose proof (rel_bounds (x / s) (tiny_le (x / s) ltac:(lra))) as E. fold r in E.
  split; [lra|]. split; [lra|].
  set (z := x / s) in *. clearbody z r s. set (P := sqrt p) in *. clearbody P.
  assert (E1 : z * (1 - ulp1) <= r) by lra. assert (E2 : r <= z * (1 + ulp1)) by lra.
  split.
  - rewrite <- D. apply Rle_trans with (z * (1 - ulp1) * s); [lra|].
    apply Rle_trans with (r * s); [apply Rmult_le_compat_r; lra|].
    rewrite Rmult_assoc. apply Rmult_le_compat_l; [nra|]. lra.
  - rewrite <- D. apply Rle_trans with (r * s); [|apply Rle_trans with (z * (1 + ulp1) * s); [apply Rmult_le_compat_r; lra|lra]].
    rewrite Rmult_assoc. apply Rmult_le_compat_l; [nra|]. lra.
Qed.

Lemma root_order : forall x y p q : Z, (1 <= x <= 32000000)%Z -> (0 <= y <= 32000000)%Z ->
  (1 <= p <= 32000000)%Z -> (1 <= q <= 32000000)%Z -> (x <= x * x * q - y * y * p)%Z ->
  rnd (IZR y / rnd (sqrt (IZR q))) < rnd (IZR x / rnd (sqrt (IZR p))).
Proof.
  intros x y p q Hx Hy Hp Hq G.
  assert (RX : 1 <= IZR x <= 32000000) by (split; apply IZR_le; lia).
  assert (RP : 1 <= IZR p <= 32000000) by (split; apply IZR_le; lia).
  assert (RQ : 1 <= IZR q <= 32000000) by (split; apply IZR_le; lia).
  destruct (quot_root (IZR x) (IZR p) RX RP) as (_ & X0 & X1 & _).
  destruct (Z.eq_dec y 0) as [->|Ny].
  { replace (0 / rnd (sqrt (IZR q))) with 0 by (unfold Rdiv; ring). rewrite rnd_0. lra. }
  assert (RY : 1 <= IZR y <= 32000000) by (split; apply IZR_le; lia).
  destruct (quot_root (IZR y) (IZR q) RY RQ) as (_ & Y0 & _ & Y2).
  apply Rnot_le_lt. intros C.
  set (a := rnd (IZR x / rnd (sqrt (IZR p)))) in *. set (b := rnd (IZR y / rnd (sqrt (IZR q)))) in *.
  clearbody a b.
  apply IZR_le in G. rewrite minus_IZR, !mult_IZR in G.
  pose proof (sqrt_sqrt (IZR p) ltac:(lra)) as SP. pose proof (sqrt_sqrt (IZR q) ltac:(lra)) as SQ.
  assert (P0 : 0 < sqrt (IZR p)) by (apply sqrt_lt_R0; lra). assert (Q0 : 0 < sqrt (IZR q)) by (apply sqrt_lt_R0; lra).
  set (P := sqrt (IZR p)) in *. set (Q := sqrt (IZR q)) in *. clearbody P Q.
  set (X := IZR x) in *. set (Y := IZR y) in *. set (pp := IZR p) in *. set (qq := IZR q) in *. clearbody X Y pp qq.
  (* X (1-u) <= a P (1+u), b Q (1-u) <= Y (1+u), a <= b *)
  assert (K : X * (1 - ulp1) * (1 - ulp1) * Q <= Y * (1 + ulp1) * (1 + ulp1) * P).
  { apply Rle_trans with (a * P * (1 + ulp1) * (1 - ulp1) * Q).
    - replace (a * P * (1 + ulp1) * (1 - ulp1) * Q) with (a * P * (1 + ulp1) * ((1 - ulp1) * Q)) by ring.
      replace (X * (1 - ulp1) * (1 - ulp1) * Q) with (X * (1 - ulp1) * ((1 - ulp1) * Q)) by ring.
      apply Rmult_le_compat_r; [nra|lra].
    - apply Rle_trans with (b * P * (1 + ulp1) * (1 - ulp1) * Q).
      + replace (a * P * (1 + ulp1) * (1 - ulp1) * Q) with (a * (P * (1 + ulp1) * ((1 - ulp1) * Q))) by ring.
        replace (b * P * (1 + ulp1) * (1 - ulp1) * Q) with (b * (P * (1 + ulp1) * ((1 - ulp1) * Q))) by ring.
        apply Rmult_le_compat_r; [|lra]. apply Rmult_le_pos; apply Rmult_le_pos; lra.
      + replace (b * P * (1 + ulp1) * (1 - ulp1) * Q) with (b * Q * (1 - ulp1) * (P * (1 + ulp1))) by ring.
        replace (Y * (1 + ulp1) * (1 + ulp1) * P) with (Y * (1 + ulp1) * (P * (1 + ulp1))) by ring.
        apply Rmult_le_compat_r; [apply Rmult_le_pos; lra|lra]. }
  assert (L0 : 0 <= X * (1 - ulp1) * (1 - ulp1) * Q) by (repeat apply Rmult_le_pos; lra).
  assert (K2 := Rmult_le_compat _ _ _ _ L0 L0 K K).
  set (c := (1 - ulp1) * (1 - ulp1) * ((1 - ulp1) * (1 - ulp1))) in *.
  set (d := (1 + ulp1) * (1 + ulp1) * ((1 + ulp1) * (1 + ulp1))).
  replace (X * (1 - ulp1) * (1 - ulp1) * Q * (X * (1 - ulp1) * (1 - ulp1) * Q)) with (X * X * (Q * Q) * c) in K2 by (unfold c; ring).
  replace (Y * (1 + ulp1) * (1 + ulp1) * P * (Y * (1 + ulp1) * (1 + ulp1) * P)) with (Y * Y * (P * P) * d) in K2 by (unfold d; ring).
  rewrite SP, SQ in K2.
  assert (D1 : 1 <= d) by (unfold d; lra).
  assert (CD : d - c <= / 1024100000000000) by (unfold d, c; lra).
  assert (K3 : Y * Y * pp * d <= (X * X * qq - X) * d) by (apply Rmult_le_compat_r; lra).
  assert (K4 : X * d <= X * X * qq * (d - c)) by lra.
  assert (XQ : 0 < X * qq <= 1024000000000000) by nra.
  assert (K5 : X * (X * qq * (d - c)) < X * 1).
  { apply Rmult_lt_compat_l; [lra|]. nra. }
  assert (K6 : X * 1 <= X * d) by (apply Rmult_le_compat_l; lra). lra.
Qed.

Local Open Scope Z_scope.

(** What the code compares. *)
Definition cosine (u v : point) : f64 := f64_div (v_dot u v) (v_length v).

Lemma cosine_val : forall u v zu zv, vint u zu -> vint v zv -> within 4000 zu -> short zv ->
  fin (cosine u v) /\ val (cosine u v) = rnd (IZR (vdot zu zv) / rnd (sqrt (IZR (vlen2 zv)))).
Proof.
  intros u v zu zv Iu Iv Wu [Wv N].
  assert (W : forall z, within 4000 z -> within (2 ^ 25) z) by (intros z [A B]; split; pow_lia; lia).
  destruct (dot_vint _ _ _ _ Iu Iv (W _ Wu) (W _ Wv)) as [Id _].
  destruct (dot_vint _ _ _ _ Iv Iv (W _ Wv) (W _ Wv)) as [Il _].
  pose proof (vlen2_pos zv N) as L0. pose proof (short_len zv Wv) as L1. pose proof (short_dot zu zv Wu Wv) as D1.
  fold (vlen2 zv) in Il. destruct (is_int_val _ _ Id) as [Fd Vd]. destruct (is_int_val _ _ Il) as [Fl Vl].
  assert (RP : (1 <= IZR (vlen2 zv) <= 32000000)%R) by (split; apply IZR_le; lia).
  unfold cosine, v_length, v_square_length.
  destruct (sqrt_val (v_dot v v) Fl) as [Fs Vs]; [rewrite Vl; lra|]. rewrite Vl in Vs.
  assert (S : (9 / 10 <= val (f64_sqrt (v_dot v v)))%R).
  { rewrite Vs. assert (P1 : (1 <= sqrt (IZR (vlen2 zv)))%R) by (rewrite <- sqrt_1; apply sqrt_le_1_alt; lra).
    pose proof (rel_bounds (sqrt (IZR (vlen2 zv))) (tiny_le (sqrt (IZR (vlen2 zv))) ltac:(lra))). nra. }
  rewrite <- Vd, <- Vs. apply div_val; auto; [lra|].
  apply rnd_small. apply Rle_trans with (bpow radix2 200); [|apply bpow_le; lia].
  assert (A : (Rabs (IZR (vdot zu zv)) <= 32000000)%R) by (rewrite <- abs_IZR; apply IZR_le; lia).
  rewrite Vd. unfold Rdiv. rewrite Rabs_mult, (Rabs_pos_eq (/ _)%R).
  2:{ apply Rlt_le, Rinv_0_lt_compat. lra. }
  assert (I2 : (/ val (f64_sqrt (v_dot v v)) <= 2)%R).
  { replace 2%R with (/ / 2)%R by lra. apply Rinv_le; lra. }
  assert (I0 : (0 < / val (f64_sqrt (v_dot v v)))%R) by (apply Rinv_0_lt_compat; lra).
  pose proof (Rabs_pos (IZR (vdot zu zv))). simpl. nra.
Qed.

Lemma rnd_quot_sign : forall d p : Z, 1 <= p <= 32000000 -> Z.abs d <= 32000000 ->
  let r := rnd (IZR d / rnd (sqrt (IZR p))) in (0 < d -> (0 < r)%R) /\ (d < 0 -> (r < 0)%R) /\ (d = 0 -> r = 0%R).
Proof.
  intros d p Hp Hd r. assert (RP : (1 <= IZR p <= 32000000)%R) by (split; apply IZR_le; lia).
  split; [|split]; intros H.
  - destruct (quot_root (IZR d) (IZR p)) as (_ & X & _); [split; apply IZR_le; lia|exact RP|]. exact (proj1 X).
  - destruct (quot_root (IZR (- d)) (IZR p)) as (_ & X & _); [split; apply IZR_le; lia|exact RP|].
    unfold r. replace (IZR d) with (- IZR (- d))%R by (rewrite opp_IZR; lra).
    replace (- IZR (- d) / rnd (sqrt (IZR p)))%R with (- (IZR (- d) / rnd (sqrt (IZR p))))%R by (unfold Rdiv; ring).
    rewrite rnd_opp. lra.
  - unfold r. rewrite H. replace (0 / rnd (sqrt (IZR p)))%R with 0%R by (unfold Rdiv; ring). apply rnd_0.
Qed.

(** On the left side, the further left the smaller the cosine. *)
Lemma order_left : forall zu zv zw, short zu -> short zv -> short zw ->
  0 <= vcross zu zv -> 0 <= vcross zu zw -> 0 < vcross zv zw ->
  (rnd (IZR (vdot zu zw) / rnd (sqrt (IZR (vlen2 zw)))) < rnd (IZR (vdot zu zv) / rnd (sqrt (IZR (vlen2 zv)))))%R.
Proof.
  intros zu zv zw [Wu Nu] [Wv Nv] [Ww Nw] C1 C2 C3.
  pose proof (vlen2_pos _ Nv) as P1. pose proof (vlen2_pos _ Nw) as P2. pose proof (short_len _ Wv) as P3. pose proof (short_len _ Ww) as P4.
  pose proof (short_dot _ _ Wu Wv) as D1. pose proof (short_dot _ _ Wu Ww) as D2.
  pose proof (cross_dot zu zv zw) as CD. pose proof (cos_gap zu zv zw) as CG.
  pose proof (vlen2_pos _ Nu) as LU.
  assert (CP : 0 < vlen2 zu * vcross zv zw) by (apply Z.mul_pos_pos; assumption).
  destruct (rnd_quot_sign (vdot zu zv) (vlen2 zv)) as (A1 & A2 & A3); [lia|lia|].
  destruct (rnd_quot_sign (vdot zu zw) (vlen2 zw)) as (B1 & B2 & B3); [lia|lia|].
  set (d1 := vdot zu zv) in *. set (d2 := vdot zu zw) in *. set (c1 := vcross zu zv) in *. set (c2 := vcross zu zw) in *.
  set (p := vlen2 zv) in *. set (q := vlen2 zw) in *. set (k := vcross zv zw) in *.
  rewrite CD in CP. clear CD LU Nu Nv Nw Wu Wv Ww. clearbody d1 d2 c1 c2 p q k.
  destruct (Z_lt_le_dec 0 d1) as [H1|H1].
  - destruct (Z_lt_le_dec 0 d2) as [H2|H2].
    + assert (0 < c2) by nia.
      apply root_order; try lia.
      rewrite CG. assert (d1 <= c2 * d1) by nia. assert (0 <= c1 * d2) by nia. nia.
    + specialize (A1 H1). destruct (Z.eq_dec d2 0) as [E|E]; [rewrite (B3 E); exact A1|].
      pose proof (B2 ltac:(lia)). lra.
  - destruct (Z_lt_le_dec d2 0) as [H2|H2].
    + destruct (Z.eq_dec d1 0) as [E|E]; [rewrite (A3 E); exact (B2 H2)|].
      assert (0 < c1) by nia.
      replace (IZR d2) with (- IZR (- d2))%R by (rewrite opp_IZR; lra).
      replace (IZR d1) with (- IZR (- d1))%R by (rewrite opp_IZR; lra).
      replace (- IZR (- d2) / rnd (sqrt (IZR q)))%R with (- (IZR (- d2) / rnd (sqrt (IZR q))))%R by (unfold Rdiv; ring).
      replace (- IZR (- d1) / rnd (sqrt (IZR p)))%R with (- (IZR (- d1) / rnd (sqrt (IZR p))))%R by (unfold Rdiv; ring).
      rewrite !rnd_opp. apply Ropp_lt_contravar. apply root_order; try lia.
      assert (G : - d2 * - d2 * p - - d1 * - d1 * q = k * (c2 * - d1 + c1 * - d2)) by (rewrite <- (Z.opp_involutive (k * _)); lia).
      rewrite G. assert (- d2 <= c1 * - d2) by nia. assert (0 <= c2 * - d1) by nia. nia.
    + exfalso. nia.
Qed.

Definition mirror (z : Z * Z) : Z * Z := (fst z, - snd z).

Lemma order_right : forall zu zv zw, short zu -> short zv -> short zw ->
  vcross zu zv <= 0 -> vcross zu zw <= 0 -> 0 < vcross zw zv ->
  (rnd (IZR (vdot zu zw) / rnd (sqrt (IZR (vlen2 zw)))) < rnd (IZR (vdot zu zv) / rnd (sqrt (IZR (vlen2 zv)))))%R.
Proof.
  assert (M : forall z, short z -> short (mirror z)).
  { intros [a b] [[H1 H2] H3]. split; [split; cbn [mirror fst snd] in *; lia|].
    intros E. apply H3. unfold mirror in E. cbn [fst snd] in E. assert (a = 0 /\ - b = 0) as [-> X] by (split; congruence). f_equal. lia. }
  assert (C : forall y z, vcross (mirror y) (mirror z) = - vcross y z) by (intros [a b] [c d]; unfold vcross, mirror; cbn [fst snd]; ring).
  assert (D : forall y z, vdot (mirror y) (mirror z) = vdot y z) by (intros [a b] [c d]; unfold vdot, mirror; cbn [fst snd]; ring).
  assert (A : forall y z, vcross y z = - vcross z y) by (intros [a b] [c d]; unfold vcross; cbn [fst snd]; ring).
  intros zu zv zw Su Sv Sw C1 C2 C3.
  pose proof (order_left (mirror zu) (mirror zv) (mirror zw) (M _ Su) (M _ Sv) (M _ Sw)) as L.
  unfold vlen2 in *. rewrite !C, !D in L. apply L; try lia.
Qed.

(** The comparisons of the code. *)
Lemma cosine_left : forall u v w zu zv zw, vint u zu -> vint v zv -> vint w zw -> short zu -> short zv -> short zw ->
  0 <= vcross zu zv -> 0 <= vcross zu zw -> 0 < vcross zv zw -> f64_lt (cosine u w) (cosine u v) = true.
Proof.
  intros u v w zu zv zw Iu Iv Iw Su Sv Sw C1 C2 C3.
  destruct (cosine_val _ _ _ _ Iu Iv (proj1 Su) Sv) as [F1 V1]. destruct (cosine_val _ _ _ _ Iu Iw (proj1 Su) Sw) as [F2 V2].
  rewrite lt_val by assumption. apply Rlt_bool_true. rewrite V1, V2. now apply order_left.
Qed.
Lemma cosine_right : forall u v w zu zv zw, vint u zu -> vint v zv -> vint w zw -> short zu -> short zv -> short zw ->
  vcross zu zv <= 0 -> vcross zu zw <= 0 -> 0 < vcross zw zv -> f64_lt (cosine u w) (cosine u v) = true.
Proof.
  intros u v w zu zv zw Iu Iv Iw Su Sv Sw C1 C2 C3.
  destruct (cosine_val _ _ _ _ Iu Iv (proj1 Su) Sv) as [F1 V1]. destruct (cosine_val _ _ _ _ Iu Iw (proj1 Su) Sw) as [F2 V2].
  rewrite lt_val by assumption. apply Rlt_bool_true. rewrite V1, V2. now apply order_right.
Qed.
Lemma cosine_back : forall u v w zu zv zw, vint u zu -> vint v zv -> vint w zw -> short zu -> short zv -> short zw ->
  0 < vdot zu zv -> vdot zu zw <= 0 -> f64_lt (cosine u w) (cosine u v) = true.
Proof.
  intros u v w zu zv zw Iu Iv Iw Su Sv Sw C1 C2.
  destruct (cosine_val _ _ _ _ Iu Iv (proj1 Su) Sv) as [F1 V1]. destruct (cosine_val _ _ _ _ Iu Iw (proj1 Su) Sw) as [F2 V2].
  rewrite lt_val by assumption. apply Rlt_bool_true. rewrite V1, V2. destruct Su as [Wu Nu], Sv as [Wv Nv], Sw as [Ww Nw].
  pose proof (vlen2_pos _ Nv) as P1. pose proof (vlen2_pos _ Nw) as P2. pose proof (short_len _ Wv) as P3. pose proof (short_len _ Ww) as P4.
  pose proof (short_dot _ _ Wu Wv) as D1. pose proof (short_dot _ _ Wu Ww) as D2.
  destruct (rnd_quot_sign (vdot zu zv) (vlen2 zv)) as (A1 & _ & _); [lia|lia|].
  destruct (rnd_quot_sign (vdot zu zw) (vlen2 zw)) as (_ & B2 & B3); [lia|lia|].
  specialize (A1 C1). destruct (Z.eq_dec (vdot zu zw) 0) as [E|E]; [rewrite (B3 E); exact A1|].
  pose proof (B2 ltac:(lia)). lra.
Qed.
