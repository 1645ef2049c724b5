(** Exactness of double arithmetic on integers below 2^53, and order laws of the
    comparison. *)

From Coq Require Import ZArith Bool List Lia ZifyBool.
From Verif Require Import Float.
Import ListNotations.
Local Open Scope Z_scope.

(** ** Digits *)

Lemma digits_log2 : forall p, Z.pos (digits2_pos p) = Z.log2 (Z.pos p) + 1.
Proof.
  induction p as [p IH|p IH|].
  - cbn [digits2_pos]. rewrite Pos2Z.inj_succ, IH. rewrite (Pos2Z.inj_xI p), Z.log2_succ_double by lia. lia.
  - cbn [digits2_pos]. rewrite Pos2Z.inj_succ, IH. rewrite (Pos2Z.inj_xO p), Z.log2_double by lia. lia.
  - reflexivity.
Qed.

Definition ilog (p : positive) : Z := Z.log2 (Z.pos p).

Lemma ilog_nonneg : forall p, 0 <= ilog p.
Proof. intros. apply Z.log2_nonneg. Qed.

Lemma ilog_bound : forall p k, Z.pos p < 2 ^ k -> ilog p < k.
Proof. intros p k H. apply Z.log2_lt_pow2; lia. Qed.

(** [p * 2^k] as a positive. *)
Definition pshift (p : positive) (k : Z) : positive := Z.to_pos (Z.pos p * 2 ^ k).

Lemma pshift_val : forall p k, 0 <= k -> Z.pos (pshift p k) = Z.pos p * 2 ^ k.
Proof. intros. unfold pshift. apply Z2Pos.id. assert (0 < 2 ^ k) by (apply Z.pow_pos_nonneg; lia). lia. Qed.

Lemma ilog_pshift : forall p k, 0 <= k -> ilog (pshift p k) = ilog p + k.
Proof. intros. unfold ilog. rewrite pshift_val by lia. rewrite Z.log2_mul_pow2 by lia. lia. Qed.

Lemma pshift_add : forall p a b, 0 <= a -> 0 <= b -> pshift (pshift p a) b = pshift p (a + b).
Proof.
  intros. apply Pos2Z.inj. rewrite !pshift_val by lia. rewrite Z.pow_add_r by lia. lia.
Qed.

Lemma pshift_0 : forall p, pshift p 0 = p.
Proof. intros. apply Pos2Z.inj. rewrite pshift_val by lia. change (2 ^ 0) with 1. lia. Qed.

Lemma shift_pos_pshift : forall d m, shift_pos d m = pshift m (Z.pos d).
Proof.
  intros. apply Pos2Z.inj. rewrite pshift_val by lia. rewrite shift_pos_correct.
  change (Z.pow_pos 2 d) with (2 ^ Z.pos d). lia.
Qed.

(** ** Exact rounding *)

Lemma shr_1_even : forall p, shr_1 (Build_shr_record (Z.pos (xO p)) false false) = Build_shr_record (Z.pos p) false false.
Proof. reflexivity. Qed.

Lemma iter_shr_exact : forall n p,
  iter_pos shr_1 n (Build_shr_record (Z.pos (pshift p (Z.pos n))) false false) = Build_shr_record (Z.pos p) false false.
Proof.
  induction n as [n IH|n IH|]; intros p; cbn [iter_pos].
  - replace (pshift p (Z.pos n~1)) with (xO (pshift (pshift p (Z.pos n)) (Z.pos n))).
    + rewrite shr_1_even, IH. apply IH.
    + apply Pos2Z.inj. rewrite Pos2Z.inj_xO, !pshift_val by lia. rewrite (Pos2Z.inj_xI n).
      replace (2 * Z.pos n + 1) with (1 + Z.pos n + Z.pos n) by lia. rewrite !Z.pow_add_r by lia. lia.
  - replace (pshift p (Z.pos n~0)) with (pshift (pshift p (Z.pos n)) (Z.pos n)).
    + rewrite IH. apply IH.
    + rewrite pshift_add by lia. f_equal. lia.
  - replace (pshift p 1) with (xO p). reflexivity.
    apply Pos2Z.inj. rewrite pshift_val by lia. change (2 ^ 1) with 2. lia.
Qed.

(** The double with integer value [+-p], for [p < 2^53]. *)
Definition int_float (s : bool) (p : positive) : f64 := S754_finite s (pshift p (52 - ilog p)) (ilog p - 52).

Lemma fexp_small : forall e, -1021 <= e -> fexp 53 1024 e = e - 53.
Proof. intros. unfold fexp, emin. lia. Qed.

Lemma shr_fexp_exact : forall p k j, ilog p <= 52 -> 0 <= k -> 0 <= j -> k - j = 52 - ilog p ->
  shr_fexp 53 1024 (Z.pos (pshift p k)) (- k) loc_Exact
  = (Build_shr_record (Z.pos (pshift p (52 - ilog p))) false false, ilog p - 52).
Proof.
  intros p k j Hp Hk Hj E. unfold shr_fexp, shr_record_of_loc, Zdigits2. rewrite digits_log2.
  change (Z.log2 (Z.pos (pshift p k))) with (ilog (pshift p k)). rewrite ilog_pshift by lia.
  pose proof (ilog_nonneg p). rewrite fexp_small by lia.
  replace (ilog p + k + 1 + - k - 53 - - k) with j by lia.
  unfold shr. destruct j as [|n|n]; [ | | lia].
  - replace k with (52 - ilog p) by lia. f_equal. lia.
  - replace (pshift p k) with (pshift (pshift p (52 - ilog p)) (Z.pos n)).
    + rewrite iter_shr_exact. f_equal. lia.
    + rewrite pshift_add by lia. f_equal. lia.
Qed.

Lemma round_aux_exact : forall s p k, Z.pos p < 2 ^ 53 -> 52 - ilog p <= k ->
  binary_round_aux 53 1024 s (Z.pos (pshift p k)) (- k) loc_Exact = int_float s p.
Proof.
  intros s p k Hp Hk. pose proof (ilog_bound _ _ Hp). pose proof (ilog_nonneg p).
  unfold binary_round_aux.
  rewrite (shr_fexp_exact p k (k - (52 - ilog p))) by lia. cbn [shr_m loc_of_shr_record round_nearest_even].
  replace (ilog p - 52) with (- (52 - ilog p)) by lia.
  rewrite (shr_fexp_exact p (52 - ilog p) 0) by lia. cbn [shr_m].
  replace (ilog p - 52 <=? 1024 - 53) with true by lia.
  unfold int_float. reflexivity.
Qed.

Lemma round_exact : forall s p k, Z.pos p < 2 ^ 53 -> 0 <= k ->
  binary_round 53 1024 s (pshift p k) (- k) = int_float s p.
Proof.
  intros s p k Hp Hk. pose proof (ilog_bound _ _ Hp). pose proof (ilog_nonneg p).
  unfold binary_round. rewrite digits_log2.
  change (Z.log2 (Z.pos (pshift p k))) with (ilog (pshift p k)). rewrite ilog_pshift by lia.
  rewrite fexp_small by lia. unfold shl_align.
  replace (ilog p + k + 1 + - k - 53 - - k) with (k - (52 - ilog p)) by lia.
  destruct (k - (52 - ilog p)) as [|n|n] eqn:E.
  - apply round_aux_exact; lia.
  - apply round_aux_exact; lia.
  - rewrite shift_pos_pshift, pshift_add by lia.
    replace (ilog p + k + 1 + - k - 53) with (- (k + Z.pos n)) by lia. apply round_aux_exact; lia.
Qed.

(** ** Integer values *)

(** The double is the integer [z], of magnitude below 2^53 (zero may have
    either sign). *)
Definition is_int (f : f64) (z : Z) : Prop :=
  -2 ^ 53 < z < 2 ^ 53 /\
  match z with
  | Z0 => exists s, f = S754_zero s
  | Z.pos p => f = int_float false p
  | Z.neg p => f = int_float true p
  end.

Lemma normalize_exact : forall z k sz, - 2 ^ 53 < z < 2 ^ 53 -> 0 <= k ->
  binary_normalize 53 1024 (z * 2 ^ k) (- k) sz
  = match z with Z0 => S754_zero sz | Z.pos p => int_float false p | Z.neg p => int_float true p end.
Proof.
  intros z k sz Hz Hk. unfold binary_normalize. destruct z as [|p|p].
  - reflexivity.
  - replace (Z.pos p * 2 ^ k) with (Z.pos (pshift p k)) by (rewrite pshift_val; lia). apply round_exact; lia.
  - replace (Z.neg p * 2 ^ k) with (Z.neg (pshift p k)).
    + apply round_exact; lia.
    + change (Z.neg (pshift p k)) with (- Z.pos (pshift p k)). rewrite pshift_val by lia. lia.
Qed.

Lemma of_Z_exact : forall z, - 2 ^ 53 < z < 2 ^ 53 ->
  f64_of_Z z = match z with Z0 => S754_zero false | Z.pos p => int_float false p | Z.neg p => int_float true p end.
Proof.
  intros z Hz. pose proof (normalize_exact z 0 false Hz (Z.le_refl 0)) as E.
  change (2 ^ 0) with 1 in E. rewrite Z.mul_1_r in E. exact E.
Qed.

Lemma is_int_of_Z : forall z, - 2 ^ 53 < z < 2 ^ 53 -> is_int (f64_of_Z z) z.
Proof.
  intros z Hz. split; [lia|]. rewrite of_Z_exact by lia. destruct z; eauto.
Qed.

Lemma is_int_nonzero : forall f z, is_int f z -> z <> 0 -> f = f64_of_Z z.
Proof. intros f z (Hb & H) Hn. rewrite of_Z_exact by lia. destruct z; [lia| |]; exact H. Qed.

(** Aligned mantissas. *)
Lemma align_val : forall p ez, Z.pos p < 2 ^ 53 -> ez <= ilog p - 52 ->
  Z.pos (fst (shl_align (pshift p (52 - ilog p)) (ilog p - 52) ez)) = Z.pos p * 2 ^ (- ez).
Proof.
  intros p ez Hp Hez. pose proof (ilog_bound _ _ Hp). pose proof (ilog_nonneg p). unfold shl_align.
  destruct (ez - (ilog p - 52)) as [|n|n] eqn:E; [| lia |]; cbn [fst].
  - rewrite pshift_val by lia. do 2 f_equal. lia.
  - rewrite shift_pos_pshift, pshift_add, pshift_val by lia. do 2 f_equal. lia.
Qed.

Definition signed (s : bool) (p : positive) : Z := if s then Z.neg p else Z.pos p.

Lemma cond_signed : forall s p k, 0 <= k -> SpecFloat.cond_Zopp s (Z.pos p * 2 ^ k) = signed s p * 2 ^ k.
Proof.
  intros [] p k H; unfold SpecFloat.cond_Zopp, signed; [|reflexivity].
  change (Z.neg p) with (- Z.pos p). lia.
Qed.

Lemma add_finite : forall s p t q, Z.pos p < 2 ^ 53 -> Z.pos q < 2 ^ 53 ->
  - 2 ^ 53 < signed s p + signed t q < 2 ^ 53 ->
  is_int (f64_add (int_float s p) (int_float t q)) (signed s p + signed t q).
Proof.
  intros s p t q Hp Hq Hs. pose proof (ilog_bound _ _ Hp). pose proof (ilog_bound _ _ Hq).
  unfold f64_add, int_float, SFadd. cbv zeta.
  set (ez := Z.min (ilog p - 52) (ilog q - 52)).
  rewrite !align_val by lia. rewrite !cond_signed by lia.
  rewrite <- Z.mul_add_distr_r. replace ez with (- - ez) at 2 by lia. rewrite normalize_exact by lia.
  split; [lia|]. destruct (signed s p + signed t q); eauto.
Qed.

Lemma sub_finite : forall s p t q, Z.pos p < 2 ^ 53 -> Z.pos q < 2 ^ 53 ->
  - 2 ^ 53 < signed s p - signed t q < 2 ^ 53 ->
  is_int (f64_sub (int_float s p) (int_float t q)) (signed s p - signed t q).
Proof.
  intros s p t q Hp Hq Hs. pose proof (ilog_bound _ _ Hp). pose proof (ilog_bound _ _ Hq).
  unfold f64_sub, int_float, SFsub. cbv zeta.
  set (ez := Z.min (ilog p - 52) (ilog q - 52)).
  rewrite !align_val by lia. rewrite !cond_signed by lia.
  rewrite <- Z.mul_sub_distr_r. replace ez with (- - ez) at 2 by lia. rewrite normalize_exact by lia.
  split; [lia|]. destruct (signed s p - signed t q); eauto.
Qed.

Lemma int_neg : forall s p, SFopp (int_float s p) = int_float (negb s) p.
Proof. reflexivity. Qed.

Lemma is_int_cases : forall f z, is_int f z ->
  (z = 0 /\ exists s, f = S754_zero s) \/
  (exists s p, f = int_float s p /\ z = signed s p /\ Z.pos p < 2 ^ 53).
Proof.
  intros f [|p|p] (Hb & H).
  - left. eauto.
  - right. exists false, p. cbn [signed]. split; [exact H|]. split; [reflexivity|lia].
  - right. exists true, p. cbn [signed]. split; [exact H|]. split; [reflexivity|lia].
Qed.

Lemma is_int_signed : forall s p, Z.pos p < 2 ^ 53 -> is_int (int_float s p) (signed s p).
Proof. intros [] p H; cbn; split; try lia; reflexivity. Qed.

Lemma is_int_zero : forall s, is_int (S754_zero s) 0.
Proof. intros s. split; [lia|eauto]. Qed.

Lemma add_int : forall f g a b, is_int f a -> is_int g b -> - 2 ^ 53 < a + b < 2 ^ 53 ->
  is_int (f64_add f g) (a + b).
Proof.
  intros f g a b Ha Hb Hs.
  destruct (is_int_cases _ _ Ha) as [(-> & s & ->)|(s & p & -> & -> & Hp)];
  destruct (is_int_cases _ _ Hb) as [(-> & t & ->)|(t & q & -> & -> & Hq)].
  - destruct s, t; apply is_int_zero.
  - cbn [f64_add SFadd]. rewrite Z.add_0_l. apply is_int_signed, Hq.
  - cbn [f64_add SFadd]. rewrite Z.add_0_r. apply is_int_signed, Hp.
  - apply add_finite; assumption.
Qed.

Lemma sub_int : forall f g a b, is_int f a -> is_int g b -> - 2 ^ 53 < a - b < 2 ^ 53 ->
  is_int (f64_sub f g) (a - b).
Proof.
  intros f g a b Ha Hb Hs.
  destruct (is_int_cases _ _ Ha) as [(-> & s & ->)|(s & p & -> & -> & Hp)];
  destruct (is_int_cases _ _ Hb) as [(-> & t & ->)|(t & q & -> & -> & Hq)].
  - destruct s, t; apply is_int_zero.
  - unfold f64_sub, SFsub, int_float at 1. change (S754_finite (negb t) (pshift q (52 - ilog q)) (ilog q - 52)) with (int_float (negb t) q).
    replace (0 - signed t q) with (signed (negb t) q) by (destruct t; reflexivity). apply is_int_signed, Hq.
  - unfold f64_sub, SFsub, int_float at 1. rewrite Z.sub_0_r. apply is_int_signed, Hp.
  - apply sub_finite; assumption.
Qed.

Lemma mul_int : forall f g a b, is_int f a -> is_int g b -> - 2 ^ 53 < a * b < 2 ^ 53 ->
  is_int (f64_mul f g) (a * b).
Proof.
  intros f g a b Ha Hb Hs.
  destruct (is_int_cases _ _ Ha) as [(-> & s & ->)|(s & p & -> & -> & Hp)];
  destruct (is_int_cases _ _ Hb) as [(-> & t & ->)|(t & q & -> & -> & Hq)].
  - apply is_int_zero.
  - apply is_int_zero.
  - rewrite Z.mul_0_r. apply is_int_zero.
  - unfold f64_mul, int_float, SFmul.
    pose proof (ilog_bound _ _ Hp). pose proof (ilog_bound _ _ Hq).
    pose proof (ilog_nonneg p). pose proof (ilog_nonneg q).
    assert (Hpq : Z.pos (p * q) < 2 ^ 53) by (destruct s, t; cbn [signed] in Hs; lia).
    assert (Hlog : ilog p + ilog q <= ilog (p * q)).
    { unfold ilog. rewrite Pos2Z.inj_mul. apply Z.log2_mul_below; lia. }
    replace (pshift p (52 - ilog p) * pshift q (52 - ilog q))%positive with (pshift (p * q) (104 - ilog p - ilog q)).
    + replace (ilog p - 52 + (ilog q - 52)) with (- (104 - ilog p - ilog q)) by lia.
      rewrite round_aux_exact by lia.
      replace (signed s p * signed t q) with (signed (xorb s t) (p * q)) by (destruct s, t; cbn; lia).
      apply is_int_signed, Hpq.
    + apply Pos2Z.inj. rewrite Pos2Z.inj_mul, !pshift_val by lia.
      replace (104 - ilog p - ilog q) with ((52 - ilog p) + (52 - ilog q)) by lia.
      rewrite Z.pow_add_r, Pos2Z.inj_mul by lia. ring.
Qed.

Lemma int_mantissa : forall p, Z.pos p < 2 ^ 53 ->
  2 ^ 52 <= Z.pos (pshift p (52 - ilog p)) < 2 ^ 53.
Proof.
  intros p Hp. pose proof (ilog_bound _ _ Hp). pose proof (ilog_nonneg p). rewrite pshift_val by lia.
  destruct (Z.log2_spec (Z.pos p)) as (A & B); [lia|]. change (Z.log2 (Z.pos p)) with (ilog p) in *.
  replace (2 ^ 52) with (2 ^ ilog p * 2 ^ (52 - ilog p)) by (rewrite <- Z.pow_add_r by lia; f_equal; lia).
  replace (2 ^ 53) with (2 ^ Z.succ (ilog p) * 2 ^ (52 - ilog p)) by (rewrite <- Z.pow_add_r by lia; f_equal; lia).
  assert (0 < 2 ^ (52 - ilog p)) by (apply Z.pow_pos_nonneg; lia). nia.
Qed.

Lemma int_mag_compare : forall p q, Z.pos p < 2 ^ 53 -> Z.pos q < 2 ^ 53 ->
  match Z.compare (ilog p - 52) (ilog q - 52) with
  | Lt => Lt | Gt => Gt
  | Eq => Pcompare (pshift p (52 - ilog p)) (pshift q (52 - ilog q)) Eq
  end = Z.compare (Z.pos p) (Z.pos q).
Proof.
  intros p q Hp Hq.
  destruct (Z.log2_spec (Z.pos p)) as (A & B); [lia|]. destruct (Z.log2_spec (Z.pos q)) as (A' & B'); [lia|].
  change (Z.log2 (Z.pos p)) with (ilog p) in *. change (Z.log2 (Z.pos q)) with (ilog q) in *.
  pose proof (ilog_bound _ _ Hp). pose proof (ilog_bound _ _ Hq).
  destruct (Z.compare_spec (ilog p - 52) (ilog q - 52)) as [E|E|E].
  - change (Pos.compare_cont Eq (pshift p (52 - ilog p)) (pshift q (52 - ilog q)))
      with (Pos.compare (pshift p (52 - ilog p)) (pshift q (52 - ilog q))).
    change (Pos.compare (pshift p (52 - ilog p)) (pshift q (52 - ilog q)))
      with (Z.compare (Z.pos (pshift p (52 - ilog p))) (Z.pos (pshift q (52 - ilog q)))).
    replace (ilog q) with (ilog p) by lia. rewrite !pshift_val by lia.
    rewrite <- Zmult_compare_compat_r; [reflexivity|]. assert (0 < 2 ^ (52 - ilog p)) by (apply Z.pow_pos_nonneg; lia). lia.
  - symmetry. apply Z.compare_lt_iff.
    assert (2 ^ Z.succ (ilog p) <= 2 ^ ilog q) by (apply Z.pow_le_mono_r; lia). lia.
  - symmetry. apply Z.compare_gt_iff.
    assert (2 ^ Z.succ (ilog q) <= 2 ^ ilog p) by (apply Z.pow_le_mono_r; lia). lia.
Qed.

Lemma cmp_int : forall f g a b, is_int f a -> is_int g b -> f64_cmp f g = Some (Z.compare a b).
Proof.
  intros f g a b Ha Hb.
  destruct (is_int_cases _ _ Ha) as [(-> & s & ->)|(s & p & -> & -> & Hp)];
  destruct (is_int_cases _ _ Hb) as [(-> & t & ->)|(t & q & -> & -> & Hq)].
  - reflexivity.
  - destruct t; reflexivity.
  - destruct s; reflexivity.
  - unfold f64_cmp, SFcompare, int_float. destruct s, t; cbn [signed]; try reflexivity.
    + f_equal. pose proof (int_mag_compare p q Hp Hq) as E.
      change (Z.neg p ?= Z.neg q) with (CompOpp (Z.pos p ?= Z.pos q)). rewrite <- E.
      destruct (ilog p - 52 ?= ilog q - 52); reflexivity.
    + f_equal. apply int_mag_compare; assumption.
Qed.

Lemma lt_int : forall f g a b, is_int f a -> is_int g b -> f64_lt f g = (a <? b).
Proof.
  intros f g a b Ha Hb. unfold f64_lt, SFltb. change (SFcompare f g) with (f64_cmp f g). rewrite (cmp_int _ _ _ _ Ha Hb).
  destruct (Z.compare_spec a b); lia.
Qed.
Lemma gt_int : forall f g a b, is_int f a -> is_int g b -> f64_gt f g = (b <? a).
Proof. intros. unfold f64_gt. change (SFltb g f) with (f64_lt g f). apply lt_int; assumption. Qed.
Lemma le_int : forall f g a b, is_int f a -> is_int g b -> f64_le f g = (a <=? b).
Proof.
  intros f g a b Ha Hb. unfold f64_le, SFleb. change (SFcompare f g) with (f64_cmp f g). rewrite (cmp_int _ _ _ _ Ha Hb).
  destruct (Z.compare_spec a b); lia.
Qed.
Lemma eq_int : forall f g a b, is_int f a -> is_int g b -> f64_eq f g = (a =? b).
Proof.
  intros f g a b Ha Hb. unfold f64_eq, SFeqb. change (SFcompare f g) with (f64_cmp f g). rewrite (cmp_int _ _ _ _ Ha Hb).
  destruct (Z.compare_spec a b); lia.
Qed.

(** Converted integers. *)
Lemma of_Z_add : forall a b, - 2 ^ 53 < a < 2 ^ 53 -> - 2 ^ 53 < b < 2 ^ 53 -> - 2 ^ 53 < a + b < 2 ^ 53 ->
  f64_add (f64_of_Z a) (f64_of_Z b) = f64_of_Z (a + b).
Proof.
  intros a b Ha Hb Hs. rewrite !of_Z_exact by lia.
  destruct (Z.eq_dec (a + b) 0) as [E|E].
  - rewrite E. replace b with (- a) by lia. destruct a as [|p|p]; cbn [Z.opp]; [reflexivity| |].
    + unfold f64_add, int_float, SFadd. unfold shl_align. rewrite Z.min_id, Z.sub_diag. cbn [fst SpecFloat.cond_Zopp].
      replace (Z.pos (pshift p (52 - ilog p)) + - Z.pos (pshift p (52 - ilog p))) with 0 by lia. reflexivity.
    + unfold f64_add, int_float, SFadd. unfold shl_align. rewrite Z.min_id, Z.sub_diag. cbn [fst SpecFloat.cond_Zopp].
      replace (- Z.pos (pshift p (52 - ilog p)) + Z.pos (pshift p (52 - ilog p))) with 0 by lia. reflexivity.
  - rewrite <- (of_Z_exact a), <- (of_Z_exact b), <- (of_Z_exact (a + b)) by lia.
    apply is_int_nonzero; [|exact E]. apply add_int; try apply is_int_of_Z; lia.
Qed.

Lemma of_Z_sub : forall a b, - 2 ^ 53 < a < 2 ^ 53 -> - 2 ^ 53 < b < 2 ^ 53 -> - 2 ^ 53 < a - b < 2 ^ 53 ->
  f64_sub (f64_of_Z a) (f64_of_Z b) = f64_of_Z (a - b).
Proof.
  intros a b Ha Hb Hs. destruct (Z.eq_dec (a - b) 0) as [E|E].
  - assert (b = a) as -> by lia. rewrite E. rewrite !of_Z_exact by lia. destruct a as [|p|p]; [reflexivity| |];
    unfold f64_sub, int_float, SFsub, shl_align; rewrite Z.min_id; rewrite !Z.sub_diag; reflexivity.
  - apply is_int_nonzero; [|exact E]. apply sub_int; try apply is_int_of_Z; lia.
Qed.

Lemma of_Z_inj : forall a b, - 2 ^ 53 < a < 2 ^ 53 -> - 2 ^ 53 < b < 2 ^ 53 -> f64_of_Z a = f64_of_Z b -> a = b.
Proof.
  intros a b Ha Hb E. pose proof (cmp_int _ _ _ _ (is_int_of_Z a Ha) (is_int_of_Z b Hb)) as C.
  rewrite E, (cmp_int _ _ _ _ (is_int_of_Z b Hb) (is_int_of_Z b Hb)), Z.compare_refl in C.
  injection C as C. symmetry in C. apply Z.compare_eq in C. exact C.
Qed.
