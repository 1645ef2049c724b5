(** Doubles as real numbers: integers, truncation and rounding to integers, rationals. *)

From Coq Require Import ZArith Bool Reals Lra Lia QArith Qreals.
From Verif Require Import Float SpecFloat64 FloatFacts MapFacts SpecIntersect RealFacts.
From Flocq Require Import Core IEEE754.BinarySingleNaN.
Local Open Scope R_scope.

Local Instance Hprec : FLX.Prec_gt_0 53 := eq_refl _.
Local Instance Hmax : Prec_lt_emax 53 1024 := eq_refl _.

Lemma zero_fin : forall s, fin (S754_zero s) /\ val (S754_zero s) = 0.
Proof. intros s. repeat split. Qed.

Lemma of_Z_val : forall z, (Z.abs z < 2 ^ 53)%Z -> fin (f64_of_Z z) /\ val (f64_of_Z z) = IZR z.
Proof.
  intros z Hz. unfold f64_of_Z. rewrite normalize_equiv.
  pose proof (binary_normalize_correct 53 1024 Hprec Hmax mode_NE z 0 false) as C. cbv zeta in C.
  simpl round_mode in C. change (round radix2 (SpecFloat.fexp 53 1024) ZnearestE) with rnd in C.
  replace (F2R (Float radix2 z 0)) with (IZR z) in C by (unfold F2R; simpl; lra).
  rewrite rnd_Z in C by lia. rewrite Rlt_bool_true in C.
  - destruct C as (C1 & C2 & _). rewrite val_B. split; [now apply B_fin|exact C1].
  - rewrite <- abs_IZR. apply Rlt_trans with (IZR (2 ^ 53)); [now apply IZR_lt|].
    replace (IZR (2 ^ 53)) with (bpow radix2 53) by (simpl; reflexivity). apply bpow_lt. lia.
Qed.

Lemma is_int_val : forall f z, is_int f z -> fin f /\ val f = IZR z.
Proof.
  intros f z H. destruct (Z.eq_dec z 0) as [->|Hn].
  - destruct H as (_ & s & ->). apply zero_fin.
  - rewrite (is_int_nonzero f z H Hn). destruct H as [H _]. apply of_Z_val. lia.
Qed.

Lemma finite_val : forall s m e, val (S754_finite s m e) = IZR (signed s m) * bpow radix2 e.
Proof. intros. unfold val, SF2R, F2R. simpl. destruct s; reflexivity. Qed.

Lemma val_is_int : forall f z, fin f -> val f = IZR z -> (Z.abs z < 2 ^ 53)%Z -> is_int f z.
Proof.
  intros f z [Hf Hv] E Hz. apply valued_is_int; [exact Hv| |lia].
  destruct f as [s|s| |s m e]; try discriminate.
  - simpl. unfold val in E. simpl in E. apply eq_IZR. now rewrite <- E.
  - rewrite finite_val in E. unfold int_valued.
    change (if s then - Z.pos m else Z.pos m)%Z with (signed s m).
    destruct (Z.leb_spec 0 e) as [He|He].
    + rewrite <- (IZR_Zpower radix2) in E by assumption. rewrite <- mult_IZR in E. apply eq_IZR in E.
      symmetry. exact E.
    + apply eq_IZR. rewrite mult_IZR. change (2 ^ - e)%Z with (Zpower radix2 (- e)).
      rewrite IZR_Zpower by lia. rewrite <- E. rewrite Rmult_assoc, <- bpow_plus.
      replace (e + - e)%Z with 0%Z by lia. simpl. lra.
Qed.

(** ** Parts of numbers *)

Lemma round_int : forall s q, (Z.pos q < 2 ^ 53)%Z -> is_int (SpecFloat.binary_round 53 1024 s q 0) (signed s q).
Proof.
  intros s q H. pose proof (round_exact s q 0 H (Z.le_refl 0)) as E. rewrite pshift_0 in E.
  change (- 0)%Z with 0%Z in E. rewrite E. now apply is_int_signed.
Qed.

Lemma finite_bounded : forall s m e, fin (S754_finite s m e) -> (Z.pos m < 2 ^ 53)%Z.
Proof.
  intros s m e [_ H]. cbn in H. unfold SpecFloat.bounded in H. apply andb_prop in H. destruct H as [H _].
  unfold canonical_mantissa in H. apply Zeq_bool_eq in H.
  rewrite digits_log2 in H. unfold SpecFloat.fexp, SpecFloat.emin in H.
  apply Z.log2_lt_pow2; lia.
Qed.

(** [trunc] gives the integer part: towards zero, less than 1 away. *)
Lemma trunc_val : forall f, fin f -> fin (f64_trunc f) /\
  exists z, val (f64_trunc f) = IZR z /\ Rabs (val f - IZR z) < 1 /\ Rabs (IZR z) <= Rabs (val f).
Proof.
  intros f H. destruct f as [s|s| |s m e]; try (destruct H; discriminate).
  - split; [exact H|]. exists 0%Z. unfold val; simpl. rewrite Rminus_0_r, Rabs_R0. lra.
  - pose proof (finite_bounded _ _ _ H) as Hm. unfold f64_trunc. destruct (Z.leb_spec 0 e) as [He|He].
    + split; [exact H|]. exists (signed s m * Zpower radix2 e)%Z.
      rewrite finite_val, mult_IZR, IZR_Zpower by assumption.
      rewrite Rminus_diag_eq by reflexivity. rewrite Rabs_R0. split; [reflexivity|]. lra.
    + assert (Pp : (0 < 2 ^ (- e))%Z) by (apply Z.pow_pos_nonneg; lia).
      assert (Bp : IZR (2 ^ (- e)) * bpow radix2 e = 1).
      { change (2 ^ (- e))%Z with (Zpower radix2 (- e)). rewrite IZR_Zpower by lia.
        rewrite <- bpow_plus. replace (- e + e)%Z with 0%Z by lia. reflexivity. }
      pose proof (bpow_gt_0 radix2 e) as Be.
      pose proof (Z.div_mod (Z.pos m) (2 ^ (- e)) ltac:(lia)) as D.
      pose proof (Z.mod_pos_bound (Z.pos m) (2 ^ (- e)) Pp) as Mb.
      pose proof (Z.div_pos (Z.pos m) (2 ^ (- e)) ltac:(lia) Pp) as Qp.
      set (q := (Z.pos m / 2 ^ (- e))%Z) in *. set (r := (Z.pos m mod 2 ^ (- e))%Z) in *.
      assert (V : Rabs (val (S754_finite s m e)) = IZR q + IZR r * bpow radix2 e).
      { rewrite finite_val, Rabs_mult, <- abs_IZR. rewrite (Rabs_pos_eq (bpow radix2 e)) by lra.
        replace (Z.abs (signed s m)) with (Z.pos m) by (destruct s; reflexivity).
        rewrite D, plus_IZR, mult_IZR. rewrite (Rmult_comm (IZR (2 ^ - e))). rewrite Rmult_plus_distr_r, Rmult_assoc, Bp. lra. }
      assert (R0 : 0 <= IZR r * bpow radix2 e < 1).
      { split; [apply Rmult_le_pos; [apply IZR_le; lia|lra]|].
        rewrite <- Bp. apply Rmult_lt_compat_r; [lra|]. apply IZR_lt. lia. }
      assert (Sg : val (S754_finite s m e) = (if s then -1 else 1) * (IZR q + IZR r * bpow radix2 e)).
      { rewrite <- V. rewrite finite_val, Rabs_mult, <- abs_IZR. rewrite (Rabs_pos_eq (bpow radix2 e)) by lra.
        destruct s; simpl (signed _ _); simpl Z.abs; [change (Z.neg m) with (- Z.pos m)%Z; rewrite opp_IZR|]; lra. }
      assert (G : forall g, is_int g (if s then - q else q)%Z -> fin g /\ exists z, val g = IZR z /\
        Rabs (val (S754_finite s m e) - IZR z) < 1 /\ Rabs (IZR z) <= Rabs (val (S754_finite s m e))).
      { intros g Hg. destruct (is_int_val _ _ Hg) as [G1 G2]. split; [exact G1|].
        exists (if s then - q else q)%Z. split; [exact G2|]. rewrite V. 
        assert (0 <= IZR q) by (apply IZR_le; lia).
        rewrite Sg. destruct s; [rewrite opp_IZR|].
        - replace (-1 * (IZR q + IZR r * bpow radix2 e) - - IZR q) with (- (IZR r * bpow radix2 e)) by lra.
          rewrite !Rabs_Ropp. rewrite !Rabs_pos_eq by lra. lra.
        - replace (1 * (IZR q + IZR r * bpow radix2 e) - IZR q) with (IZR r * bpow radix2 e) by lra.
          rewrite !Rabs_pos_eq by lra. lra. }
      clearbody q r. destruct q as [|q'|q']; [| |lia].
      * apply G. replace (if s then (- 0)%Z else 0%Z) with 0%Z by (destruct s; reflexivity). apply is_int_zero.
      * apply G. assert (Z.pos q' <= Z.pos m)%Z by nia.
        pose proof (round_int s q' ltac:(lia)) as RI. destruct s; exact RI.
Qed.

(** [round] gives an integer at most 1/2 away. *)
Lemma round_val : forall f, fin f -> fin (f64_round f) /\
  exists z, val (f64_round f) = IZR z /\ Rabs (val f - IZR z) <= / 2.
Proof.
  intros f H. destruct f as [s|s| |s m e]; try (destruct H; discriminate).
  - split; [exact H|]. exists 0%Z. unfold val; simpl. rewrite Rminus_0_r, Rabs_R0. lra.
  - pose proof (finite_bounded _ _ _ H) as Hm. unfold f64_round. destruct (Z.leb_spec 0 e) as [He|He].
    + split; [exact H|]. exists (signed s m * Zpower radix2 e)%Z.
      rewrite finite_val, mult_IZR, IZR_Zpower by assumption.
      rewrite Rminus_diag_eq by reflexivity. rewrite Rabs_R0. split; [reflexivity|]. lra.
    + assert (Pp : (0 < 2 ^ (- e))%Z) by (apply Z.pow_pos_nonneg; lia).
      assert (Bp : IZR (2 ^ (- e)) * bpow radix2 e = 1).
      { change (2 ^ (- e))%Z with (Zpower radix2 (- e)). rewrite IZR_Zpower by lia.
        rewrite <- bpow_plus. replace (- e + e)%Z with 0%Z by lia. reflexivity. }
      pose proof (bpow_gt_0 radix2 e) as Be.
      pose proof (Z.div_mod (2 * Z.pos m + 2 ^ (- e)) (2 * 2 ^ (- e)) ltac:(lia)) as D.
      pose proof (Z.mod_pos_bound (2 * Z.pos m + 2 ^ (- e)) (2 * 2 ^ (- e)) ltac:(lia)) as Mb.
      pose proof (Z.div_pos (2 * Z.pos m + 2 ^ (- e)) (2 * 2 ^ (- e)) ltac:(lia) ltac:(lia)) as Qp.
      set (q := ((2 * Z.pos m + 2 ^ (- e)) / (2 * 2 ^ (- e)))%Z) in *.
      set (r := ((2 * Z.pos m + 2 ^ (- e)) mod (2 * 2 ^ (- e)))%Z) in *.
      assert (V : 2 * (IZR (Z.pos m) * bpow radix2 e - IZR q) = IZR r * bpow radix2 e - 1).
      { assert (D' : (2 * Z.pos m = 2 * 2 ^ (- e) * q + r - 2 ^ (- e))%Z) by lia.
        apply (f_equal IZR) in D'. rewrite minus_IZR, plus_IZR, !mult_IZR in D'.
        replace (IZR r) with (2 * IZR (Z.pos m) - 2 * IZR (2 ^ - e) * IZR q + IZR (2 ^ - e)) by lra.
        replace ((2 * IZR (Z.pos m) - 2 * IZR (2 ^ - e) * IZR q + IZR (2 ^ - e)) * bpow radix2 e)
          with (2 * IZR (Z.pos m) * bpow radix2 e - 2 * IZR q * (IZR (2 ^ - e) * bpow radix2 e)
                + IZR (2 ^ - e) * bpow radix2 e) by ring.
        rewrite Bp. lra. }
      assert (R0 : 0 <= IZR r * bpow radix2 e <= 2).
      { split; [apply Rmult_le_pos; [apply IZR_le; lia|lra]|].
        replace 2 with (2 * IZR (2 ^ - e) * bpow radix2 e) by (rewrite Rmult_assoc, Bp; lra).
        rewrite <- mult_IZR.
        apply Rmult_le_compat_r; [lra|]. apply IZR_le. lia. }
      assert (G : forall g, is_int g (if s then - q else q)%Z -> fin g /\ exists z, val g = IZR z /\
        Rabs (val (S754_finite s m e) - IZR z) <= / 2).
      { intros g Hg. destruct (is_int_val _ _ Hg) as [G1 G2]. split; [exact G1|].
        exists (if s then - q else q)%Z. split; [exact G2|]. rewrite finite_val.
        destruct s; simpl (signed _ _); [change (Z.neg m) with (- Z.pos m)%Z; rewrite !opp_IZR|];
          apply Rabs_le; lra. }
      clearbody q r. destruct q as [|q'|q']; [| |lia].
      * apply G. replace (if s then (- 0)%Z else 0%Z) with 0%Z by (destruct s; reflexivity). apply is_int_zero.
      * apply G. assert (Z.pos q' <= Z.pos m)%Z by nia.
        pose proof (round_int s q' ltac:(lia)) as RI. destruct s; exact RI.
Qed.

Lemma abs_val : forall f, fin f -> fin (f64_abs f) /\ val (f64_abs f) = Rabs (val f).
Proof.
  intros f H. destruct f as [s|s| |s m e]; try (destruct H; discriminate).
  - split; [split; reflexivity|]. unfold val; simpl. now rewrite Rabs_R0.
  - split; [exact H|]. change (f64_abs (S754_finite s m e)) with (S754_finite false m e).
    rewrite !finite_val, Rabs_mult, <- abs_IZR. rewrite (Rabs_pos_eq (bpow radix2 e)) by apply bpow_ge_0.
    destruct s; reflexivity.
Qed.

(** ** Rationals *)

Lemma Q2R_Z : forall z, Q2R (inject_Z z) = IZR z.
Proof. intros. unfold Q2R, inject_Z; simpl. lra. Qed.

Lemma f64_Q_val : forall f, Q2R (f64_Q f) = val f.
Proof.
  intros [s|s| |s m e]; try (unfold val, f64_Q, Q2R; simpl; lra).
  rewrite finite_val. unfold f64_Q.
  change (if s then Z.neg m else Z.pos m) with (signed s m).
  destruct (Z.leb_spec 0 e) as [He|He].
  - rewrite Q2R_Z, mult_IZR. change (2 ^ e)%Z with (Zpower radix2 e). now rewrite IZR_Zpower.
  - unfold Q2R. simpl Qnum. simpl Qden. f_equal.
    assert (0 < 2 ^ (- e))%Z by (apply Z.pow_pos_nonneg; lia).
    rewrite Z2Pos.id by assumption. change (2 ^ (- e))%Z with (Zpower radix2 (- e)). rewrite IZR_Zpower by lia.
    rewrite bpow_opp. apply Rinv_inv.
Qed.

Lemma fin_finite64 : forall f, fin f -> is_finite64 f.
Proof. intros f [H1 H2]. split; [exact H2|]. destruct f; try discriminate; exact I. Qed.
Lemma finite64_fin : forall f, is_finite64 f -> fin f.
Proof. intros f [H1 H2]. split; [|exact H1]. destruct f; try contradiction; reflexivity. Qed.
