(** Doubles as real numbers: the operations of [Float] are the real ones followed by one
    rounding. Proofs go through Flocq. *)

From Coq Require Import ZArith Bool Reals Lra Lia.
From Verif Require Import Float.
From Flocq Require Import Core Relative IEEE754.BinarySingleNaN.
Local Open Scope R_scope.

Local Instance Hprec : FLX.Prec_gt_0 53 := eq_refl _.
Local Instance Hmax : Prec_lt_emax 53 1024 := eq_refl _.

Definition val (f : f64) : R := SF2R radix2 f.
(** A finite, well-formed double. *)
Definition fin (f : f64) : Prop := is_finite_SF f = true /\ valid_binary 53 1024 f = true.
Definition rnd (x : R) : R := round radix2 (SpecFloat.fexp 53 1024) ZnearestE x.

Lemma nearest_even_equiv : forall s m l, SpecFloat.round_nearest_even m l = choice_mode mode_NE s m l.
Proof.
  intros s m l. case l; [reflexivity|intro c].
  case c; [ | reflexivity..].
  now simpl; unfold Round.cond_incr; case Z.even.
Qed.

Lemma round_aux_equiv : forall sx mx ex lx,
  SpecFloat.binary_round_aux 53 1024 sx mx ex lx = binary_round_aux 53 1024 mode_NE sx mx ex lx.
Proof.
  intros. unfold SpecFloat.binary_round_aux, binary_round_aux.
  set (mrse' := shr_fexp _ _ _).
  case mrse'; intros mrs' e'; simpl.
  now rewrite (nearest_even_equiv sx).
Qed.

Lemma round_equiv : forall s m e,
  SpecFloat.binary_round 53 1024 s m e = binary_round 53 1024 mode_NE s m e.
Proof.
  intros. unfold SpecFloat.binary_round, binary_round, shl_align_fexp.
  set (mez := shl_align _ _ _); case mez as [mz ez].
  apply round_aux_equiv.
Qed.

Lemma normalize_equiv : forall m e szero,
  SpecFloat.binary_normalize 53 1024 m e szero
  = B2SF (binary_normalize 53 1024 Hprec Hmax mode_NE m e szero).
Proof.
  intros. case m as [ | p | p].
  - now simpl.
  - simpl; rewrite B2SF_SF2B; apply round_equiv.
  - simpl; rewrite B2SF_SF2B; apply round_equiv.
Qed.

Lemma fin_B : forall f, fin f -> exists b : binary_float 53 1024, B2SF b = f /\ is_finite b = true.
Proof.
  intros f [Hf Hv]. exists (SF2B f Hv). split; [apply B2SF_SF2B|].
  now rewrite is_finite_SF2B.
Qed.

Lemma B_fin : forall b : binary_float 53 1024, is_finite b = true -> fin (B2SF b).
Proof.
  intros b H. split; [|apply valid_binary_B2SF]. now rewrite is_finite_SF_B2SF.
Qed.

Lemma val_B : forall b : binary_float 53 1024, val (B2SF b) = B2R b.
Proof. intros b. unfold val. symmetry. rewrite <- SF2R_B2SF. reflexivity. Qed.

Lemma add_B : forall x y : binary_float 53 1024, f64_add (B2SF x) (B2SF y) = B2SF (Bplus mode_NE x y).
Proof.
  intros x y. unfold f64_add.
  case x as [sx|sx| |sx mx ex Bx]; case y as [sy|sy| |sy my ey By];
    [now (trivial || simpl; case Bool.eqb).. | ].
  apply normalize_equiv.
Qed.
Lemma sub_B : forall x y : binary_float 53 1024, f64_sub (B2SF x) (B2SF y) = B2SF (Bminus mode_NE x y).
Proof.
  intros x y. unfold f64_sub.
  case x as [sx|sx| |sx mx ex Bx]; case y as [sy|sy| |sy my ey By];
    [now (trivial || simpl; case Bool.eqb).. | ].
  simpl. unfold Zminus. rewrite <- cond_Zopp_negb. apply normalize_equiv.
Qed.
Lemma mul_B : forall x y : binary_float 53 1024, f64_mul (B2SF x) (B2SF y) = B2SF (Bmult mode_NE x y).
Proof.
  intros x y. unfold f64_mul.
  case x as [sx|sx| |sx mx ex Bx]; case y as [sy|sy| |sy my ey By]; [now trivial.. | ].
  simpl. rewrite B2SF_SF2B. apply round_aux_equiv.
Qed.
Lemma div_B : forall x y : binary_float 53 1024, f64_div (B2SF x) (B2SF y) = B2SF (Bdiv mode_NE x y).
Proof.
  intros x y. unfold f64_div.
  case x as [sx|sx| |sx mx ex Bx]; case y as [sy|sy| |sy my ey By];
    [now (trivial || simpl; case Bool.eqb).. | ].
  simpl. rewrite B2SF_SF2B.
  set (melz := SFdiv_core_binary _ _ _ _ _ _). case melz as [[mz ez] lz].
  apply round_aux_equiv.
Qed.
Lemma sqrt_B : forall x : binary_float 53 1024, f64_sqrt (B2SF x) = B2SF (Bsqrt mode_NE x).
Proof.
  intros x. unfold f64_sqrt.
  case x as [sx|sx| |sx mx ex Bx]; [now (trivial || case sx).. | ].
  case sx; [reflexivity | ].
  simpl. rewrite B2SF_SF2B.
  set (melz := SFsqrt_core_binary _ _ _ _). case melz as [[mz ez] lz].
  apply round_aux_equiv.
Qed.

Definition huge : R := bpow radix2 1024.

Lemma add_val : forall x y, fin x -> fin y -> Rabs (rnd (val x + val y)) < huge ->
  fin (f64_add x y) /\ val (f64_add x y) = rnd (val x + val y).
Proof.
  intros x y Hx Hy H. destruct (fin_B _ Hx) as (bx & <- & Fx). destruct (fin_B _ Hy) as (by' & <- & Fy).
  rewrite add_B. rewrite !val_B in *.
  pose proof (Bplus_correct 53 1024 Hprec Hmax mode_NE bx by' Fx Fy) as C.
  unfold rnd, huge in *. simpl round_mode in C. rewrite Rlt_bool_true in C by exact H.
  destruct C as (C1 & C2 & _). split; [now apply B_fin|exact C1].
Qed.
Lemma sub_val : forall x y, fin x -> fin y -> Rabs (rnd (val x - val y)) < huge ->
  fin (f64_sub x y) /\ val (f64_sub x y) = rnd (val x - val y).
Proof.
  intros x y Hx Hy H. destruct (fin_B _ Hx) as (bx & <- & Fx). destruct (fin_B _ Hy) as (by' & <- & Fy).
  rewrite sub_B. rewrite !val_B in *.
  pose proof (Bminus_correct 53 1024 Hprec Hmax mode_NE bx by' Fx Fy) as C.
  unfold rnd, huge in *. simpl round_mode in C. rewrite Rlt_bool_true in C by exact H.
  destruct C as (C1 & C2 & _). split; [now apply B_fin|exact C1].
Qed.
Lemma mul_val : forall x y, fin x -> fin y -> Rabs (rnd (val x * val y)) < huge ->
  fin (f64_mul x y) /\ val (f64_mul x y) = rnd (val x * val y).
Proof.
  intros x y Hx Hy H. destruct (fin_B _ Hx) as (bx & <- & Fx). destruct (fin_B _ Hy) as (by' & <- & Fy).
  rewrite mul_B. rewrite !val_B in *.
  pose proof (Bmult_correct 53 1024 Hprec Hmax mode_NE bx by') as C.
  unfold rnd, huge in *. simpl round_mode in C. rewrite Rlt_bool_true in C by exact H.
  destruct C as (C1 & C2 & _). split; [|exact C1]. apply B_fin. rewrite C2, Fx, Fy. reflexivity.
Qed.
Lemma div_val : forall x y, fin x -> fin y -> val y <> 0 -> Rabs (rnd (val x / val y)) < huge ->
  fin (f64_div x y) /\ val (f64_div x y) = rnd (val x / val y).
Proof.
  intros x y Hx Hy Hn H. destruct (fin_B _ Hx) as (bx & <- & Fx). destruct (fin_B _ Hy) as (by' & <- & Fy).
  rewrite div_B. rewrite !val_B in *.
  pose proof (Bdiv_correct 53 1024 Hprec Hmax mode_NE bx by' Hn) as C.
  unfold rnd, huge in *. simpl round_mode in C. rewrite Rlt_bool_true in C by exact H.
  destruct C as (C1 & C2 & _). split; [|exact C1]. apply B_fin. now rewrite C2.
Qed.
Lemma sqrt_val : forall x, fin x -> 0 <= val x ->
  fin (f64_sqrt x) /\ val (f64_sqrt x) = rnd (sqrt (val x)).
Proof.
  intros x Hx Hn. destruct (fin_B _ Hx) as (bx & <- & Fx).
  rewrite sqrt_B. rewrite !val_B in *.
  pose proof (Bsqrt_correct 53 1024 Hprec Hmax mode_NE bx) as (C1 & C2 & _).
  split; [|exact C1]. apply B_fin. rewrite C2.
  destruct bx as [s|s| |s m e Hb]; try easy. destruct s; [|reflexivity].
  exfalso. simpl in Hn.
  assert (F2R (Float radix2 (Z.neg m) e) < 0) by (now apply F2R_lt_0). simpl in *. lra.
Qed.

Lemma cmp_val : forall x y, fin x -> fin y -> f64_cmp x y = Some (Rcompare (val x) (val y)).
Proof.
  intros x y Hx Hy. destruct (fin_B _ Hx) as (bx & <- & Fx). destruct (fin_B _ Hy) as (by' & <- & Fy).
  rewrite !val_B. rewrite <- (Bcompare_correct 53 1024 bx by' Fx Fy). reflexivity.
Qed.
Lemma lt_val : forall x y, fin x -> fin y -> f64_lt x y = Rlt_bool (val x) (val y).
Proof.
  intros x y Hx Hy. unfold f64_lt, SFltb. change (SFcompare x y) with (f64_cmp x y).
  rewrite cmp_val by assumption. reflexivity.
Qed.
Lemma gt_val : forall x y, fin x -> fin y -> f64_gt x y = Rlt_bool (val y) (val x).
Proof. intros x y Hx Hy. change (f64_gt x y) with (f64_lt y x). now apply lt_val. Qed.
Lemma le_val : forall x y, fin x -> fin y -> f64_le x y = Rle_bool (val x) (val y).
Proof.
  intros x y Hx Hy. unfold f64_le, SFleb. change (SFcompare x y) with (f64_cmp x y).
  rewrite cmp_val by assumption. reflexivity.
Qed.
Lemma eq_val : forall x y, fin x -> fin y -> f64_eq x y = Req_bool (val x) (val y).
Proof.
  intros x y Hx Hy. unfold f64_eq, SFeqb. change (SFcompare x y) with (f64_cmp x y).
  rewrite cmp_val by assumption. reflexivity.
Qed.

(** ** Rounding *)

(** Half the distance from 1 to the next double. *)
Notation ulp1 := (/ 9007199254740992) (only parsing).

Lemma fexp_FLT : forall e, SpecFloat.fexp 53 1024 e = FLT_exp (-1074) 53 e.
Proof. reflexivity. Qed.

Lemma rnd_le : forall x y, x <= y -> rnd x <= rnd y.
Proof. intros. unfold rnd. apply round_le; auto; typeclasses eauto. Qed.
Lemma rnd_opp : forall x, rnd (- x) = - rnd x.
Proof. intros. unfold rnd. apply round_NE_opp. Qed.
Lemma rnd_format : forall x, generic_format radix2 (SpecFloat.fexp 53 1024) x -> rnd x = x.
Proof. intros. unfold rnd. apply round_generic; auto; typeclasses eauto. Qed.
Lemma fin_format : forall f, fin f -> generic_format radix2 (SpecFloat.fexp 53 1024) (val f).
Proof.
  intros f H. destruct (fin_B _ H) as (b & <- & _). rewrite val_B. apply generic_format_B2R.
Qed.
Lemma rnd_val : forall f, fin f -> rnd (val f) = val f.
Proof. intros. now apply rnd_format, fin_format. Qed.
Lemma rnd_0 : rnd 0 = 0.
Proof. apply rnd_format. apply generic_format_0. Qed.
Lemma format_bpow : forall e, (-1000 <= e)%Z -> generic_format radix2 (SpecFloat.fexp 53 1024) (bpow radix2 e).
Proof.
  intros. apply generic_format_bpow. rewrite fexp_FLT. unfold FLT_exp. lia.
Qed.
Lemma rnd_bpow : forall e, (-1000 <= e)%Z -> rnd (bpow radix2 e) = bpow radix2 e.
Proof. intros. apply rnd_format. now apply format_bpow. Qed.
Lemma format_scaled : forall z e, (Z.abs z <= 2 ^ 53)%Z -> (-1000 <= e)%Z ->
  generic_format radix2 (SpecFloat.fexp 53 1024) (IZR z * bpow radix2 e).
Proof.
  intros z e Hz He.
  destruct (Z.eq_dec (Z.abs z) (2 ^ 53)) as [E|E].
  - destruct (Z.abs_eq_or_opp z) as [A|A]; rewrite A in E.
    + rewrite E. replace (IZR (2 ^ 53)) with (bpow radix2 53) by (simpl; reflexivity).
      rewrite <- bpow_plus. apply format_bpow; lia.
    + replace z with (- 2 ^ 53)%Z by lia. rewrite opp_IZR. rewrite <- Ropp_mult_distr_l.
      apply generic_format_opp. replace (IZR (2 ^ 53)) with (bpow radix2 53) by (simpl; reflexivity).
      rewrite <- bpow_plus. apply format_bpow; lia.
  - apply (generic_format_FLT radix2 (-1074) 53). exists (Float radix2 z e); simpl; [reflexivity|lia|lia].
Qed.
Lemma rnd_scaled : forall z e, (Z.abs z <= 2 ^ 53)%Z -> (-1000 <= e)%Z -> rnd (IZR z * bpow radix2 e) = IZR z * bpow radix2 e.
Proof. intros. apply rnd_format. now apply format_scaled. Qed.
Lemma rnd_Z : forall z, (Z.abs z <= 2 ^ 53)%Z -> rnd (IZR z) = IZR z.
Proof. intros z H. pose proof (rnd_scaled z 0 H ltac:(lia)) as E. simpl in E. now rewrite Rmult_1_r in E. Qed.
Lemma rnd_1 : rnd 1 = 1.
Proof. apply (rnd_Z 1). cbn. lia. Qed.

Lemma rnd_abs_le : forall x e, (-1000 <= e)%Z -> Rabs x <= bpow radix2 e -> Rabs (rnd x) <= bpow radix2 e.
Proof.
  intros x e He H. unfold rnd. apply abs_round_le_generic; auto; try typeclasses eauto. now apply format_bpow.
Qed.
Lemma rnd_small : forall x, Rabs x <= bpow radix2 1000 -> Rabs (rnd x) < huge.
Proof.
  intros x H. apply Rle_lt_trans with (bpow radix2 1000); [apply rnd_abs_le; [lia|auto]|].
  apply bpow_lt. lia.
Qed.

(** Above the subnormals the error is relative. *)
Lemma rnd_rel : forall x, bpow radix2 (-1000) <= Rabs x -> Rabs (rnd x - x) <= ulp1 * Rabs x.
Proof.
  intros x H. unfold rnd.
  pose proof (relative_error_N_FLT radix2 (-1074) 53 eq_refl (fun n => negb (Z.even n)) x) as E.
  replace ulp1 with (/ 2 * bpow radix2 (- (53) + 1)) by (simpl; lra).
  apply E. apply Rle_trans with (2 := H). apply bpow_le. lia.
Qed.
(** In general there is a tiny absolute one besides. *)
Lemma rnd_err : forall x, Rabs (rnd x - x) <= ulp1 * Rabs x + ulp1 * ulp1 * ulp1.
Proof.
  intros x. destruct (Rle_or_lt (bpow radix2 (-1000)) (Rabs x)) as [H|H].
  - pose proof (rnd_rel x H). lra.
  - assert (A : Rabs (rnd x) <= bpow radix2 (-1000)) by (apply rnd_abs_le; [lia|lra]).
    assert (B : bpow radix2 (-1000) <= / 2 * (ulp1 * ulp1 * ulp1)).
    { apply Rle_trans with (bpow radix2 (-160)); [apply bpow_le; lia|]. simpl. lra. }
    pose proof (Rabs_triang (rnd x) (- x)) as T. rewrite Rabs_Ropp in T. unfold Rminus.
    pose proof (Rabs_pos x). lra.
Qed.
