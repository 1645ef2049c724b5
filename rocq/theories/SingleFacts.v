(** Single-precision numbers as real numbers. *)

From Coq Require Import ZArith Bool Reals Lra Lia Floats.SpecFloat.
From Verif Require Import Base CountTextures SpecTextures SpecArea TextureFacts.
From Flocq Require Import Core Relative IEEE754.BinarySingleNaN.
Local Open Scope R_scope.

Local Instance P24 : FLX.Prec_gt_0 24 := eq_refl _.
Local Instance M128 : Prec_lt_emax 24 128 := eq_refl _.

Lemma even32 : forall s m l, SpecFloat.round_nearest_even m l = choice_mode mode_NE s m l.
Proof.
  intros s m l. case l; [reflexivity|intro c].
  case c; [ | reflexivity..].
  now simpl; unfold Round.cond_incr; case Z.even.
Qed.
Lemma aux32 : forall sx mx ex lx, SpecFloat.binary_round_aux 24 128 sx mx ex lx = binary_round_aux 24 128 mode_NE sx mx ex lx.
Proof.
  intros. unfold SpecFloat.binary_round_aux, binary_round_aux.
  set (mrse' := shr_fexp _ _ _).
  case mrse'; intros mrs' e'; simpl.
  now rewrite (even32 sx).
Qed.
Lemma round32 : forall s m e, SpecFloat.binary_round 24 128 s m e = binary_round 24 128 mode_NE s m e.
Proof.
  intros. unfold SpecFloat.binary_round, binary_round, shl_align_fexp.
  set (mez := shl_align _ _ _); case mez as [mz ez].
  apply aux32.
Qed.
Lemma normalize32 : forall m e szero,
  SpecFloat.binary_normalize 24 128 m e szero = B2SF (binary_normalize 24 128 P24 M128 mode_NE m e szero).
Proof.
  intros. case m as [ | p | p].
  - now simpl.
  - simpl; rewrite B2SF_SF2B; apply round32.
  - simpl; rewrite B2SF_SF2B; apply round32.
Qed.

Lemma single_B : forall f r, single f r -> exists b : binary_float 24 128, B2SF b = f /\ is_finite b = true /\ B2R b = r.
Proof.
  intros f r (F & V & E). exists (SF2B f V). split; [apply B2SF_SF2B|]. split; [now rewrite is_finite_SF2B|]. rewrite <- E. now rewrite B2R_SF2B.
Qed.
Lemma B_single : forall b : binary_float 24 128, is_finite b = true -> single (B2SF b) (B2R b).
Proof. intros b H. split; [now rewrite is_finite_SF_B2SF|]. split; [apply valid_binary_B2SF|]. now rewrite SF2R_B2SF. Qed.

Lemma add32_B : forall x y : binary_float 24 128, f32_add (B2SF x) (B2SF y) = B2SF (Bplus mode_NE x y).
Proof.
  intros x y. unfold f32_add.
  case x as [sx|sx| |sx mx ex Bx]; case y as [sy|sy| |sy my ey By];
    [now (trivial || simpl; case Bool.eqb).. | ].
  apply normalize32.
Qed.
Lemma mul32_B : forall x y : binary_float 24 128, f32_mul (B2SF x) (B2SF y) = B2SF (Bmult mode_NE x y).
Proof.
  intros x y. unfold f32_mul.
  case x as [sx|sx| |sx mx ex Bx]; case y as [sy|sy| |sy my ey By]; [now trivial.. | ].
  simpl. rewrite B2SF_SF2B. apply aux32.
Qed.
Lemma sqrt32_B : forall x : binary_float 24 128, f32_sqrt (B2SF x) = B2SF (Bsqrt mode_NE x).
Proof.
  intros x. unfold f32_sqrt.
  case x as [sx|sx| |sx mx ex Bx]; [now (trivial || case sx).. | ].
  case sx; [reflexivity | ].
  simpl. rewrite B2SF_SF2B.
  set (melz := SFsqrt_core_binary _ _ _ _). case melz as [[mz ez] lz].
  apply aux32.
Qed.

Lemma fexp32 : SpecFloat.fexp 24 128 = FLT_exp (-149) 24.
Proof. reflexivity. Qed.

(** Far from the largest numbers nothing overflows. *)
Lemma nearest_small : forall r, Rabs r <= bpow radix2 127 -> Rabs (nearest r) < bpow radix2 128.
Proof.
  intros r H. apply Rle_lt_trans with (bpow radix2 127); [|apply bpow_lt; lia].
  apply abs_round_le_generic; [apply FLT_exp_valid; reflexivity|apply valid_rnd_N| |exact H].
  apply generic_format_bpow. vm_compute. discriminate.
Qed.

Lemma add32 : forall x y a b, single x a -> single y b -> Rabs (a + b) <= bpow radix2 127 -> single (f32_add x y) (nearest (a + b)).
Proof.
  intros x y a b X Y H. destruct (single_B _ _ X) as (bx & <- & Fx & Ex). destruct (single_B _ _ Y) as (by' & <- & Fy & Ey).
  rewrite add32_B. pose proof (Bplus_correct 24 128 P24 M128 mode_NE bx by' Fx Fy) as C.
  simpl round_mode in C. rewrite fexp32 in C. fold (nearest (B2R bx + B2R by')) in C. rewrite Ex, Ey in C. rewrite Rlt_bool_true in C by now apply nearest_small.
  destruct C as (C1 & C2 & _). rewrite <- C1. now apply B_single.
Qed.
Lemma mul32 : forall x y a b, single x a -> single y b -> Rabs (a * b) <= bpow radix2 127 -> single (f32_mul x y) (nearest (a * b)).
Proof.
  intros x y a b X Y H. destruct (single_B _ _ X) as (bx & <- & Fx & Ex). destruct (single_B _ _ Y) as (by' & <- & Fy & Ey).
  rewrite mul32_B. pose proof (Bmult_correct 24 128 P24 M128 mode_NE bx by') as C.
  simpl round_mode in C. rewrite fexp32 in C. fold (nearest (B2R bx * B2R by')) in C. rewrite Ex, Ey in C. rewrite Rlt_bool_true in C by now apply nearest_small.
  destruct C as (C1 & C2 & _). rewrite <- C1. apply B_single. now rewrite C2, Fx, Fy.
Qed.
Lemma sqrt32 : forall x a, single x a -> 0 <= a -> single (f32_sqrt x) (nearest (sqrt a)).
Proof.
  intros x a X H. destruct (single_B _ _ X) as (bx & <- & Fx & Ex). rewrite sqrt32_B.
  pose proof (Bsqrt_correct 24 128 P24 M128 mode_NE bx) as (C1 & C2 & _). rewrite Ex in C1. simpl round_mode in C1. rewrite fexp32 in C1. unfold nearest. rewrite <- C1.
  apply B_single. rewrite C2. subst a. destruct bx as [s|s| |s m e Hb]; try easy. destruct s; [|reflexivity].
  exfalso. simpl in H. assert (F2R (Float radix2 (Z.neg m) e) < 0) by (now apply F2R_lt_0). simpl in *. lra.
Qed.

Lemma format_Z : forall z, (Z.abs z <= 2 ^ 24)%Z -> generic_format radix2 (FLT_exp (-149) 24) (IZR z).
Proof.
  intros z H. destruct (Z.eq_dec (Z.abs z) (2 ^ 24)) as [E|E].
  - apply generic_format_abs_inv. rewrite <- abs_IZR, E. change (IZR (2 ^ 24)) with (bpow radix2 24). apply generic_format_bpow. vm_compute. discriminate.
  - apply generic_format_FLT. exists (Float radix2 z 0); [unfold F2R; simpl; ring|simpl; change (radix_val radix2 ^ 24)%Z with (2 ^ 24)%Z; lia|simpl; lia].
Qed.
Lemma nearest_Z : forall z, (Z.abs z <= 2 ^ 24)%Z -> nearest (IZR z) = IZR z.
Proof. intros z H. apply round_generic; [apply valid_rnd_N|now apply format_Z]. Qed.
Lemma abs_Z_le : forall z e, (0 <= e)%Z -> (Z.abs z <= 2 ^ e)%Z -> Rabs (IZR z) <= bpow radix2 e.
Proof. intros z e E H. rewrite <- abs_IZR. change 2%Z with (radix_val radix2) in H. rewrite <- IZR_Zpower by exact E. now apply IZR_le. Qed.

Lemma of_Z32 : forall z, (Z.abs z <= 2 ^ 24)%Z -> single (f32_of_Z z) (IZR z).
Proof.
  intros z H. unfold f32_of_Z. rewrite normalize32. pose proof (binary_normalize_correct 24 128 P24 M128 mode_NE z 0 false) as C. cbv zeta in C.
  simpl round_mode in C. rewrite fexp32 in C. assert (E : F2R (Float radix2 z 0) = IZR z) by (unfold F2R; simpl; ring). rewrite E in C. fold (nearest (IZR z)) in C. rewrite nearest_Z in C by exact H.
  rewrite Rlt_bool_true in C.
  - destruct C as (C1 & C2 & _). rewrite <- C1. now apply B_single.
  - apply Rle_lt_trans with (bpow radix2 24); [apply abs_Z_le; lia|apply bpow_lt; lia].
Qed.

(** *** Relative errors *)

Lemma nearest_rel : forall r, r = 0 \/ 1 <= Rabs r -> exists e, Rabs e <= / 2 ^ 24 /\ nearest r = r * (1 + e).
Proof.
  intros r [->|H].
  - exists 0. split; [rewrite Rabs_R0; apply Rlt_le, Rinv_0_lt_compat, pow_lt; lra|]. unfold nearest. rewrite round_0 by apply valid_rnd_N. ring.
  - destruct (relative_error_N_FLT_ex radix2 (-149) 24 eq_refl (fun x => negb (Z.even x)) r) as (e & E1 & E2).
    + apply Rle_trans with (bpow radix2 0); [apply bpow_le; lia|exact H].
    + exists e. split; [|exact E2]. refine (Rle_trans _ _ _ E1 _). simpl. lra.
Qed.

Lemma pow24 : 2 ^ 24 = 16777216.
Proof. simpl. lra. Qed.

(** *** Lengths and areas *)

Definition unit32 : R := / 16777216.
Lemma unit_pos : 0 < unit32. Proof. unfold unit32. apply Rinv_0_lt_compat. lra. Qed.

Lemma sq_nonneg : forall d, (0 <= d * d)%Z. Proof. intros. nia. Qed.

Lemma rel_sq : forall d, fits d -> exists e, Rabs e <= unit32 /\ nearest (IZR d * IZR d) = IZR (d * d) * (1 + e).
Proof.
  intros d H. rewrite <- mult_IZR. destruct (nearest_rel (IZR (d * d))) as (e & E1 & E2).
  - destruct (Z.eq_dec d 0) as [->|N]; [left; reflexivity|]. right. rewrite <- abs_IZR. apply (IZR_le 1). nia.
  - exists e. rewrite pow24 in E1. auto.
Qed.

Lemma rel_twice : forall n t e u, 0 <= n -> 0 < u <= / 1000 -> n * (1 - u) <= t <= n * (1 + u) -> - u <= e <= u ->
  n * (1 - 3 * u) <= t * (1 + e) <= n * (1 + 3 * u).
Proof.
  intros n t e u N U T E. assert (NU : 0 <= n * u) by (apply Rmult_le_pos; lra). assert (NUU : n * u * u <= n * u * / 1000) by (apply Rmult_le_compat_l; lra).
  assert (0 <= n * u * u) by (apply Rmult_le_pos; lra). assert (0 <= t) by nra. split.
  - apply Rle_trans with (t * (1 - u)); [|apply Rmult_le_compat_l; lra]. apply Rle_trans with (n * (1 - u) * (1 - u)); [lra|apply Rmult_le_compat_r; lra].
  - apply Rle_trans with (t * (1 + u)); [apply Rmult_le_compat_l; lra|]. apply Rle_trans with (n * (1 + u) * (1 + u)); [apply Rmult_le_compat_r; lra|lra].
Qed.
Lemma rel_root : forall L q u, 0 <= L -> 0 <= q -> 0 < u <= / 1000 -> L * L * (1 - 3 * u) <= q * q <= L * L * (1 + 3 * u) ->
  L * (1 - 16 / 10 * u) <= q <= L * (1 + 3 / 2 * u).
Proof.
  intros L q u HL Hq U H. assert (LL : 0 <= L * L) by (now apply Rmult_le_pos). assert (LU : 0 <= L * L * u) by (apply Rmult_le_pos; lra).
  assert (LUU : L * L * u * u <= L * L * u * / 1000) by (apply Rmult_le_compat_l; lra). assert (0 <= L * L * u * u) by (apply Rmult_le_pos; lra). split; apply Rsqr_incr_0_var; unfold Rsqr.
  - lra.
  - exact Hq.
  - lra.
  - apply Rmult_le_pos; lra.
Qed.

Lemma nearest_ge1 : forall r, 1 <= r -> 1 <= nearest r.
Proof. intros r H. rewrite <- (nearest_Z 1) by lia. apply round_le; [apply FLT_exp_valid; reflexivity|apply valid_rnd_N|exact H]. Qed.
Lemma nearest_sq : forall d, (d <> 0)%Z -> 1 <= nearest (IZR d * IZR d).
Proof. intros d H. apply nearest_ge1. rewrite <- mult_IZR. apply (IZR_le 1). nia. Qed.

Lemma rounded_length : forall dx dy, fits dx -> fits dy ->
  single (f32_length dx dy) (nearest (sqrt (nearest (nearest (IZR dx * IZR dx) + nearest (IZR dy * IZR dy)))))
  /\ close 3 (nearest (sqrt (nearest (nearest (IZR dx * IZR dx) + nearest (IZR dy * IZR dy))))) (line_length dx dy)
  /\ line_length dx dy <= 65536.
Proof.
  intros dx dy X Y. assert (U := unit_pos). assert (U2 : unit32 * 16777216 = 1) by (unfold unit32; field).
  destruct (rel_sq dx X) as (e1 & E1 & Q1). destruct (rel_sq dy Y) as (e2 & E2 & Q2).
  assert (N1 : 0 <= IZR (dx * dx)) by (apply (IZR_le 0), sq_nonneg). assert (N2 : 0 <= IZR (dy * dy)) by (apply (IZR_le 0), sq_nonneg).
  assert (B1 : IZR (dx * dx) <= 1073741824) by (apply IZR_le; unfold fits in X; nia). assert (B2 : IZR (dy * dy) <= 1073741824) by (apply IZR_le; unfold fits in Y; nia).
  apply Rabs_le_inv in E1, E2. pose proof (sqrt_pos (IZR (dx * dx + dy * dy))) as SP.
  set (sx := nearest (IZR dx * IZR dx)) in *. set (sy := nearest (IZR dy * IZR dy)) in *. set (n := IZR (dx * dx + dy * dy)) in *.
  assert (En : n = IZR (dx * dx) + IZR (dy * dy)) by (unfold n; now rewrite plus_IZR).
  assert (Sx : 0 <= sx <= 2 * IZR (dx * dx)) by (rewrite Q1; nra). assert (Sy : 0 <= sy <= 2 * IZR (dy * dy)) by (rewrite Q2; nra).
  assert (Bs : n * (1 - unit32) <= sx + sy <= n * (1 + unit32)) by (rewrite Q1, Q2, En; nra).
  assert (P : (sx + sy = 0 /\ n = 0) \/ 1 <= sx + sy).
  { destruct (Z.eq_dec (dx * dx + dy * dy) 0) as [Z0|Z0].
    - left. assert (IZR (dx * dx) = 0) by (apply IZR_eq; nia). assert (IZR (dy * dy) = 0) by (apply IZR_eq; nia). lra.
    - right. destruct (Z.eq_dec dx 0) as [->|N].
      + pose proof (nearest_sq dy ltac:(nia)) as G. fold sy in G. lra.
      + pose proof (nearest_sq dx N) as G. fold sx in G. lra. }
  assert (R1 : exists e, Rabs e <= unit32 /\ nearest (sx + sy) = (sx + sy) * (1 + e)).
  { destruct (nearest_rel (sx + sy)) as (e & A & B); [|exists e; rewrite pow24 in A; auto]. rewrite Rabs_pos_eq by lra. tauto. }
  destruct R1 as (e3 & E3 & Q3). apply Rabs_le_inv in E3. set (s := nearest (sx + sy)) in *.
  assert (Ns : n <= 2147483648) by lra. assert (Nn : 0 <= n) by lra.
  assert (Bs2 : n * (1 - 3 * unit32) <= s <= n * (1 + 3 * unit32)).
  { rewrite Q3. apply rel_twice; try assumption. split; [exact U|unfold unit32; lra]. }
  assert (S0 : 0 <= s).
  { apply Rle_trans with (n * (1 - 3 * unit32)); [|apply Bs2]. apply Rmult_le_pos; [exact Nn|unfold unit32; lra]. }
  assert (R2 : exists e, Rabs e <= unit32 /\ nearest (sqrt s) = sqrt s * (1 + e)).
  { destruct (nearest_rel (sqrt s)) as (e & A & B); [|exists e; rewrite pow24 in A; auto].
    destruct P as [(P & Pn)|P].
    - left. assert (s = 0) as -> by nra. apply sqrt_0.
    - right. rewrite Rabs_pos_eq by apply sqrt_pos. rewrite <- sqrt_1. apply sqrt_le_1_alt. now apply nearest_ge1. }
  destruct R2 as (e4 & E4 & Q4). apply Rabs_le_inv in E4. set (L := line_length dx dy). assert (EL : L = sqrt n) by reflexivity.
  assert (LL : L * L = n) by (rewrite EL; apply sqrt_sqrt; lra). assert (L0 : 0 <= L) by (rewrite EL; apply sqrt_pos).
  pose proof (sqrt_sqrt s S0) as SS. pose proof (sqrt_pos s) as S1. set (q := sqrt s) in *.
  assert (U3 : unit32 <= / 1000) by (unfold unit32; lra).
  assert (Q5 : L * (1 - 16 / 10 * unit32) <= q <= L * (1 + 3 / 2 * unit32)).
  { apply rel_root; [exact L0|exact S1|split; [exact U|exact U3]|]. rewrite LL, SS. exact Bs2. }
  split; [|split].
  - unfold f32_length. apply sqrt32; [|exact S0]. apply add32.
    + apply mul32; [apply of_Z32; unfold fits in X; lia|apply of_Z32; unfold fits in X; lia|]. rewrite <- mult_IZR. apply abs_Z_le; [lia|]. apply Z.le_trans with (2 ^ 30)%Z; [unfold fits in X; nia|apply Z.pow_le_mono_r; lia].
    + apply mul32; [apply of_Z32; unfold fits in Y; lia|apply of_Z32; unfold fits in Y; lia|]. rewrite <- mult_IZR. apply abs_Z_le; [lia|]. apply Z.le_trans with (2 ^ 30)%Z; [unfold fits in Y; nia|apply Z.pow_le_mono_r; lia].
    + fold sx. fold sy. rewrite Rabs_pos_eq by lra. apply Rle_trans with (bpow radix2 33); [simpl; lra|apply bpow_le; lia].
  - unfold close. rewrite Q4. rewrite (Rabs_pos_eq L) by exact L0. rewrite pow24. replace (3 / 16777216 * L) with (3 * unit32 * L) by (unfold unit32; field).
    clear - Q5 L0 E4 U U3. assert (0 <= unit32 * L) by (apply Rmult_le_pos; lra). assert (unit32 * L * unit32 <= unit32 * L * / 1000) by (apply Rmult_le_compat_l; lra). assert (0 <= unit32 * L * unit32) by (apply Rmult_le_pos; lra).
    assert (0 <= q) by (apply Rle_trans with (L * (1 - 16 / 10 * unit32)); [apply Rmult_le_pos; lra|apply Q5]). apply Rabs_le. split.
    + apply Rle_trans with (q * (1 - unit32) - L); [|apply Rplus_le_compat_r, Rmult_le_compat_l; lra]. apply Rle_trans with (L * (1 - 16 / 10 * unit32) * (1 - unit32) - L); [lra|]. apply Rplus_le_compat_r, Rmult_le_compat_r; lra.
    + apply Rle_trans with (q * (1 + unit32) - L); [apply Rplus_le_compat_r, Rmult_le_compat_l; lra|]. apply Rle_trans with (L * (1 + 3 / 2 * unit32) * (1 + unit32) - L); [apply Rplus_le_compat_r, Rmult_le_compat_r; lra|lra].
  - fold L. apply Rsqr_incr_0_var; [unfold Rsqr; nra|lra].
Qed.

Lemma rounded_area : forall dx dy h, fits dx -> fits dy -> fits h ->
  exists l, single (f32_length dx dy) l /\ single (area dx dy h) (nearest (l * IZR h)) /\ close 5 (nearest (l * IZR h)) (wall_area dx dy h).
Proof.
  intros dx dy h X Y H. assert (U := unit_pos). destruct (rounded_length dx dy X Y) as (S & C & B). eexists. split; [exact S|].
  set (l := nearest (sqrt _)) in *. unfold close in C. rewrite pow24 in C. replace (3 / 16777216) with (3 * unit32) in C by (unfold unit32; field).
  assert (L0 : 0 <= line_length dx dy) by apply sqrt_pos. rewrite (Rabs_pos_eq _ L0) in C. apply Rabs_le_inv in C. set (L := line_length dx dy) in *.
  assert (U3 : unit32 <= / 1000) by (unfold unit32; lra). assert (UL : 0 <= unit32 * L) by (apply Rmult_le_pos; lra).
  assert (l0 : 0 <= l) by nra.
  assert (Hh : Rabs (IZR h) <= 32768) by (rewrite <- abs_IZR; apply IZR_le; unfold fits in H; lia).
  split.
  - unfold area. apply mul32; [exact S|apply of_Z32; unfold fits in H; lia|]. rewrite Rabs_mult, (Rabs_pos_eq l) by exact l0. apply Rle_trans with (131072 * 32768); [apply Rmult_le_compat; try lra; try apply Rabs_pos; nra|].
    apply Rle_trans with (bpow radix2 33); [simpl; lra|apply bpow_le; lia].
  - assert (R : exists e, Rabs e <= unit32 /\ nearest (l * IZR h) = l * IZR h * (1 + e)).
    { destruct (nearest_rel (l * IZR h)) as (e & A & D); [|exists e; rewrite pow24 in A; auto].
      destruct (Z.eq_dec h 0) as [->|N]; [left; ring|]. assert (1 <= Rabs (IZR h)) by (rewrite <- abs_IZR; apply (IZR_le 1); lia).
      destruct (Z.eq_dec (dx * dx + dy * dy) 0) as [Z0|Z0].
      - left. assert (L = 0) by (unfold L, line_length; rewrite Z0; apply sqrt_0). replace l with 0 by nra. ring.
      - right. rewrite Rabs_mult, (Rabs_pos_eq l) by exact l0. assert (1 <= l); [|rewrite <- (Rmult_1_l 1); apply Rmult_le_compat; lra].
        assert (1 <= L) by (unfold L, line_length; rewrite <- sqrt_1; apply sqrt_le_1_alt, (IZR_le 1); nia).
        unfold l. apply nearest_ge1. rewrite <- sqrt_1. apply sqrt_le_1_alt. apply nearest_ge1.
        assert (P1 : 0 <= nearest (IZR dx * IZR dx)). { destruct (rel_sq dx X) as (e & E & ->). apply Rabs_le_inv in E. apply Rmult_le_pos; [apply (IZR_le 0), sq_nonneg|lra]. }
        assert (P2 : 0 <= nearest (IZR dy * IZR dy)). { destruct (rel_sq dy Y) as (e & E & ->). apply Rabs_le_inv in E. apply Rmult_le_pos; [apply (IZR_le 0), sq_nonneg|lra]. }
        destruct (Z.eq_dec dx 0) as [->|Nx].
        + pose proof (nearest_sq dy ltac:(nia)) as G. lra.
        + pose proof (nearest_sq dx Nx) as G. lra. }
    destruct R as (e & E & ->). apply Rabs_le_inv in E. unfold close, wall_area. fold L. rewrite pow24. replace (5 / 16777216) with (5 * unit32) by (unfold unit32; field).
    replace (l * IZR h * (1 + e) - L * IZR h) with ((l * (1 + e) - L) * IZR h) by ring. rewrite !Rabs_mult, <- Rmult_assoc. apply Rmult_le_compat_r; [apply Rabs_pos|]. rewrite (Rabs_pos_eq L) by exact L0.
    apply Rabs_le. nra.
Qed.

(** Along an axis lengths are exact, and areas if they have 24 digits. *)
Lemma straight_lengths : forall d, fits d -> SFeqb (f32_length d 0) (f32_of_Z (Z.abs d)) = true /\ SFeqb (f32_length 0 d) (f32_of_Z (Z.abs d)) = true.
Proof.
  intros d H. apply andb_true_iff.
  apply (check_all 16 (-32768) (fun z => SFeqb (f32_length z 0) (f32_of_Z (Z.abs z)) && SFeqb (f32_length 0 z) (f32_of_Z (Z.abs z)))); [vm_compute; reflexivity|].
  unfold fits in H. lia.
Qed.
Lemma eq32 : forall x y a b, single x a -> single y b -> SFeqb x y = true -> a = b.
Proof.
  intros x y a b X Y E. destruct (single_B _ _ X) as (bx & <- & Fx & <-). destruct (single_B _ _ Y) as (by' & <- & Fy & <-).
  pose proof (Beqb_correct 24 128 bx by' Fx Fy) as C. unfold Beqb in C. rewrite C in E. destruct (Req_bool_spec (B2R bx) (B2R by')); [assumption|discriminate].
Qed.

Lemma straight_area : forall d h, fits d -> fits h -> (Z.abs (d * h) <= 2 ^ 24)%Z ->
  single (area d 0 h) (IZR (Z.abs d * h)) /\ single (area 0 d h) (IZR (Z.abs d * h)).
Proof.
  intros d h D H B. destruct (straight_lengths d D) as (E1 & E2). assert (F0 : fits 0) by (unfold fits; lia).
  assert (A : single (f32_of_Z (Z.abs d)) (IZR (Z.abs d))) by (apply of_Z32; unfold fits in D; lia).
  destruct (rounded_area d 0 h D F0 H) as (l & L & R & _). destruct (rounded_area 0 d h F0 D H) as (l' & L' & R' & _).
  rewrite (eq32 _ _ _ _ L A E1), <- mult_IZR, nearest_Z in R by lia. rewrite (eq32 _ _ _ _ L' A E2), <- mult_IZR, nearest_Z in R' by lia. auto.
Qed.
Lemma length_near : forall dx dy, fits dx -> fits dy ->
  exists l, l = nearest (sqrt (nearest (nearest (IZR dx * IZR dx) + nearest (IZR dy * IZR dy))))
    /\ single (f32_length dx dy) l /\ close 3 l (line_length dx dy).
Proof. intros dx dy X Y. destruct (rounded_length dx dy X Y) as (S & C & _). eexists. split; [reflexivity|]. split; [exact S|exact C]. Qed.
