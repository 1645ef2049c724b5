(** Intersections of segments with integer ends. *)

From Coq Require Import List ZArith Bool Reals Lra Lia QArith Qreals.
From Verif Require Import Base Float SpecFloat64 FloatFacts Geometry SpecShape ShapeFacts SpecIntersect RealFacts RealFacts2.
From Flocq Require Import Core.
Import ListNotations.
Local Open Scope Z_scope.

(** ** Integer vectors *)

Definition vint (p : point) (z : Z * Z) : Prop := is_int (px p) (fst z) /\ is_int (py p) (snd z).

Lemma at_z_vint : forall p z, at_z p z -> within (2 ^ 24) z -> vint p z.
Proof. intros p z H [W1 W2]. apply at_z_int in H; [exact H|pow_lia; lia..]. Qed.

Lemma sub_vint : forall p q z w, vint p z -> vint q w -> within (2 ^ 24) z -> within (2 ^ 24) w ->
  vint (p_sub p q) (vsub z w) /\ within (2 ^ 25) (vsub z w).
Proof.
  intros p q [zx zy] [wx wy] [A B] [C D] [W1 W2] [W3 W4]. cbn [fst snd] in *. pow_lia.
  split; [split|split]; cbn [fst snd p_sub px py vsub]; try (apply sub_int; auto; pow_lia; lia); lia.
Qed.

Lemma cross_vint : forall u v zu zv, vint u zu -> vint v zv -> within (2 ^ 25) zu -> within (2 ^ 25) zv ->
  is_int (v_cross u v) (vcross zu zv) /\ Z.abs (vcross zu zv) <= 2 ^ 51.
Proof.
  intros u v [a b] [c d] [A B] [C D] [W1 W2] [W3 W4]. cbn [fst snd] in *. unfold v_cross, vcross. cbn [fst snd].
  pose proof (mul_bound a d _ W1 W4) as M1. pose proof (mul_bound b c _ W2 W3) as M2.
  split; [|pow_lia; lia].
  apply sub_int; [apply mul_int; auto; pow_lia; lia..|pow_lia; lia].
Qed.
Lemma dot_vint : forall u v zu zv, vint u zu -> vint v zv -> within (2 ^ 25) zu -> within (2 ^ 25) zv ->
  is_int (v_dot u v) (vdot zu zv) /\ Z.abs (vdot zu zv) <= 2 ^ 51.
Proof.
  intros u v [a b] [c d] [A B] [C D] [W1 W2] [W3 W4]. cbn [fst snd] in *. unfold v_dot, vdot. cbn [fst snd].
  pose proof (mul_bound a c _ W1 W3) as M1. pose proof (mul_bound b d _ W2 W4) as M2.
  split; [|pow_lia; lia].
  apply add_int; [apply mul_int; auto; pow_lia; lia..|pow_lia; lia].
Qed.
Lemma vlen2_nonneg : forall u, 0 <= vlen2 u.
Proof. intros [a b]. unfold vlen2, vdot. cbn [fst snd]. nia. Qed.

(** ** Real bounds *)
Local Open Scope R_scope.

Lemma big_ok : forall x m, Rabs x <= m -> m <= 1267650600228229401496703205376 * 1267650600228229401496703205376 -> Rabs (rnd x) < huge.
Proof.
  intros x m H Hm. apply rnd_small. apply Rle_trans with (bpow radix2 200); [|apply bpow_le; lia].
  simpl. lra.
Qed.

Lemma is_int_abs : forall f z k, is_int f z -> (Z.abs z <= k)%Z -> Rabs (val f) <= IZR k.
Proof. intros f z k H Hk. destruct (is_int_val _ _ H) as [_ ->]. rewrite <- abs_IZR. now apply IZR_le. Qed.

Ltac rabs := repeat match goal with
  | H : Rabs _ <= _ |- _ => apply Rabs_le_inv in H
  end.
Lemma Rabs_lt_inv' : forall x m, Rabs x < m -> - m < x < m.
Proof. intros x m H. apply Rabs_def2 in H. lra. Qed.

Lemma em7_val : fin f64_1em7 /\ / 10000000 * (1 - / 1000000) <= val f64_1em7 <= / 10000000 * (1 + / 1000000).
Proof. split; [split; reflexivity|]. unfold f64_1em7. rewrite finite_val. simpl. lra. Qed.
Lemma em9_val : fin f64_1em9 /\ / 1000000000 * (1 - / 1000000) <= val f64_1em9 <= / 1000000000 * (1 + / 1000000).
Proof. split; [split; reflexivity|]. unfold f64_1em9. rewrite finite_val. simpl. lra. Qed.
Lemma em15_val : fin f64_1em15
  /\ / 1000000000000000 * (1 - / 1000000) <= val f64_1em15 <= / 1000000000000000 * (1 + / 1000000).
Proof. split; [split; reflexivity|]. unfold f64_1em15. rewrite finite_val. simpl. lra. Qed.
Lemma one_val : fin f64_one /\ val f64_one = 1.
Proof. apply (of_Z_val 1). cbn. lia. Qed.
Lemma zero_val : fin f64_zero /\ val f64_zero = 0.
Proof. apply zero_fin. Qed.

(** The error of one operation on numbers below a bound. *)
Lemma rnd_err_le : forall x m, Rabs x <= m -> - (ulp1 * m + ulp1 * ulp1 * ulp1) <= rnd x - x <= ulp1 * m + ulp1 * ulp1 * ulp1.
Proof. intros x m H. pose proof (rnd_err x) as E. apply Rabs_le_inv in E. lra. Qed.

(** *** The parallelism test *)

Lemma test_value : forall l0 l1 z0 z1, is_int l0 z0 -> is_int l1 z1 -> (0 <= z0 <= 2 ^ 51)%Z -> (0 <= z1 <= 2 ^ 51)%Z ->
  fin (f64_mul (f64_mul f64_1em7 l0) l1)
  /\ 0 <= val (f64_mul (f64_mul f64_1em7 l0) l1) <= / 10000000 * (1 + / 100000) * IZR (z0 * z1) + / 1000000.
Proof.
  intros l0 l1 z0 z1 H0 H1 B0 B1. destruct (is_int_val _ _ H0) as [F0 V0]. destruct (is_int_val _ _ H1) as [F1 V1].
  assert (P0 : 0 <= IZR z0 <= 2251799813685248) by (split; apply IZR_le; lia).
  assert (P1 : 0 <= IZR z1 <= 2251799813685248) by (split; apply IZR_le; lia).
  destruct em7_val as [F7 V7]. set (c := val f64_1em7) in *.
  assert (C0 : 0 <= c * IZR z0 <= / 10000000 * (1 + / 1000000) * IZR z0) by nra.
  assert (A0 : Rabs (val f64_1em7 * val l0) <= 2251799813685248).
  { rewrite V0. fold c. apply Rabs_le. lra. }
  destruct (mul_val _ _ F7 F0 (big_ok _ _ A0 ltac:(lra))) as [Fm Vm].
  set (m := f64_mul f64_1em7 l0) in *. rewrite V0 in Vm. fold c in Vm.
  assert (M0 : 0 <= val m) by (rewrite Vm, <- rnd_0; apply rnd_le; lra).
  assert (M1 : val m <= c * IZR z0 * (1 + ulp1) + ulp1 * ulp1 * ulp1).
  { rewrite Vm. pose proof (rnd_err_le (c * IZR z0) (c * IZR z0) ltac:(rewrite Rabs_pos_eq; lra)). lra. }
  rewrite mult_IZR.
  assert (M2 : val m * IZR z1 <= / 10000000 * (1 + / 500000) * (IZR z0 * IZR z1) + / 10000000).
  { apply Rle_trans with ((/ 10000000 * (1 + / 500000) * IZR z0 + ulp1 * ulp1 * ulp1) * IZR z1).
    - apply Rmult_le_compat_r; lra.
    - assert (ulp1 * ulp1 * ulp1 * IZR z1 <= / 10000000) by nra. nra. }
  assert (M3 : 0 <= val m * IZR z1) by nra.
  assert (PP : 0 <= IZR z0 * IZR z1 <= 5070602400912917605986812821504) by nra.
  assert (A1 : Rabs (val m * val l1) <= 5070602400912917605986812821504).
  { rewrite V1. apply Rabs_le. lra. }
  destruct (mul_val _ _ Fm F1 (big_ok _ _ A1 ltac:(lra))) as [Fr Vr].
  split; [exact Fr|]. rewrite Vr, V1. split; [rewrite <- rnd_0; apply rnd_le; lra|].
  pose proof (rnd_err_le (val m * IZR z1) (val m * IZR z1) ltac:(rewrite Rabs_pos_eq; lra)) as E. lra.
Qed.

Lemma square_value : forall k z, is_int k z -> (Z.abs z <= 2 ^ 51)%Z ->
  fin (f64_mul k k) /\ val (f64_mul k k) >= (1 - / 1000000) * IZR (z * z) - / 1000000 /\ (z = 0%Z -> val (f64_mul k k) = 0).
Proof.
  intros k z H B. destruct (is_int_val _ _ H) as [F V].
  pose proof (is_int_abs _ _ _ H B) as A. change (IZR (2 ^ 51)) with 2251799813685248 in A.
  assert (Z2 : 0 <= val k * val k <= 5070602400912917605986812821504).
  { apply Rabs_le_inv in A. nra. }
  destruct (mul_val k k F F (big_ok (val k * val k) 5070602400912917605986812821504 ltac:(rewrite Rabs_pos_eq; lra) ltac:(lra))) as [Fm Vm].
  split; [exact Fm|]. split.
  - rewrite mult_IZR, <- V, Vm.
    pose proof (rnd_err_le (val k * val k) (val k * val k) ltac:(rewrite Rabs_pos_eq; lra)). lra.
  - intros ->. rewrite Vm, V. rewrite Rmult_0_l. apply rnd_0.
Qed.

Lemma test_clear : forall k l0 l1 z z0 z1, is_int k z -> is_int l0 z0 -> is_int l1 z1 ->
  (Z.abs z <= 2 ^ 51)%Z -> (0 <= z0 <= 2 ^ 51)%Z -> (0 <= z1 <= 2 ^ 51)%Z ->
  z <> 0%Z -> (1001 * (z0 * z1) <= 10 ^ 10 * (z * z))%Z ->
  f64_gt (f64_mul k k) (f64_mul (f64_mul f64_1em7 l0) l1) = true.
Proof.
  intros k l0 l1 z z0 z1 Hk H0 H1 B B0 B1 Hz T.
  destruct (square_value _ _ Hk B) as (F & V & _). destruct (test_value _ _ _ _ H0 H1 B0 B1) as (F' & _ & V').
  rewrite gt_val by assumption. apply Rlt_bool_true.
  apply IZR_le in T. rewrite !(mult_IZR 1001), (mult_IZR (10 ^ 10)) in T.
  change (IZR (10 ^ 10)) with 10000000000 in T.
  assert (1 <= IZR (z * z)) by (apply IZR_le; nia). lra.
Qed.

Lemma test_zero : forall k l0 l1 z0 z1, is_int k 0 -> is_int l0 z0 -> is_int l1 z1 ->
  (0 <= z0 <= 2 ^ 51)%Z -> (0 <= z1 <= 2 ^ 51)%Z ->
  f64_gt (f64_mul k k) (f64_mul (f64_mul f64_1em7 l0) l1) = false.
Proof.
  intros k l0 l1 z0 z1 Hk H0 H1 B0 B1.
  destruct (square_value _ _ Hk ltac:(cbn; lia)) as (F & _ & V). destruct (test_value _ _ _ _ H0 H1 B0 B1) as (F' & V' & _).
  rewrite gt_val by assumption. apply Rlt_bool_false. rewrite V by reflexivity. exact V'.
Qed.

(** *** Quotients *)

Lemma frac_gap : forall n k, k <> 0%Z -> (Z.abs k <= 2 ^ 51)%Z -> 0 < IZR n / IZR k -> bpow radix2 (-51) <= IZR n / IZR k.
Proof.
  intros n k Hk Bk H.
  assert (K0 : IZR k <> 0) by (apply not_0_IZR; exact Hk).
  assert (NZ : n <> 0%Z). { intros ->. unfold Rdiv in H. rewrite Rmult_0_l in H. lra. }
  rewrite <- (Rabs_pos_eq (IZR n / IZR k)) by lra. unfold Rdiv. rewrite Rabs_mult, Rabs_inv, <- !abs_IZR.
  assert (0 < IZR (Z.abs k)) by (apply IZR_lt; lia).
  assert (1 <= IZR (Z.abs n)) by (apply IZR_le; lia).
  assert (IZR (Z.abs k) <= 2251799813685248) by (apply IZR_le; lia).
  apply Rle_trans with (1 * / IZR (Z.abs k)).
  - rewrite Rmult_1_l. simpl. apply Rinv_le; lra.
  - apply Rmult_le_compat_r; [|lra]. left. now apply Rinv_0_lt_compat.
Qed.

Lemma quot_bound : forall n k, k <> 0%Z -> (Z.abs n <= 2 ^ 51)%Z -> Rabs (IZR n / IZR k) <= 2251799813685248.
Proof.
  intros n k Hk Bn.
  assert (K0 : IZR k <> 0) by (apply not_0_IZR; exact Hk).
  unfold Rdiv. rewrite Rabs_mult, Rabs_inv, <- !abs_IZR.
  assert (1 <= IZR (Z.abs k)) by (apply IZR_le; lia).
  assert (0 <= IZR (Z.abs n) <= 2251799813685248) by (split; apply IZR_le; lia).
  apply Rle_trans with (IZR (Z.abs n) * 1); [|lra]. apply Rmult_le_compat_l; [lra|].
  rewrite <- Rinv_1. apply Rinv_le; lra.
Qed.

Lemma quot_val : forall fn fk n k, is_int fn n -> is_int fk k -> k <> 0%Z -> (Z.abs n <= 2 ^ 51)%Z ->
  fin (f64_div fn fk) /\ val (f64_div fn fk) = rnd (IZR n / IZR k).
Proof.
  intros fn fk n k Hn Hk K0 Bn. destruct (is_int_val _ _ Hn) as [Fn Vn]. destruct (is_int_val _ _ Hk) as [Fk Vk].
  pose proof (quot_bound n k K0 Bn) as Q. rewrite <- Vn, <- Vk in *.
  assert (val fk <> 0) by (rewrite Vk; now apply not_0_IZR).
  apply div_val; auto. apply (big_ok _ _ Q). lra.
Qed.

(** Rounding a quotient never moves it across 0 or 1. *)
Lemma rnd_quot_lt0 : forall n k, k <> 0%Z -> (Z.abs k <= 2 ^ 51)%Z -> (rnd (IZR n / IZR k) < 0 <-> IZR n / IZR k < 0).
Proof.
  intros n k Hk Bk. split; intros H.
  - destruct (Rlt_or_le (IZR n / IZR k) 0) as [L|L]; [exact L|]. exfalso.
    apply rnd_le in L. rewrite rnd_0 in L. lra.
  - assert (G : bpow radix2 (-51) <= IZR (- n) / IZR k).
    { apply frac_gap; auto. rewrite opp_IZR. unfold Rdiv in *. lra. }
    rewrite opp_IZR in G.
    assert (L : IZR n / IZR k <= - bpow radix2 (-51)) by (unfold Rdiv in *; lra).
    apply rnd_le in L. rewrite rnd_opp, rnd_bpow in L by lia. pose proof (bpow_gt_0 radix2 (-51)). lra.
Qed.
Lemma rnd_quot_gt1 : forall n k, k <> 0%Z -> (Z.abs k <= 2 ^ 51)%Z -> (1 < rnd (IZR n / IZR k) <-> 1 < IZR n / IZR k).
Proof.
  intros n k Hk Bk. split; intros H.
  - destruct (Rlt_or_le 1 (IZR n / IZR k)) as [L|L]; [exact L|]. exfalso.
    apply rnd_le in L. rewrite rnd_1 in L. lra.
  - assert (K0 : IZR k <> 0) by (now apply not_0_IZR).
    assert (G : bpow radix2 (-51) <= IZR (n - k) / IZR k).
    { apply frac_gap; auto. rewrite minus_IZR.
      replace ((IZR n - IZR k) / IZR k) with (IZR n / IZR k - 1) by (field; auto). lra. }
    rewrite minus_IZR in G. replace ((IZR n - IZR k) / IZR k) with (IZR n / IZR k - 1) in G by (field; auto).
    assert (L : IZR (2 ^ 51 + 1) * bpow radix2 (-51) <= IZR n / IZR k).
    { simpl in *. lra. }
    apply rnd_le in L. rewrite rnd_scaled in L by (cbn; lia). simpl in L. lra.
Qed.

(** *** The point on the segment *)

(** Bounds: error of the computed coordinates; radius within which [snap] acts. *)
Notation err := (/ 62500000) (only parsing).
Notation radius := (/ 31250000) (only parsing).

Lemma coord_val : forall p d s zp zd sigma, is_int p zp -> is_int d zd -> (Z.abs zp <= 2 ^ 24)%Z -> (Z.abs zd <= 2 ^ 25)%Z ->
  fin s -> 0 <= sigma <= 1 -> Rabs (val s - sigma) <= ulp1 + ulp1 * ulp1 * ulp1 ->
  fin (f64_add p (f64_mul d s))
  /\ Rabs (val (f64_add p (f64_mul d s)) - (IZR zp + IZR zd * sigma)) <= err.
Proof.
  intros p d s zp zd sigma Hp Hd Bp Bd Fs Hs Es.
  destruct (is_int_val _ _ Hp) as [Fp Vp]. destruct (is_int_val _ _ Hd) as [Fd Vd].
  pose proof (is_int_abs _ _ _ Hp Bp) as Ap. pose proof (is_int_abs _ _ _ Hd Bd) as Ad.
  change (IZR (2 ^ 24)) with 16777216 in Ap. change (IZR (2 ^ 25)) with 33554432 in Ad.
  rewrite Vp in Ap. rewrite Vd in Ad.
  set (P := IZR zp) in *. set (D := IZR zd) in *.
  apply Rabs_le_inv in Ap. apply Rabs_le_inv in Ad. apply Rabs_le_inv in Es.
  set (v := val s) in *.
  assert (E1 : - (33554432 * (ulp1 + ulp1 * ulp1 * ulp1)) <= D * v - D * sigma <= 33554432 * (ulp1 + ulp1 * ulp1 * ulp1)).
  { replace (D * v - D * sigma) with (D * (v - sigma)) by ring. split; nra. }
  assert (E2 : -33554432 <= D * sigma <= 33554432) by nra.
  assert (A1 : Rabs (D * v) <= 33554433) by (apply Rabs_le; lra).
  destruct (mul_val d s Fd Fs) as [Fm Vm].
  { rewrite Vd. fold D v. apply (big_ok _ _ A1). lra. }
  rewrite Vd in Vm. fold D v in Vm.
  pose proof (rnd_err_le _ _ A1) as R1. rewrite <- Vm in R1. set (m := val (f64_mul d s)) in *.
  assert (A2 : Rabs (P + m) <= 50331650) by (apply Rabs_le; lra).
  destruct (add_val p _ Fp Fm) as [Fa Va].
  { rewrite Vp. fold P m. apply (big_ok _ _ A2). lra. }
  rewrite Vp in Va. fold P m in Va.
  pose proof (rnd_err_le _ _ A2) as R2. rewrite <- Va in R2.
  split; [exact Fa|]. apply Rabs_le. lra.
Qed.

(** *** Snapping *)

Definition pfin (p : point) : Prop :=
  fin (px p) /\ fin (py p) /\ Rabs (val (px p)) <= 134217728 /\ Rabs (val (py p)) <= 134217728.
Definition close (r : R) (p : point) (z : Z * Z) : Prop :=
  Rabs (val (px p) - IZR (fst z)) <= r /\ Rabs (val (py p) - IZR (snd z)) <= r.

Lemma vint_pfin : forall p z, vint p z -> within (2 ^ 24) z -> pfin p.
Proof.
  intros p z [A B] [W1 W2]. pose proof (is_int_abs _ _ _ A W1). pose proof (is_int_abs _ _ _ B W2).
  change (IZR (2 ^ 24)) with 16777216 in *.
  repeat split; try (apply (is_int_val _ _ A)); try (apply (is_int_val _ _ B)); lra.
Qed.

Lemma sqlen_test : forall p e z, pfin p -> vint e z -> within (2 ^ 24) z ->
  (close err p z -> f64_lt (v_square_length (p_sub p e)) f64_1em15 = true)
  /\ (f64_lt (v_square_length (p_sub p e)) f64_1em15 = true -> close radius p z).
Proof.
  intros p e [zx zy] (Fx & Fy & Bx & By) [Ix Iy] [W1 W2]. cbn [fst snd] in *.
  destruct (is_int_val _ _ Ix) as [Gx Vx]. destruct (is_int_val _ _ Iy) as [Gy Vy].
  pose proof (is_int_abs _ _ _ Ix W1) as Cx. pose proof (is_int_abs _ _ _ Iy W2) as Cy.
  change (IZR (2 ^ 24)) with 16777216 in *.
  unfold v_square_length, v_dot, p_sub, close. cbn [px py fst snd].
  rewrite <- Vx, <- Vy. set (X := val (px p)) in *. set (Y := val (py p)) in *.
  set (U := val (px e)) in *. set (W := val (py e)) in *.
  assert (Dx : Rabs (X - U) <= 200000000) by (apply Rabs_le_inv in Bx, Cx; apply Rabs_le; lra).
  assert (Dy : Rabs (Y - W) <= 200000000) by (apply Rabs_le_inv in By, Cy; apply Rabs_le; lra).
  destruct (sub_val (px p) (px e) Fx Gx (big_ok _ _ Dx ltac:(lra))) as [Fdx Vdx].
  destruct (sub_val (py p) (py e) Fy Gy (big_ok _ _ Dy ltac:(lra))) as [Fdy Vdy].
  set (dx := f64_sub (px p) (px e)) in *. set (dy := f64_sub (py p) (py e)) in *.
  fold X U in Vdx. fold Y W in Vdy.
  pose proof (rnd_err (X - U)) as Ex. pose proof (rnd_err (Y - W)) as Ey.
  rewrite <- Vdx in Ex. rewrite <- Vdy in Ey.
  assert (Tx : Rabs (val dx) <= Rabs (X - U) * (1 + ulp1) + ulp1 * ulp1 * ulp1).
  { pose proof (Rabs_triang (val dx - (X - U)) (X - U)) as T.
    replace (val dx - (X - U) + (X - U)) with (val dx) in T by ring. lra. }
  assert (Ty : Rabs (val dy) <= Rabs (Y - W) * (1 + ulp1) + ulp1 * ulp1 * ulp1).
  { pose proof (Rabs_triang (val dy - (Y - W)) (Y - W)) as T.
    replace (val dy - (Y - W) + (Y - W)) with (val dy) in T by ring. lra. }
  assert (Sx : Rabs (X - U) * (1 - ulp1) - ulp1 * ulp1 * ulp1 <= Rabs (val dx)).
  { pose proof (Rabs_triang (X - U - val dx) (val dx)) as T.
    replace (X - U - val dx + val dx) with (X - U) in T by ring. rewrite (Rabs_minus_sym (X - U)) in T. lra. }
  assert (Sy : Rabs (Y - W) * (1 - ulp1) - ulp1 * ulp1 * ulp1 <= Rabs (val dy)).
  { pose proof (Rabs_triang (Y - W - val dy) (val dy)) as T.
    replace (Y - W - val dy + val dy) with (Y - W) in T by ring. rewrite (Rabs_minus_sym (Y - W)) in T. lra. }
  assert (Qx : val dx * val dx = Rabs (val dx) * Rabs (val dx)) by (rewrite <- Rabs_mult, Rabs_pos_eq; nra).
  assert (Qy : val dy * val dy = Rabs (val dy) * Rabs (val dy)) by (rewrite <- Rabs_mult, Rabs_pos_eq; nra).
  pose proof (Rabs_pos (val dx)) as Px. pose proof (Rabs_pos (val dy)) as Py.
  set (ax := Rabs (val dx)) in *. set (ay := Rabs (val dy)) in *.
  assert (A400 : ax <= 400000000) by lra. assert (B400 : ay <= 400000000) by lra.
  assert (Mx : Rabs (val dx * val dx) <= 160000000000000000).
  { rewrite Qx. rewrite Rabs_pos_eq by nra. nra. }
  assert (My : Rabs (val dy * val dy) <= 160000000000000000).
  { rewrite Qy. rewrite Rabs_pos_eq by nra. nra. }
  destruct (mul_val dx dx Fdx Fdx (big_ok _ _ Mx ltac:(lra))) as [Fmx Vmx].
  destruct (mul_val dy dy Fdy Fdy (big_ok _ _ My ltac:(lra))) as [Fmy Vmy].
  set (mx := f64_mul dx dx) in *. set (my := f64_mul dy dy) in *.
  pose proof (rnd_err_le (val dx * val dx) (ax * ax) ltac:(rewrite Qx, Rabs_pos_eq; nra)) as Rx.
  pose proof (rnd_err_le (val dy * val dy) (ay * ay) ltac:(rewrite Qy, Rabs_pos_eq; nra)) as Ry.
  rewrite <- Vmx, Qx in Rx. rewrite <- Vmy, Qy in Ry.
  assert (Nx : 0 <= val mx) by (rewrite Vmx, <- rnd_0; apply rnd_le; rewrite Qx; nra).
  assert (Ny : 0 <= val my) by (rewrite Vmy, <- rnd_0; apply rnd_le; rewrite Qy; nra).
  assert (X0 : 0 <= ax * ax) by (apply Rmult_le_pos; assumption).
  assert (Y0 : 0 <= ay * ay) by (apply Rmult_le_pos; assumption).
  assert (XX : ax * ax <= 400000000 * 400000000) by (apply Rmult_le_compat; assumption).
  assert (YY : ay * ay <= 400000000 * 400000000) by (apply Rmult_le_compat; assumption).
  assert (Ma : Rabs (val mx + val my) <= 400000000000000000) by (rewrite Rabs_pos_eq by lra; lra).
  destruct (add_val mx my Fmx Fmy (big_ok _ _ Ma ltac:(lra))) as [Fs Vs].
  pose proof (rnd_err_le (val mx + val my) (val mx + val my) ltac:(rewrite Rabs_pos_eq; lra)) as Rs.
  rewrite <- Vs in Rs.
  destruct em15_val as [F15 V15].
  rewrite lt_val by assumption. split.
  - intros [C1 C2]. apply Rlt_bool_true.
    assert (ax <= / 62499999) by lra. assert (ay <= / 62499999) by lra.
    assert (ax * ax <= / 62499999 * / 62499999) by (apply Rmult_le_compat; lra).
    assert (ay * ay <= / 62499999 * / 62499999) by (apply Rmult_le_compat; lra).
    lra.
  - intros T. 
    assert (T' : val (f64_add mx my) < val f64_1em15).
    { destruct (Rlt_bool_spec (val (f64_add mx my)) (val f64_1em15)); [assumption|discriminate]. }
    assert (S2 : ax * ax + ay * ay <= / 999900000000000) by lra.
    assert (L : forall t, 0 <= t -> t * t <= / 999900000000000 -> t <= / 31260000).
    { intros t Ht H. destruct (Rle_or_lt t (/ 31260000)) as [G|G]; [exact G|]. exfalso.
      assert (/ 31260000 * / 31260000 <= t * t) by (apply Rmult_le_compat; lra). lra. }
    pose proof (L ax Px ltac:(lra)). pose proof (L ay Py ltac:(lra)). lra.
Qed.

Lemma near_int_eq : forall x a b, Rabs (x - IZR a) <= / 4 -> Rabs (x - IZR b) <= / 4 -> a = b.
Proof.
  intros x a b Ha Hb. apply Rabs_le_inv in Ha, Hb.
  assert (-1 < IZR (a - b) < 1) by (rewrite minus_IZR; lra).
  assert (-1 < a - b < 1)%Z by (split; apply lt_IZR; lra). lia.
Qed.

Lemma vint_close : forall p z r, vint p z -> 0 <= r -> close r p z.
Proof.
  intros p z r [A B] Hr. destruct (is_int_val _ _ A) as [_ Va]. destruct (is_int_val _ _ B) as [_ Vb].
  unfold close. rewrite Va, Vb. rewrite !Rminus_diag_eq by reflexivity. rewrite Rabs_R0. auto.
Qed.

Lemma close_eq : forall p z w, close (/ 4) p z -> close (/ 4) p w -> z = w.
Proof.
  intros p [a b] [c d] [A B] [C D]. cbn [fst snd] in *.
  f_equal; eapply near_int_eq; eassumption.
Qed.
Lemma close_le : forall r r' p z, close r p z -> r <= r' -> close r' p z.
Proof. intros r r' p z [A B] H. split; lra. Qed.

Lemma snap_cons : forall e l p, snap (e :: l) p
  = snap l (if f64_lt (v_square_length (p_sub p e)) f64_1em15 then e else p).
Proof. reflexivity. Qed.

Lemma snap_vint : forall ends zs p z, Forall2 vint ends zs -> Forall (within (2 ^ 24)) zs ->
  vint p z -> within (2 ^ 24) z -> vint (snap ends p) z.
Proof.
  induction ends as [|e l IH]; intros zs p z F W Hp Wz; [exact Hp|].
  inversion F as [|e' w l' zs' He Fl]; subst. inversion W as [|? ? Ww Wl]; subst.
  rewrite snap_cons. destruct (f64_lt _ _) eqn:T; [|eapply IH; eauto].
  apply (sqlen_test p e w (vint_pfin _ _ Hp Wz) He Ww) in T.
  assert (w = z) as ->.
  { apply (close_eq p); [apply (close_le radius); [exact T|lra]|apply vint_close; [exact Hp|lra]]. }
  eapply IH; eauto.
Qed.

Lemma snap_spec : forall ends zs p, Forall2 vint ends zs -> Forall (within (2 ^ 24)) zs -> pfin p ->
  (forall z, In z zs -> close err p z -> vint (snap ends p) z)
  /\ fin (px (snap ends p)) /\ fin (py (snap ends p))
  /\ Rabs (val (px (snap ends p)) - val (px p)) <= radius
  /\ Rabs (val (py (snap ends p)) - val (py p)) <= radius.
Proof.
  induction ends as [|e l IH]; intros zs p F W Hp.
  - inversion F; subst. split; [intros z []|]. destruct Hp as (A & B & _). cbn.
    rewrite !Rminus_diag_eq by reflexivity. rewrite Rabs_R0. repeat split; try apply A; try apply B; lra.
  - inversion F as [|e' w l' zs' He Fl]; subst. inversion W as [|? ? Ww Wl]; subst.
    rewrite snap_cons. destruct (sqlen_test p e w Hp He Ww) as [T1 T2].
    destruct (f64_lt _ _) eqn:T.
    + specialize (T2 eq_refl). pose proof (snap_vint l zs' e w Fl Wl He Ww) as V.
      split.
      * intros z Hz Cz. assert (z = w) as ->; [|exact V].
        apply (close_eq p); [apply (close_le err)|apply (close_le radius)]; auto; lra.
      * destruct V as [V1 V2]. destruct (is_int_val _ _ V1) as [F1 E1]. destruct (is_int_val _ _ V2) as [F2 E2].
        split; [exact F1|]. split; [exact F2|]. destruct T2 as [T2 T3]. rewrite E1, E2.
        split; rewrite Rabs_minus_sym; assumption.
    + destruct (IH zs' p Fl Wl Hp) as [I1 I2]. split; [|exact I2].
      intros z [<-|Hz] Cz; [exfalso; specialize (T1 Cz); congruence|]. auto.
Qed.

(** *** Rounding almost-integers *)

Lemma round_near_val : forall x, fin x -> Rabs (val x) <= 134217728 ->
  fin (round_near x) /\ Rabs (val (round_near x) - val x) <= / 900000000.
Proof.
  intros x Fx Bx. unfold round_near. destruct (f64_lt _ _) eqn:T.
  - destruct (round_val x Fx) as (Fr & zr & Vr & Er). split; [exact Fr|].
    destruct (trunc_val x Fx) as (Ft & zt & Vt & Et & Lt).
    assert (D1 : Rabs (val x - val (f64_trunc x)) <= 1) by (rewrite Vt; lra).
    destruct (sub_val x _ Fx Ft (big_ok _ _ D1 ltac:(lra))) as [Ff Vf].
    change (f64_sub x (f64_trunc x)) with (f64_fract x) in *.
    destruct (abs_val _ Ff) as [Fa Va]. destruct em9_val as [F9 V9].
    rewrite lt_val in T by assumption.
    assert (T' : val (f64_abs (f64_fract x)) < val f64_1em9).
    { destruct (Rlt_bool_spec (val (f64_abs (f64_fract x))) (val f64_1em9)); [assumption|discriminate]. }
    rewrite Va, Vf, Vt in T'. pose proof (rnd_err (val x - IZR zt)) as E.
    assert (S : Rabs (val x - IZR zt) <= / 900000000).
    { pose proof (Rabs_triang (val x - IZR zt - rnd (val x - IZR zt)) (rnd (val x - IZR zt))) as G.
      replace (val x - IZR zt - rnd (val x - IZR zt) + rnd (val x - IZR zt)) with (val x - IZR zt) in G by ring.
      rewrite (Rabs_minus_sym (val x - IZR zt)) in G. pose proof (Rabs_pos (val x - IZR zt)). lra. }
    assert (zr = zt).
    { apply Rabs_le_inv in S, Er. assert (-1 < IZR (zr - zt) < 1) by (rewrite minus_IZR; lra).
      assert (-1 < zr - zt < 1)%Z by (split; apply lt_IZR; lra). lia. }
    subst zr. rewrite Vr. rewrite Rabs_minus_sym. exact S.
  - split; [exact Fx|]. rewrite Rminus_diag_eq by reflexivity. rewrite Rabs_R0. lra.
Qed.

Lemma round_near_int : forall x z, is_int x z -> (Z.abs z <= 2 ^ 24)%Z -> is_int (round_near x) z.
Proof.
  intros x z H B. unfold round_near. destruct (f64_lt _ _); [|exact H].
  destruct (is_int_val _ _ H) as [F V]. destruct (round_val x F) as (Fr & zr & Vr & Er).
  assert (zr = z).
  { rewrite V in Er. apply Rabs_le_inv in Er. rewrite <- minus_IZR in Er.
    assert (-1 < z - zr < 1)%Z by (split; apply lt_IZR; lra). lia. }
  subst zr. apply val_is_int; [exact Fr|exact Vr|pow_lia; lia].
Qed.
