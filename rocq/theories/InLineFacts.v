(** Parallel segments with integer ends. *)

From Coq Require Import List ZArith Bool Reals Lra Lia QArith Qreals.
From Verif Require Import Base Float SpecFloat64 FloatFacts Geometry MapFacts SpecShape ShapeFacts SpecIntersect RealFacts RealFacts2
  IntersectFacts CrossingFacts.
From Flocq Require Import Core.
Import ListNotations.
Local Open Scope R_scope.

(** ** Exact geometry *)

Section Line.
Variables za zb zc zd : Z * Z.
Hypothesis HL : in_line za zb zc zd.
Local Notation u0 := (vsub zb za).
Local Notation u1 := (vsub zd zc).
Local Notation sep := (vsub zc za).
Local Notation L := (vlen2 u0).
Local Notation A := (vdot u0 sep).
Local Notation B := (vdot u0 u1).

Lemma line_pos : (0 < L)%Z /\ (0 < B)%Z.
Proof using HL.
  destruct HL as (_ & _ & H). split; [|exact H].
  pose proof (vlen2_nonneg u0) as P. unfold vlen2 in *.
  destruct u0 as [x y]. unfold vdot in *. cbn [fst snd] in *.
  destruct (Z.eq_dec x 0), (Z.eq_dec y 0); subst; [|nia..]. rewrite !Z.mul_0_l in H. lia.
Qed.

Lemma line_eqs : (L * fst sep = A * fst u0 /\ L * snd sep = A * snd u0
  /\ L * fst u1 = B * fst u0 /\ L * snd u1 = B * snd u0)%Z.
Proof using HL.
  destruct HL as (H1 & H2 & _). unfold vlen2, vdot, vcross in *.
  set (x := fst u0) in *. set (y := snd u0) in *. set (p := fst u1) in *. set (q := snd u1) in *.
  set (s := fst sep) in *. set (t := snd sep) in *.
  assert (E1 : (x * q = y * p)%Z) by lia. assert (E2 : (s * y = t * x)%Z) by lia.
  repeat split.
  - replace ((x * x + y * y) * s)%Z with (x * x * s + y * (s * y))%Z by ring. rewrite E2. ring.
  - replace ((x * s + y * t) * y)%Z with (x * (s * y) + y * t * y)%Z by ring. rewrite E2. ring.
  - replace ((x * p + y * q) * x)%Z with (x * x * p + y * (x * q))%Z by ring. rewrite E1. ring.
  - replace ((x * x + y * y) * q)%Z with (y * y * q + x * (x * q))%Z by ring. rewrite E1. ring.
Qed.

(** Common points, by their position along the first segment. *)
Lemma line_params : forall x y, on_both za zb zc zd x y -> exists t,
  0 <= t <= 1 /\ IZR A / IZR L <= t <= IZR (A + B) / IZR L
  /\ Q2R x = IZR (fst za) + t * IZR (fst u0) /\ Q2R y = IZR (snd za) + t * IZR (snd u0).
Proof using HL.
  intros x y [H1 H2]. apply seg_real in H1, H2. destruct H1 as (t & T & Tx & Ty). destruct H2 as (u & U & Ux & Uy).
  exists t. split; [exact T|]. split; [|auto].
  destruct line_pos as [Lp Bp]. destruct line_eqs as (E1 & E2 & E3 & E4).
  apply IZR_lt in Lp, Bp.
  assert (G : t * IZR L = IZR A + u * IZR B).
  { assert (Gx : IZR (fst sep) = t * IZR (fst u0) - u * IZR (fst u1)).
    { unfold vsub at 1. cbn [fst]. rewrite minus_IZR. lra. }
    assert (Gy : IZR (snd sep) = t * IZR (snd u0) - u * IZR (snd u1)).
    { unfold vsub at 1. cbn [snd]. rewrite minus_IZR. lra. }
    assert (EA : IZR A = IZR (fst u0) * IZR (fst sep) + IZR (snd u0) * IZR (snd sep))
      by (unfold vdot; now rewrite plus_IZR, !mult_IZR).
    assert (EB : IZR B = IZR (fst u0) * IZR (fst u1) + IZR (snd u0) * IZR (snd u1))
      by (unfold vdot; now rewrite plus_IZR, !mult_IZR).
    assert (EL : IZR L = IZR (fst u0) * IZR (fst u0) + IZR (snd u0) * IZR (snd u0))
      by (unfold vlen2, vdot; now rewrite plus_IZR, !mult_IZR).
    rewrite EA, EB, EL, Gx, Gy. ring. }
  rewrite plus_IZR. split; (apply Rmult_le_reg_r with (IZR L); [lra|]); unfold Rdiv;
    rewrite Rmult_assoc, Rinv_l by lra; rewrite G; nra.
Qed.

(** Ends of one segment on the other. *)
Lemma on_seg_int : forall a b z n m, (0 < m)%Z -> (0 <= n <= m)%Z ->
  (m * (fst z - fst a) = n * (fst b - fst a))%Z -> (m * (snd z - snd a) = n * (snd b - snd a))%Z ->
  on_segment a b (inject_Z (fst z)) (inject_Z (snd z)).
Proof using.
  intros a b z n m Hm Hn Ex Ey. exists (n # Z.to_pos m).
  assert (Em : Z.pos (Z.to_pos m) = m) by (now apply Z2Pos.id).
  unfold Qle, Qeq, Qplus, Qmult, inject_Z. cbn [Qnum Qden]. rewrite ?Pos.mul_1_l, ?Pos.mul_1_r, ?Z.mul_1_r, Em.
  repeat split; lia.
Qed.

Lemma on_seg_start : forall a b, on_segment a b (inject_Z (fst a)) (inject_Z (snd a)).
Proof using. intros. apply (on_seg_int a b a 0 1); lia. Qed.
Lemma on_seg_end : forall a b, on_segment a b (inject_Z (fst b)) (inject_Z (snd b)).
Proof using. intros. apply (on_seg_int a b b 1 1); lia. Qed.

Lemma cancel : forall x y, (L * x = L * y)%Z -> x = y.
Proof using HL. intros x y H. destruct line_pos. apply Z.mul_cancel_l in H; lia. Qed.

Lemma a_on_second : (0 <= - A <= B)%Z -> on_segment zc zd (inject_Z (fst za)) (inject_Z (snd za)).
Proof using HL.
  intros H. destruct line_pos as [_ Bp]. destruct line_eqs as (E1 & E2 & E3 & E4).
  set (l := L) in *. set (a := A) in *. set (b := B) in *. clearbody a b.
  apply (on_seg_int zc zd za (- a) b); [lia|lia| |]; apply cancel; fold l; unfold vsub in *; cbn [fst snd] in *.
  - replace (l * (b * (fst za - fst zc)))%Z with (- (b * (l * (fst zc - fst za))))%Z by ring.
    replace (l * (- a * (fst zd - fst zc)))%Z with (- (a * (l * (fst zd - fst zc))))%Z by ring. rewrite E1, E3. ring.
  - replace (l * (b * (snd za - snd zc)))%Z with (- (b * (l * (snd zc - snd za))))%Z by ring.
    replace (l * (- a * (snd zd - snd zc)))%Z with (- (a * (l * (snd zd - snd zc))))%Z by ring. rewrite E2, E4. ring.
Qed.
Lemma b_on_second : (0 <= L - A <= B)%Z -> on_segment zc zd (inject_Z (fst zb)) (inject_Z (snd zb)).
Proof using HL.
  intros H. destruct line_pos as [_ Bp]. destruct line_eqs as (E1 & E2 & E3 & E4).
  set (l := L) in *. set (a := A) in *. set (b := B) in *. clearbody a b.
  apply (on_seg_int zc zd zb (l - a) b); [lia|lia| |]; apply cancel; fold l; unfold vsub in *; cbn [fst snd] in *.
  - replace (l * (b * (fst zb - fst zc)))%Z with (l * b * (fst zb - fst za) - b * (l * (fst zc - fst za)))%Z by ring.
    replace (l * ((l - a) * (fst zd - fst zc)))%Z with ((l - a) * (l * (fst zd - fst zc)))%Z by ring. rewrite E1, E3. ring.
  - replace (l * (b * (snd zb - snd zc)))%Z with (l * b * (snd zb - snd za) - b * (l * (snd zc - snd za)))%Z by ring.
    replace (l * ((l - a) * (snd zd - snd zc)))%Z with ((l - a) * (l * (snd zd - snd zc)))%Z by ring. rewrite E2, E4. ring.
Qed.
Lemma c_on_first : (0 <= A <= L)%Z -> on_segment za zb (inject_Z (fst zc)) (inject_Z (snd zc)).
Proof using HL.
  intros H. destruct line_pos as [Lp _]. destruct line_eqs as (E1 & E2 & E3 & E4).
  apply (on_seg_int za zb zc A L); [lia|lia|exact E1|exact E2].
Qed.
Lemma d_on_first : (0 <= A + B <= L)%Z -> on_segment za zb (inject_Z (fst zd)) (inject_Z (snd zd)).
Proof using HL.
  intros H. destruct line_pos as [Lp _]. destruct line_eqs as (E1 & E2 & E3 & E4).
  apply (on_seg_int za zb zd (A + B) L); [lia|lia| |]; unfold vsub in *; cbn [fst snd] in *; lia.
Qed.

(** The second segment's start, seen from the first. *)
Lemma c_pos : IZR (fst zc) = IZR (fst za) + IZR (fst u0) * (IZR A / IZR L)
  /\ IZR (snd zc) = IZR (snd za) + IZR (snd u0) * (IZR A / IZR L).
Proof using HL.
  destruct line_pos as [Lp _]. destruct line_eqs as (E1 & E2 & _). apply IZR_lt in Lp.
  apply (f_equal IZR) in E1, E2. rewrite !mult_IZR in E1, E2.
  assert (S1 : IZR (fst sep) = IZR (fst zc) - IZR (fst za)) by (unfold vsub; cbn [fst]; apply minus_IZR).
  assert (S2 : IZR (snd sep) = IZR (snd zc) - IZR (snd za)) by (unfold vsub; cbn [snd]; apply minus_IZR).
  split.
  - replace (IZR (fst u0) * (IZR A / IZR L)) with (IZR A * IZR (fst u0) * / IZR L) by (field; lra).
    rewrite <- E1, S1. field; lra.
  - replace (IZR (snd u0) * (IZR A / IZR L)) with (IZR A * IZR (snd u0) * / IZR L) by (field; lra).
    rewrite <- E2, S2. field; lra.
Qed.

Lemma dir_nonzero : u0 <> (0, 0)%Z.
Proof using HL. intros E. destruct line_pos as [Lp _]. rewrite E in Lp. cbn in Lp. lia. Qed.
End Line.

(** ** Rounding *)

Lemma rnd_quot_lt1 : forall n k, k <> 0%Z -> (Z.abs k <= 2 ^ 51)%Z -> (rnd (IZR n / IZR k) < 1 <-> IZR n / IZR k < 1).
Proof.
  intros n k Hk Bk. split; intros H.
  - destruct (Rlt_or_le (IZR n / IZR k) 1) as [G|G]; [exact G|]. exfalso.
    apply rnd_le in G. rewrite rnd_1 in G. lra.
  - assert (K0 : IZR k <> 0) by (now apply not_0_IZR).
    assert (G : bpow radix2 (-51) <= IZR (k - n) / IZR k).
    { apply frac_gap; auto. rewrite minus_IZR.
      replace ((IZR k - IZR n) / IZR k) with (1 - IZR n / IZR k) by (field; auto). lra. }
    rewrite minus_IZR in G. replace ((IZR k - IZR n) / IZR k) with (1 - IZR n / IZR k) in G by (field; auto).
    assert (G' : IZR n / IZR k <= IZR (2 ^ 51 - 1) * bpow radix2 (-51)) by (simpl in *; lra).
    apply rnd_le in G'. rewrite rnd_scaled in G' by (cbn; lia). simpl in G'. lra.
Qed.

Lemma rnd_quot_pos : forall n k, (0 < n)%Z -> (0 < k <= 2 ^ 51)%Z ->
  IZR n / IZR k * (1 - ulp1) <= rnd (IZR n / IZR k) <= IZR n / IZR k * (1 + ulp1)
  /\ / 2251799813685248 <= IZR n / IZR k /\ / 2251799813685248 <= rnd (IZR n / IZR k).
Proof.
  intros n k Hn Hk.
  assert (P : 0 < IZR n / IZR k).
  { apply IZR_lt in Hn. destruct Hk as [Hk _]. apply IZR_lt in Hk. unfold Rdiv.
    apply Rmult_lt_0_compat; [lra|]. now apply Rinv_0_lt_compat. }
  pose proof (frac_gap n k ltac:(lia) ltac:(lia) P) as G.
  pose proof (rnd_le _ _ G) as G'. rewrite rnd_bpow in G' by lia.
  assert (R : Rabs (rnd (IZR n / IZR k) - IZR n / IZR k) <= ulp1 * Rabs (IZR n / IZR k)).
  { apply rnd_rel. rewrite Rabs_pos_eq by lra. apply Rle_trans with (2 := G). apply bpow_le. lia. }
  rewrite (Rabs_pos_eq (IZR n / IZR k)) in R by lra. apply Rabs_le_inv in R.
  simpl in G, G'. repeat split; lra.
Qed.

(** Quotients with the same denominator stay apart. *)
Lemma rnd_quot_apart : forall n m k, (0 < n < m)%Z -> (m <= 2 ^ 51)%Z -> (0 < k <= 2 ^ 51)%Z ->
  rnd (IZR n / IZR k) + bpow radix2 (-110) <= rnd (IZR m / IZR k).
Proof.
  intros n m k Hnm Bm Hk.
  destruct (rnd_quot_pos n k ltac:(lia) Hk) as (N1 & N2 & _). destruct (rnd_quot_pos m k ltac:(lia) Hk) as (M1 & _).
  assert (K : 0 < / IZR k) by (apply Rinv_0_lt_compat, IZR_lt; lia).
  assert (Q : IZR n / IZR k * (1 + 4 * ulp1) <= IZR m / IZR k).
  { unfold Rdiv. rewrite Rmult_assoc, (Rmult_comm (/ IZR k)), <- Rmult_assoc. apply Rmult_le_compat_r; [lra|].
    assert (IZR n + 1 <= IZR m) by (rewrite <- plus_IZR; apply IZR_le; lia).
    assert (IZR n <= 2251799813685248) by (apply IZR_le; lia). lra. }
  assert (S : bpow radix2 (-110) <= ulp1 * (IZR n / IZR k)) by (simpl; lra).
  set (x := IZR n / IZR k) in *. set (y := IZR m / IZR k) in *. lra.
Qed.

(** The sign of the position of the second segment's end. *)
Lemma end_sign : forall a b l, (0 < b)%Z -> (0 < l <= 2 ^ 51)%Z -> (Z.abs a <= 2 ^ 51)%Z -> (b <= 2 ^ 51)%Z ->
  let s1 := rnd (rnd (IZR a / IZR l) + rnd (IZR b / IZR l)) in
  ((a + b < 0)%Z -> s1 < 0) /\ ((a + b = 0)%Z -> s1 = 0) /\ ((0 < a + b)%Z -> 0 < s1).
Proof.
  intros a b l Hb Hl Ba Bb s1.
  assert (NEG : forall n, IZR (- n) / IZR l = - (IZR n / IZR l)) by (intros; rewrite opp_IZR; unfold Rdiv; ring).
  pose proof (bpow_gt_0 radix2 (-110)) as TP.
  assert (UP : forall x, bpow radix2 (-110) <= x -> 0 < rnd x).
  { intros x H. apply rnd_le in H. rewrite rnd_bpow in H by lia. lra. }
  unfold s1. repeat split; intros H.
  - assert (G : rnd (IZR b / IZR l) + bpow radix2 (-110) <= rnd (IZR (- a) / IZR l)) by (apply rnd_quot_apart; lia).
    rewrite NEG, rnd_opp in G.
    pose proof (UP (- (rnd (IZR a / IZR l) + rnd (IZR b / IZR l))) ltac:(lra)) as P. rewrite rnd_opp in P. lra.
  - replace a with (- b)%Z by lia. rewrite NEG, rnd_opp. rewrite Rplus_opp_l. apply rnd_0.
  - apply UP. destruct (Z_lt_le_dec a 0) as [N|N].
    + assert (G : rnd (IZR (- a) / IZR l) + bpow radix2 (-110) <= rnd (IZR b / IZR l)) by (apply rnd_quot_apart; lia).
      rewrite NEG, rnd_opp in G. lra.
    + assert (0 <= rnd (IZR a / IZR l)).
      { rewrite <- rnd_0. apply rnd_le. unfold Rdiv. apply Rmult_le_pos; [now apply IZR_le|].
        left. apply Rinv_0_lt_compat, IZR_lt. lia. }
      destruct (rnd_quot_pos b l Hb Hl) as (_ & _ & G). apply Rle_trans with (/ 2251799813685248); [simpl; lra|lra].
Qed.

(** ** The code *)

Lemma parallel_apart : forall a b c d za zb zc zd,
  at_z a za -> at_z b zb -> at_z c zc -> at_z d zd ->
  within (2 ^ 24) za -> within (2 ^ 24) zb -> within (2 ^ 24) zc -> within (2 ^ 24) zd ->
  vcross (vsub zb za) (vsub zd zc) = 0%Z -> clearly_crossing (vsub zc za) (vsub zb za) ->
  intersect_segments (a, b) (c, d) = INone /\ forall x y, ~ on_both za zb zc zd x y.
Proof.
  intros a b c d za zb zc zd Ha Hb Hc Hd Wa Wb Wc Wd Hk [Hm T].
  apply at_z_vint in Ha, Hb, Hc, Hd; try assumption.
  destruct (sub_vint _ _ _ _ Hb Ha Wb Wa) as [I0 W0]. destruct (sub_vint _ _ _ _ Hd Hc Wd Wc) as [I1 W1].
  destruct (sub_vint _ _ _ _ Hc Ha Wc Wa) as [Is Ws].
  split.
  - unfold intersect_segments. cbn [fst snd]. unfold v_square_length.
    destruct (cross_vint _ _ _ _ I0 I1 W0 W1) as [Ik Bk].
    destruct (dot_vint _ _ _ _ I0 I0 W0 W0) as [Il0 Bl0]. destruct (dot_vint _ _ _ _ I1 I1 W1 W1) as [Il1 Bl1].
    destruct (dot_vint _ _ _ _ Is Is Ws Ws) as [Ils Bls].
    destruct (cross_vint _ _ _ _ Is I0 Ws W0) as [Im Bm].
    pose proof (vlen2_nonneg (vsub zb za)) as L0. pose proof (vlen2_nonneg (vsub zd zc)) as L1.
    pose proof (vlen2_nonneg (vsub zc za)) as L2. unfold vlen2 in *. rewrite Hk in Ik.
    rewrite (test_zero _ _ _ _ _ Ik Il0 Il1) by lia.
    rewrite (test_clear _ _ _ _ _ _ Im Il0 Ils); [reflexivity|lia..].
  - intros x y [H1 H2]. apply seg_real in H1, H2. destruct H1 as (t & _ & Tx & Ty). destruct H2 as (u & _ & Ux & Uy).
    apply Hm. apply eq_IZR. apply (f_equal IZR) in Hk. unfold vcross in *. rewrite minus_IZR, !mult_IZR in *.
    assert (Gx : IZR (fst (vsub zc za)) = t * IZR (fst (vsub zb za)) - u * IZR (fst (vsub zd zc))).
    { unfold vsub at 1. cbn [fst]. rewrite minus_IZR. lra. }
    assert (Gy : IZR (snd (vsub zc za)) = t * IZR (snd (vsub zb za)) - u * IZR (snd (vsub zd zc))).
    { unfold vsub at 1. cbn [snd]. rewrite minus_IZR. lra. }
    rewrite Gx, Gy. 
    replace ((t * IZR (fst (vsub zb za)) - u * IZR (fst (vsub zd zc))) * IZR (snd (vsub zb za))
      - (t * IZR (snd (vsub zb za)) - u * IZR (snd (vsub zd zc))) * IZR (fst (vsub zb za)))
      with (u * (IZR (fst (vsub zb za)) * IZR (snd (vsub zd zc)) - IZR (snd (vsub zb za)) * IZR (fst (vsub zd zc)))) by ring.
    rewrite Hk. ring.
Qed.

(** Snapping the computed start of an overlap. *)
Lemma start_snapped : forall a b c d za zb zc zd e s sigma,
  vint a za -> vint b zb -> vint c zc -> vint d zd ->
  within (2 ^ 24) za -> within (2 ^ 24) zb -> within (2 ^ 24) zc -> within (2 ^ 24) zd ->
  fin s -> 0 <= sigma <= 1 -> Rabs (val s - sigma) <= ulp1 + ulp1 * ulp1 * ulp1 -> In e [za; zb; zc; zd] ->
  IZR (fst e) = IZR (fst za) + IZR (fst (vsub zb za)) * sigma ->
  IZR (snd e) = IZR (snd za) + IZR (snd (vsub zb za)) * sigma ->
  at_z (snap [a; b; c; d] (p_add a (v_scale (p_sub b a) s))) e.
Proof.
  intros a b c d za zb zc zd e s sigma Ha Hb Hc Hd Wa Wb Wc Wd Fs Hs Es He Ex Ey.
  destruct (sub_vint _ _ _ _ Hb Ha Wb Wa) as [I0 W0].
  assert (F2 : Forall2 vint [a; b; c; d] [za; zb; zc; zd]).
  { constructor; [exact Ha|]. constructor; [exact Hb|]. constructor; [exact Hc|]. constructor; [exact Hd|constructor]. }
  assert (FW : Forall (within (2 ^ 24)) [za; zb; zc; zd]).
  { constructor; [exact Wa|]. constructor; [exact Wb|]. constructor; [exact Wc|]. constructor; [exact Wd|constructor]. }
  destruct Ha as [Hax Hay]. destruct I0 as [I0x I0y].
  destruct (coord_val _ _ _ _ _ _ Hax I0x (proj1 Wa) (proj1 W0) Fs Hs Es) as [Fx Dx].
  destruct (coord_val _ _ _ _ _ _ Hay I0y (proj2 Wa) (proj2 W0) Fs Hs Es) as [Fy Dy].
  rewrite <- Ex in Dx. rewrite <- Ey in Dy.
  set (p := p_add a (v_scale (p_sub b a) s)).
  change (f64_add (px a) (f64_mul (px (p_sub b a)) s)) with (px p) in Fx, Dx.
  change (f64_add (py a) (f64_mul (py (p_sub b a)) s)) with (py p) in Fy, Dy.
  assert (We : within (2 ^ 24) e) by (rewrite Forall_forall in FW; now apply FW).
  destruct We as [We1 We2]. apply IZR_le in We1, We2. rewrite abs_IZR in We1, We2.
  change (IZR (2 ^ 24)) with 16777216 in We1, We2.
  assert (PF : pfin p).
  { split; [exact Fx|]. split; [exact Fy|]. apply Rabs_le_inv in We1, We2, Dx, Dy. split; apply Rabs_le; lra. }
  destruct (snap_spec _ _ p F2 FW PF) as (S2 & _).
  apply vint_at_z, S2; [exact He|]. split; assumption.
Qed.

Lemma min_max_val : forall x y, fin x -> fin y -> val x <= val y ->
  (fin (f64_min x y) /\ val (f64_min x y) = val x) /\ (fin (f64_max x y) /\ val (f64_max x y) = val y).
Proof.
  intros x y Fx Fy H. unfold f64_min, f64_max.
  assert (Nx : f64_is_nan x = false) by (destruct Fx as [A _]; destruct x; try discriminate; reflexivity).
  assert (Ny : f64_is_nan y = false) by (destruct Fy as [A _]; destruct y; try discriminate; reflexivity).
  rewrite Nx, Ny. cbn [orb]. rewrite lt_val by assumption.
  destruct (Rlt_bool_spec (val x) (val y)) as [G|G]; [auto|]. assert (val x = val y) by lra.
  split; split; auto; lra.
Qed.

Lemma in_line_spec : forall a b c d za zb zc zd,
  at_z a za -> at_z b zb -> at_z c zc -> at_z d zd ->
  within (2 ^ 24) za -> within (2 ^ 24) zb -> within (2 ^ 24) zc -> within (2 ^ 24) zd ->
  in_line za zb zc zd ->
  match intersect_segments (a, b) (c, d) with
  | INone => forall x y, ~ on_both za zb zc zd x y
  | IPoint p => exists e, In e [za; zb; zc; zd] /\ at_z p e /\ forall x y, on_both za zb zc zd x y <-> is_at e x y
  | ISegment p _ => exists e e', e <> e' /\ In e [za; zb; zc; zd] /\ at_z p e
      /\ on_both za zb zc zd (inject_Z (fst e)) (inject_Z (snd e))
      /\ on_both za zb zc zd (inject_Z (fst e')) (inject_Z (snd e'))
      /\ forall x y, on_both za zb zc zd x y -> ahead e (vsub zb za) x y
  end.
Proof.
  intros a b c d za zb zc zd Ha Hb Hc Hd Wa Wb Wc Wd HL.
  apply at_z_vint in Ha, Hb, Hc, Hd; try assumption.
  destruct (sub_vint _ _ _ _ Hb Ha Wb Wa) as [I0 W0]. destruct (sub_vint _ _ _ _ Hd Hc Wd Wc) as [I1 W1].
  destruct (sub_vint _ _ _ _ Hc Ha Wc Wa) as [Is Ws].
  pose proof HL as (Hk & Hm & _).
  destruct (line_pos _ _ _ _ HL) as [Lp Bp].
  pose proof (line_params _ _ _ _ HL) as LP. pose proof (c_pos _ _ _ _ HL) as CP.
  unfold intersect_segments. cbn [fst snd]. unfold v_square_length.
  destruct (cross_vint _ _ _ _ I0 I1 W0 W1) as [Ik Bk].
  destruct (dot_vint _ _ _ _ I0 I0 W0 W0) as [Il0 Bl0]. destruct (dot_vint _ _ _ _ I1 I1 W1 W1) as [Il1 Bl1].
  destruct (dot_vint _ _ _ _ Is Is Ws Ws) as [Ils Bls].
  destruct (cross_vint _ _ _ _ Is I0 Ws W0) as [Im Bm].
  destruct (dot_vint _ _ _ _ I0 Is W0 Ws) as [Ia Ba]. destruct (dot_vint _ _ _ _ I0 I1 W0 W1) as [Ib Bb].
  pose proof (vlen2_nonneg (vsub zd zc)) as L1. pose proof (vlen2_nonneg (vsub zc za)) as L2.
  rewrite Hk in Ik. rewrite Hm in Im. unfold vlen2 in *.
  rewrite (test_zero _ _ _ _ _ Ik Il0 Il1) by lia. rewrite (test_zero _ _ _ _ _ Im Il0 Ils) by lia.
  clear Ik Im Il1 Ils Bl1 Bls Bk Bm L1 L2.
  destruct (quot_val _ _ _ _ Ia Il0 ltac:(lia) Ba) as [Fs0 Vs0].
  destruct (quot_val _ _ _ _ Ib Il0 ltac:(lia) Bb) as [Ft Vt].
  set (A := vdot (vsub zb za) (vsub zc za)) in *. set (B := vdot (vsub zb za) (vsub zd zc)) in *.
  set (L := vdot (vsub zb za) (vsub zb za)) in *.
  set (s0 := f64_div (v_dot (p_sub b a) (p_sub c a)) (v_dot (p_sub b a) (p_sub b a))) in *.
  set (t := f64_div (v_dot (p_sub b a) (p_sub d c)) (v_dot (p_sub b a) (p_sub b a))) in *.
  assert (Bs : Rabs (val s0 + val t) <= 4503599627370498).
  { rewrite Vs0, Vt.
    pose proof (quot_bound A L ltac:(lia) Ba) as Q1. pose proof (quot_bound B L ltac:(lia) Bb) as Q2.
    pose proof (rnd_abs_le (IZR A / IZR L) 51 ltac:(lia) Q1) as Q3.
    pose proof (rnd_abs_le (IZR B / IZR L) 51 ltac:(lia) Q2) as Q4. simpl in Q3, Q4.
    apply Rabs_le_inv in Q3, Q4. apply Rabs_le. lra. }
  destruct (add_val s0 t Fs0 Ft (big_ok _ _ Bs ltac:(lra))) as [Fs1 Vs1].
  set (s1 := f64_add s0 t) in *.
  destruct (rnd_quot_pos B L Bp ltac:(lia)) as (Tb & Tg & Tg').
  assert (LE : val s0 <= val s1).
  { rewrite Vs1. rewrite <- (rnd_val s0 Fs0) at 1. apply rnd_le. rewrite Vt. lra. }
  destruct (min_max_val s0 s1 Fs0 Fs1 LE) as [[Fmin Vmin] [Fmax Vmax]].
  set (smin := f64_min s0 s1) in *. set (smax := f64_max s0 s1) in *.
  destruct (end_sign A B L Bp ltac:(lia) Ba ltac:(lia)) as (Sn & Sz & Sp).
  rewrite <- Vs0, <- Vt, <- Vs1 in Sn, Sz, Sp.
  destruct zero_val as [F0 V0]. destruct one_val as [F1 V1].
  pose proof (rnd_quot_gt1 A L ltac:(lia) ltac:(lia)) as G1. pose proof (rnd_quot_lt1 A L ltac:(lia) ltac:(lia)) as G2.
  pose proof (rnd_quot_lt0 A L ltac:(lia) ltac:(lia)) as G3.
  rewrite <- Vs0 in G1, G2, G3.
  assert (LR : 0 < IZR L) by (now apply IZR_lt).
  assert (QA : IZR A / IZR L * IZR L = IZR A) by (field; lra).
  assert (QB : IZR (A + B) / IZR L * IZR L = IZR (A + B)) by (field; lra).
  assert (CmpA1 : (IZR A / IZR L <= 1 <-> (A <= L)%Z) /\ (IZR A / IZR L < 1 <-> (A < L)%Z)).
  { split; split; intros H; [apply le_IZR|apply IZR_le in H|apply lt_IZR|apply IZR_lt in H]; nra. }
  assert (CmpA0 : IZR A / IZR L < 0 <-> (A < 0)%Z).
  { split; intros H; [apply lt_IZR|apply IZR_lt in H]; nra. }
  assert (Start : forall e s sigma, fin s -> 0 <= sigma <= 1 -> Rabs (val s - sigma) <= ulp1 + ulp1 * ulp1 * ulp1 ->
     In e [za; zb; zc; zd] ->
     IZR (fst e) = IZR (fst za) + IZR (fst (vsub zb za)) * sigma ->
     IZR (snd e) = IZR (snd za) + IZR (snd (vsub zb za)) * sigma ->
     at_z (snap [a; b; c; d] (p_add a (v_scale (p_sub b a) s))) e).
  { intros. eapply start_snapped; eassumption. }
  unfold check_span_overlap. rewrite !lt_val, !gt_val by assumption. rewrite V0, V1, Vmin, Vmax.
  destruct (Rlt_bool_spec 1 (val s0)) as [C1|C1].
  { cbn [orb]. intros x y H. destruct (LP _ _ H) as (p & P1 & P2 & _). apply G1 in C1. lra. }
  destruct (Rlt_bool_spec (val s1) 0) as [C2|C2].
  { cbn [orb]. intros x y H. destruct (LP _ _ H) as (p & P1 & P2 & _).
    assert (N : (A + B < 0)%Z).
    { destruct (Z.lt_trichotomy (A + B) 0) as [N|[N|N]]; [exact N|apply Sz in N; lra|apply Sp in N; lra]. }
    apply IZR_lt in N. nra. }
  cbn [orb].
  assert (AL : (A <= L)%Z). { apply CmpA1. destruct (Rle_or_lt (IZR A / IZR L) 1) as [H|H]; [exact H|]. apply G1 in H. lra. }
  assert (ABn : (0 <= A + B)%Z). { destruct (Z_lt_le_dec (A + B) 0) as [N|N]; [|exact N]. apply Sn in N. lra. }
  destruct (Rlt_bool_spec (val s0) 1) as [C3|C3].
  - assert (AL' : (A < L)%Z) by (apply CmpA1, G2, C3).
    destruct (Rlt_bool_spec 0 (val s1)) as [C4|C4].
    + (* a proper overlap *)
      assert (ABp : (0 < A + B)%Z).
      { destruct (Z.eq_dec (A + B) 0) as [E|E]; [|lia]. apply Sz in E. lra. }
      destruct (min_max_val f64_zero f64_one F0 F1 ltac:(lra)) as [_ _].
      assert (BG : fin (f64_max f64_zero smin) /\ val (f64_max f64_zero smin) = Rmax 0 (val s0)).
      { unfold f64_max. cbn [f64_is_nan f64_zero orb]. rewrite lt_val, V0, Vmin by assumption.
        destruct (Rlt_bool_spec 0 (val s0)); [rewrite Rmax_right by lra|rewrite Rmax_left by lra]; auto. }
      assert (EN : fin (f64_min f64_one smax) /\ val (f64_min f64_one smax) = Rmin 1 (val s1)).
      { unfold f64_min.
        assert (Ny : f64_is_nan smax = false) by (destruct Fmax as [X _]; destruct smax; try discriminate; reflexivity).
        rewrite Ny. cbn [orb]. rewrite lt_val, V1, Vmax by assumption.
        destruct (Rlt_bool_spec 1 (val s1)); [rewrite Rmin_left by lra|rewrite Rmin_right by lra]; auto. }
      destruct BG as [Fb Vb]. destruct EN as [Fe Ve].
      assert (ST : val s0 < val s1).
      { destruct (Rle_or_lt (val s0) 0) as [N|N]; [lra|]. rewrite Vs1.
        assert (TT : val t <= 2251799813685248).
        { rewrite Vt. pose proof (quot_bound B L ltac:(lia) Bb) as Q2.
          pose proof (rnd_abs_le (IZR B / IZR L) 51 ltac:(lia) Q2) as Q4. simpl in Q4. apply Rabs_le_inv in Q4. lra. }
        rewrite <- Vt in Tg'.
        pose proof (rnd_err_le (val s0 + val t) (val s0 + val t) ltac:(rewrite Rabs_pos_eq; lra)). lra. }
      rewrite eq_val by assumption. rewrite Req_bool_false.
      2:{ rewrite Vb, Ve. apply Rlt_not_eq. apply Rmax_lub_lt; apply Rmin_glb_lt; lra. }
      assert (EB : exists e', on_both za zb zc zd (inject_Z (fst e')) (inject_Z (snd e'))
        /\ (IZR (fst e') = IZR (fst za) + IZR (fst (vsub zb za)) * Rmin 1 (IZR (A + B) / IZR L))
        /\ (IZR (snd e') = IZR (snd za) + IZR (snd (vsub zb za)) * Rmin 1 (IZR (A + B) / IZR L))).
      { destruct (Z_le_gt_dec L (A + B)) as [G|G].
        - exists zb. split; [|].
          + split; [apply on_seg_end|]. apply (b_on_second _ _ _ _ HL). fold A B L. unfold vlen2. fold L. lia.
          + apply IZR_le in G. rewrite Rmin_left by nra. unfold vsub. cbn [fst snd]. rewrite !minus_IZR. lra.
        - exists zd. split; [|].
          + split; [|apply on_seg_end]. apply (d_on_first _ _ _ _ HL). fold A B. unfold vlen2. fold L. lia.
          + assert (G' : (A + B <= L)%Z) by lia. apply IZR_le in G'. rewrite Rmin_right by nra.
            destruct (line_eqs _ _ _ _ HL) as (E1 & E2 & E3 & E4). unfold vlen2 in *. fold A B L in E1, E2, E3, E4.
            apply (f_equal IZR) in E1, E2, E3, E4. rewrite !mult_IZR in E1, E2, E3, E4.
            rewrite plus_IZR.
            assert (X1 : IZR (fst zd) - IZR (fst za) = IZR (fst (vsub zc za)) + IZR (fst (vsub zd zc)))
              by (unfold vsub; cbn [fst]; rewrite !minus_IZR; lra).
            assert (X2 : IZR (snd zd) - IZR (snd za) = IZR (snd (vsub zc za)) + IZR (snd (vsub zd zc)))
              by (unfold vsub; cbn [snd]; rewrite !minus_IZR; lra).
            split; apply Rmult_eq_reg_l with (IZR L); try lra;
              [replace (IZR (fst zd)) with (IZR (fst za) + (IZR (fst (vsub zc za)) + IZR (fst (vsub zd zc)))) by lra
              |replace (IZR (snd zd)) with (IZR (snd za) + (IZR (snd (vsub zc za)) + IZR (snd (vsub zd zc)))) by lra];
              rewrite !Rmult_plus_distr_l;
              [replace (IZR L * (IZR (fst (vsub zb za)) * ((IZR A + IZR B) / IZR L)))
                 with (IZR A * IZR (fst (vsub zb za)) + IZR B * IZR (fst (vsub zb za))) by (field; lra)
              |replace (IZR L * (IZR (snd (vsub zb za)) * ((IZR A + IZR B) / IZR L)))
                 with (IZR A * IZR (snd (vsub zb za)) + IZR B * IZR (snd (vsub zb za))) by (field; lra)]; lra. }
      destruct EB as (e' & EB1 & EB2 & EB3).
      assert (SB : exists e sigma, In e [za; zb; zc; zd] /\ sigma = Rmax 0 (IZR A / IZR L)
        /\ on_both za zb zc zd (inject_Z (fst e)) (inject_Z (snd e))
        /\ IZR (fst e) = IZR (fst za) + IZR (fst (vsub zb za)) * sigma
        /\ IZR (snd e) = IZR (snd za) + IZR (snd (vsub zb za)) * sigma
        /\ Rabs (val (f64_max f64_zero smin) - sigma) <= ulp1 + ulp1 * ulp1 * ulp1 /\ 0 <= sigma <= 1).
      { destruct (Z_le_gt_dec A 0) as [G|G].
        - exists za, (Rmax 0 (IZR A / IZR L)). apply IZR_le in G.
          assert (N : IZR A / IZR L <= 0) by nra.
          assert (N' : val s0 <= 0). { rewrite Vs0, <- rnd_0. now apply rnd_le. }
          rewrite Vb, !Rmax_left by lra. split; [now left|]. split; [reflexivity|]. split.
          + split; [apply on_seg_start|]. apply (a_on_second _ _ _ _ HL). fold A B. apply le_IZR in G. lia.
          + rewrite Rminus_diag_eq by reflexivity. rewrite Rabs_R0. repeat split; lra.
        - exists zc, (Rmax 0 (IZR A / IZR L)).
          assert (G' : (0 <= A)%Z) by lia. apply IZR_le in G'.
          assert (N : 0 <= IZR A / IZR L <= 1) by (split; [nra|]; apply CmpA1; lia).
          assert (N' : 0 <= val s0). { rewrite Vs0, <- rnd_0. apply rnd_le. lra. }
          rewrite Vb, !Rmax_right by lra. split; [right; right; now left|]. split; [reflexivity|]. split.
          + split; [|apply on_seg_start]. apply (c_on_first _ _ _ _ HL). fold A. unfold vlen2. fold L. lia.
          + unfold vlen2 in CP. fold A L in CP. repeat split; try apply CP; try lra.
            rewrite Vs0. pose proof (rnd_err_le (IZR A / IZR L) 1 ltac:(rewrite Rabs_pos_eq; lra)) as E.
            apply Rabs_le. lra. }
      destruct SB as (e & sigma & He & Hsig & SB1 & SB2 & SB3 & SB4 & SB5).
      exists e, e'. split; [|split; [exact He|split; [|split; [exact SB1|split; [exact EB1|]]]]].
      * intros <-. assert (QAB : IZR A / IZR L < IZR (A + B) / IZR L).
        { apply Rmult_lt_reg_r with (IZR L); [lra|]. rewrite QA, QB. apply IZR_lt. lia. }
        assert (sigma < Rmin 1 (IZR (A + B) / IZR L)).
        { apply IZR_lt in ABp. assert (Z1 : 0 < IZR (A + B) / IZR L) by nra.
          assert (Z2 : IZR A / IZR L < 1) by (apply CmpA1; lia).
          rewrite Hsig. apply Rmax_lub_lt; apply Rmin_glb_lt; lra. }
        apply (dir_nonzero _ _ _ _ HL). destruct (vsub zb za) as [ux uy]. cbn [fst snd] in *.
        f_equal; apply eq_IZR; nra.
      * apply (Start e _ sigma); assumption.
      * intros x y H. destruct (LP _ _ H) as (p & P1 & P2 & P3 & P4). unfold ahead.
        apply Rle_Qle. rewrite Q2R_plus, !Q2R_mult, !Q2R_minus, !Q2R_Z, P3, P4, SB2, SB3.
        replace (Q2R 0) with 0 by (unfold Q2R; simpl; lra).
        assert (sigma <= p). { rewrite Hsig. unfold vlen2 in P2. fold A B L in P2. apply Rmax_lub; lra. }
        set (ux := IZR (fst (vsub zb za))). set (uy := IZR (snd (vsub zb za))).
        replace ((IZR (fst za) + p * ux - (IZR (fst za) + ux * sigma)) * ux +
           (IZR (snd za) + p * uy - (IZR (snd za) + uy * sigma)) * uy) with ((p - sigma) * (ux * ux + uy * uy)) by ring.
        apply Rmult_le_pos; [lra|]. nra.
    + (* the second segment ends where the first starts *)
      assert (AB0 : (A + B = 0)%Z).
      { destruct (Z.eq_dec (A + B) 0) as [E|E]; [exact E|]. assert (P : (0 < A + B)%Z) by lia. apply Sp in P. lra. }
      rewrite eq_val by assumption. rewrite Req_bool_true by reflexivity.
      exists za. split; [now left|]. split.
      * apply (Start za f64_zero 0); [exact F0|lra| |now left|lra|lra].
        rewrite V0, Rminus_0_r, Rabs_R0. lra.
      * intros x y. split.
        -- intros H. destruct (LP _ _ H) as (p & P1 & P2 & P3 & P4). unfold vlen2 in P2. fold A B L in P2.
           rewrite AB0 in P2. unfold Rdiv at 2 in P2. rewrite Rmult_0_l in P2.
           assert (p = 0) by lra. subst p.
           split; apply eqR_Qeq; rewrite Q2R_Z; lra.
        -- intros [Ex Ey].
           assert (K1 : on_segment za zb (inject_Z (fst za)) (inject_Z (snd za))) by apply on_seg_start.
           assert (K2 : on_segment zc zd (inject_Z (fst za)) (inject_Z (snd za))).
           { apply (a_on_second _ _ _ _ HL). fold A B. lia. }
           split; [destruct K1 as (t1 & X)|destruct K2 as (t1 & X)]; exists t1; rewrite Ex, Ey; exact X.
  - (* the second segment starts where the first ends *)
    assert (AL' : (A = L)%Z).
    { assert (~ (A < L)%Z); [|lia]. intros H. apply CmpA1, G2 in H. lra. }
    rewrite eq_val by assumption. rewrite Req_bool_true by reflexivity.
    exists zb. split; [right; now left|]. split.
    + apply (Start zb f64_one 1); [exact F1|lra| |right; now left| |].
      * rewrite V1. rewrite Rminus_diag_eq by reflexivity. rewrite Rabs_R0. lra.
      * unfold vsub. cbn [fst]. rewrite minus_IZR. lra.
      * unfold vsub. cbn [snd]. rewrite minus_IZR. lra.
    + intros x y. split.
      * intros H. destruct (LP _ _ H) as (p & P1 & P2 & P3 & P4). unfold vlen2 in P2. fold A B L in P2.
        rewrite AL' in P2. unfold Rdiv at 1 in P2. rewrite Rinv_r in P2 by lra.
        assert (p = 1) by lra. subst p.
        split; apply eqR_Qeq; rewrite Q2R_Z, ?P3, ?P4; unfold vsub; cbn [fst snd]; rewrite minus_IZR; lra.
      * intros [Ex Ey].
        assert (K1 : on_segment za zb (inject_Z (fst zb)) (inject_Z (snd zb))) by apply on_seg_end.
        assert (K2 : on_segment zc zd (inject_Z (fst zb)) (inject_Z (snd zb))).
        { apply (b_on_second _ _ _ _ HL). fold A B. unfold vlen2. fold L. lia. }
        split; [destruct K1 as (t1 & X)|destruct K2 as (t1 & X)]; exists t1; rewrite Ex, Ey; exact X.
Qed.
