(** When the computed crossing of two segments is exact. *)

From Coq Require Import List ZArith Bool Reals Lra Lia QArith Qreals SpecFloat.
From Verif Require Import Base Float SpecFloat64 FloatFacts Geometry MapFacts SpecShape ShapeFacts SpecIntersect RealFacts RealFacts2
  IntersectFacts CrossingFacts SpecHandle SpecTidy SpecCross.
From Flocq Require Import Core.
Import ListNotations.
Local Open Scope R_scope.

Lemma int_vint : forall v, within (2 ^ 24) v -> vint (int_point v) v.
Proof. intros v [W1 W2]. split; apply is_int_of_Z; pow_lia; lia. Qed.

Lemma add_is : forall a t b, is_int t b -> (Z.abs a <= 2 ^ 24)%Z -> (Z.abs b <= 2 ^ 25)%Z -> f64_add (f64_of_Z a) t = f64_of_Z (a + b).
Proof.
  intros a t b T A B. destruct (Z.eq_dec b 0) as [->|N].
  - destruct T as (_ & T). assert (Z : exists s, t = S754_zero s) by (cbn in T; destruct T as [s ->]; eauto || (exists false; assumption)). destruct Z as [s ->]. rewrite Z.add_0_r.
    rewrite of_Z_exact by (pow_lia; lia). destruct a as [|p|p]; [destruct s; reflexivity|reflexivity|reflexivity].
  - rewrite (is_int_nonzero _ _ T N). apply of_Z_add; pow_lia; lia.
Qed.

Lemma snap_int : forall zs v, Forall (within (2 ^ 24)) zs -> within (2 ^ 24) v -> snap (map int_point zs) (int_point v) = int_point v.
Proof.
  induction zs as [|w zs IH]; intros v F W; [reflexivity|]. inversion F as [|? ? Ww Wl]; subst. cbn [map]. rewrite snap_cons. destruct (f64_lt _ _) eqn:T; [|now apply IH].
  apply (sqlen_test (int_point v) (int_point w) w (vint_pfin _ _ (int_vint v W) W) (int_vint w Ww) Ww) in T.
  assert (w = v) as ->; [|now apply IH].
  apply (close_eq (int_point v)); [apply (close_le radius); [exact T|lra]|apply vint_close; [now apply int_vint|lra]].
Qed.

Lemma round_near_of : forall z, (Z.abs z <= 2 ^ 24)%Z -> round_near (f64_of_Z z) = f64_of_Z z.
Proof.
  intros z B. destruct (Z.eq_dec z 0) as [->|N]; [vm_compute; reflexivity|]. apply is_int_nonzero; [|exact N]. apply round_near_int; [|exact B]. apply is_int_of_Z. pow_lia; lia.
Qed.

(** The parameter along the first segment, rounded, and the step from its start, rounded. *)
Lemma meets_found : forall za zb zc zd v, within (2 ^ 24) za -> within (2 ^ 24) zb -> within (2 ^ 24) zc -> within (2 ^ 24) zd -> within (2 ^ 24) v ->
  clearly_crossing (vsub zb za) (vsub zd zc) -> on_both za zb zc zd (inject_Z (fst v)) (inject_Z (snd v)) ->
  let s := rnd (IZR (vcross (vsub zc za) (vsub zd zc)) / IZR (vcross (vsub zb za) (vsub zd zc))) in
  rnd (IZR (fst (vsub zb za)) * s) = IZR (fst (vsub v za)) -> rnd (IZR (snd (vsub zb za)) * s) = IZR (snd (vsub v za)) ->
  intersect_segments (int_point za, int_point zb) (int_point zc, int_point zd) = IPoint (int_point v).
Proof.
  intros za zb zc zd v Wa Wb Wc Wd Wv [Hk T] On s0 X Y. pose proof (int_vint _ Wa) as Ha. pose proof (int_vint _ Wb) as Hb. pose proof (int_vint _ Wc) as Hc. pose proof (int_vint _ Wd) as Hd.
  destruct (sub_vint _ _ _ _ Hb Ha Wb Wa) as [I0 W0]. destruct (sub_vint _ _ _ _ Hd Hc Wd Wc) as [I1 W1].
  destruct (sub_vint _ _ _ _ Hc Ha Wc Wa) as [Is Ws].
  unfold intersect_segments. cbn [fst snd]. unfold v_square_length.
  destruct (cross_vint _ _ _ _ I0 I1 W0 W1) as [Ik Bk].
  destruct (dot_vint _ _ _ _ I0 I0 W0 W0) as [Il0 Bl0]. destruct (dot_vint _ _ _ _ I1 I1 W1 W1) as [Il1 Bl1].
  destruct (cross_vint _ _ _ _ Is I1 Ws W1) as [In_ Bn]. destruct (cross_vint _ _ _ _ Is I0 Ws W0) as [Im Bm].
  pose proof (vlen2_nonneg (vsub zb za)) as L0. pose proof (vlen2_nonneg (vsub zd zc)) as L1. unfold vlen2 in *.
  rewrite (test_clear _ _ _ _ _ _ Ik Il0 Il1) by (assumption || lia).
  destruct (quot_val _ _ _ _ In_ Ik Hk Bn) as [Fs Vs]. destruct (quot_val _ _ _ _ Im Ik Hk Bm) as [Ft Vt].
  destruct zero_val as [F0 V0]. destruct one_val as [F1 V1].
  set (K := vcross (vsub zb za) (vsub zd zc)) in *. set (N := vcross (vsub zc za) (vsub zd zc)) in *.
  set (M := vcross (vsub zc za) (vsub zb za)) in *.
  set (s := f64_div (v_cross (p_sub (int_point zc) (int_point za)) (p_sub (int_point zd) (int_point zc))) (v_cross (p_sub (int_point zb) (int_point za)) (p_sub (int_point zd) (int_point zc)))) in *.
  set (t := f64_div (v_cross (p_sub (int_point zc) (int_point za)) (p_sub (int_point zb) (int_point za))) (v_cross (p_sub (int_point zb) (int_point za)) (p_sub (int_point zd) (int_point zc)))) in *.
  destruct (both_params _ _ _ _ _ _ On Hk) as (B1 & B2 & _). fold N K M in B1, B2.
  rewrite !lt_val, !gt_val by assumption. rewrite V0, V1, Vs, Vt.
  destruct (Rlt_bool_spec (rnd (IZR N / IZR K)) 0) as [S0|S0]; [apply (proj1 (rnd_quot_lt0 N K Hk Bk)) in S0; lra|].
  destruct (Rlt_bool_spec 1 (rnd (IZR N / IZR K))) as [S1|S1]; [apply (proj1 (rnd_quot_gt1 N K Hk Bk)) in S1; lra|].
  destruct (Rlt_bool_spec (rnd (IZR M / IZR K)) 0) as [T0|T0]; [apply (proj1 (rnd_quot_lt0 M K Hk Bk)) in T0; lra|].
  destruct (Rlt_bool_spec 1 (rnd (IZR M / IZR K))) as [T1|T1]; [apply (proj1 (rnd_quot_gt1 M K Hk Bk)) in T1; lra|].
  cbn [orb]. destruct (sub_vint _ _ _ _ (int_vint v Wv) Ha Wv Wa) as [_ Wva].
  assert (P : forall d dz k, is_int d dz -> (Z.abs k <= 2 ^ 25)%Z -> rnd (IZR dz * s0) = IZR k -> is_int (f64_mul d s) k).
  { intros d dz k D Bd E. destruct (is_int_val _ _ D) as [Fd Vd]. assert (Q : rnd (val d * val s) = IZR k) by (rewrite Vd, Vs; exact E).
    destruct (mul_val d s Fd Fs) as [Fm Vm].
    - rewrite Q. apply Rle_lt_trans with (IZR (2 ^ 25)); [rewrite <- abs_IZR; now apply IZR_le|]. rewrite <- (Rabs_pos_eq (IZR (2 ^ 25))) by (apply IZR_le; lia). rewrite <- (rnd_Z (2 ^ 25)) by lia. apply (big_ok _ (IZR (2 ^ 25))); [rewrite Rabs_pos_eq; [lra|apply IZR_le; lia]|change (IZR (2 ^ 25)) with 33554432; lra].
    - apply val_is_int; [exact Fm|now rewrite Vm|pow_lia; lia]. }
  assert (E : p_add (int_point za) (v_scale (p_sub (int_point zb) (int_point za)) s) = int_point v).
  { destruct I0 as [I0x I0y]. destruct Wa as [Wa1 Wa2], Wva as [Wv1 Wv2].
    pose proof (P _ _ _ I0x Wv1 X) as Px. pose proof (P _ _ _ I0y Wv2 Y) as Py.
    unfold p_add, v_scale, int_point. cbn [px py]. unfold int_point in Px, Py. cbn [px py] in Px, Py. f_equal.
    - etransitivity; [exact (add_is _ _ _ Px Wa1 Wv1)|]. f_equal. destruct v, za. cbn. lia.
    - etransitivity; [exact (add_is _ _ _ Py Wa2 Wv2)|]. f_equal. destruct v, za. cbn. lia. }
  rewrite E. change [int_point za; int_point zb; int_point zc; int_point zd] with (map int_point [za; zb; zc; zd]). rewrite snap_int; [|repeat constructor; assumption || apply Wa || apply Wb || apply Wc || apply Wd|exact Wv].
  destruct Wv as [Wv1 Wv2]. unfold int_point. cbn [px py]. now rewrite !round_near_of.
Qed.
