(** Rounding quotients of small numbers and multiplying them back. *)

From Coq Require Import List ZArith Bool Reals Lra Lia QArith SpecFloat.
From Verif Require Import Base Float SpecFloat64 FloatFacts Geometry MapFacts SpecShape ShapeFacts SpecIntersect RealFacts RealFacts2
  IntersectFacts CrossingFacts SpecHandle SpecTidy SpecCross CrossSamples GridFloat.
From Flocq Require Import Core.
Import ListNotations.
Local Open Scope R_scope.

Definition upto (n : nat) : list Z := map Z.of_nat (seq 0 (S n)).

Lemma in_upto : forall n z, (0 <= z <= Z.of_nat n)%Z -> In z (upto n).
Proof. intros n z H. unfold upto. apply in_map_iff. exists (Z.to_nat z). split; [lia|]. apply in_seq. lia. Qed.

Lemma ratio_all : forallb (fun g => forallb (fun n => forallb (fun k =>
  (n <=? 0)%Z || (n <? k)%Z || float_eqb (f64_mul (f64_of_Z (2 ^ g * n)) (f64_div (f64_of_Z k) (f64_of_Z n))) (f64_of_Z (2 ^ g * k))) (upto 21)) (upto 21)) (upto 14) = true.
Proof. vm_compute. reflexivity. Qed.

Lemma ratio : forall g n k, (0 <= g <= 14)%Z -> (1 <= n <= 21)%Z -> (0 <= k <= n)%Z -> rnd (IZR (2 ^ g * n) * rnd (IZR k / IZR n)) = IZR (2 ^ g * k).
Proof.
  intros g n k G N K. pose proof ratio_all as H. rewrite forallb_forall in H. specialize (H g (in_upto 14 g ltac:(lia))). rewrite forallb_forall in H.
  specialize (H n (in_upto 21 n ltac:(lia))). rewrite forallb_forall in H. specialize (H k (in_upto 21 k ltac:(lia))).
  rewrite !orb_true_iff, Z.leb_le, Z.ltb_lt in H. destruct H as [[H|H]|H]; [lia|lia|]. apply float_eqb_ok in H.
  assert (P : (1 <= 2 ^ g <= 16384)%Z).
  { split; [change 1%Z with (2 ^ 0)%Z|change 16384%Z with (2 ^ 14)%Z]; apply Z.pow_le_mono_r; lia. }
  assert (Ik : is_int (f64_of_Z k) k) by (apply is_int_of_Z; pow_lia; lia). assert (In_ : is_int (f64_of_Z n) n) by (apply is_int_of_Z; pow_lia; lia).
  assert (Id : is_int (f64_of_Z (2 ^ g * n)) (2 ^ g * n)) by (apply is_int_of_Z; pow_lia; nia).
  assert (Ie : is_int (f64_of_Z (2 ^ g * k)) (2 ^ g * k)) by (apply is_int_of_Z; pow_lia; nia).
  destruct (quot_val _ _ _ _ Ik In_) as [Fq Vq]; [lia|pow_lia; lia|]. destruct (is_int_val _ _ Id) as [Fd Vd]. destruct (is_int_val _ _ Ie) as [Fe Ve].
  assert (Q0 : 0 <= IZR k / IZR n <= 1).
  { assert (A : 0 < IZR n) by (apply IZR_lt; lia). assert (B : 0 <= IZR k) by (apply IZR_le; lia). assert (C : IZR k <= IZR n) by (apply IZR_le; lia).
    split; [apply Rmult_le_pos; [exact B|]; apply Rlt_le; now apply Rinv_0_lt_compat|]. apply (Rmult_le_reg_r (IZR n)); [exact A|]. unfold Rdiv. rewrite Rmult_assoc, Rinv_l by lra. lra. }
  assert (Q1 : 0 <= rnd (IZR k / IZR n) <= 1).
  { split; apply Rnot_lt_le; intros L; [apply (proj1 (rnd_quot_lt0 k n ltac:(lia) ltac:(pow_lia; lia))) in L|apply (proj1 (rnd_quot_gt1 k n ltac:(lia) ltac:(pow_lia; lia))) in L]; lra. }
  rewrite <- Vq, <- Vd in *. destruct (mul_val _ _ Fd Fq) as [_ Vm].
  - apply (big_ok _ 344064); [|lra]. rewrite Vd, Rabs_mult. rewrite <- abs_IZR. rewrite (Rabs_pos_eq _ (proj1 Q1)).
    assert (IZR (Z.abs (2 ^ g * n)) <= 344064) by (apply IZR_le; nia). pose proof (IZR_le 0 _ (Z.abs_nonneg (2 ^ g * n))). nra.
  - rewrite <- Vm, H. exact Ve.
Qed.
