(** Clearly crossing segments with integer ends. *)

From Coq Require Import List ZArith Bool Reals Lra Lia QArith Qreals.
From Verif Require Import Base Float SpecFloat64 FloatFacts Geometry MapFacts SpecShape ShapeFacts SpecIntersect RealFacts RealFacts2
  IntersectFacts.
From Flocq Require Import Core.
Import ListNotations.
Local Open Scope R_scope.

Lemma seg_real : forall a b x y, on_segment a b x y -> exists t : R, 0 <= t <= 1
  /\ Q2R x = IZR (fst a) + t * IZR (fst (vsub b a)) /\ Q2R y = IZR (snd a) + t * IZR (snd (vsub b a)).
Proof.
  intros a b x y (t & T0 & T1 & Hx & Hy). exists (Q2R t).
  apply Qle_Rle in T0, T1. apply Qeq_eqR in Hx, Hy.
  rewrite Q2R_plus, Q2R_mult, !Q2R_Z in Hx, Hy. 
  replace (Q2R 0) with 0 in T0 by (unfold Q2R; simpl; lra). replace (Q2R 1) with 1 in T1 by (unfold Q2R; simpl; lra).
  auto.
Qed.

(** The parameters of a common point. *)
Lemma both_params : forall a b c d x y, on_both a b c d x y -> vcross (vsub b a) (vsub d c) <> 0%Z ->
  let k := IZR (vcross (vsub b a) (vsub d c)) in
  0 <= IZR (vcross (vsub c a) (vsub d c)) / k <= 1 /\ 0 <= IZR (vcross (vsub c a) (vsub b a)) / k <= 1
  /\ Q2R x = IZR (fst a) + IZR (fst (vsub b a)) * (IZR (vcross (vsub c a) (vsub d c)) / k)
  /\ Q2R y = IZR (snd a) + IZR (snd (vsub b a)) * (IZR (vcross (vsub c a) (vsub d c)) / k).
Proof.
  intros [ax ay] [bx by_] [cx cy] [dx dy] x y [H1 H2] Hk k.
  apply seg_real in H1, H2. destruct H1 as (t & T & Tx & Ty). destruct H2 as (u & U & Ux & Uy).
  assert (K0 : k <> 0) by (now apply not_0_IZR).
  unfold k in *. unfold vcross, vsub in *. cbn [fst snd] in *. clear k Hk.
  repeat rewrite ?minus_IZR, ?mult_IZR in *.
  set (AX := IZR ax) in *. set (AY := IZR ay) in *. set (BX := IZR bx) in *. set (BY := IZR by_) in *.
  set (CX := IZR cx) in *. set (CY := IZR cy) in *. set (DX := IZR dx) in *. set (DY := IZR dy) in *.
  assert (E1 : CX - AX = t * (BX - AX) - u * (DX - CX)) by lra.
  assert (E2 : CY - AY = t * (BY - AY) - u * (DY - CY)) by lra.
  rewrite E1, E2.
  replace (((t * (BX - AX) - u * (DX - CX)) * (DY - CY) - (t * (BY - AY) - u * (DY - CY)) * (DX - CX))
    / ((BX - AX) * (DY - CY) - (BY - AY) * (DX - CX))) with t by (field; exact K0).
  replace (((t * (BX - AX) - u * (DX - CX)) * (BY - AY) - (t * (BY - AY) - u * (DY - CY)) * (BX - AX))
    / ((BX - AX) * (DY - CY) - (BY - AY) * (DX - CX))) with u by (field; exact K0).
  repeat split; try lra.
Qed.

Lemma params_both : forall a b c d, vcross (vsub b a) (vsub d c) <> 0%Z ->
  let k := IZR (vcross (vsub b a) (vsub d c)) in
  0 <= IZR (vcross (vsub c a) (vsub d c)) / k <= 1 -> 0 <= IZR (vcross (vsub c a) (vsub b a)) / k <= 1 ->
  exists x y, on_both a b c d x y.
Proof.
  intros a b c d Hk k Ht Hu.
  assert (K0 : k <> 0) by (now apply not_0_IZR).
  set (kq := inject_Z (vcross (vsub b a) (vsub d c))).
  assert (Kq : ~ (kq == 0)%Q).
  { intros E. apply Qeq_eqR in E. unfold kq in E. rewrite Q2R_Z in E. fold k in E.
    replace (Q2R 0) with 0 in E by (unfold Q2R; simpl; lra). auto. }
  set (t := (inject_Z (vcross (vsub c a) (vsub d c)) / kq)%Q).
  set (u := (inject_Z (vcross (vsub c a) (vsub b a)) / kq)%Q).
  assert (Et : Q2R t = IZR (vcross (vsub c a) (vsub d c)) / k) by (unfold t; rewrite Q2R_div by exact Kq; unfold kq; now rewrite !Q2R_Z).
  assert (Eu : Q2R u = IZR (vcross (vsub c a) (vsub b a)) / k) by (unfold u; rewrite Q2R_div by exact Kq; unfold kq; now rewrite !Q2R_Z).
  assert (Z0 : Q2R 0 = 0) by (unfold Q2R; simpl; lra). assert (Z1 : Q2R 1 = 1) by (unfold Q2R; simpl; lra).
  exists (inject_Z (fst a) + t * inject_Z (fst b - fst a))%Q, (inject_Z (snd a) + t * inject_Z (snd b - snd a))%Q.
  split.
  - exists t. repeat split; try reflexivity; apply Rle_Qle; rewrite ?Z0, ?Z1, Et; apply Ht.
  - exists u. repeat split; try (apply Rle_Qle; rewrite ?Z0, ?Z1, Eu; apply Hu);
      apply eqR_Qeq; rewrite !Q2R_plus, !Q2R_mult, !Q2R_Z, Et, Eu;
      unfold k in *; unfold vcross, vsub in *; cbn [fst snd] in *;
      repeat rewrite ?minus_IZR, ?mult_IZR in *; field; exact K0.
Qed.

Lemma near_of : forall p x y, fin (px p) -> fin (py p) ->
  Rabs (val (px p) - Q2R x) < / 16777216 -> Rabs (val (py p) - Q2R y) < / 16777216 -> near (1 # 16777216) p x y.
Proof.
  intros p x y F1 F2 H1 H2. apply Rabs_def2 in H1, H2. destruct H1 as [H1 H1'], H2 as [H2 H2'].
  assert (E : Q2R (1 # 16777216) = / 16777216) by (unfold Q2R; simpl; lra).
  unfold near. split; [now apply fin_finite64|]. split; [now apply fin_finite64|].
  repeat split; apply Rlt_Qlt; rewrite ?Q2R_opp, ?Q2R_minus, f64_Q_val, ?E; lra.
Qed.

Lemma vint_at_z : forall p z, vint p z -> at_z p z.
Proof.
  intros p z [A B]. destruct (is_int_val _ _ A) as [[_ F1] _]. destruct (is_int_val _ _ B) as [[_ F2] _].
  split; [exact F1|]. split; [exact F2|]. split; now apply is_int_valued.
Qed.

Definition ends_z (a b c d : Z * Z) (e : Z * Z) : Prop := e = a \/ e = b \/ e = c \/ e = d.

Lemma crossing_spec : forall a b c d za zb zc zd,
  at_z a za -> at_z b zb -> at_z c zc -> at_z d zd ->
  within (2 ^ 24) za -> within (2 ^ 24) zb -> within (2 ^ 24) zc -> within (2 ^ 24) zd ->
  clearly_crossing (vsub zb za) (vsub zd zc) ->
  match intersect_segments (a, b) (c, d) with
  | INone => forall x y, ~ on_both za zb zc zd x y
  | IPoint p => exists x y, on_both za zb zc zd x y /\ near (1 # 16777216) p x y
      /\ forall e, In e [za; zb; zc; zd] -> (x == inject_Z (fst e))%Q -> (y == inject_Z (snd e))%Q -> at_z p e
  | ISegment _ _ => False
  end.
Proof.
  intros a b c d za zb zc zd Ha Hb Hc Hd Wa Wb Wc Wd [Hk T].
  apply at_z_vint in Ha, Hb, Hc, Hd; try assumption.
  destruct (sub_vint _ _ _ _ Hb Ha Wb Wa) as [I0 W0]. destruct (sub_vint _ _ _ _ Hd Hc Wd Wc) as [I1 W1].
  destruct (sub_vint _ _ _ _ Hc Ha Wc Wa) as [Is Ws].
  unfold intersect_segments. cbn [fst snd]. unfold v_square_length.
  destruct (cross_vint _ _ _ _ I0 I1 W0 W1) as [Ik Bk].
  destruct (dot_vint _ _ _ _ I0 I0 W0 W0) as [Il0 Bl0]. destruct (dot_vint _ _ _ _ I1 I1 W1 W1) as [Il1 Bl1].
  destruct (cross_vint _ _ _ _ Is I1 Ws W1) as [In_ Bn]. destruct (cross_vint _ _ _ _ Is I0 Ws W0) as [Im Bm].
  pose proof (vlen2_nonneg (vsub zb za)) as L0. pose proof (vlen2_nonneg (vsub zd zc)) as L1. unfold vlen2 in *.
  rewrite (test_clear _ _ _ _ _ _ Ik Il0 Il1) by (assumption || lia).
  destruct (quot_val _ _ _ _ In_ Ik Hk Bn) as [Fs Vs]. destruct (quot_val _ _ _ _ Im Ik Hk Bm) as [Ft Vt].
  destruct zero_val as [F0 V0]. destruct one_val as [F1 V1].
  set (K := vcross (vsub zb za) (vsub zd zc)) in *. set (N := vcross (vsub zc za) (vsub zd zc)) in *.
  set (M := vcross (vsub zc za) (vsub zb za)) in *.
  set (s := f64_div (v_cross (p_sub c a) (p_sub d c)) (v_cross (p_sub b a) (p_sub d c))) in *.
  set (t := f64_div (v_cross (p_sub c a) (p_sub b a)) (v_cross (p_sub b a) (p_sub d c))) in *.
  rewrite !lt_val, !gt_val by assumption. rewrite V0, V1, Vs, Vt.
  assert (BB : forall x y, on_both za zb zc zd x y -> 0 <= IZR N / IZR K <= 1 /\ 0 <= IZR M / IZR K <= 1).
  { intros x y H. destruct (both_params _ _ _ _ _ _ H Hk) as (A & B & _). split; assumption. }
  destruct (Rlt_bool_spec (rnd (IZR N / IZR K)) 0) as [S0|S0].
  { cbn [orb]. intros x y H. apply BB in H. apply (proj1 (rnd_quot_lt0 N K Hk Bk)) in S0. lra. }
  destruct (Rlt_bool_spec 1 (rnd (IZR N / IZR K))) as [S1|S1].
  { cbn [orb]. intros x y H. apply BB in H. apply (proj1 (rnd_quot_gt1 N K Hk Bk)) in S1. lra. }
  cbn [orb].
  destruct (Rlt_bool_spec (rnd (IZR M / IZR K)) 0) as [T0|T0].
  { cbn [orb]. intros x y H. apply BB in H. apply (proj1 (rnd_quot_lt0 M K Hk Bk)) in T0. lra. }
  destruct (Rlt_bool_spec 1 (rnd (IZR M / IZR K))) as [T1|T1].
  { cbn [orb]. intros x y H. apply BB in H. apply (proj1 (rnd_quot_gt1 M K Hk Bk)) in T1. lra. }
  cbn [orb]. clear BB.
  assert (RS : 0 <= IZR N / IZR K <= 1).
  { split.
    - destruct (Rle_or_lt 0 (IZR N / IZR K)) as [H|H]; [exact H|]. apply (rnd_quot_lt0 N K Hk Bk) in H. lra.
    - destruct (Rle_or_lt (IZR N / IZR K) 1) as [H|H]; [exact H|]. apply (rnd_quot_gt1 N K Hk Bk) in H. lra. }
  assert (RT : 0 <= IZR M / IZR K <= 1).
  { split.
    - destruct (Rle_or_lt 0 (IZR M / IZR K)) as [H|H]; [exact H|]. apply (rnd_quot_lt0 M K Hk Bk) in H. lra.
    - destruct (Rle_or_lt (IZR M / IZR K) 1) as [H|H]; [exact H|]. apply (rnd_quot_gt1 M K Hk Bk) in H. lra. }
  destruct (params_both _ _ _ _ Hk RS RT) as (x & y & Hxy).
  destruct (both_params _ _ _ _ _ _ Hxy Hk) as (_ & _ & Ex & Ey).
  exists x, y. split; [exact Hxy|].
  assert (Es : Rabs (val s - IZR N / IZR K) <= / 9007199254740992 + / 9007199254740992 * / 9007199254740992 * / 9007199254740992).
  { rewrite Vs. pose proof (rnd_err_le (IZR N / IZR K) 1 ltac:(rewrite Rabs_pos_eq; lra)) as E. apply Rabs_le. lra. }
  destruct Ha as [Hax Hay]. destruct I0 as [I0x I0y].
  destruct (coord_val _ _ _ _ _ _ Hax I0x (proj1 Wa) (proj1 W0) Fs RS Es) as [Fx Dx].
  destruct (coord_val _ _ _ _ _ _ Hay I0y (proj2 Wa) (proj2 W0) Fs RS Es) as [Fy Dy].
  fold N K in Ex, Ey. rewrite <- Ex in Dx. rewrite <- Ey in Dy.
  set (p := p_add a (v_scale (p_sub b a) s)).
  change (f64_add (px a) (f64_mul (px (p_sub b a)) s)) with (px p) in Fx, Dx.
  change (f64_add (py a) (f64_mul (py (p_sub b a)) s)) with (py p) in Fy, Dy.
  assert (LX : forall w v, (Z.abs w <= 2 ^ 24)%Z -> (Z.abs v <= 2 ^ 25)%Z -> Rabs (IZR w + IZR v * (IZR N / IZR K)) <= 50331648).
  { intros w v Hw Hv. apply IZR_le in Hw, Hv. rewrite abs_IZR in Hw, Hv.
    change (IZR (2 ^ 24)) with 16777216 in Hw. change (IZR (2 ^ 25)) with 33554432 in Hv.
    apply Rabs_le_inv in Hw, Hv. apply Rabs_le. nra. }
  assert (PF : pfin p).
  { split; [exact Fx|]. split; [exact Fy|].
    pose proof (LX _ _ (proj1 Wa) (proj1 W0)) as L2. pose proof (LX _ _ (proj2 Wa) (proj2 W0)) as L3.
    rewrite <- Ex in L2. rewrite <- Ey in L3.
    apply Rabs_le_inv in L2, L3, Dx, Dy. split; apply Rabs_le; lra. }
  assert (F2 : Forall2 vint [a; b; c; d] [za; zb; zc; zd]).
  { constructor; [split; assumption|]. constructor; [exact Hb|]. constructor; [exact Hc|]. constructor; [exact Hd|constructor]. }
  assert (FW : Forall (within (2 ^ 24)) [za; zb; zc; zd]) by (repeat constructor; try apply Wa; try apply Wb; try apply Wc; apply Wd).
  destruct (snap_spec _ _ p F2 FW PF) as (S2 & Gx & Gy & Nx & Ny).
  set (q := snap [a; b; c; d] p) in *.
  assert (QB : Rabs (val (px q)) <= 134217728 /\ Rabs (val (py q)) <= 134217728).
  { pose proof (LX _ _ (proj1 Wa) (proj1 W0)) as L2. pose proof (LX _ _ (proj2 Wa) (proj2 W0)) as L3.
    rewrite <- Ex in L2. rewrite <- Ey in L3.
    apply Rabs_le_inv in L2, L3, Dx, Dy, Nx, Ny. split; apply Rabs_le; lra. }
  destruct (round_near_val _ Gx (proj1 QB)) as [Rx Ox]. destruct (round_near_val _ Gy (proj2 QB)) as [Ry Oy].
  split.
  - apply near_of; cbn [px py]; [exact Rx|exact Ry| |];
      apply Rabs_le_inv in Dx, Dy, Nx, Ny, Ox, Oy; apply Rabs_lt; lra.
  - intros e He Hxe Hye. apply Qeq_eqR in Hxe, Hye. rewrite Q2R_Z in Hxe, Hye.
    rewrite Hxe in Dx. rewrite Hye in Dy.
    destruct (S2 e He (conj Dx Dy)) as [Q1 Q2].
    rewrite Forall_forall in FW. destruct (FW _ He) as [E1 E2].
    apply vint_at_z. split; cbn [px py]; now apply round_near_int.
Qed.
