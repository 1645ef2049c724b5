(** Upright edges on a grid: where they meet, and that the crossing is found exactly. *)

From Coq Require Import List ZArith Bool Reals Lra Lia QArith Qreals SpecFloat.
From Verif Require Import Base Float SpecFloat64 FloatFacts Geometry MapFacts SpecShape ShapeFacts SpecOrder SpecIntersect RealFacts RealFacts2
  IntersectFacts CrossingFacts SpecHandle SpecTidy SpecCross CrossSamples GridFloat GridRatio SpecGrid.
From Coq Require Import Lqa.
From Flocq Require Import Core.
Import ListNotations.
Local Open Scope Z_scope.

Definition level (e : edge) : Prop := snd (e_left e) = snd (e_right e) /\ fst (e_left e) < fst (e_right e).
Definition plumb (e : edge) : Prop := fst (e_left e) = fst (e_right e) /\ snd (e_left e) < snd (e_right e).

(** An upright edge on the grid. *)
Record grid_edge (g : Z) (e : edge) : Prop := mk_grid_edge {
  ge_size : 0 <= g <= 14;
  ge_left : grid_point g (e_left e);
  ge_right : grid_point g (e_right e);
  ge_dir : level e \/ plumb e;
  ge_reach : Z.abs (fst (e_left e) - fst (e_right e)) <= 2 ^ g * 21 /\ Z.abs (snd (e_left e) - snd (e_right e)) <= 2 ^ g * 21 }.

Lemma size_bound : forall g, 0 <= g <= 14 -> 1 <= 2 ^ g <= 16384.
Proof. intros g G. split; [change 1%Z with (2 ^ 0)%Z|change 16384%Z with (2 ^ 14)%Z]; apply Z.pow_le_mono_r; lia. Qed.

Lemma grid_within : forall g v, 0 <= g <= 14 -> grid_point g v -> within (2 ^ 24) v.
Proof. intros g v G (a & b & -> & A & B). pose proof (size_bound g G). split; cbn [fst snd]; change (2 ^ 24) with 16777216; nia. Qed.

(** *** Points of upright edges *)

Lemma on_level : forall e x y, level e -> (on_segment (e_left e) (e_right e) x y <-> (inject_Z (fst (e_left e)) <= x)%Q /\ (x <= inject_Z (fst (e_right e)))%Q /\ (y == inject_Z (snd (e_left e)))%Q).
Proof.
  intros [i [a1 a2] [b1 b2]] x y [E L]. cbn [e_left e_right fst snd] in *. subst b2. rewrite Zlt_Qlt in L. unfold on_segment. cbn [fst snd]. rewrite Z.sub_diag.
  assert (D : inject_Z (b1 - a1) == inject_Z b1 - inject_Z a1) by (unfold Zminus; rewrite inject_Z_plus, inject_Z_opp; reflexivity).
  split.
  - intros (t & T0 & T1 & X & Y). rewrite D in X. rewrite Y, X. change (inject_Z 0) with 0%Q. repeat split; nra || ring.
  - intros (A & B & Y). exists ((x - inject_Z a1) / inject_Z (b1 - a1))%Q. rewrite D.
    assert (P : (0 < inject_Z b1 - inject_Z a1)%Q) by lra.
    split; [apply Qle_shift_div_l; lra|]. split; [apply Qle_shift_div_r; lra|]. split; [field; lra|]. rewrite Y. change (inject_Z 0) with 0%Q. ring.
Qed.

Lemma on_plumb : forall e x y, plumb e -> (on_segment (e_left e) (e_right e) x y <-> (inject_Z (snd (e_left e)) <= y)%Q /\ (y <= inject_Z (snd (e_right e)))%Q /\ (x == inject_Z (fst (e_left e)))%Q).
Proof.
  intros [i [a1 a2] [b1 b2]] x y [E L]. cbn [e_left e_right fst snd] in *. subst b1. rewrite Zlt_Qlt in L. unfold on_segment. cbn [fst snd]. rewrite Z.sub_diag.
  assert (D : inject_Z (b2 - a2) == inject_Z b2 - inject_Z a2) by (unfold Zminus; rewrite inject_Z_plus, inject_Z_opp; reflexivity).
  split.
  - intros (t & T0 & T1 & X & Y). rewrite D in Y. rewrite Y, X. change (inject_Z 0) with 0%Q. repeat split; nra || ring.
  - intros (A & B & X). exists ((y - inject_Z a2) / inject_Z (b2 - a2))%Q. rewrite D.
    assert (P : (0 < inject_Z b2 - inject_Z a2)%Q) by lra.
    split; [apply Qle_shift_div_l; lra|]. split; [apply Qle_shift_div_r; lra|]. split; [|field; lra]. rewrite X. change (inject_Z 0) with 0%Q. ring.
Qed.

(** *** The directions of upright edges are told apart *)

Lemma clear_square : forall u v, (snd u = 0 /\ fst v = 0 \/ fst u = 0 /\ snd v = 0) -> (fst u <> 0 \/ snd u <> 0) -> (fst v <> 0 \/ snd v <> 0) -> clearly_crossing u v.
Proof.
  intros [a b] [c d] H U V. cbn [fst snd] in *. unfold clearly_crossing, vcross, vlen2, vdot. cbn [fst snd].
  destruct H as [[-> ->]|[-> ->]]; split; nia.
Qed.

Lemma clear_far : forall g s d, 0 <= g <= 14 -> (exists p q, s = (2 ^ g * p, 2 ^ g * q) /\ Z.abs p <= 2000 /\ Z.abs q <= 2000) ->
  (snd d = 0 /\ fst d <> 0 /\ snd s <> 0 \/ fst d = 0 /\ snd d <> 0 /\ fst s <> 0) -> clearly_crossing s d.
Proof.
  intros g s [d1 d2] G (p & q & -> & P & Q) H. pose proof (size_bound g G) as B. cbn [fst snd] in *. unfold clearly_crossing, vcross, vlen2, vdot. cbn [fst snd].
  set (w := 2 ^ g) in *. change (10 ^ 10) with 10000000000.
  assert (Sq : forall z, z <> 0 -> 1 <= z * z) by (intros; nia). assert (Bp : p * p <= 4000000) by nia. assert (Bq : q * q <= 4000000) by nia.
  destruct H as [(-> & D & N)|(-> & D & N)].
  - assert (q <> 0) by (intros ->; lia). split; [nia|]. pose proof (Sq q ltac:(assumption)).
    replace (1001 * ((w * p * (w * p) + w * q * (w * q)) * (d1 * d1 + 0 * 0))) with (1001 * (p * p + q * q) * (w * w * (d1 * d1))) by ring.
    replace (10000000000 * ((w * p * 0 - w * q * d1) * (w * p * 0 - w * q * d1))) with (10000000000 * (q * q) * (w * w * (d1 * d1))) by ring.
    apply Z.mul_le_mono_nonneg_r; nia.
  - assert (p <> 0) by (intros ->; lia). split; [nia|]. pose proof (Sq p ltac:(assumption)).
    replace (1001 * ((w * p * (w * p) + w * q * (w * q)) * (0 * 0 + d2 * d2))) with (1001 * (p * p + q * q) * (w * w * (d2 * d2))) by ring.
    replace (10000000000 * ((w * p * d2 - w * q * 0) * (w * p * d2 - w * q * 0))) with (10000000000 * (p * p) * (w * w * (d2 * d2))) by ring.
    apply Z.mul_le_mono_nonneg_r; nia.
Qed.

Lemma grid_step : forall g v w, grid_point g v -> grid_point g w -> exists p q, vsub v w = (2 ^ g * p, 2 ^ g * q) /\ Z.abs p <= 2000 /\ Z.abs q <= 2000.
Proof. intros g v w (a & b & -> & A & B) (c & d & -> & C & D). exists (a - c), (b - d). unfold vsub. cbn [fst snd]. split; [f_equal; ring|lia]. Qed.

Lemma grid_tell : forall g e f, grid_edge g e -> grid_edge g f -> tellable (e_left e) (e_right e) (e_left f) (e_right f).
Proof.
  intros g e f He Hf. pose proof (grid_step g _ _ (ge_left g f Hf) (ge_left g e He)) as St. pose proof (ge_size g e He) as G.
  destruct (ge_dir g e He) as [[E1 E2]|[E1 E2]], (ge_dir g f Hf) as [[F1 F2]|[F1 F2]]; unfold tellable.
  - right. split; [unfold vcross, vsub; cbn [fst snd]; rewrite E1, F1; ring|].
    destruct (Z.eq_dec (snd (e_left f)) (snd (e_left e))) as [S|S]; [right; unfold vcross, vsub; cbn [fst snd]; rewrite S, E1; ring|].
    left. apply (clear_far g); [exact G|exact St|]. unfold vsub. cbn [fst snd]. left. lia.
  - left. apply clear_square; unfold vsub; cbn [fst snd]; lia.
  - left. apply clear_square; unfold vsub; cbn [fst snd]; lia.
  - right. split; [unfold vcross, vsub; cbn [fst snd]; rewrite E1, F1; ring|].
    destruct (Z.eq_dec (fst (e_left f)) (fst (e_left e))) as [S|S]; [right; unfold vcross, vsub; cbn [fst snd]; rewrite S, E1; ring|].
    left. apply (clear_far g); [exact G|exact St|]. unfold vsub. cbn [fst snd]. right. lia.
Qed.

(** *** Where an edge and one across it meet is found exactly *)

Lemma zero_rnd : forall r, rnd (0 * r) = IZR 0.
Proof. intros r. rewrite Rmult_0_l. apply (rnd_Z 0). lia. Qed.

Lemma found_level : forall g e f v, grid_edge g e -> grid_edge g f -> level e -> plumb f -> grid_point g v ->
  on_both (e_left e) (e_right e) (e_left f) (e_right f) (inject_Z (fst v)) (inject_Z (snd v)) -> finds e f v.
Proof.
  intros g e f v He Hf Le Pf Gv On. pose proof (ge_size g e He) as G. unfold finds. pose proof On as [O1 O2]. rewrite (on_level e _ _ Le) in O1. rewrite (on_plumb f _ _ Pf) in O2.
  rewrite <- !Zle_Qle in O1, O2. destruct O1 as (X0 & X1 & Y), O2 as (Y0 & Y1 & X). unfold Qeq in X, Y. cbn in X, Y. rewrite !Z.mul_1_r in X, Y.
  destruct (ge_left g e He) as (a & b & Ea & _ & _), (ge_right g e He) as (c & d & Ec & _ & _), Gv as (p & q & -> & Gp & Gq).
  assert (Gv : grid_point g (2 ^ g * p, 2 ^ g * q)) by (exists p, q; split; [reflexivity|lia]).
  pose proof (ge_reach g e He) as [Re _]. pose proof (size_bound g G) as B.
  destruct Le as [Le1 Le2], Pf as [Pf1 Pf2]. cbn [fst snd] in *.
  apply meets_found; try (apply (grid_within g); [exact G|]; first [apply He|apply Hf|exact Gv]).
  - apply clear_square; unfold vsub; cbn [fst snd]; lia.
  - exact On.
  - unfold vcross, vsub. cbn [fst snd]. rewrite Ea, Ec in *. cbn [fst snd] in *.
    set (D := snd (e_right f) - snd (e_left f)). assert (HD : D <> 0) by (unfold D; lia).
    rewrite <- Pf1, <- X, Z.sub_diag. replace ((2 ^ g * p - 2 ^ g * a) * D - (snd (e_left f) - 2 ^ g * b) * 0) with ((2 ^ g * (p - a)) * D) by ring.
    replace ((2 ^ g * c - 2 ^ g * a) * D - (2 ^ g * d - 2 ^ g * b) * 0) with ((2 ^ g * (c - a)) * D) by ring.
    replace (2 ^ g * c - 2 ^ g * a) with (2 ^ g * (c - a)) by ring. replace (2 ^ g * p - 2 ^ g * a) with (2 ^ g * (p - a)) by ring.
    assert (N : 1 <= c - a <= 21) by nia. assert (K : 0 <= p - a <= c - a) by nia.
    replace (IZR (2 ^ g * (p - a) * D) / IZR (2 ^ g * (c - a) * D))%R with (IZR (p - a) / IZR (c - a))%R; [now apply ratio|].
    rewrite !mult_IZR. field. repeat split; apply not_0_IZR; lia.
  - unfold vsub at 1. cbn [fst snd]. replace (snd (e_right e) - snd (e_left e)) with 0 by lia. rewrite zero_rnd. f_equal. unfold vsub. cbn [fst snd]. lia.
Qed.

Lemma found_plumb : forall g e f v, grid_edge g e -> grid_edge g f -> plumb e -> level f -> grid_point g v ->
  on_both (e_left e) (e_right e) (e_left f) (e_right f) (inject_Z (fst v)) (inject_Z (snd v)) -> finds e f v.
Proof.
  intros g e f v He Hf Pe Lf Gv On. pose proof (ge_size g e He) as G. unfold finds. pose proof On as [O1 O2]. rewrite (on_plumb e _ _ Pe) in O1. rewrite (on_level f _ _ Lf) in O2.
  rewrite <- !Zle_Qle in O1, O2. destruct O1 as (Y0 & Y1 & X), O2 as (X0 & X1 & Y). unfold Qeq in X, Y. cbn in X, Y. rewrite !Z.mul_1_r in X, Y.
  destruct (ge_left g e He) as (a & b & Ea & _ & _), (ge_right g e He) as (c & d & Ec & _ & _), Gv as (p & q & -> & Gp & Gq).
  assert (Gv : grid_point g (2 ^ g * p, 2 ^ g * q)) by (exists p, q; split; [reflexivity|lia]).
  pose proof (ge_reach g e He) as [_ Re]. pose proof (size_bound g G) as B.
  destruct Pe as [Pe1 Pe2], Lf as [Lf1 Lf2]. cbn [fst snd] in *.
  apply meets_found; try (apply (grid_within g); [exact G|]; first [apply He|apply Hf|exact Gv]).
  - apply clear_square; unfold vsub; cbn [fst snd]; lia.
  - exact On.
  - unfold vsub at 1. cbn [fst snd]. replace (fst (e_right e) - fst (e_left e)) with 0 by lia. rewrite zero_rnd. f_equal. unfold vsub. cbn [fst snd]. lia.
  - unfold vcross, vsub. cbn [fst snd]. rewrite Ea, Ec in *. cbn [fst snd] in *.
    set (D := fst (e_right f) - fst (e_left f)). assert (HD : D <> 0) by (unfold D; lia).
    rewrite <- Lf1, <- Y, Z.sub_diag. replace ((fst (e_left f) - 2 ^ g * a) * 0 - (2 ^ g * q - 2 ^ g * b) * D) with ((2 ^ g * (q - b)) * - D) by ring.
    replace ((2 ^ g * c - 2 ^ g * a) * 0 - (2 ^ g * d - 2 ^ g * b) * D) with ((2 ^ g * (d - b)) * - D) by ring.
    replace (2 ^ g * d - 2 ^ g * b) with (2 ^ g * (d - b)) by ring. replace (2 ^ g * q - 2 ^ g * b) with (2 ^ g * (q - b)) by ring.
    assert (N : 1 <= d - b <= 21) by nia. assert (K : 0 <= q - b <= d - b) by nia.
    replace (IZR (2 ^ g * (q - b) * - D) / IZR (2 ^ g * (d - b) * - D))%R with (IZR (q - b) / IZR (d - b))%R; [now apply ratio|].
    rewrite !mult_IZR. field. repeat split; apply not_0_IZR; lia.
Qed.
