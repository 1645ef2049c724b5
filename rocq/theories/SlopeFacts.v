(** Edges of any slope on a grid: where they meet, and that the crossing is found exactly. *)

From Coq Require Import List ZArith Bool Reals Lra Lia QArith Qreals SpecFloat.
From Verif Require Import Base Float SpecFloat64 FloatFacts Geometry MapFacts SpecShape ShapeFacts SpecOrder SpecIntersect RealFacts RealFacts2
  IntersectFacts CrossingFacts SpecHandle SpecTidy SpecCross CrossSamples CrossCover GridFloat GridRatio GridFacts GridCut SpecGrid SpecSlope.
From Coq Require Import Lqa Classical.
From Flocq Require Import Core.
Import ListNotations.
Local Open Scope Z_scope.

Record slope_edge (g R D : Z) (e : edge) : Prop := mk_slope_edge {
  se_size : 0 <= g <= 14;
  se_wide : 0 <= R <= 1000;
  se_bound : R * R * D <= 1248751;
  se_left : slope_point g R (e_left e);
  se_right : slope_point g R (e_right e);
  se_order : lex_z (e_left e) (e_right e) = Lt;
  se_dir : exists p q t, p * p + q * q <= D /\ vsub (e_right e) (e_left e) = (t * (2 ^ g * p), t * (2 ^ g * q));
  se_reach : Z.abs (fst (e_left e) - fst (e_right e)) <= 2 ^ g * 21 /\ Z.abs (snd (e_left e) - snd (e_right e)) <= 2 ^ g * 21 }.

Lemma slope_within : forall g R v, 0 <= g <= 14 -> 0 <= R <= 1000 -> slope_point g R v -> within (2 ^ 24) v.
Proof. intros g R v G W (a & b & -> & A & B). pose proof (size_bound g G). split; cbn [fst snd]; change (2 ^ 24) with 16777216; nia. Qed.

(** *** The directions are told apart *)

Lemma edge_steps : forall g R D e, slope_edge g R D e -> exists m n, vsub (e_right e) (e_left e) = (2 ^ g * m, 2 ^ g * n) /\ Z.abs m <= 21 /\ Z.abs n <= 21.
Proof.
  intros g R D e H. destruct (se_left _ _ _ _ H) as (a & b & Ea & _ & _), (se_right _ _ _ _ H) as (c & d & Ec & _ & _). pose proof (se_reach _ _ _ _ H) as [X Y]. pose proof (size_bound g (se_size _ _ _ _ H)) as B.
  exists (c - a), (d - b). unfold vsub. rewrite Ea, Ec in *. cbn [fst snd] in *. split; [f_equal; ring|]. nia.
Qed.

Lemma clear_short : forall w m n m' n', 1 <= w -> Z.abs m <= 21 -> Z.abs n <= 21 -> Z.abs m' <= 21 -> Z.abs n' <= 21 ->
  vcross (w * m, w * n) (w * m', w * n') <> 0 -> clearly_crossing (w * m, w * n) (w * m', w * n').
Proof.
  intros w m n m' n' W A B C E K. split; [exact K|]. unfold vcross, vlen2, vdot in *. cbn [fst snd] in *. change (10 ^ 10) with 10000000000.
  set (z := m * n' - n * m'). assert (Z : z <> 0) by (intros Q; apply K; replace (w * m * (w * n') - w * n * (w * m')) with (w * w * z) by (unfold z; ring); rewrite Q; ring).
  replace (w * m * (w * n') - w * n * (w * m')) with (w * w * z) by (unfold z; ring).
  replace (1001 * ((w * m * (w * m) + w * n * (w * n)) * (w * m' * (w * m') + w * n' * (w * n')))) with (1001 * ((m * m + n * n) * (m' * m' + n' * n')) * (w * w * (w * w))) by ring.
  replace (10000000000 * (w * w * z * (w * w * z))) with (10000000000 * (z * z) * (w * w * (w * w))) by ring.
  assert (Z1 : 1 <= z * z) by nia. assert (X : m * m + n * n <= 882) by nia. assert (Y : m' * m' + n' * n' <= 882) by nia.
  assert (P : (m * m + n * n) * (m' * m' + n' * n') <= 882 * 882) by (apply Z.mul_le_mono_nonneg; nia). apply Z.mul_le_mono_nonneg_r; nia.
Qed.

Lemma clear_sloping : forall w a b p q t R D, 1 <= w -> 0 <= R -> R * R * D <= 1248751 -> p * p + q * q <= D -> Z.abs a <= 2 * R -> Z.abs b <= 2 * R ->
  vcross (w * a, w * b) (t * (w * p), t * (w * q)) <> 0 -> clearly_crossing (w * a, w * b) (t * (w * p), t * (w * q)).
Proof.
  intros w a b p q t R D W R0 RD PQ A B K. split; [exact K|]. unfold vcross, vlen2, vdot in *. cbn [fst snd] in *. change (10 ^ 10) with 10000000000.
  set (z := a * q - b * p). assert (Z : z <> 0) by (intros Q; apply K; replace (w * a * (t * (w * q)) - w * b * (t * (w * p))) with (w * w * t * z) by (unfold z; ring); rewrite Q; ring).
  replace (w * a * (t * (w * q)) - w * b * (t * (w * p))) with (w * w * t * z) by (unfold z; ring).
  replace (1001 * ((w * a * (w * a) + w * b * (w * b)) * (t * (w * p) * (t * (w * p)) + t * (w * q) * (t * (w * q))))) with (1001 * ((a * a + b * b) * (p * p + q * q)) * (w * w * (w * w) * (t * t))) by ring.
  replace (10000000000 * (w * w * t * z * (w * w * t * z))) with (10000000000 * (z * z) * (w * w * (w * w) * (t * t))) by ring.
  assert (Z1 : 1 <= z * z) by nia. assert (X : a * a + b * b <= 8 * (R * R)) by nia.
  assert (P : (a * a + b * b) * (p * p + q * q) <= 8 * (R * R) * D) by (apply Z.mul_le_mono_nonneg; nia). apply Z.mul_le_mono_nonneg_r; nia.
Qed.

Lemma slope_clear : forall g R D e f, slope_edge g R D e -> slope_edge g R D f -> vcross (vsub (e_right e) (e_left e)) (vsub (e_right f) (e_left f)) <> 0 ->
  clearly_crossing (vsub (e_right e) (e_left e)) (vsub (e_right f) (e_left f)).
Proof.
  intros g R D e f He Hf K. destruct (edge_steps g R D e He) as (m & n & E & Em & En), (edge_steps g R D f Hf) as (m' & n' & F & Fm & Fn). rewrite E, F in *.
  pose proof (size_bound g (se_size _ _ _ _ He)). apply clear_short; assumption || lia.
Qed.

Lemma slope_tell : forall g R D e f, slope_edge g R D e -> slope_edge g R D f -> tellable (e_left e) (e_right e) (e_left f) (e_right f).
Proof.
  intros g R D e f He Hf. unfold tellable. destruct (Z.eq_dec (vcross (vsub (e_right e) (e_left e)) (vsub (e_right f) (e_left f))) 0) as [K|K]; [right|left; now apply (slope_clear g R D)].
  split; [exact K|]. destruct (Z.eq_dec (vcross (vsub (e_left f) (e_left e)) (vsub (e_right e) (e_left e))) 0) as [S|S]; [now right|left].
  destruct (se_left _ _ _ _ He) as (a & b & Ea & A & B), (se_left _ _ _ _ Hf) as (c & d & Ec & C & C'), (se_dir _ _ _ _ He) as (p & q & t & PQ & E). rewrite E in *.
  assert (V : vsub (e_left f) (e_left e) = (2 ^ g * (c - a), 2 ^ g * (d - b))) by (unfold vsub; rewrite Ea, Ec; cbn [fst snd]; f_equal; ring). rewrite V in *.
  pose proof (size_bound g (se_size _ _ _ _ He)). pose proof (se_wide _ _ _ _ He). apply (clear_sloping _ _ _ _ _ _ R D); try lia; try assumption. exact (se_bound _ _ _ _ He).
Qed.

(** *** Where an edge and one across it meet is found exactly *)

Lemma segment_int : forall a b v, on_segment a b (inject_Z (fst v)) (inject_Z (snd v)) -> exists k n, 0 <= k <= n /\ 0 < n
  /\ n * (fst v - fst a) = k * (fst b - fst a) /\ n * (snd v - snd a) = k * (snd b - snd a).
Proof.
  intros a b v ([k n] & T0 & T1 & X & Y). exists k, (Zpos n). unfold Qle, Qeq, inject_Z in *. cbn in T0, T1, X, Y. rewrite ?Pos.mul_1_r in *. lia.
Qed.

Lemma ratio_any : forall g n k, 0 <= g <= 14 -> Z.abs n <= 21 -> n <> 0 -> (0 <= k <= n \/ n <= k <= 0) -> rnd (IZR (2 ^ g * n) * rnd (IZR k / IZR n)) = IZR (2 ^ g * k).
Proof.
  intros g n k G B N K. destruct (Z_lt_le_dec 0 n) as [P|P]; [apply ratio; lia|].
  assert (N' : IZR n <> 0%R) by (apply not_0_IZR; lia). replace (IZR k / IZR n)%R with (IZR (- k) / IZR (- n))%R by (rewrite !opp_IZR; field; repeat split; (exact N') || (intros Q; apply N'; lra)).
  replace (2 ^ g * n) with (- (2 ^ g * - n)) by ring. rewrite opp_IZR, Ropp_mult_distr_l_reverse, rnd_opp, ratio by lia. rewrite <- opp_IZR. f_equal. ring.
Qed.

Lemma same_ratio : forall k m c d, m <> 0 -> d <> 0 -> c * m = k * d -> (IZR k / IZR m = IZR c / IZR d)%R.
Proof.
  intros k m c d M N E. apply (f_equal IZR) in E. rewrite !mult_IZR in E. apply not_0_IZR in M, N. apply (Rmult_eq_reg_r (IZR m * IZR d)); [|now apply Rmult_integral_contrapositive_currified].
  replace (IZR k / IZR m * (IZR m * IZR d))%R with (IZR k * IZR d)%R by (field; exact M). replace (IZR c / IZR d * (IZR m * IZR d))%R with (IZR c * IZR m)%R by (field; exact N). symmetry. exact E.
Qed.

Lemma slope_found : forall g R D e f v, slope_edge g R D e -> slope_edge g R D f -> vcross (vsub (e_right e) (e_left e)) (vsub (e_right f) (e_left f)) <> 0 -> slope_point g R v ->
  on_both (e_left e) (e_right e) (e_left f) (e_right f) (inject_Z (fst v)) (inject_Z (snd v)) -> finds e f v.
Proof.
  intros g R D e f v He Hf K Gv On. pose proof (se_size _ _ _ _ He) as G. pose proof (se_wide _ _ _ _ He) as W. pose proof (size_bound g G) as B. unfold finds.
  destruct (edge_steps g R D e He) as (m & n & E & Em & En).
  assert (V : exists k l, vsub v (e_left e) = (2 ^ g * k, 2 ^ g * l)).
  { destruct (se_left _ _ _ _ He) as (a & b & Ea & _ & _), Gv as (c & d & -> & _ & _). exists (c - a), (d - b). unfold vsub. rewrite Ea. cbn [fst snd]. f_equal; ring. }
  destruct V as (k & l & V). pose proof On as [O1 O2]. pose proof (segment_int _ _ _ O1) as (i & j & I1 & I2 & I3 & I4). pose proof (segment_int _ _ _ O2) as (i' & j' & _ & J2 & J3 & J4).
  assert (X : fst v - fst (e_left e) = 2 ^ g * k /\ snd v - snd (e_left e) = 2 ^ g * l) by (unfold vsub in V; injection V; auto).
  assert (Y : fst (e_right e) - fst (e_left e) = 2 ^ g * m /\ snd (e_right e) - snd (e_left e) = 2 ^ g * n) by (unfold vsub in E; injection E; auto).
  rewrite (proj1 X), (proj1 Y) in I3. rewrite (proj2 X), (proj2 Y) in I4.
  assert (I3' : j * k = i * m) by nia. assert (I4' : j * l = i * n) by nia.
  assert (Cz : j' * vcross (vsub v (e_left f)) (vsub (e_right f) (e_left f)) = 0).
  { unfold vcross, vsub. cbn [fst snd]. rewrite Z.mul_sub_distr_l, !Z.mul_assoc, J3, J4. ring. }
  assert (Cy : vcross (vsub (e_left f) (e_left e)) (vsub (e_right f) (e_left f)) = vcross (2 ^ g * k, 2 ^ g * l) (vsub (e_right f) (e_left f))).
  { rewrite <- V. apply Z.mul_eq_0 in Cz. destruct Cz as [Cz|Cz]; [lia|]. unfold vcross, vsub in *. cbn [fst snd] in *. lia. }
  assert (Lm : l * m = k * n) by (apply (Z.mul_reg_l _ _ j); [lia|]; replace (j * (l * m)) with (j * l * m) by ring; replace (j * (k * n)) with (j * k * n) by ring; rewrite I3', I4'; ring).
  assert (Wf : forall u, slope_point g R u -> within (2 ^ 24) u) by (intros u; now apply slope_within).
  apply meets_found; try (apply Wf; first [exact Gv|apply (se_left g R D)|apply (se_right g R D)]; assumption).
  - now apply (slope_clear g R D).
  - exact On.
  - rewrite V, E. cbn [fst snd]. destruct (Z.eq_dec m 0) as [->|N]; [rewrite Z.mul_0_r, zero_rnd; f_equal; nia|].
    replace (IZR (vcross (vsub (e_left f) (e_left e)) (vsub (e_right f) (e_left f))) / IZR (vcross (2 ^ g * m, 2 ^ g * n)%Z (vsub (e_right f) (e_left f))))%R with (IZR k / IZR m)%R; [apply ratio_any; try assumption; nia|].
    rewrite Cy. rewrite E in K. apply same_ratio; [exact N|exact K|]. unfold vcross. cbn [fst snd]. set (u := vsub _ _). replace ((2 ^ g * k * snd u - 2 ^ g * l * fst u) * m) with (2 ^ g * (k * m * snd u - l * m * fst u)) by ring. rewrite Lm. ring.
  - rewrite V, E. cbn [fst snd]. destruct (Z.eq_dec n 0) as [->|N]; [rewrite Z.mul_0_r, zero_rnd; f_equal; nia|].
    replace (IZR (vcross (vsub (e_left f) (e_left e)) (vsub (e_right f) (e_left f))) / IZR (vcross (2 ^ g * m, 2 ^ g * n)%Z (vsub (e_right f) (e_left f))))%R with (IZR l / IZR n)%R; [apply ratio_any; try assumption; nia|].
    rewrite Cy. rewrite E in K. apply same_ratio; [exact N|exact K|]. unfold vcross. cbn [fst snd]. set (u := vsub _ _). replace ((2 ^ g * k * snd u - 2 ^ g * l * fst u) * n) with (2 ^ g * (k * n * snd u - l * n * fst u)) by ring. rewrite <- Lm. ring.
Qed.
