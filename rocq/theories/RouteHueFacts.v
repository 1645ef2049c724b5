(** The hues of the route command's drawing, as real numbers. *)

From Coq Require Import List ZArith QArith Bool Reals Lra Lia Qreals.
From Verif Require Import Base Float SpecFloat64 FloatFacts MapFacts SpecIntersect MapModel Contours Compute SpecCompute Route SpecRoute
  Chart RouteDraw SpecRouteDraw RouteDrawFacts RealFacts RealFacts2.
From Flocq Require Import Core.
Import ListNotations.
Local Open Scope R_scope.

Lemma small_huge : forall x, Rabs x <= 1000 -> Rabs (rnd x) < huge.
Proof.
  intros x H. apply rnd_small. eapply Rle_trans; [exact H|]. apply Rle_trans with (bpow radix2 10).
  - simpl. lra.
  - apply bpow_le. lia.
Qed.

Lemma near : forall x B, Rabs x <= B -> Rabs (rnd x - x) <= ulp1 * (B + 1).
Proof.
  intros x B H. pose proof (rnd_err x) as E. pose proof (Rabs_pos x) as P. 
  set (u := / 9007199254740992) in *. assert (U : 0 < u) by (unfold u; apply Rinv_0_lt_compat; lra).
  assert (U1 : u <= 1) by (unfold u; rewrite <- Rinv_1; apply Rinv_le_contravar; lra).
  assert (u * u * u <= u * 1).
  { rewrite Rmult_assoc. apply Rmult_le_compat_l; [lra|]. rewrite <- (Rmult_1_l 1). apply Rmult_le_compat; lra. }
  assert (u * Rabs x <= u * B) by (apply Rmult_le_compat_l; lra). lra.
Qed.

(** The hue of distance [k] of [d]. *)
Lemma hue_val : forall k d, (1 <= k < d)%Z -> (d <= 2 ^ 50)%Z ->
  exists h, distance_colour k d = Hue h /\ fin h /\ Rabs (val h - 330 * (IZR k / IZR d)) <= / 1099511627776.
Proof.
  intros k d Hk Hd. unfold distance_colour.
  destruct (Z.eqb_spec k (-1)); [lia|]. destruct (Z.eqb_spec k 0); [lia|].
  destruct (of_Z_val k) as [Fk Vk]; [lia|]. destruct (of_Z_val d) as [Fd Vd]; [lia|].
  destruct (of_Z_val 255) as [F255 V255]; [lia|]. destruct (of_Z_val 330) as [F330 V330]; [lia|].
  assert (Pk : 1 <= IZR k) by (apply IZR_le; lia). assert (Pd : IZR k < IZR d) by (apply IZR_lt; lia).
  set (t := IZR k / IZR d).
  assert (T : 0 < t <= 1).
  { unfold t. split; [apply Rdiv_lt_0_compat; lra|]. apply Rmult_le_reg_r with (IZR d); [lra|].
    unfold Rdiv. rewrite Rmult_assoc, Rinv_l by lra. lra. }
  assert (U : 0 < ulp1 <= / 1000000) by (split; [apply Rinv_0_lt_compat; lra|apply Rinv_le_contravar; lra]).
  assert (A1 : Rabs t <= 1) by (apply Rabs_le; lra).
  destruct (div_val _ _ Fk Fd) as [Fa Va]; [rewrite Vd; lra|rewrite Vk, Vd; apply small_huge; fold t; lra|].
  rewrite Vk, Vd in Va. fold t in Va. pose proof (near t 1 A1) as Na. rewrite <- Va in Na.
  set (a := val (f64_div (f64_of_Z k) (f64_of_Z d))) in *.
  apply Rabs_le_inv in Na.
  assert (A2 : Rabs (a * 255) <= 256) by (apply Rabs_le; lra).
  destruct (mul_val _ _ Fa F255) as [Fb Vb]; [fold a; rewrite V255; apply small_huge; lra|].
  fold a in Vb. rewrite V255 in Vb. pose proof (near _ _ A2) as Nb. rewrite <- Vb in Nb.
  match type of Vb with val ?x = _ => set (fb := x) in * end. set (b := val fb) in *.
  apply Rabs_le_inv in Nb.
  assert (A3 : Rabs (b / 255) <= 2) by (apply Rabs_le; lra).
  destruct (div_val _ _ Fb F255) as [Fc Vc]; [rewrite V255; lra|fold b; rewrite V255; apply small_huge; lra|].
  fold b in Vc. rewrite V255 in Vc. pose proof (near _ _ A3) as Nc. rewrite <- Vc in Nc.
  match type of Vc with val ?x = _ => set (fc := x) in * end. set (c := val fc) in *.
  apply Rabs_le_inv in Nc.
  assert (A4 : Rabs (c * 330) <= 331) by (apply Rabs_le; lra).
  destruct (mul_val _ _ Fc F330) as [Fe Ve]; [fold c; rewrite V330; apply small_huge; lra|].
  fold c in Ve. rewrite V330 in Ve. pose proof (near _ _ A4) as Ne. rewrite <- Ve in Ne.
  match type of Ve with val ?x = _ => set (fe := x) in * end.
  apply Rabs_le_inv in Ne.
  exists fe. split; [reflexivity|]. split; [exact Fe|]. fold t.
  assert (UV : ulp1 = / 8192 * / 1099511627776) by (lra).
  set (v := / 1099511627776) in *. rewrite UV in *. apply Rabs_le. lra.
Qed.

Lemma nearly_val : forall f q, nearly f q <-> fin f /\ Rabs (val f - Q2R q) <= / 1099511627776.
Proof.
  intros f q. unfold nearly.
  assert (E : Q2R (1 # 2 ^ 40) = / 1099511627776) by (unfold Q2R; cbn [Qnum Qden]; change (2 ^ 40)%positive with 1099511627776%positive; lra).
  split.
  - intros (F & L & U). split; [now apply finite64_fin|]. apply Qle_Rle in L. apply Qle_Rle in U.
    rewrite Q2R_opp, Q2R_minus, f64_Q_val, E in L. rewrite Q2R_minus, f64_Q_val, E in U. apply Rabs_le. lra.
  - intros (F & H). apply Rabs_le_inv in H. split; [now apply fin_finite64|].
    split; apply Rle_Qle; rewrite ?Q2R_opp, Q2R_minus, f64_Q_val, E; lra.
Qed.

Lemma hue_nearly : forall k n, (k < n)%nat -> (Z.of_nat n < 2 ^ 40)%Z ->
  exists h, distance_colour (Z.of_nat (S k)) (Z.of_nat (S n)) = Hue h
    /\ nearly h (330 * (inject_Z (Z.of_nat (S k)) / inject_Z (Z.of_nat (S n)))).
Proof.
  intros k n Hk Hn. destruct (hue_val (Z.of_nat (S k)) (Z.of_nat (S n))) as (h & E & F & V); [lia|lia|].
  exists h. split; [exact E|]. apply nearly_val. split; [exact F|].
  rewrite Q2R_mult, Q2R_div, !Q2R_Z.
  - replace (Q2R 330) with 330 by (unfold Q2R; simpl; lra). exact V.
  - intros Q. unfold Qeq in Q. cbn [Qnum Qden inject_Z] in Q. lia.
Qed.

Lemma hue_injective : forall j k n h, (j < n)%nat -> (k < n)%nat -> (Z.of_nat n < 2 ^ 40)%Z ->
  distance_colour (Z.of_nat (S j)) (Z.of_nat (S n)) = Hue h -> distance_colour (Z.of_nat (S k)) (Z.of_nat (S n)) = Hue h -> j = k.
Proof.
  intros j k n h Hj Hk Hn Ej Ek.
  destruct (hue_val (Z.of_nat (S j)) (Z.of_nat (S n))) as (h1 & E1 & F1 & V1); [lia|lia|].
  destruct (hue_val (Z.of_nat (S k)) (Z.of_nat (S n))) as (h2 & E2 & F2 & V2); [lia|lia|].
  rewrite Ej in E1. rewrite Ek in E2. injection E1 as <-. injection E2 as <-.
  set (d := Z.of_nat (S n)) in *.
  assert (D1 : 1 <= IZR d) by (apply IZR_le; lia). assert (D2 : IZR d <= 1099511627776) by (apply IZR_le; unfold d; lia).
  apply Rabs_le_inv in V1. apply Rabs_le_inv in V2.
  set (x := IZR (Z.of_nat (S j))) in *. set (y := IZR (Z.of_nat (S k))) in *.
  assert (I : / 1099511627776 <= / IZR d) by (apply Rinv_le_contravar; lra).
  assert (P : 0 < / IZR d) by (apply Rinv_0_lt_compat; lra).
  unfold Rdiv in *. set (i := / IZR d) in *. set (v := / 1099511627776) in *.
  assert (B : -1 < x - y < 1) by (split; nra).
  assert (Z.of_nat (S j) - Z.of_nat (S k) = 0)%Z; [|lia].
  unfold x, y in B. rewrite <- minus_IZR in B. destruct B as [B1 B2]. apply lt_IZR in B1. apply lt_IZR in B2. lia.
Qed.

(** C88: the fill of the contours reached. *)
Lemma route_hues : forall std fuel mode m result dist chunks d p k, std_laws std -> floors_i16 m ->
  route std fuel mode m = Ok (result, (dist, chunks)) -> route_map_as_svg std fuel mode m = Ok d ->
  (Z.of_nat (length chunks) < 2 ^ 40)%Z -> In p (rd_paths d) -> in_chunk chunks k (rp_contour p) ->
  exists h, rp_fill p = Hue h /\ nearly h (330 * (inject_Z (Z.of_nat (S k)) / inject_Z (Z.of_nat (S (length chunks))))).
Proof.
  intros std fuel mode m result dist chunks d p k SL F H Hd Hn Hp Hk.
  destruct (route_decomposed _ _ _ _ _ _ _ SL F H) as (polygons & refs & start & ls & pss & A & B & C & D & E & G1 & G2 & G3 & G4).
  rewrite Hd in G4. injection G4 as ->. cbn [rd_paths] in Hp.
  assert (HC : exists c, nth_error result (rp_contour p) = Some c).
  { destruct E as (_ & E). destruct (proj1 (E (rp_contour p))) as (c & Hc & _); [now apply in_map|eauto]. }
  destruct HC as (c & Hc). destruct (G3 p c Hp Hc) as (_ & P1 & P2 & j & P3 & P4).
  assert (Lk : (k < length chunks)%nat) by (destruct Hk as (ch & Q & _); apply nth_error_Some; congruence).
  apply G2 in Hk. rewrite P3 in Hk. injection Hk as ->. rewrite P4. apply hue_nearly; assumption.
Qed.

Lemma route_distinct : forall std fuel mode m result dist chunks d p q j k, std_laws std -> floors_i16 m ->
  route std fuel mode m = Ok (result, (dist, chunks)) -> route_map_as_svg std fuel mode m = Ok d ->
  (Z.of_nat (length chunks) < 2 ^ 40)%Z -> In p (rd_paths d) -> In q (rd_paths d) ->
  in_chunk chunks j (rp_contour p) -> in_chunk chunks k (rp_contour q) ->
  (rp_fill p = rp_fill q <-> j = k).
Proof.
  intros std fuel mode m result dist chunks d p q j k SL F H Hd Hn Hp Hq Hj Hk.
  destruct (route_decomposed _ _ _ _ _ _ _ SL F H) as (polygons & refs & start & ls & pss & A & B & C & D & E & G1 & G2 & G3 & G4).
  rewrite Hd in G4. injection G4 as ->. cbn [rd_paths] in Hp, Hq.
  assert (HC : forall p, In p (concat pss) -> exists c, nth_error result (rp_contour p) = Some c).
  { intros r Hr. destruct E as (_ & E). destruct (proj1 (E (rp_contour r))) as (c & Hc & _); [now apply in_map|eauto]. }
  destruct (HC p Hp) as (c & Hc). destruct (G3 p c Hp Hc) as (_ & _ & _ & x & P3 & P4).
  destruct (HC q Hq) as (c' & Hc'). destruct (G3 q c' Hq Hc') as (_ & _ & _ & y & Q3 & Q4).
  assert (Lj : (j < length chunks)%nat) by (destruct Hj as (ch & Q & _); apply nth_error_Some; congruence).
  assert (Lk : (k < length chunks)%nat) by (destruct Hk as (ch & Q & _); apply nth_error_Some; congruence).
  apply G2 in Hj. apply G2 in Hk. rewrite P3 in Hj. rewrite Q3 in Hk. injection Hj as ->. injection Hk as ->.
  rewrite P4, Q4. split; [|intros ->; reflexivity]. intros Q.
  destruct (hue_nearly j (length chunks) Lj Hn) as (h & Eh & _).
  eapply (hue_injective j k (length chunks) h); try assumption. rewrite <- Q. exact Eh.
Qed.
