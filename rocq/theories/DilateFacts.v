(** The space a line keeps a player out of (C60). *)

From Coq Require Import List ZArith Bool QArith Lqa Lia ZifyBool.
From Verif Require Import Base BaseFacts Float Contours Route SpecShape SpecRoute FloatFacts ShapeFacts SectorPolys MapFacts.
Import ListNotations.

(** ** A strip *)

Lemma max3 : forall a b c : Q, exists t, a <= t /\ b <= t /\ c <= t /\ (t == a \/ t == b \/ t == c).
Proof.
  intros a b c. destruct (Qlt_le_dec a b) as [H1|H1], (Qlt_le_dec b c) as [H2|H2], (Qlt_le_dec a c) as [H3|H3];
    solve [exists a; split; [lra|]; split; [lra|]; split; [lra|]; left; lra
          |exists b; split; [lra|]; split; [lra|]; split; [lra|]; right; left; lra
          |exists c; split; [lra|]; split; [lra|]; split; [lra|]; right; right; lra].
Qed.

Lemma div_le : forall a d t, 0 < d -> (a / d <= t <-> a <= t * d).
Proof.
  intros a d t Hd. split; intros H.
  - apply Qmult_le_compat_r with (z := d) in H; [|lra]. rewrite Qmult_comm, Qmult_div_r in H by lra. exact H.
  - apply Qle_shift_div_r; auto.
Qed.

Lemma strip : forall r D E p s, 0 <= r -> 0 <= D -> 0 <= E ->
  (exists t, 0 <= t <= 1 /\ - r <= p - t * D <= r /\ - r <= s - t * E <= r)
  <-> - r <= p <= D + r /\ - r <= s <= E + r /\ E * (p - r) <= D * (s + r) /\ D * (s - r) <= E * (p + r).
Proof.
  intros r D E p s Hr HD HE. split.
  - intros (t & Ht & Hp & Hs). repeat split; nra.
  - intros (Hp & Hs & H1 & H2).
    destruct (Qlt_le_dec 0 D) as [PD|ZD]; destruct (Qlt_le_dec 0 E) as [PE|ZE].
    + destruct (max3 0 ((p - r) / D) ((s - r) / E)) as (t & T0 & T1 & T2 & T).
      apply (div_le _ D) in T1; [|auto]. apply (div_le _ E) in T2; [|auto]. exists t.
      assert (B : forall a d, 0 < d -> t == a / d -> t * d == a).
      { intros a d Hd He. rewrite He. rewrite Qmult_comm. apply Qmult_div_r. lra. }
      destruct T as [T|[T|T]].
      * rewrite T in *. repeat split; lra.
      * apply B in T; [|auto]. repeat split; try lra; try nra.
      * apply B in T; [|auto]. repeat split; try lra; try nra.
    + destruct (max3 0 ((p - r) / D) 0) as (t & T0 & T1 & _ & T).
      apply (div_le _ D) in T1; [|auto]. exists t.
      assert (B : t == (p - r) / D -> t * D == p - r).
      { intros He. rewrite He. rewrite Qmult_comm. apply Qmult_div_r. lra. }
      assert (E0 : E == 0) by lra. rewrite E0 in *.
      destruct T as [T|[T|T]]; [rewrite T in *; repeat split; lra|apply B in T; repeat split; try lra; nra|rewrite T in *; repeat split; lra].
    + destruct (max3 0 ((s - r) / E) 0) as (t & T0 & T1 & _ & T).
      apply (div_le _ E) in T1; [|auto]. exists t.
      assert (B : t == (s - r) / E -> t * E == s - r).
      { intros He. rewrite He. rewrite Qmult_comm. apply Qmult_div_r. lra. }
      assert (E0 : D == 0) by lra. rewrite E0 in *.
      destruct T as [T|[T|T]]; [rewrite T in *; repeat split; lra|apply B in T; repeat split; try lra; nra|rewrite T in *; repeat split; lra].
    + exists 0. assert (E0 : D == 0) by lra. assert (E1 : E == 0) by lra. rewrite E0, E1 in *. repeat split; lra.
Qed.

(** ** The hexagon *)

Definition hexagon (v0 v1 : Z * Z) : list (Z * Z) :=
  let '((tx, ty), (bx, by_)) := if (snd v1 <? snd v0)%Z then (v0, v1) else (v1, v0) in
  if (tx <? bx)%Z then
    [(tx - 16, ty - 16); (tx - 16, ty + 16); (tx + 16, ty + 16); (bx + 16, by_ + 16); (bx + 16, by_ - 16); (bx - 16, by_ - 16)]%Z
  else
    [(tx - 16, ty + 16); (tx + 16, ty + 16); (tx + 16, ty - 16); (bx + 16, by_ - 16); (bx - 16, by_ - 16); (bx - 16, by_ + 16)]%Z.

Lemma corner : forall p x y dx dy fx fy, is_int (px p) x -> is_int (py p) y -> (Z.abs x <= 2 ^ 52)%Z -> (Z.abs y <= 2 ^ 52)%Z ->
  (dx = x + 16 /\ fx = f64_add (px p) (f64_of_Z 16) \/ dx = x - 16 /\ fx = f64_sub (px p) (f64_of_Z 16))%Z ->
  (dy = y + 16 /\ fy = f64_add (py p) (f64_of_Z 16) \/ dy = y - 16 /\ fy = f64_sub (py p) (f64_of_Z 16))%Z ->
  at_z (mk_point fx fy) (dx, dy).
Proof.
  intros p x y dx dy fx fy Hx Hy Bx By Dx Dy. pow_lia.
  pose proof (is_int_of_Z 16 ltac:(lia)) as I16.
  assert (Ix : is_int fx dx).
  { destruct Dx as [[-> ->]|[-> ->]]; [apply add_int|apply sub_int]; auto; pow_lia; lia. }
  assert (Iy : is_int fy dy).
  { destruct Dy as [[-> ->]|[-> ->]]; [apply add_int|apply sub_int]; auto; pow_lia; lia. }
  unfold at_z. cbn [px py fst snd]. repeat split; eauto using is_int_is_f64, is_int_valued.
Qed.

Lemma hexagon_at : forall v0 v1 z0 z1, at_z v0 z0 -> at_z v1 z1 -> within (2 ^ 52) z0 -> within (2 ^ 52) z1 ->
  Forall2 at_z (c_points (dilate v0 v1)) (hexagon z0 z1).
Proof.
  intros v0 v1 [x0 y0] [x1 y1] A0 A1 [W0 W0'] [W1 W1']. cbn [fst snd] in *.
  destruct (at_z_int _ _ A0) as [I0 J0]; cbn [fst snd]; [pow_lia; lia..|].
  destruct (at_z_int _ _ A1) as [I1 J1]; cbn [fst snd]; [pow_lia; lia..|]. cbn [fst snd] in *.
  unfold dilate, hexagon. rewrite (gt_int _ _ _ _ J0 J1). cbn [fst snd].
  destruct (y1 <? y0)%Z; cbv beta iota zeta.
  - rewrite (lt_int _ _ _ _ I0 I1). destruct (x0 <? x1)%Z; cbn [set_points c_points];
      repeat (constructor; [first [solve [eapply corner; [exact I0|exact J0|..]; auto]|solve [eapply corner; [exact I1|exact J1|..]; auto]]|]); constructor.
  - rewrite (lt_int _ _ _ _ I1 I0). destruct (x1 <? x0)%Z; cbn [set_points c_points];
      repeat (constructor; [first [solve [eapply corner; [exact I0|exact J0|..]; auto]|solve [eapply corner; [exact I1|exact J1|..]; auto]]|]); constructor.
Qed.

Lemma touches_sym : forall r a b x y, touches r a b x y <-> touches r b a x y.
Proof.
  assert (H : forall r a b x y, touches r a b x y -> touches r b a x y).
  { intros r [ax ay] [bx by_] x y (t & Ht & Hx & Hy). exists (1 - t). cbn [fst snd] in *.
    unfold Z.sub in *. rewrite !inject_Z_plus, !inject_Z_opp in *.
    split; [lra|]. split; nra. }
  intros. split; auto.
Qed.

Lemma all_edges : forall (P : Z * Z -> Z * Z -> Prop) a b c d e f,
  (forall u v, In (u, v) (edges_of [a; b; c; d; e; f]) -> P u v) <-> P a b /\ P b c /\ P c d /\ P d e /\ P e f /\ P f a.
Proof.
  intros P a b c d e f. unfold edges_of. cbn [app combine In]. split.
  - intros H. repeat split; apply H; auto 10.
  - intros (H1 & H2 & H3 & H4 & H5 & H6) u v H. decompose [or] H; match goal with E : (_, _) = (_, _) |- _ => inversion E; subst; auto | E : False |- _ => destruct E end.
Qed.

Lemma hexagon_region : forall z0 z1 x y, in_convex (hexagon z0 z1) x y <-> touches 16 z0 z1 x y.
Proof.
  assert (G : forall tx ty bx by_ x y, (by_ <= ty)%Z ->
    in_convex (if (tx <? bx)%Z then
    [(tx - 16, ty - 16); (tx - 16, ty + 16); (tx + 16, ty + 16); (bx + 16, by_ + 16); (bx + 16, by_ - 16); (bx - 16, by_ - 16)]%Z
  else
    [(tx - 16, ty + 16); (tx + 16, ty + 16); (tx + 16, ty - 16); (bx + 16, by_ - 16); (bx - 16, by_ - 16); (bx - 16, by_ + 16)]%Z) x y
    <-> touches 16 (tx, ty) (bx, by_) x y).
  { intros tx ty bx by_ x y L. unfold in_convex. destruct (Z.ltb_spec tx bx) as [Lx|Lx]; rewrite all_edges; unfold right_of, touches; cbn [fst snd];
      rewrite Zle_Qle in L; [apply Z.lt_le_incl in Lx|]; rewrite Zle_Qle in Lx;
      unfold Z.sub in *; repeat rewrite ?inject_Z_plus, ?inject_Z_opp in *; change (inject_Z 16) with 16 in *;
      remember (inject_Z tx) as S; remember (inject_Z ty) as T; remember (inject_Z bx) as A; remember (inject_Z by_) as B.
    - pose proof (strip 16 (A - S) (T - B) (x - S) (T - y) ltac:(lra) ltac:(lra) ltac:(lra)) as St.
      split.
      + intros (E1 & E2 & E3 & E4 & E5 & E6). destruct (proj2 St) as (t & Ht & H1 & H2); [repeat split; lra|]. exists t. repeat split; lra.
      + intros (t & Ht & H1 & H2). destruct (proj1 St) as (C1 & C2 & C3 & C4); [exists t; repeat split; lra|]. repeat split; lra.
    - pose proof (strip 16 (S - A) (T - B) (S - x) (T - y) ltac:(lra) ltac:(lra) ltac:(lra)) as St.
      split.
      + intros (E1 & E2 & E3 & E4 & E5 & E6). destruct (proj2 St) as (t & Ht & H1 & H2); [repeat split; lra|]. exists t. repeat split; lra.
      + intros (t & Ht & H1 & H2). destruct (proj1 St) as (C1 & C2 & C3 & C4); [exists t; repeat split; lra|]. repeat split; lra. }
  intros [x0 y0] [x1 y1] x y. unfold hexagon. cbn [fst snd]. destruct (Z.ltb_spec y1 y0) as [H|H].
  - apply G. lia.
  - rewrite touches_sym. apply G. lia.
Qed.

Lemma dilate_exact : forall v0 v1 z0 z1, at_z v0 z0 -> at_z v1 z1 -> within (2 ^ 52) z0 -> within (2 ^ 52) z1 ->
  exists zs, Forall2 at_z (c_points (dilate v0 v1)) zs /\ forall x y, in_convex zs x y <-> touches 16 z0 z1 x y.
Proof. intros. exists (hexagon z0 z1). split; [apply hexagon_at; auto|]. apply hexagon_region. Qed.
