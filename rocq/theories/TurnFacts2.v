(** The choice of the next edge: the leftmost one is taken. *)

From Coq Require Import List ZArith Bool Lia.
From Verif Require Import Base BaseFacts Float SpecFloat64 FloatFacts FloatOrder MapFacts Geometry Sweep Compute SectorPolys
  SpecShape ShapeFacts SpecOrder OrderFacts SpecIntersect SpecTurn IntersectFacts TurnFacts.
Import ListNotations.
Local Open Scope Z_scope.

Lemma cross_anti : forall v w, vcross w v = - vcross v w.
Proof. intros [a b] [c d]. unfold vcross. cbn [fst snd]. ring. Qed.

Lemma dot_cross_len : forall u v, vdot u v * vdot u v + vcross u v * vcross u v = vlen2 u * vlen2 v.
Proof. intros [a b] [c d]. unfold vlen2, vdot, vcross. cbn [fst snd]. ring. Qed.

Lemma as_left_trans : forall u x v w, u <> (0, 0) -> v <> (0, 0) -> as_left u x v -> as_left u v w -> as_left u x w.
Proof.
  intros u x v w Nu Nv H1 H2. pose proof (vlen2_pos _ Nu) as U. pose proof (vlen2_pos _ Nv) as V. unfold as_left in *.
  pose proof (cross_dot u v x) as E1. pose proof (cross_dot u w v) as E2. pose proof (cross_dot u w x) as E3.
  pose proof (dot_cross_len u v) as E4.
  set (cx := vcross u x) in *. set (cv := vcross u v) in *. set (cw := vcross u w) in *.
  set (dx := vdot u x) in *. set (dv := vdot u v) in *. set (dw := vdot u w) in *.
  set (a := vcross v x) in *. set (b := vcross w v) in *. set (c := vcross w x) in *. set (k := vlen2 u) in *.
  set (l := vlen2 v) in *. clearbody cx cv cw dx dv dw a b c k l. clear Nu Nv.
  assert (N : cv = 0 -> dv <> 0).
  { intros -> ->. pose proof (Z.mul_pos_pos _ _ U V). lia. }
  clear E4 V l.
  assert (SC : forall z, 0 <= k * z -> 0 <= z) by (clear - U; intros; nia).
  assert (SC' : forall z, 0 <= z -> 0 <= k * z) by (clear - U; intros; nia).
  assert (A1 : 0 <= a -> 0 <= dv * cx - cv * dx) by (rewrite <- E1; apply SC').
  assert (A2 : 0 <= b -> 0 <= dw * cv - cw * dv) by (rewrite <- E2; apply SC').
  assert (A3 : 0 <= dw * cx - cw * dx -> 0 <= c) by (rewrite <- E3; apply SC).
  clear E1 E2 E3 U SC SC' k.
  destruct (Z.ltb_spec 0 cx), (Z.ltb_spec 0 cv).
  - intros Hw. specialize (A1 (H1 H0)). specialize (A2 (H2 Hw)). apply A3.
    pose proof (Z.mul_nonneg_nonneg cx _ ltac:(lia) A2) as M1. pose proof (Z.mul_nonneg_nonneg cw _ ltac:(lia) A1) as M2.
    assert (M : 0 <= cv * (dw * cx - cw * dx)).
    { replace (cv * (dw * cx - cw * dx)) with (cx * (dw * cv - cw * dv) + cw * (dv * cx - cv * dx)) by ring. lia. }
    apply (Zmult_le_0_reg_r cv); [lia|]. now rewrite Z.mul_comm.
  - destruct H2 as (H2 & _). intros. lia.
  - destruct H1. lia.
  - destruct H1 as (H1 & H3 & H4), H2 as (H2 & H5 & H6). split; [assumption|].
    specialize (A1 H3). specialize (A2 H5).
    destruct (Z.eq_dec cv 0) as [E|E].
    + subst cv. specialize (N eq_refl). rewrite Z.mul_0_l, Z.sub_0_r in A1. rewrite Z.mul_0_r, Z.sub_0_l in A2.
      destruct (Z_lt_le_dec 0 dv) as [Hv|Hv].
      * assert (cx = 0) by (clear - A1 H Hv; nia). subst. specialize (H4 eq_refl eq_refl Hv). split; [|auto].
        apply A3. clear - H2 H4. nia.
      * assert (cw = 0) by (clear - A2 H2 Hv N; nia). subst cw. split; [|intros Ex _ Hw; specialize (H6 eq_refl eq_refl Hw); lia].
        apply A3. destruct (Z_lt_le_dec 0 dw) as [Hw|Hw]; [specialize (H6 eq_refl eq_refl Hw); lia|]. clear - H Hw. nia.
    + pose proof (Z.mul_nonneg_nonneg (- cx) _ ltac:(lia) A2) as M1. pose proof (Z.mul_nonneg_nonneg (- cw) _ ltac:(lia) A1) as M2.
      assert (M : 0 <= - cv * (dw * cx - cw * dx)).
      { replace (- cv * (dw * cx - cw * dx)) with (- cx * (dw * cv - cw * dv) + - cw * (dv * cx - cv * dx)) by ring. lia. }
      split; [apply A3; apply (Zmult_le_0_reg_r (- cv)); [lia|now rewrite Z.mul_comm]|].
      intros Ex Ew Hw. subst. exfalso. clear - A2 E H0 Hw. nia.
Qed.

Lemma as_left_refl : forall u v, as_left u v v.
Proof.
  intros u v. unfold as_left. assert (vcross v v = 0) by (pose proof (cross_anti v v); lia).
  destruct (Z.ltb_spec 0 (vcross u v)); lia.
Qed.

(** Whether the code replaces the candidate [v] by [x]. *)
Definition replaces (u v x : point) : bool :=
  let tx := f64_gt (v_cross u x) f64_zero in let tv := f64_gt (v_cross u v) f64_zero in
  if tx && negb tv then true else if negb tx && tv then false
  else (tx && f64_lt (cosine u x) (cosine u v)) || (negb tx && f64_gt (cosine u x) (cosine u v)).

Lemma ccw_int : forall u v zu zv, vint u zu -> vint v zv -> short zu -> short zv ->
  f64_gt (v_cross u v) f64_zero = (0 <? vcross zu zv).
Proof.
  intros u v zu zv Iu Iv [Wu _] [Wv _].
  assert (W : forall z, within 4000 z -> within (2 ^ 25) z) by (intros z [A B]; split; pow_lia; lia).
  destruct (cross_vint _ _ _ _ Iu Iv (W _ Wu) (W _ Wv)) as [Ic _].
  apply gt_int; [exact Ic|apply is_int_zero].
Qed.

Lemma lt_asym : forall f g, f64_lt f g = true -> f64_lt g f = true -> False.
Proof.
  intros f g H1 H2. apply lt_le in H2. pose proof (lt_le_trans _ _ _ H1 H2) as H. now rewrite lt_irrefl in H.
Qed.

Lemma turn_step : forall u v x zu zv zx, vint u zu -> vint v zv -> vint x zx -> short zu -> short zv -> short zx ->
  if replaces u v x then as_left zu zx zv else as_left zu zv zx.
Proof.
  intros u v x zu zv zx Iu Iv Ix Su Sv Sx. unfold replaces.
  rewrite (ccw_int _ _ _ _ Iu Ix Su Sx), (ccw_int _ _ _ _ Iu Iv Su Sv).
  pose proof (cross_anti zv zx) as AN.
  pose proof (cosine_left u v x zu zv zx Iu Iv Ix Su Sv Sx) as L1. pose proof (cosine_left u x v zu zx zv Iu Ix Iv Su Sx Sv) as L2.
  pose proof (cosine_right u v x zu zv zx Iu Iv Ix Su Sv Sx) as R1. pose proof (cosine_right u x v zu zx zv Iu Ix Iv Su Sx Sv) as R2.
  pose proof (cosine_back u v x zu zv zx Iu Iv Ix Su Sv Sx) as B1. pose proof (cosine_back u x v zu zx zv Iu Ix Iv Su Sx Sv) as B2.
  change (f64_gt (cosine u x) (cosine u v)) with (f64_lt (cosine u v) (cosine u x)).
  unfold as_left.
  destruct (Z.ltb_spec 0 (vcross zu zx)) as [X|X], (Z.ltb_spec 0 (vcross zu zv)) as [V|V]; cbn [andb negb orb].
  - rewrite orb_false_r. destruct (f64_lt (cosine u x) (cosine u v)) eqn:E; intros _.
    + destruct (Z_lt_le_dec (vcross zv zx) 0) as [H|H]; [|assumption].
      exfalso. apply (lt_asym _ _ E). apply L2; lia.
    + destruct (Z_lt_le_dec (vcross zx zv) 0) as [H|H]; [|assumption].
      specialize (L1 ltac:(lia) ltac:(lia) ltac:(lia)). congruence.
  - intros H. lia.
  - intros H. lia.
  - destruct (f64_lt (cosine u v) (cosine u x)) eqn:E.
    + split; [assumption|]. split.
      * destruct (Z_lt_le_dec (vcross zv zx) 0) as [H|H]; [|assumption].
        exfalso. apply (lt_asym _ _ E). apply R1; lia.
      * intros _ _ H. destruct (Z_lt_le_dec 0 (vdot zu zx)) as [K|K]; [assumption|].
        exfalso. apply (lt_asym _ _ E). apply B1; lia.
    + split; [assumption|]. split.
      * destruct (Z_lt_le_dec (vcross zx zv) 0) as [H|H]; [|assumption].
        specialize (R2 ltac:(lia) ltac:(lia) ltac:(lia)). congruence.
      * intros _ _ H. destruct (Z_lt_le_dec 0 (vdot zu zv)) as [K|K]; [assumption|].
        specialize (B2 ltac:(lia) ltac:(lia)). congruence.
Qed.
