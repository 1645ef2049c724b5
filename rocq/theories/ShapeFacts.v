(** Facts about points, contours and segments (C41-C47). *)

From Coq Require Import List ZArith Bool Lia Arith.
From Verif Require Import Base BaseFacts Float SpecFloat64 FloatFacts FloatOrder MapFacts Geometry Sweep Contours SpecShape.
Import ListNotations.
Local Open Scope Z_scope.

(** ** iter_segments *)

Lemma seg_at_spec : forall l i p0 t, l = p0 :: t ->
  seg_at l i =
    match nth_error l i with
    | Some a => Some (a, nth (S i mod length l) l p0)
    | None => None
    end.
Proof.
  intros l i p0 t ->. unfold seg_at. set (l := p0 :: t).
  assert (Hl : length l = S (length t)) by reflexivity.
  destruct (Nat.ltb_spec i (length l - 1)).
  - assert (Hi : (i < length l)%nat) by lia. assert (Hs : (S i < length l)%nat) by lia.
    destruct (nth_error l i) eqn:E1; [|apply nth_error_None in E1; lia].
    destruct (nth_error l (S i)) eqn:E2; [|apply nth_error_None in E2; lia].
    rewrite Nat.mod_small by lia. rewrite (nth_error_nth _ _ p0 E2). reflexivity.
  - destruct (Nat.eqb_spec i (length l - 1)).
    + destruct (nth_error l i) eqn:E1; [|reflexivity].
      replace (S i) with (length l) by lia. rewrite Nat.mod_same by lia. reflexivity.
    + destruct (nth_error l i) eqn:E1; auto.
      assert (nth_error l i <> None) as N by congruence. apply nth_error_Some in N. lia.
Qed.

Lemma segs_from_spec : forall fuel l i k, (i <= length l)%nat -> (length l < i + fuel)%nat ->
  nth_error (segs_from fuel l i) k = seg_at l (i + k)%nat
  /\ length (segs_from fuel l i) = (length l - i)%nat.
Proof.
  induction fuel as [|fuel IH]; intros l i k Hi Hf; [lia|]. cbn [segs_from].
  destruct l as [|p0 t].
  { cbn in Hi. assert (i = 0)%nat by lia. subst. cbn. destruct k; auto. }
  rewrite (seg_at_spec _ i _ _ eq_refl), (seg_at_spec _ (i + k)%nat _ _ eq_refl). set (l := p0 :: t) in *.
  destruct (nth_error l i) eqn:E.
  - assert (i < length l)%nat by (apply nth_error_Some; congruence).
    destruct (IH l (S i) (k - 1)%nat ltac:(lia) ltac:(lia)) as [H1 H2].
    destruct k as [|k].
    + rewrite Nat.add_0_r, E. cbn [nth_error length]. rewrite H2. split; auto. lia.
    + cbn [nth_error length]. replace (S k - 1)%nat with k in H1 by lia.
      rewrite H1, H2, (seg_at_spec l (S i + k)%nat p0 t eq_refl).
      replace (S i + k)%nat with (i + S k)%nat by lia. split; auto. lia.
  - apply nth_error_None in E. assert (i = length l) by lia. subst i.
    cbn [length nth_error]. split; [|lia]. destruct k; (destruct (nth_error l _) eqn:E2; [exfalso|reflexivity]);
      (assert (nth_error l (length l + _) <> None) as N by (rewrite E2; congruence); apply nth_error_Some in N; lia).
Qed.

Lemma segments_cycle : forall c,
  length (iter_segments c) = length (c_points c)
  /\ forall i a b, nth_error (iter_segments c) i = Some (a, b) <->
       nth_error (c_points c) i = Some a /\ nth_error (c_points c) (S i mod length (c_points c))%nat = Some b.
Proof.
  intros c. unfold iter_segments. set (l := c_points c).
  assert (H : forall k, nth_error (segs_from (S (length l)) l 0) k = seg_at l k
     /\ length (segs_from (S (length l)) l 0) = length l).
  { intros k. destruct (segs_from_spec (S (length l)) l 0 k) as [A B]; try lia. rewrite Nat.sub_0_r in B. auto. }
  split; [apply (H 0%nat)|]. intros i a b. rewrite (proj1 (H i)).
  destruct l as [|p0 t]; [destruct i; cbn; split; [discriminate|intros [? ?]; discriminate|discriminate|intros [? ?]; discriminate]|].
  rewrite (seg_at_spec _ i _ _ eq_refl). set (l := p0 :: t) in *. clear H.
  assert (Hm : (S i mod length l < length l)%nat) by (apply Nat.mod_upper_bound; cbn; lia).
  destruct (nth_error l (S i mod length l)%nat) eqn:E; [|apply nth_error_None in E; lia].
  rewrite (nth_error_nth _ _ p0 E).
  destruct (nth_error l i); split; intros H; try discriminate; [inversion H; auto| |destruct H; discriminate].
  destruct H as [H1 H2]. congruence.
Qed.

(** ** bbox *)

Section Extreme.
  Variables (sel : point -> f64) (l : list point).
  Hypothesis Hn : forall p, In p l -> f64_is_nan (sel p) = false.

  Lemma fold_min : forall m, f64_is_nan m = false ->
    let r := fold_left (fun m q => f64_min m (sel q)) l m in
    f64_is_nan r = false /\ (r = m \/ exists p, In p l /\ r = sel p)
    /\ f64_le r m = true /\ forall p, In p l -> f64_le r (sel p) = true.
  Proof using Hn.
    induction l as [|q t IH]; intros m Hm r; cbn in r.
    - subst r. split; [auto|]. split; [auto|]. split; [auto using le_refl|]. intros p [].
    - destruct (min_cases m (sel q) Hm (Hn q (or_introl eq_refl))) as (A & B & C & D).
      destruct (IH (fun p H => Hn p (or_intror H)) (f64_min m (sel q)) A) as (E & F & G & K).
      fold r in E, F, G, K. split; [auto|]. split; [|split].
      + destruct F as [F|(p & F1 & F2)].
        * destruct B as [B|B]; rewrite B in F; [auto|]. right. exists q. cbn. auto.
        * right. exists p. cbn. auto.
      + eapply le_trans; eauto.
      + intros p [->|Hp]; [eapply le_trans; eauto|auto].
  Qed.

  Lemma fold_max : forall m, f64_is_nan m = false ->
    let r := fold_left (fun m q => f64_max m (sel q)) l m in
    f64_is_nan r = false /\ (r = m \/ exists p, In p l /\ r = sel p)
    /\ f64_le m r = true /\ forall p, In p l -> f64_le (sel p) r = true.
  Proof using Hn.
    induction l as [|q t IH]; intros m Hm r; cbn in r.
    - subst r. split; [auto|]. split; [auto|]. split; [auto using le_refl|]. intros p [].
    - destruct (max_cases m (sel q) Hm (Hn q (or_introl eq_refl))) as (A & B & C & D).
      destruct (IH (fun p H => Hn p (or_intror H)) (f64_max m (sel q)) A) as (E & F & G & K).
      fold r in E, F, G, K. split; [auto|]. split; [|split].
      + destruct F as [F|(p & F1 & F2)].
        * destruct B as [B|B]; rewrite B in F; [auto|]. right. exists q. cbn. auto.
        * right. exists p. cbn. auto.
      + eapply le_trans; eauto.
      + intros p [->|Hp]; [eapply le_trans; eauto|auto].
  Qed.
End Extreme.

Lemma contour_bbox_spec : forall c, c_points c <> [] -> (forall p, In p (c_points c) -> no_nan p) ->
  exists left right bottom top,
    In left (c_points c) /\ In right (c_points c) /\ In bottom (c_points c) /\ In top (c_points c)
    /\ (forall p, In p (c_points c) -> in_span (px left) (px right) (px p) /\ in_span (py bottom) (py top) (py p))
    /\ contour_bbox c = mk_rect (px left) (py bottom) (f64_sub (px right) (px left)) (f64_sub (py top) (py bottom)).
Proof.
  intros c Hne Hn. unfold contour_bbox. destruct (c_points c) as [|p l] eqn:El; [congruence|]. clear Hne El.
  assert (Hx : forall q, In q l -> f64_is_nan (px q) = false) by (intros; apply Hn; cbn; auto).
  assert (Hy : forall q, In q l -> f64_is_nan (py q) = false) by (intros; apply Hn; cbn; auto).
  destruct (Hn p (or_introl eq_refl)) as [Hpx Hpy].
  destruct (fold_min px l Hx (px p) Hpx) as (A1 & A2 & A3 & A4).
  destruct (fold_max px l Hx (px p) Hpx) as (B1 & B2 & B3 & B4).
  destruct (fold_min py l Hy (py p) Hpy) as (C1 & C2 & C3 & C4).
  destruct (fold_max py l Hy (py p) Hpy) as (D1 & D2 & D3 & D4).
  set (x0 := fold_left (fun m q => f64_min m (px q)) l (px p)) in *.
  set (x1 := fold_left (fun m q => f64_max m (px q)) l (px p)) in *.
  set (y0 := fold_left (fun m q => f64_min m (py q)) l (py p)) in *.
  set (y1 := fold_left (fun m q => f64_max m (py q)) l (py p)) in *.
  assert (W : forall (sel : point -> f64) r, (r = sel p \/ exists q, In q l /\ r = sel q) ->
    exists q, In q (p :: l) /\ sel q = r).
  { intros sel r [H|(q & H1 & H2)]; [exists p|exists q]; cbn; auto. }
  destruct (W _ _ A2) as (a & Ha & Ea), (W _ _ B2) as (b & Hb & Eb).
  destruct (W _ _ C2) as (d & Hd & Ed), (W _ _ D2) as (e & He & Ee).
  exists a, b, d, e. rewrite Ea, Eb, Ed, Ee.
  split; [auto|]. split; [auto|]. split; [auto|]. split; [auto|]. split; [|reflexivity].
  intros q [<-|Hq]; unfold in_span; auto.
Qed.

(** ** Areas on integer points *)

Lemma at_z_int : forall p z, at_z p z -> Z.abs (fst z) < 2 ^ 53 -> Z.abs (snd z) < 2 ^ 53 ->
  is_int (px p) (fst z) /\ is_int (py p) (snd z).
Proof. intros p z (A & B & C & D) H1 H2. split; apply valued_is_int; auto; lia. Qed.

Ltac pow_lia := change (2 ^ 53) with 9007199254740992 in *; change (2 ^ 24) with 16777216 in *;
  change (2 ^ 25) with 33554432 in *; change (2 ^ 51) with 2251799813685248 in *;
  change (2 ^ 52) with 4503599627370496 in *.

Lemma mul_bound : forall a b m, Z.abs a <= m -> Z.abs b <= m -> Z.abs (a * b) <= m * m.
Proof. intros. rewrite Z.abs_mul. apply Z.mul_le_mono_nonneg; lia. Qed.

Lemma area_int : forall a b c za zb zc, at_z a za -> at_z b zb -> at_z c zc ->
  within (2 ^ 24) za -> within (2 ^ 24) zb -> within (2 ^ 24) zc ->
  is_int (triangle_signed_area a b c) (orient za zb zc).
Proof.
  intros a b c [ax ay] [bx by_] [cx cy] Ha Hb Hc [Wa1 Wa2] [Wb1 Wb2] [Wc1 Wc2]. cbn [fst snd] in *.
  destruct (at_z_int _ _ Ha) as [IA1 IA2]; cbn [fst snd] in *; [pow_lia; lia..|].
  destruct (at_z_int _ _ Hb) as [IB1 IB2]; cbn [fst snd] in *; [pow_lia; lia..|].
  destruct (at_z_int _ _ Hc) as [IC1 IC2]; cbn [fst snd] in *; [pow_lia; lia..|].
  unfold triangle_signed_area, orient. cbn [fst snd].
  replace ((bx - ax) * (cy - ay) - (by_ - ay) * (cx - ax)) with ((ax - cx) * (by_ - cy) - (bx - cx) * (ay - cy)) by ring.
  pose proof (mul_bound (ax - cx) (by_ - cy) (2 ^ 25) ltac:(pow_lia; lia) ltac:(pow_lia; lia)) as M1.
  pose proof (mul_bound (bx - cx) (ay - cy) (2 ^ 25) ltac:(pow_lia; lia) ltac:(pow_lia; lia)) as M2.
  apply sub_int; [apply mul_int; [apply sub_int; auto; pow_lia; lia..|pow_lia; lia]
    |apply mul_int; [apply sub_int; auto; pow_lia; lia..|pow_lia; lia]|pow_lia; lia].
Qed.

Lemma int_eqb_valued : forall f z, is_int f z -> int_valued f z.
Proof. exact is_int_valued. Qed.

Lemma signed_area_exact : forall a b c za zb zc, at_z a za -> at_z b zb -> at_z c zc ->
  within (2 ^ 24) za -> within (2 ^ 24) zb -> within (2 ^ 24) zc ->
  int_valued (triangle_signed_area a b c) (orient za zb zc)
  /\ int_valued (triangle_signed_area b a c) (- orient za zb zc)
  /\ (f64_gt (triangle_signed_area a b c) f64_zero = true <-> 0 < orient za zb zc)
  /\ (f64_lt (triangle_signed_area a b c) f64_zero = true <-> orient za zb zc < 0)
  /\ (f64_eq (triangle_signed_area a b c) f64_zero = true <-> orient za zb zc = 0).
Proof.
  intros a b c za zb zc Ha Hb Hc Wa Wb Wc.
  pose proof (area_int a b c za zb zc Ha Hb Hc Wa Wb Wc) as I.
  pose proof (area_int b a c zb za zc Hb Ha Hc Wb Wa Wc) as J.
  replace (orient zb za zc) with (- orient za zb zc) in J by (unfold orient; ring).
  pose proof (is_int_zero false) as Z0. fold f64_zero in Z0.
  split; [apply is_int_valued, I|]. split; [apply is_int_valued, J|].
  rewrite (gt_int _ _ _ _ I Z0), (lt_int _ _ _ _ I Z0), (eq_int _ _ _ _ I Z0).
  rewrite !Z.ltb_lt, Z.eqb_eq. tauto.
Qed.

(** ** check_span_overlap *)

Lemma in_span_le : forall a b x, in_span a b x -> f64_le a b = true.
Proof. intros a b x [H1 H2]. eapply le_trans; eauto. Qed.

Lemma overlap_spec : forall u0 u1 v0 v1, f64_le u0 u1 = true -> f64_le v0 v1 = true ->
  match check_span_overlap u0 u1 v0 v1 with
  | None => forall x, ~ (in_span u0 u1 x /\ in_span v0 v1 x)
  | Some (a, b) => f64_le a b = true /\ forall x, in_span a b x <-> in_span u0 u1 x /\ in_span v0 v1 x
  end.
Proof.
  intros u0 u1 v0 v1 Hu Hv.
  destruct (le_no_nan _ _ Hu) as [N0 N1], (le_no_nan _ _ Hv) as [M0 M1].
  unfold check_span_overlap. rewrite !gt_lt.
  destruct (f64_lt u1 v0) eqn:E1.
  { cbn [orb]. intros x [[A B] [C D]]. pose proof (le_lt_trans _ _ _ B E1) as F.
    pose proof (lt_le_trans _ _ _ F C) as G. rewrite lt_irrefl in G. discriminate. }
  destruct (f64_lt v1 u0) eqn:E2.
  { cbn [orb]. intros x [[A B] [C D]]. pose proof (le_lt_trans _ _ _ D E2) as F.
    pose proof (lt_le_trans _ _ _ F A) as G. rewrite lt_irrefl in G. discriminate. }
  cbn [orb]. apply not_lt in E1, E2; auto.
  destruct (f64_lt v0 u1) eqn:E3.
  - destruct (f64_lt u0 v1) eqn:E4.
    + destruct (max_cases u0 v0 N0 M0) as (A & B & C & D), (min_cases u1 v1 N1 M1) as (A' & B' & C' & D').
      split.
      * destruct B as [-> | ->], B' as [-> | ->]; auto using lt_le.
      * intros x. unfold in_span. split.
        -- intros [H1 H2]. repeat split; eapply le_trans; eauto.
        -- intros [[H1 H2] [H3 H4]]. split; [destruct B as [-> | ->]|destruct B' as [-> | ->]]; auto.
    + apply not_lt in E4; auto. split; [auto using le_refl|]. intros x. unfold in_span. split.
      * intros [H1 H2]. repeat split; eauto using le_trans, lt_le.
      * intros [[H1 H2] [H3 H4]]. split; auto. eapply le_trans; eauto.
  - apply not_lt in E3; auto. split; [auto using le_refl|]. intros x. unfold in_span. split.
    + intros [H1 H2]. repeat split; eauto using le_trans.
    + intros [[H1 H2] [H3 H4]]. split; auto. eapply le_trans; eauto.
Qed.

(** ** SweepSegment::new *)

Lemma point_eqb_sym : forall p q, point_eqb p q = point_eqb q p.
Proof.
  assert (E : forall f g, f64_eq f g = f64_eq g f).
  { intros f g. destruct (f64_is_nan f) eqn:Nf, (f64_is_nan g) eqn:Ng.
    - destruct f, g; try discriminate; reflexivity.
    - destruct f; try discriminate. destruct g; reflexivity.
    - destruct g; try discriminate. destruct f; reflexivity.
    - rewrite !eq_le by auto. apply andb_comm. }
  intros p q. unfold point_eqb. now rewrite (E (px p)), (E (py p)).
Qed.

Lemma sseg_new_spec : forall (T : Type) p0 p1 i o (d : T), no_nan p0 -> no_nan p1 ->
  (sseg_new p0 p1 i o d = Panic PAssert <-> point_eqb p0 p1 = true)
  /\ (point_eqb p0 p1 = false -> exists s, sseg_new p0 p1 i o d = Ok s
      /\ s_index s = i /\ s_order s = o /\ s_data s = d
      /\ lex_before (s_left s) (s_right s)
      /\ (if s_out s then s_left s = p1 /\ s_right s = p0 else s_left s = p0 /\ s_right s = p1)).
Proof.
  intros T p0 p1 i o d [X0 Y0] [X1 Y1]. unfold sseg_new.
  destruct (point_eqb p0 p1) eqn:E.
  { split; [tauto|discriminate]. }
  split.
  { split; [|discriminate]. destruct (_ || _); discriminate. }
  intros _. destruct (_ || _) eqn:F.
  - eexists. split; [reflexivity|]. cbn. repeat split; auto. unfold lex_before.
    apply orb_true_iff in F. destruct F as [F|F]; auto. apply andb_true_iff in F. auto.
  - eexists. split; [reflexivity|]. cbn. repeat split; auto. unfold lex_before.
    apply orb_false_iff in F. destruct F as [F G].
    apply not_lt in F; auto.
    destruct (f64_lt (px p1) (px p0)) eqn:L; auto. right.
    apply not_lt in L; auto.
    unfold point_eqb in E. rewrite (eq_le (px p0)) in E, G by auto. rewrite eq_le by auto.
    rewrite F, L in *. cbn [andb] in *. split; auto.
    apply not_lt in G; auto. rewrite eq_le in E by auto. rewrite lt_nle by auto.
    destruct (f64_le (py p0) (py p1)); auto. rewrite G in E. discriminate.
Qed.

Lemma contour_bbox_empty : forall c, c_points c = [] -> contour_bbox c = mk_rect f64_zero f64_zero f64_zero f64_zero.
Proof. intros c H. unfold contour_bbox. now rewrite H. Qed.
