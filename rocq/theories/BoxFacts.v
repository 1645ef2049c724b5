(** Bounding boxes of contours and polygons with integer points. *)

From Coq Require Import List ZArith Bool Lia.
From Verif Require Import Base BaseFacts Float SpecFloat64 FloatFacts MapFacts Geometry Contours Route SpecShape ShapeFacts SpecBox.
Import ListNotations.
Local Open Scope Z_scope.

Definition ibox (zs : list (Z * Z)) (r : rect) (lo hi bot top : Z) : Prop :=
  (forall z, In z zs -> lo <= fst z <= hi /\ bot <= snd z <= top)
  /\ (exists z, In z zs /\ fst z = lo) /\ (exists z, In z zs /\ fst z = hi)
  /\ (exists z, In z zs /\ snd z = bot) /\ (exists z, In z zs /\ snd z = top)
  /\ is_int (r_x r) lo /\ is_int (r_y r) bot /\ is_int (r_w r) (hi - lo) /\ is_int (r_h r) (top - bot).

Lemma ibox_box : forall zs r lo hi bot top, ibox zs r lo hi bot top -> box_around zs r.
Proof.
  intros zs r lo hi bot top (A & B & C & D & E & F & G & H & I). exists lo, hi, bot, top.
  repeat (split; [assumption || (apply is_int_valued; assumption)|]). now apply is_int_valued.
Qed.

Lemma ibox_bounds : forall zs r lo hi bot top, ibox zs r lo hi bot top -> Forall (within (2 ^ 24)) zs ->
  Z.abs lo <= 2 ^ 24 /\ Z.abs hi <= 2 ^ 24 /\ Z.abs bot <= 2 ^ 24 /\ Z.abs top <= 2 ^ 24 /\ lo <= hi /\ bot <= top.
Proof.
  intros zs r lo hi bot top (A & (z1 & I1 & <-) & (z2 & I2 & <-) & (z3 & I3 & <-) & (z4 & I4 & <-) & _) W.
  rewrite Forall_forall in W. repeat split; try (apply W; assumption).
  - apply A in I1. lia.
  - apply A in I3. lia.
Qed.

Lemma int_no_nan : forall f z, is_int f z -> f64_is_nan f = false.
Proof. intros f z H. apply is_int_valued in H. destruct f; cbn in *; (reflexivity || contradiction). Qed.

Lemma contour_ibox : forall c zs, Forall2 at_z (c_points c) zs -> Forall (within (2 ^ 24)) zs -> zs <> [] ->
  exists lo hi bot top, ibox zs (contour_bbox c) lo hi bot top.
Proof.
  intros c zs F W N.
  assert (L : forall p, In p (c_points c) -> exists z, In z zs /\ within (2 ^ 24) z /\ is_int (px p) (fst z) /\ is_int (py p) (snd z)).
  { clear N. induction F as [|p z l zs' Hp F IH]; intros q Hq; [destruct Hq|].
    inversion W as [|? ? Wz Wl]; subst. destruct Hq as [<-|Hq].
    - exists z. split; [now left|]. split; [assumption|]. destruct Wz. apply at_z_int; auto; pow_lia; lia.
    - destruct (IH Wl q Hq) as (w & Hw & K). exists w. split; [now right|assumption]. }
  assert (R : forall z, In z zs -> exists p, In p (c_points c) /\ is_int (px p) (fst z) /\ is_int (py p) (snd z)).
  { clear N L. induction F as [|p z l zs' Hp F IH]; intros q Hq; [destruct Hq|].
    inversion W as [|? ? Wz Wl]; subst. destruct Hq as [<-|Hq].
    - exists p. split; [now left|]. destruct Wz. apply at_z_int; auto; pow_lia; lia.
    - destruct (IH Wl q Hq) as (w & Hw & K). exists w. split; [now right|assumption]. }
  destruct (contour_bbox_spec c) as (l & r & b & t & Hl & Hr & Hb & Ht & S & ->).
  - intros E. rewrite E in F. inversion F. congruence.
  - intros p Hp. destruct (L p Hp) as (z & _ & _ & I & J). split; eapply int_no_nan; eassumption.
  - destruct (L l Hl) as (zl & Zl & [Wl _] & Il & _), (L r Hr) as (zr & Zr & [Wr _] & Ir & _),
      (L b Hb) as (zb & Zb & [_ Wb] & _ & Ib), (L t Ht) as (zt & Zt & [_ Wt] & _ & It).
    exists (fst zl), (fst zr), (snd zb), (snd zt). split.
    { intros z Hz. destruct (R z Hz) as (p & Hp & I & J). destruct (S p Hp) as [[S1 S2] [S3 S4]].
      rewrite (le_int _ _ _ _ Il I) in S1. rewrite (le_int _ _ _ _ I Ir) in S2.
      rewrite (le_int _ _ _ _ Ib J) in S3. rewrite (le_int _ _ _ _ J It) in S4.
      apply Z.leb_le in S1, S2, S3, S4. lia. }
    split; [eauto|]. split; [eauto|]. split; [eauto|]. split; [eauto|]. cbn [r_x r_y r_w r_h].
    split; [assumption|]. split; [assumption|]. split; apply sub_int; auto; pow_lia; lia.
Qed.

Lemma rect_contains_spec : forall c zs p x y, Forall2 at_z (c_points c) zs -> Forall (within (2 ^ 24)) zs ->
  at_z p (x, y) -> within (2 ^ 24) (x, y) ->
  (rect_contains (contour_bbox c) p = true <->
   (exists z, In z zs /\ fst z <= x) /\ (exists z, In z zs /\ x < fst z)
   /\ (exists z, In z zs /\ snd z <= y) /\ (exists z, In z zs /\ y < snd z)).
Proof.
  intros c zs p x y F W Hp [Wx Wy]. cbn [fst snd] in *.
  destruct (at_z_int _ _ Hp) as [J1 J2]; cbn [fst snd] in *; [pow_lia; lia..|].
  destruct zs as [|z0 zs0].
  { inversion F as [Hn|]. unfold contour_bbox. rewrite <- Hn. cbn [from_points].
    split; [|intros ((z & [] & _) & _)].
    unfold rect_contains, rect_zero. cbn [r_x r_y r_w r_h].
    assert (Iz : is_int f64_zero 0) by apply is_int_zero.
    rewrite (le_int _ _ _ _ Iz J1). rewrite (lt_int _ _ _ _ J1 (add_int _ _ _ _ Iz Iz ltac:(lia))).
    destruct (Z.leb_spec 0 x), (Z.ltb_spec x (0 + 0)); cbn; try discriminate; lia. }
  set (zs := z0 :: zs0) in *.
  destruct (contour_ibox c zs F W ltac:(discriminate)) as (lo & hi & bot & top & B).
  destruct (ibox_bounds _ _ _ _ _ _ B W) as (B1 & B2 & B3 & B4 & B5 & B6).
  destruct B as (A & (z1 & I1 & Q1) & (z2 & I2 & Q2) & (z3 & I3 & Q3) & (z4 & I4 & Q4) & X & Y & XW & YH).
  unfold rect_contains.
  assert (AX : is_int (f64_add (r_x (contour_bbox c)) (r_w (contour_bbox c))) hi).
  { replace hi with (lo + (hi - lo)) by lia. apply add_int; auto; pow_lia; lia. }
  assert (AY : is_int (f64_add (r_y (contour_bbox c)) (r_h (contour_bbox c))) top).
  { replace top with (bot + (top - bot)) by lia. apply add_int; auto; pow_lia; lia. }
  rewrite (le_int _ _ _ _ X J1), (le_int _ _ _ _ Y J2), (lt_int _ _ _ _ J1 AX), (lt_int _ _ _ _ J2 AY).
  rewrite !andb_true_iff, !Z.leb_le, !Z.ltb_lt. split.
  - intros [[[H1 H2] H3] H4]. split; [exists z1|split; [exists z2|split; [exists z3|exists z4]]]; (split; [assumption|lia]).
  - intros ((a & Ia & Ha) & (b & Ib & Hb) & (d & Id & Hd) & (e & Ie & He)).
    apply A in Ia, Ib, Id, Ie. repeat split; lia.
Qed.

Lemma emin_int : forall f g a b, is_int f a -> is_int g b -> is_int (e_min f g) (Z.min a b).
Proof.
  intros f g a b Hf Hg. unfold e_min. rewrite (le_int _ _ _ _ Hf Hg). destruct (Z.leb_spec a b).
  - rewrite Z.min_l by lia. exact Hf.
  - rewrite Z.min_r by lia. exact Hg.
Qed.
Lemma emax_int : forall f g a b, is_int f a -> is_int g b -> is_int (e_max f g) (Z.max a b).
Proof.
  intros f g a b Hf Hg. unfold e_max. rewrite (le_int _ _ _ _ Hg Hf). destruct (Z.leb_spec b a).
  - rewrite Z.max_l by lia. exact Hf.
  - rewrite Z.max_r by lia. exact Hg.
Qed.
Lemma max_edge : forall f g lo hi, is_int f lo -> is_int g (hi - lo) -> Z.abs hi <= 2 ^ 24 -> is_int (f64_add f g) hi.
Proof.
  intros f g lo hi Hf Hg B. replace hi with (lo + (hi - lo)) by lia. apply add_int; auto. pow_lia. lia.
Qed.
Lemma span_int : forall f g a b c d, is_int f (Z.max a b) -> is_int g (Z.min c d) ->
  Z.abs a <= 2 ^ 24 -> Z.abs b <= 2 ^ 24 -> Z.abs c <= 2 ^ 24 -> Z.abs d <= 2 ^ 24 ->
  is_int (f64_sub f g) (Z.max a b - Z.min c d).
Proof. intros. apply sub_int; auto. pow_lia. lia. Qed.

Lemma not_empty : forall r lo hi bot top, is_int (r_w r) (hi - lo) -> is_int (r_h r) (top - bot) ->
  lo < hi \/ bot < top -> rect_empty r = false.
Proof.
  intros r lo hi bot top XW YH N. assert (Iz : is_int f64_zero 0) by apply is_int_zero.
  unfold rect_empty. rewrite (eq_int _ _ _ _ XW Iz), (eq_int _ _ _ _ YH Iz).
  apply andb_false_iff. destruct N; [left|right]; apply Z.eqb_neq; lia.
Qed.

Lemma pick : forall (zs ws : list (Z * Z)) (sel : Z * Z -> Z) m,
  (exists z, In z zs /\ sel z = m) \/ (exists t, In t ws /\ sel t = m) -> exists q, In q (zs ++ ws) /\ sel q = m.
Proof.
  intros zs ws sel m [(z & Hz & E)|(z & Hz & E)]; exists z; (split; [apply in_app_iff; tauto|assumption]).
Qed.

Lemma union_ibox : forall r s zs ws lo hi bot top lo' hi' bot' top', ibox zs r lo hi bot top -> ibox ws s lo' hi' bot' top' ->
  Forall (within (2 ^ 24)) zs -> Forall (within (2 ^ 24)) ws -> (lo < hi \/ bot < top) -> (lo' < hi' \/ bot' < top') ->
  ibox (zs ++ ws) (rect_union r s) (Z.min lo lo') (Z.max hi hi') (Z.min bot bot') (Z.max top top').
Proof.
  intros r s zs ws lo hi bot top lo' hi' bot' top' B C W W' N N'.
  destruct (ibox_bounds _ _ _ _ _ _ B W) as (B1 & B2 & B3 & B4 & B5 & B6).
  destruct (ibox_bounds _ _ _ _ _ _ C W') as (C1 & C2 & C3 & C4 & C5 & C6). clear W W'.
  destruct B as (A & E1 & E2 & E3 & E4 & X & Y & XW & YH).
  destruct C as (A' & F1 & F2 & F3 & F4 & X' & Y' & XW' & YH').
  unfold rect_union. rewrite (not_empty r _ _ _ _ XW YH N), (not_empty s _ _ _ _ XW' YH' N').
  unfold ibox. cbn [r_x r_y r_w r_h].
  split.
  { intros z Hz. apply in_app_iff in Hz. destruct Hz as [Hz|Hz]; [apply A in Hz|apply A' in Hz]; clear - Hz; lia. }
  split; [apply pick; destruct (Z.min_dec lo lo') as [-> | ->]; auto|].
  split; [apply pick; destruct (Z.max_dec hi hi') as [-> | ->]; auto|].
  split; [apply pick; destruct (Z.min_dec bot bot') as [-> | ->]; auto|].
  split; [apply pick; destruct (Z.max_dec top top') as [-> | ->]; auto|].
  split; [now apply emin_int|]. split; [now apply emin_int|].
  split; (apply span_int; [apply emax_int; eapply max_edge; eassumption|apply emin_int; assumption|assumption..]).
Qed.

Lemma ibox_two : forall zs r lo hi bot top, ibox zs r lo hi bot top -> two_points zs -> lo < hi \/ bot < top.
Proof.
  intros zs r lo hi bot top (A & _) ([a b] & [c d] & H1 & H2 & N). apply A in H1, H2. cbn [fst snd] in *.
  assert (a <> c \/ b <> d) as [X|X] by (destruct (Z.eq_dec a c); [right; congruence|now left]); lia.
Qed.

Lemma fold_ibox : forall l zss pre r lo hi bot top, ibox pre r lo hi bot top -> Forall (within (2 ^ 24)) pre -> two_points pre ->
  Forall2 (fun c zs => Forall2 at_z (c_points c) zs /\ Forall (within (2 ^ 24)) zs /\ two_points zs) l zss ->
  exists lo hi bot top, ibox (pre ++ concat zss) (fold_left (fun b c => rect_union b (contour_bbox c)) l r) lo hi bot top.
Proof.
  induction l as [|c l IH]; intros zss pre r lo hi bot top B W N F.
  - inversion F; subst. cbn [concat fold_left]. rewrite app_nil_r. eauto.
  - inversion F as [|c' zs l' zss' (F1 & W1 & N1) Fl]; subst. cbn [concat fold_left].
    assert (NN : zs <> []) by (destruct N1 as (z & _ & Hz & _); destruct zs; [destruct Hz|discriminate]).
    destruct (contour_ibox c zs F1 W1 NN) as (lo' & hi' & bot' & top' & B').
    rewrite app_assoc. eapply IH; [eapply union_ibox; try eassumption| | |exact Fl].
    + eapply ibox_two; eassumption.
    + eapply ibox_two; eassumption.
    + apply Forall_app. split; assumption.
    + destruct N as (z & w & Hz & Hw & Q). exists z, w. repeat split; auto; apply in_app_iff; tauto.
Qed.

Lemma polygon_bbox_spec : forall p zss, p <> [] ->
  Forall2 (fun c zs => Forall2 at_z (c_points c) zs /\ Forall (within (2 ^ 24)) zs /\ two_points zs) p zss ->
  box_around (concat zss) (polygon_bbox p).
Proof.
  intros [|c l] zss N F; [congruence|]. inversion F as [|c' zs l' zss' (F1 & W1 & N1) Fl]; subst.
  assert (NN : zs <> []) by (destruct N1 as (z & _ & Hz & _); destruct zs; [destruct Hz|discriminate]).
  destruct (contour_ibox c zs F1 W1 NN) as (lo' & hi' & bot' & top' & B').
  destruct (fold_ibox l zss' zs _ _ _ _ _ B' W1 N1 Fl) as (lo & hi & bot & top & B).
  cbn [polygon_bbox concat]. eapply ibox_box. exact B.
Qed.
