(** The orders of the sweep on integer coordinates (C49, C50). *)

From Coq Require Import List ZArith Bool Lia Arith.
From Verif Require Import Base BaseFacts Float FloatFacts FloatOrder MapFacts SpecFloat64 Geometry Sweep SpecShape ShapeFacts
  SpecContainers SpecOrder.
Import ListNotations.
Local Open Scope Z_scope.

(** ** Comparing integer-valued floats *)

Lemma fcmp_int : forall f g a b, is_int f a -> is_int g b -> fcmp f g = Ok (a ?= b).
Proof. intros f g a b H1 H2. unfold fcmp. now rewrite (cmp_int f g a b). Qed.

Lemma int_one : is_int f64_one 1.
Proof. exact (is_int_of_Z 1 ltac:(lia)). Qed.

Lemma int_zero : is_int f64_zero 0.
Proof. exact (is_int_zero false). Qed.

Lemma gt_1em7 : forall f z, is_int f z -> f64_gt f f64_1em7 = (0 <? z).
Proof.
  intros f z I. rewrite gt_lt. destruct (Z.ltb_spec 0 z).
  - apply (lt_le_trans _ f64_one); [reflexivity|]. rewrite (le_int _ _ _ _ int_one I). apply Z.leb_le. lia.
  - assert (L : f64_le f f64_zero = true) by (rewrite (le_int _ _ _ _ I int_zero); apply Z.leb_le; lia).
    destruct (f64_lt f64_1em7 f) eqn:E; auto.
    pose proof (lt_le_trans _ _ _ E L) as C. discriminate.
Qed.

Lemma abs_int : forall f z, is_int f z -> is_int (f64_abs f) (Z.abs z).
Proof.
  intros f z I. destruct (is_int_cases f z I) as [(-> & s & ->)|(s & p & -> & -> & Hp)].
  - exact (is_int_zero false).
  - replace (Z.abs (signed s p)) with (signed false p) by (destruct s; reflexivity).
    exact (is_int_signed false p Hp).
Qed.

Lemma lt_1em7 : forall f z, is_int f z -> 0 <= z -> f64_lt f f64_1em7 = (z =? 0).
Proof.
  intros f z I Hz. destruct (Z.eqb_spec z 0) as [->|N].
  - apply (le_lt_trans _ f64_zero); [|reflexivity]. rewrite (le_int _ _ _ _ I int_zero). reflexivity.
  - assert (L : f64_le f64_one f = true) by (rewrite (le_int _ _ _ _ int_one I); apply Z.leb_le; lia).
    destruct (f64_lt f f64_1em7) eqn:E; auto.
    pose proof (le_lt_trans _ _ _ L E) as C. discriminate.
Qed.

Lemma point_cmp_int : forall p q zp zq, at_z p zp -> at_z q zq -> within (2 ^ 24) zp -> within (2 ^ 24) zq ->
  fcmp (px p) (px q) = Ok (fst zp ?= fst zq) /\ fcmp (py p) (py q) = Ok (snd zp ?= snd zq)
  /\ point_eqb p q = match lex_z zp zq with Eq => true | _ => false end.
Proof.
  intros p q [x y] [x' y'] Hp Hq [W1 W2] [W3 W4]. cbn [fst snd] in *.
  destruct (at_z_int _ _ Hp) as [I1 I2]; cbn [fst snd] in *; [pow_lia; lia..|].
  destruct (at_z_int _ _ Hq) as [I3 I4]; cbn [fst snd] in *; [pow_lia; lia..|].
  split; [apply fcmp_int; auto|]. split; [apply fcmp_int; auto|].
  unfold point_eqb, lex_z. rewrite (eq_int _ _ _ _ I1 I3), (eq_int _ _ _ _ I2 I4). cbn [fst snd].
  destruct (Z.compare_spec x x') as [->|N|N].
  - rewrite Z.eqb_refl. cbn [andb]. destruct (Z.compare_spec y y'); [subst; apply Z.eqb_refl|apply Z.eqb_neq; lia..].
  - replace (x =? x') with false by (symmetry; apply Z.eqb_neq; lia). reflexivity.
  - replace (x =? x') with false by (symmetry; apply Z.eqb_neq; lia). reflexivity.
Qed.

(** ** Lexicographic order *)

Lemma lex_then : forall a b, cmp_then (fst a ?= fst b) (snd a ?= snd b) = lex_z a b.
Proof. intros a b. unfold lex_z. destruct (fst a ?= fst b); reflexivity. Qed.
Lemma lex_eq : forall a b, lex_z a b = Eq <-> a = b.
Proof.
  intros [a1 a2] [b1 b2]. unfold lex_z. cbn [fst snd]. destruct (Z.compare_spec a1 b1); [subst|..].
  - rewrite Z.compare_eq_iff. split; [intros ->; auto|intros [= ->]; auto].
  - split; [discriminate|intros [= E _]; lia].
  - split; [discriminate|intros [= E _]; lia].
Qed.
Lemma lex_lt : forall a b, lex_z a b = Lt <-> fst a < fst b \/ (fst a = fst b /\ snd a < snd b).
Proof.
  intros [a1 a2] [b1 b2]. unfold lex_z. cbn [fst snd]. destruct (Z.compare_spec a1 b1); [subst|..].
  - rewrite Z.compare_lt_iff. lia.
  - split; auto.
  - split; [discriminate|lia].
Qed.
Lemma lex_anti : forall a b, lex_z b a = CompOpp (lex_z a b).
Proof.
  intros [a1 a2] [b1 b2]. unfold lex_z. cbn [fst snd]. rewrite (Z.compare_antisym a1 b1), (Z.compare_antisym a2 b2).
  destruct (a1 ?= b1), (a2 ?= b2); reflexivity.
Qed.
Lemma lex_gt : forall a b, lex_z a b = Gt <-> lex_z b a = Lt.
Proof. intros a b. rewrite (lex_anti a b). destruct (lex_z a b); cbn; split; congruence. Qed.
Lemma lex_trans : forall a b c, lex_z a b = Lt -> lex_z b c = Lt -> lex_z a c = Lt.
Proof. intros a b c. rewrite !lex_lt. lia. Qed.

(** ** Directions in a half plane *)

Definition dir (p q : Z * Z) : Z * Z := (fst q - fst p, snd q - snd p).
Lemma orient_cross : forall p q r, orient p q r = cross_z (dir p q) (dir p r).
Proof. intros [px py] [qx qy] [rx ry]. unfold orient, cross_z, dir. cbn. ring. Qed.

Definition rightward (u : Z * Z) : Prop := 0 < fst u \/ (fst u = 0 /\ 0 < snd u).

Lemma cross_trans : forall u v w, rightward u -> rightward v -> rightward w ->
  cross_z v u <= 0 -> cross_z w v <= 0 -> cross_z w u <= 0.
Proof.
  intros [ux uy] [vx vy] [wx wy]. unfold rightward, cross_z. cbn [fst snd]. intros Hu Hv Hw H1 H2.
  destruct Hv as [Hv|[-> Hv]].
  - assert (vx * (wx * uy - wy * ux) = ux * (wx * vy - wy * vx) + wx * (vx * uy - vy * ux)) by ring.
    assert (0 <= ux) by lia. assert (0 <= wx) by lia.
    assert (ux * (wx * vy - wy * vx) <= 0) by (apply Z.mul_nonneg_nonpos; lia).
    assert (wx * (vx * uy - vy * ux) <= 0) by (apply Z.mul_nonneg_nonpos; lia).
    nia.
  - assert (wx = 0) by nia. subst. assert (0 < wy) by lia. assert (0 <= ux) by lia. nia.
Qed.

Definition neg2 (u : Z * Z) : Z * Z := (- fst u, - snd u).
Lemma cross_neg2 : forall u v, cross_z (neg2 u) (neg2 v) = cross_z u v.
Proof. intros [ux uy] [vx vy]. unfold cross_z, neg2. cbn. ring. Qed.

Lemma dir_rightward : forall p q, lex_z p q = Lt -> rightward (dir p q).
Proof. intros p q H. apply lex_lt in H. unfold rightward, dir. cbn. lia. Qed.
Lemma dir_leftward : forall p q, lex_z q p = Lt -> rightward (neg2 (dir p q)).
Proof. intros p q H. apply lex_lt in H. unfold rightward, dir, neg2. cbn. lia. Qed.

Lemma cross_swap : forall u v, cross_z v u = - cross_z u v.
Proof. intros [ux uy] [vx vy]. unfold cross_z. cbn. ring. Qed.

(** ** Combining comparisons *)

Lemma cmp_then_anti : forall a b a' b', a' = CompOpp a -> b' = CompOpp b -> cmp_then a' b' = CompOpp (cmp_then a b).
Proof. intros [] b a' b' -> ->; reflexivity. Qed.

(** ** The order of events *)

Definition event_order_z (p q : Z * Z) (pe qe : seg_end) (po qo : Z * Z) (i j : nat) : comparison :=
  cmp_then (event_before_z p q pe qe po qo)
    (if seg_end_eqb pe qe then Nat.compare i j else Eq).

Lemma endpoint_cmp_int : forall (T : Type) (a b : endpoint T) la ra lb rb,
  seg_z (fst a) la ra -> seg_z (fst b) lb rb ->
  endpoint_cmp a b = Ok (cmp_then (event_before_z (end_z la ra (snd a)) (end_z lb rb (snd b)) (snd a) (snd b)
                                     (other_z la ra (snd a)) (other_z lb rb (snd b)))
                          (Nat.compare (s_order (fst a)) (s_order (fst b)))).
Proof.
  intros T [a ea] [b eb] la ra lb rb (A1 & A2 & A3 & A4 & A5) (B1 & B2 & B3 & B4 & B5). cbn [fst snd] in *.
  assert (PA : at_z (ep_point (a, ea)) (end_z la ra ea)) by (destruct ea; auto).
  assert (OA : at_z (ep_other (a, ea)) (other_z la ra ea)) by (destruct ea; auto).
  assert (PB : at_z (ep_point (b, eb)) (end_z lb rb eb)) by (destruct eb; auto).
  assert (OB : at_z (ep_other (b, eb)) (other_z lb rb eb)) by (destruct eb; auto).
  assert (WPA : within (2 ^ 24) (end_z la ra ea)) by (destruct ea; auto).
  assert (WOA : within (2 ^ 24) (other_z la ra ea)) by (destruct ea; auto).
  assert (WPB : within (2 ^ 24) (end_z lb rb eb)) by (destruct eb; auto).
  assert (WOB : within (2 ^ 24) (other_z lb rb eb)) by (destruct eb; auto).
  unfold endpoint_cmp. destruct (point_cmp_int _ _ _ _ PA PB WPA WPB) as (Ex & Ey & _).
  rewrite Ex, Ey. cbn [obind]. unfold event_before_z. rewrite lex_then.
  destruct (lex_z (end_z la ra ea) (end_z lb rb eb)); [|reflexivity..].
  cbn [fst snd]. destruct ea, eb; cbn [seg_end_eqb]; try reflexivity.
  all: rewrite (fcmp_int _ _ _ _ (area_int _ _ _ _ _ _ PB OB OA WPB WOB WOA) int_zero); reflexivity.
Qed.

Definition cmp_of {T} (a b : endpoint T) : comparison :=
  match endpoint_cmp a b with Ok c => c | _ => Eq end.

Lemma opp_compare_0 : forall x, (- x ?= 0) = CompOpp (x ?= 0).
Proof. intros [|x|x]; reflexivity. Qed.

Lemma event_z_anti : forall p q pe qe po qo,
  event_before_z q p qe pe qo po = CompOpp (event_before_z p q pe qe po qo).
Proof.
  intros p q pe qe po qo. unfold event_before_z. rewrite (lex_anti p q).
  destruct (lex_z p q) eqn:E; [|reflexivity..]. apply lex_eq in E. subst q. cbn [CompOpp].
  destruct pe, qe; try reflexivity.
  all: rewrite !orient_cross, (cross_swap (dir p qo) (dir p po)); apply opp_compare_0.
Qed.

Definition side_of (l r : Z * Z) (e : seg_end) : Prop := lex_z l r = Lt.

Lemma event_z_trans : forall la ra lb rb ld rd ea eb ed,
  lex_z la ra = Lt -> lex_z lb rb = Lt -> lex_z ld rd = Lt ->
  event_before_z (end_z la ra ea) (end_z lb rb eb) ea eb (other_z la ra ea) (other_z lb rb eb) <> Gt ->
  event_before_z (end_z lb rb eb) (end_z ld rd ed) eb ed (other_z lb rb eb) (other_z ld rd ed) <> Gt ->
  event_before_z (end_z la ra ea) (end_z ld rd ed) ea ed (other_z la ra ea) (other_z ld rd ed) <> Gt.
Proof.
  intros la ra lb rb ld rd ea eb ed Ha Hb Hd. unfold event_before_z.
  set (p := end_z la ra ea). set (q := end_z lb rb eb). set (t := end_z ld rd ed).
  destruct (lex_z p q) eqn:E1; destruct (lex_z q t) eqn:E2; try congruence.
  - apply lex_eq in E1, E2. rewrite E1, E2 in *. assert (E : lex_z t t = Eq) by (now apply lex_eq). rewrite E.
    assert (EA : end_z la ra ea = t) by (fold p; congruence). assert (EB : end_z lb rb eb = t) by (fold q; congruence).
    assert (ED : end_z ld rd ed = t) by reflexivity.
    clearbody p q t.
    destruct ea, eb, ed; cbn [end_z other_z] in *; try congruence; rewrite !orient_cross; intros H1 H2;
      apply Z.compare_le_iff in H1; apply Z.compare_le_iff in H2; apply Z.compare_le_iff.
    + apply (cross_trans _ (dir t rb)); auto; apply dir_rightward; congruence.
    + rewrite <- cross_neg2 in *. apply (cross_trans _ (neg2 (dir t lb))); auto; apply dir_leftward; congruence.
  - apply lex_eq in E1. rewrite E1, E2; congruence.
  - apply lex_eq in E2. rewrite <- E2, E1; congruence.
  - rewrite (lex_trans p q t); auto; congruence.
Qed.

Lemma event_z_eq_ends : forall la ra lb rb ea eb,
  event_before_z (end_z la ra ea) (end_z lb rb eb) ea eb (other_z la ra ea) (other_z lb rb eb) = Eq -> ea = eb.
Proof.
  intros la ra lb rb ea eb. unfold event_before_z. destruct (lex_z _ _); try discriminate. destruct ea, eb; auto; discriminate.
Qed.

(** Ordering by a preorder and then by a number is a preorder. *)
Lemma then_trans : forall (c1 c2 c3 : comparison) (i j k : nat),
  (c1 <> Gt -> c2 <> Gt -> c3 <> Gt) ->
  (c1 = Lt -> c2 <> Gt -> c3 = Lt) -> (c1 <> Gt -> c2 = Lt -> c3 = Lt) ->
  cmp_then c1 (Nat.compare i j) <> Gt -> cmp_then c2 (Nat.compare j k) <> Gt -> cmp_then c3 (Nat.compare i k) <> Gt.
Proof.
  intros c1 c2 c3 i j k H H1 H2 A B.
  destruct c1; cbn in A; try congruence; destruct c2; cbn in B; try congruence.
  - specialize (H ltac:(discriminate) ltac:(discriminate)). destruct c3; cbn; try congruence.
    rewrite Nat.compare_gt_iff in *. lia.
  - rewrite H2 by (discriminate || reflexivity). discriminate.
  - rewrite H1 by (discriminate || reflexivity). discriminate.
  - rewrite H1 by (discriminate || reflexivity). discriminate.
Qed.

Lemma endpoint_lawful : forall (T : Type), lawful (@int_event T) endpoint_cmp cmp_of.
Proof.
  intros T.
  assert (HV : forall a b : endpoint T, forall la ra lb rb, seg_z (fst a) la ra -> seg_z (fst b) lb rb ->
    cmp_of a b = cmp_then (event_before_z (end_z la ra (snd a)) (end_z lb rb (snd b)) (snd a) (snd b)
                            (other_z la ra (snd a)) (other_z lb rb (snd b)))
                   (Nat.compare (s_order (fst a)) (s_order (fst b)))).
  { intros a b la ra lb rb Ha Hb. unfold cmp_of. now rewrite (endpoint_cmp_int T a b la ra lb rb Ha Hb). }
  split; [|split].
  - intros a b (la & ra & Ha) (lb & rb & Hb). unfold cmp_of. now rewrite (endpoint_cmp_int T a b la ra lb rb Ha Hb).
  - intros a b (la & ra & Ha) (lb & rb & Hb). rewrite (HV a b la ra lb rb Ha Hb), (HV b a lb rb la ra Hb Ha).
    apply cmp_then_anti; [apply event_z_anti|apply Nat.compare_antisym].
  - intros a b d (la & ra & Ha) (lb & rb & Hb) (ld & rd & Hd).
    rewrite (HV a b la ra lb rb Ha Hb), (HV b d lb rb ld rd Hb Hd), (HV a d la ra ld rd Ha Hd).
    pose proof Ha as (_ & _ & La & _). pose proof Hb as (_ & _ & Lb & _). pose proof Hd as (_ & _ & Ld & _).
    set (ca := event_before_z (end_z la ra (snd a)) (end_z lb rb (snd b)) (snd a) (snd b) (other_z la ra (snd a)) (other_z lb rb (snd b))).
    set (cb := event_before_z (end_z lb rb (snd b)) (end_z ld rd (snd d)) (snd b) (snd d) (other_z lb rb (snd b)) (other_z ld rd (snd d))).
    set (cd := event_before_z (end_z la ra (snd a)) (end_z ld rd (snd d)) (snd a) (snd d) (other_z la ra (snd a)) (other_z ld rd (snd d))).
    assert (Tr : ca <> Gt -> cb <> Gt -> cd <> Gt) by (apply event_z_trans; auto).
    assert (Tb : cb <> Gt -> CompOpp cd <> Gt -> CompOpp ca <> Gt).
    { unfold cd, ca. rewrite <- !event_z_anti. apply event_z_trans; auto. }
    assert (Ta : CompOpp cd <> Gt -> ca <> Gt -> CompOpp cb <> Gt).
    { unfold cd, cb. rewrite <- !event_z_anti. apply event_z_trans; auto. }
    clearbody ca cb cd. apply then_trans; auto.
    + intros -> H. destruct cd; auto; [|exfalso; apply Tr; auto; discriminate]. exfalso. apply Tb; auto; discriminate.
    + intros H ->. destruct cd; auto; [|exfalso; apply Tr; auto; discriminate]. exfalso. apply Ta; auto; discriminate.
Qed.

(** ** The order of segments *)

Lemma segment_cmp_int : forall (T : Type) (a b : sseg T) la ra lb rb,
  seg_z a la ra -> seg_z b lb rb -> s_index a <> s_index b ->
  segment_cmp a b =
    if (orient la ra lb =? 0) && (orient la ra rb =? 0) then
      Ok (cmp_then (Nat.compare (s_order a) (s_order b))
           (match lex_z la lb with
            | Eq => Nat.compare (s_index a) (s_index b)
            | c => CompOpp c
            end))
    else
      Ok match lex_z la lb with
         | Eq => if 0 <? orient la ra rb then Lt else Gt
         | Lt => if 0 <? orient la ra lb then Lt else Gt
         | Gt => if 0 <? orient lb rb la then Gt else Lt
         end.
Proof.
  intros T a b la ra lb rb Ha Hb N. pose proof Ha as (A1 & A2 & A3 & A4 & A5). pose proof Hb as (B1 & B2 & B3 & B4 & B5).
  unfold segment_cmp. rewrite (proj2 (Nat.eqb_neq _ _) N).
  pose proof (area_int _ _ _ _ _ _ A1 A2 B1 A4 A5 B4) as I1.
  pose proof (area_int _ _ _ _ _ _ A1 A2 B2 A4 A5 B5) as I2.
  pose proof (area_int _ _ _ _ _ _ B1 B2 A1 B4 B5 A4) as I3.
  rewrite (lt_1em7 _ _ (abs_int _ _ I1)) by lia. rewrite (lt_1em7 _ _ (abs_int _ _ I2)) by lia.
  assert (Z0 : forall z, (Z.abs z =? 0) = (z =? 0)).
  { intros z. destruct (Z.eqb_spec z 0) as [->|]; [reflexivity|]. apply Z.eqb_neq. lia. }
  rewrite !Z0. destruct (point_cmp_int _ _ _ _ A1 B1 A4 B4) as (_ & _ & EQ). rewrite EQ.
  destruct ((orient la ra lb =? 0) && (orient la ra rb =? 0)) eqn:COL.
  - apply andb_true_iff in COL. destruct COL as [C1 C2]. apply Z.eqb_eq in C1, C2.
    destruct (Nat.compare (s_order a) (s_order b)) eqn:EO; [|reflexivity..]. cbn [cmp_then].
    destruct (lex_z la lb) eqn:EL.
    + destruct (Nat.compare (s_index a) (s_index b)) eqn:EI; [|reflexivity..].
      apply Nat.compare_eq_iff in EI. contradiction.
    + rewrite (endpoint_cmp_int T (b, LeftEnd) (a, LeftEnd) lb rb la ra); auto. cbn [snd end_z other_z].
      unfold event_before_z. rewrite (lex_anti la lb), EL. reflexivity.
    + rewrite (endpoint_cmp_int T (b, LeftEnd) (a, LeftEnd) lb rb la ra); auto. cbn [snd end_z other_z].
      unfold event_before_z. rewrite (lex_anti la lb), EL. reflexivity.
  - unfold above, below. rewrite (gt_1em7 _ _ I1), (gt_1em7 _ _ I2), (gt_1em7 _ _ I3).
    rewrite (endpoint_cmp_int T (a, LeftEnd) (b, LeftEnd) la ra lb rb); auto. cbn [snd end_z other_z].
    unfold event_before_z. destruct (lex_z la lb) eqn:EL; cbn [cmp_then obind]; [reflexivity..|].
    destruct (0 <? orient lb rb la); reflexivity.
Qed.

(** Two segments on one line: each lies on the line of the other. *)
Lemma collinear_sym : forall la ra lb rb, lex_z la ra = Lt -> orient la ra lb = 0 -> orient la ra rb = 0 ->
  orient lb rb la = 0 /\ orient lb rb ra = 0.
Proof.
  intros [ax ay] [bx by_] [cx cy] [dx dy] H. apply lex_lt in H. unfold orient in *. cbn [fst snd] in *. intros H1 H2.
  destruct H as [H|[-> H]].
  - assert (HX : (bx - ax) * ((dx - cx) * (ay - cy) - (dy - cy) * (ax - cx)) = 0).
    { replace ((bx - ax) * ((dx - cx) * (ay - cy) - (dy - cy) * (ax - cx)))
        with ((cx - dx) * ((bx - ax) * (cy - ay) - (by_ - ay) * (cx - ax))
              - (cx - ax) * (((bx - ax) * (dy - ay) - (by_ - ay) * (dx - ax)) - ((bx - ax) * (cy - ay) - (by_ - ay) * (cx - ax))) * (-1)) by ring.
      rewrite H1, H2. ring. }
    assert (HY : (bx - ax) * ((dx - cx) * (by_ - cy) - (dy - cy) * (bx - cx)) = 0).
    { replace ((bx - ax) * ((dx - cx) * (by_ - cy) - (dy - cy) * (bx - cx)))
        with ((cx - dx) * ((bx - ax) * (cy - ay) - (by_ - ay) * (cx - ax))
              - (cx - bx) * (((bx - ax) * (dy - ay) - (by_ - ay) * (dx - ax)) - ((bx - ax) * (cy - ay) - (by_ - ay) * (cx - ax))) * (-1)) by ring.
      rewrite H1, H2. ring. }
    split; [destruct (Z.mul_eq_0 (bx - ax) ((dx - cx) * (ay - cy) - (dy - cy) * (ax - cx))) as [E _]
           |destruct (Z.mul_eq_0 (bx - ax) ((dx - cx) * (by_ - cy) - (dy - cy) * (bx - cx))) as [E _]];
      destruct E; auto; lia.
  - assert (cx = bx) by nia. assert (dx = bx) by nia. subst. split; ring.
Qed.

Lemma collinear_iff : forall la ra lb rb, lex_z la ra = Lt -> lex_z lb rb = Lt ->
  (orient lb rb la =? 0) && (orient lb rb ra =? 0) = (orient la ra lb =? 0) && (orient la ra rb =? 0).
Proof.
  intros la ra lb rb Ha Hb. apply eq_true_iff_eq. rewrite !andb_true_iff, !Z.eqb_eq. split; intros [H1 H2].
  - apply (collinear_sym lb rb la ra); auto.
  - apply (collinear_sym la ra lb rb); auto.
Qed.

Lemma segment_anti : forall (T : Type) (a b : sseg T), int_seg a -> int_seg b -> s_index a <> s_index b ->
  exists c, segment_cmp a b = Ok c /\ segment_cmp b a = Ok (CompOpp c) /\ (c = Eq -> False).
Proof.
  intros T a b (la & ra & Ha) (lb & rb & Hb) N.
  rewrite (segment_cmp_int T a b la ra lb rb Ha Hb N), (segment_cmp_int T b a lb rb la ra Hb Ha (not_eq_sym N)).
  pose proof Ha as (_ & _ & La & _). pose proof Hb as (_ & _ & Lb & _).
  rewrite (collinear_iff la ra lb rb La Lb).
  destruct ((orient la ra lb =? 0) && (orient la ra rb =? 0)) eqn:COL.
  - eexists. split; [reflexivity|]. split.
    + f_equal. apply cmp_then_anti; [apply Nat.compare_antisym|]. rewrite (lex_anti la lb).
      destruct (lex_z la lb); [apply Nat.compare_antisym|reflexivity..].
    + destruct (Nat.compare (s_order a) (s_order b)); cbn; try discriminate.
      destruct (lex_z la lb); try discriminate. intros E. apply Nat.compare_eq_iff in E. contradiction.
  - eexists. split; [reflexivity|]. rewrite (lex_anti la lb). destruct (lex_z la lb) eqn:EL; cbn [CompOpp].
    + apply lex_eq in EL. subst lb.
      assert (O1 : orient la ra la = 0) by (unfold orient; ring).
      assert (O2 : orient la rb ra = - orient la ra rb) by (unfold orient; ring).
      rewrite O2. rewrite O1 in COL. cbn in COL. apply Z.eqb_neq in COL.
      destruct (Z.ltb_spec 0 (orient la ra rb)), (Z.ltb_spec 0 (- orient la ra rb)); try lia; split; (reflexivity || discriminate).
    + destruct (0 <? orient la ra lb); split; (reflexivity || discriminate).
    + destruct (0 <? orient lb rb la); split; (reflexivity || discriminate).
Qed.

(** Segments that do not cross are ordered from bottom to top. *)
Lemma segment_below : forall (T : Type) (a b : sseg T) la ra lb rb, seg_z a la ra -> seg_z b lb rb -> s_index a <> s_index b ->
  below_at (Z.max (fst la) (fst lb)) la ra lb rb -> segment_cmp a b = Ok Lt /\ segment_cmp b a = Ok Gt.
Proof.
  intros T a b la ra lb rb Ha Hb N (L1 & L2 & X1 & X2 & HB).
  assert (R : segment_cmp a b = Ok Lt).
  2:{ split; auto. destruct (segment_anti T a b) as (c & E1 & E2 & _); [eexists _, _; eauto..|auto|].
      rewrite R in E1. inversion E1; subst. exact E2. }
  rewrite (segment_cmp_int T a b la ra lb rb Ha Hb N). clear Ha Hb N.
  destruct la as [ax ay], ra as [bx by_], lb as [cx cy], rb as [dx dy]. unfold orient, lex_z. cbn [fst snd] in *.
  destruct (Z.compare_spec ax cx) as [->|L|L].
  - rewrite Z.max_id in HB. assert (HY : ay < cy).
    { assert (HB' : ay * ((bx - cx) * (dx - cx)) < cy * ((bx - cx) * (dx - cx))).
      { replace (ay * ((bx - cx) * (dx - cx))) with ((ay * (bx - cx) + (by_ - ay) * (cx - cx)) * (dx - cx)) by ring.
        replace (cy * ((bx - cx) * (dx - cx))) with ((cy * (dx - cx) + (dy - cy) * (cx - cx)) * (bx - cx)) by ring. exact HB. }
      apply Z.mul_lt_mono_pos_r in HB'; auto. apply Z.mul_pos_pos; lia. }
    assert (O1 : 0 < (bx - cx) * (cy - ay) - (by_ - ay) * (cx - cx)).
    { rewrite Z.sub_diag, Z.mul_0_r, Z.sub_0_r. apply Z.mul_pos_pos; lia. }
    replace ((bx - cx) * (cy - ay) - (by_ - ay) * (cx - cx) =? 0) with false by (symmetry; apply Z.eqb_neq; lia).
    cbn [andb]. rewrite (proj2 (Z.compare_lt_iff ay cy)) by auto. rewrite (proj2 (Z.ltb_lt _ _) O1). reflexivity.
  - rewrite Z.max_r in HB by lia.
    assert (O1 : 0 < (bx - ax) * (cy - ay) - (by_ - ay) * (cx - ax)).
    { assert (HB' : (ay * (bx - ax) + (by_ - ay) * (cx - ax)) * (dx - cx) < (cy * (bx - ax)) * (dx - cx)).
      { replace (cy * (bx - ax) * (dx - cx)) with ((cy * (dx - cx) + (dy - cy) * (cx - cx)) * (bx - ax)) by ring. exact HB. }
      apply Z.mul_lt_mono_pos_r in HB'; [|lia]. lia. }
    replace ((bx - ax) * (cy - ay) - (by_ - ay) * (cx - ax) =? 0) with false by (symmetry; apply Z.eqb_neq; lia).
    cbn [andb]. rewrite (proj2 (Z.ltb_lt _ _) O1). reflexivity.
  - rewrite Z.max_l in HB by lia.
    assert (O1 : (dx - cx) * (ay - cy) - (dy - cy) * (ax - cx) < 0).
    { assert (HB' : (ay * (dx - cx)) * (bx - ax) < (cy * (dx - cx) + (dy - cy) * (ax - cx)) * (bx - ax)).
      { replace (ay * (dx - cx) * (bx - ax)) with ((ay * (bx - ax) + (by_ - ay) * (ax - ax)) * (dx - cx)) by ring. exact HB. }
      apply Z.mul_lt_mono_pos_r in HB'; [|lia]. lia. }
    assert (NC : ((bx - ax) * (cy - ay) - (by_ - ay) * (cx - ax) =? 0) && ((bx - ax) * (dy - ay) - (by_ - ay) * (dx - ax) =? 0) = false).
    { apply not_true_iff_false. rewrite andb_true_iff, !Z.eqb_eq. intros [C1 C2].
      destruct (collinear_sym (ax, ay) (bx, by_) (cx, cy) (dx, dy)) as [C3 _]; [apply lex_lt; cbn; lia|exact C1|exact C2|].
      unfold orient in C3. cbn [fst snd] in C3. lia. }
    rewrite NC. replace (0 <? (dx - cx) * (ay - cy) - (dy - cy) * (ax - cx)) with false by (symmetry; apply Z.ltb_ge; lia).
    reflexivity.
Qed.
