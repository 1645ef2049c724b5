(** The signed area of a contour traced along kept sides tells which way round it goes. *)

From Coq Require Import List ZArith QArith Bool Lia Lqa Arith Permutation Sorted.
From Verif Require Import Base Float Sweep Compute SpecShape SpecOrder SpecIntersect SpecTurn SpecHandle SpecTidy SpecCompute
  OrderFacts TurnFacts3 TurnSamples TidyGeo TidyParity TidySetup TidyLine TidySweep TidyFacts TidyCorner TidyPair TidyNext TidyWalk TidyTrace TidyWinding TidySimple.
Import ListNotations.
Local Open Scope Z_scope.

(** *** Signed heights *)

Definition sum0 (l : list (Z * Q)) : Z := fold_right (fun p a => fst p + a) 0 l.
Definition below (l : list (Z * Q)) (y : Q) : Z := fold_right (fun p a => (if qlt (snd p) y then fst p else 0) + a) 0 l.
Definition moment (l : list (Z * Q)) (m : Q) : Q := fold_right (fun p a => inject_Z (fst p) * (snd p - m) + a)%Q 0%Q l.

Lemma moment_shift : forall l m k, (moment l m == moment l k + inject_Z (sum0 l) * (k - m))%Q.
Proof.
  induction l as [|p l IH]; intros m k; [cbn; ring|]. cbn [moment sum0 fold_right]. fold (moment l m) (moment l k) (sum0 l).
  rewrite (IH m k), inject_Z_plus. ring.
Qed.

Lemma below_all : forall l y, (forall p, In p l -> (snd p < y)%Q) -> below l y = sum0 l.
Proof.
  induction l as [|p l IH]; intros y H; [reflexivity|]. cbn [below sum0 fold_right]. fold (below l y) (sum0 l).
  rewrite IH by (intros q Hq; apply H; now right). rewrite (proj2 (qlt_iff (snd p) y)) by (apply H; now left). reflexivity.
Qed.

Lemma below_part : forall l h y, below (filter (fun p => qlt (snd p) h) l) y = if qlt y h then below l y else below l h.
Proof.
  intros l h y. induction l as [|p l IH]; [cbn; now destruct (qlt y h)|]. cbn [filter].
  destruct (qlt (snd p) h) eqn:A; cbn [below fold_right]; fold (below l y) (below l h); fold (below (filter (fun p => qlt (snd p) h) l) y); rewrite IH.
  - destruct (qlt y h) eqn:B; [reflexivity|]. rewrite A. apply qlt_iff in A. apply qlt_false in B. rewrite (proj2 (qlt_iff (snd p) y)) by lra. reflexivity.
  - destruct (qlt y h) eqn:B; [|rewrite A; reflexivity]. apply qlt_false in A. apply qlt_iff in B. rewrite (proj2 (qlt_false (snd p) y)) by lra. reflexivity.
Qed.

Lemma moment_part : forall l h, (forall p, In p l -> (snd p <= h)%Q) -> (moment l h == moment (filter (fun p => qlt (snd p) h) l) h)%Q.
Proof.
  induction l as [|p l IH]; intros h H; [reflexivity|]. cbn [filter]. specialize (IH h (fun q Hq => H q (or_intror Hq))). specialize (H p (or_introl eq_refl)).
  destruct (qlt (snd p) h) eqn:A; cbn [moment fold_right]; fold (moment l h); fold (moment (filter (fun p => qlt (snd p) h) l) h); rewrite IH; [reflexivity|].
  apply qlt_false in A. assert (Q : (snd p == h)%Q) by lra. rewrite Q. ring.
Qed.

Lemma top_height : forall l : list (Z * Q), l <> [] -> exists p, In p l /\ forall q, In q l -> (snd q <= snd p)%Q.
Proof.
  induction l as [|p l IH]; intros N; [congruence|]. destruct l as [|r l].
  - exists p. split; [now left|]. intros q [<-|[]]. lra.
  - destruct IH as (t & T1 & T2); [discriminate|]. destruct (Qlt_le_dec (snd t) (snd p)) as [G|G].
    + exists p. split; [now left|]. intros q [<-|Hq]; [lra|]. specialize (T2 q Hq). lra.
    + exists t. split; [now right|]. intros q [<-|Hq]; auto.
Qed.

(** If the signs below every height add up to nothing negative, the positive ones are lower. *)
Lemma lower_first : forall k l m, (length l <= k)%nat -> (forall y, 0 <= below l y) -> (forall p, In p l -> (snd p <= m)%Q) ->
  (moment l m <= 0)%Q /\ ((exists y, (y <= m)%Q /\ 0 < below l y) -> (moment l m < 0)%Q).
Proof.
  induction k as [|k IH]; intros l m L B H.
  { destruct l; [|cbn in L; lia]. cbn. split; [lra|]. intros (y & _ & X). cbn in X. lia. }
  destruct l as [|p0 l0]; [cbn; split; [lra|]; intros (y & _ & X); cbn in X; lia|]. set (l := p0 :: l0) in *.
  destruct (top_height l) as (t & T1 & T2); [discriminate|]. set (h := snd t) in *.
  set (l' := filter (fun p => qlt (snd p) h) l).
  assert (L' : (length l' < length l)%nat).
  { assert (X : forall r, (length (filter (fun p : Z * Q => qlt (snd p) h) r) <= length r)%nat) by (induction r as [|q r IHr]; [auto|cbn; destruct (qlt _ _); cbn; lia]).
    unfold l'. clearbody l. clear - T1 X h. induction l as [|q r IHr]; [destruct T1|]. cbn [filter length]. destruct T1 as [->|T1].
    - rewrite (proj2 (qlt_false _ _)) by (unfold h; lra). specialize (X r). lia.
    - specialize (IHr T1). destruct (qlt _ _); cbn [length]; lia. }
  destruct (IH l' h) as (A1 & A2).
  - lia.
  - intros y. unfold l'. rewrite below_part. destruct (qlt y h); apply B.
  - intros p Hp. apply filter_In in Hp. apply T2, Hp.
  - assert (M : (moment l m == moment l' h + inject_Z (sum0 l) * (h - m))%Q) by (unfold l'; rewrite <- moment_part by exact T2; apply moment_shift).
    assert (Hm : (h <= m)%Q) by (apply H; exact T1).
    assert (S0 : 0 <= sum0 l) by (rewrite <- (below_all l (m + 1)); [apply B|]; intros p Hp; specialize (H p Hp); lra).
    assert (S0' : (0 <= inject_Z (sum0 l))%Q) by (rewrite Zle_Qle in S0; exact S0).
    split; [rewrite M; nra|]. intros (y & Y1 & Y2). rewrite M.
    destruct (Qlt_le_dec h y) as [G|G].
    + assert (0 < sum0 l) as S1 by (rewrite <- (below_all l y); [exact Y2|]; intros p Hp; specialize (T2 p Hp); unfold h in *; lra).
      rewrite Zlt_Qlt in S1. change (inject_Z 0) with 0%Q in S1. nra.
    + assert ((moment l' h < 0)%Q); [|nra]. apply A2. exists y. split; [exact G|]. unfold l'. rewrite below_part.
      destruct (qlt y h) eqn:Q; [exact Y2|]. apply qlt_false in Q. replace (below l h) with (below l y); [exact Y2|].
      assert (Qy : (y == h)%Q) by lra. clear - Qy. induction l as [|p l IHl]; [reflexivity|]. cbn [below fold_right]. fold (below l y) (below l h). rewrite IHl. f_equal.
      replace (qlt (snd p) y) with (qlt (snd p) h); [reflexivity|]. apply eq_true_iff_eq. rewrite !qlt_iff. split; intros; lra.
Qed.

(** *** An edge cut into strips of width 1 *)

Definition trap (e : edge) : Z := (fst (e_right e) - fst (e_left e)) * (snd (e_left e) + snd (e_right e)).
Definition over (e : edge) (k : Z) : bool := (fst (e_left e) <=? k) && (k <? fst (e_right e)).
Definition mid (k : Z) : Q := (inject_Z k + (1 # 2))%Q.
Definition strip (e : edge) (k : Z) : Q := if over e k then (2 * yat e (mid k))%Q else 0%Q.
Definition qsum (f : Z -> Q) (lo : Z) (N : nat) : Q := fold_right (fun j a => f (lo + Z.of_nat j)%Z + a)%Q 0%Q (rev (seq 0 N)).

Lemma qsum_S : forall f lo N, qsum f lo (S N) = (f (lo + Z.of_nat N)%Z + qsum f lo N)%Q.
Proof. intros f lo N. unfold qsum. rewrite seq_S, rev_app_distr. reflexivity. Qed.
Lemma qsum_plus : forall f g lo N, (qsum (fun k => f k + g k) lo N == qsum f lo N + qsum g lo N)%Q.
Proof. intros f g lo N. induction N as [|N IH]; [cbn; ring|]. rewrite !qsum_S, IH. ring. Qed.
Lemma qsum_scale : forall c f lo N, (qsum (fun k => c * f k) lo N == c * qsum f lo N)%Q.
Proof. intros c f lo N. induction N as [|N IH]; [cbn; ring|]. rewrite !qsum_S, IH. ring. Qed.
Lemma qsum_ext : forall f g lo N, (forall k, (f k == g k)%Q) -> (qsum f lo N == qsum g lo N)%Q.
Proof. intros f g lo N H. induction N as [|N IH]; [reflexivity|]. rewrite !qsum_S, IH, (H _). reflexivity. Qed.
Lemma qsum_le : forall f lo N, (forall k, (f k <= 0)%Q) -> (qsum f lo N <= 0)%Q.
Proof. intros f lo N H. induction N as [|N IH]; [cbn; lra|]. rewrite qsum_S. specialize (H (lo + Z.of_nat N)). lra. Qed.
Lemma qsum_lt : forall f lo N k, (forall k, (f k <= 0)%Q) -> lo <= k < lo + Z.of_nat N -> (f k < 0)%Q -> (qsum f lo N < 0)%Q.
Proof.
  intros f lo N k H. induction N as [|N IH]; intros R L; [lia|]. rewrite qsum_S.
  destruct (Z.eq_dec k (lo + Z.of_nat N)) as [->|Q].
  - pose proof (qsum_le f lo N H). lra.
  - assert (lo <= k < lo + Z.of_nat N) as R' by lia. specialize (IH R' L). specialize (H (lo + Z.of_nat N)). lra.
Qed.

Lemma strips : forall e lo N, lr e -> lo <= fst (e_left e) -> fst (e_right e) <= lo + Z.of_nat N -> (qsum (strip e) lo N == inject_Z (trap e))%Q.
Proof.
  intros e lo N L H1 H2. assert (X : fst (e_left e) <= fst (e_right e)) by (unfold lr in L; apply lex_lt in L; lia).
  set (c := fun k => Z.max 0 (Z.min k (fst (e_right e)) - fst (e_left e))).
  assert (G : forall M, (qsum (strip e) lo M == inject_Z (c (lo + Z.of_nat M)%Z) * (2 * yl e) + slope e * inject_Z (c (lo + Z.of_nat M)%Z * c (lo + Z.of_nat M)%Z))%Q).
  { induction M as [|M IH].
    - replace (c (lo + Z.of_nat 0)) with 0 by (unfold c; lia). cbn. ring.
    - rewrite qsum_S, IH. set (k := lo + Z.of_nat M). replace (lo + Z.of_nat (S M)) with (k + 1) by (unfold k; lia). unfold strip, over.
      destruct (Z.leb_spec (fst (e_left e)) k), (Z.ltb_spec k (fst (e_right e))); cbn [andb].
      2-4: replace (c (k + 1)) with (c k) by (unfold c; lia); ring.
      replace (c (k + 1)) with (c k + 1) by (unfold c; lia). assert (Ck : c k = k - fst (e_left e)) by (unfold c; lia).
      rewrite !inject_Z_mult, inject_Z_plus, Ck, inject_sub. unfold yat, mid. change (inject_Z 1) with 1%Q. ring. }
  rewrite G. replace (c (lo + Z.of_nat N)) with (fst (e_right e) - fst (e_left e)) by (unfold c; lia). unfold trap.
  destruct (Z.eq_dec (fst (e_left e)) (fst (e_right e))) as [Q|Q].
  - rewrite Q, Z.sub_diag. cbn. ring.
  - assert (Se : sloped e) by (unfold sloped; lia). rewrite !inject_Z_mult, inject_sub, inject_Z_plus.
    pose proof (slope_eq e Se) as SE. set (w := (xr e - xl e)%Q) in *.
    transitivity (w * (2 * yl e) + (slope e * w) * w)%Q; [ring|]. rewrite SE. ring.
Qed.

Lemma mid_between : forall k, between (mid k).
Proof. intros k z Q. unfold mid, Qeq in Q. cbn in Q. lia. Qed.
Lemma mid_le : forall a k : Z, (inject_Z a <= mid k)%Q <-> a <= k.
Proof.
  intros a k. unfold mid. split; intros H.
  - destruct (Z_lt_le_dec k a) as [G|G]; [exfalso|exact G]. assert (Q : k + 1 <= a) by lia. rewrite Zle_Qle, inject_Z_plus in Q. change (inject_Z 1) with 1%Q in Q. lra.
  - rewrite Zle_Qle in H. lra.
Qed.
Lemma mid_lt : forall a k : Z, (mid k < inject_Z a)%Q <-> k < a.
Proof.
  intros a k. pose proof (mid_le a k) as M. split; intros H.
  - destruct (Z_lt_le_dec k a) as [G|G]; [exact G|]. apply M in G. lra.
  - destruct (Qlt_le_dec (mid k) (inject_Z a)) as [G|G]; [exact G|]. apply M in G. lia.
Qed.

Lemma passes_mid : forall e k y, lr e -> passes_below e (mid k) y = over e k && qlt (yat e (mid k)) y.
Proof.
  intros e k y L. apply eq_true_iff_eq. rewrite passes_iff by exact L. unfold over. rewrite !andb_true_iff, Z.leb_le, Z.ltb_lt, qlt_iff, mid_le, mid_lt. tauto.
Qed.

(** *** The area of a closed walk *)

Section Area.
Variables (zs : list corners) (S : list bseg).
Notation E := (edges zs).
Notation eg := (eg (edges zs)).
Notation src := (src zs).
Notation dst := (dst zs).
Hypothesis (D : drawn E S).
Variable C : list bend.
Hypothesis (CS : forall d : bend, In d C -> In (fst d) S) (CB : Permutation (map dst C) (map src C)).
Notation total := (total zs C).

Definition area2 : Z := fold_right Z.add 0 (map (fun d => cross_z (src d) (dst d)) C).

Lemma area_traps : area2 = - total trap.
Proof using CB.
  set (g := fun p : Z * Z => fst p * snd p).
  assert (P : forall l m, Permutation l m -> fold_right Z.add 0 (map g l) = fold_right Z.add 0 (map g m)).
  { intros l m Q. induction Q; cbn; lia. }
  specialize (P _ _ CB). rewrite !map_map in P. unfold area2. clear CB CS D.
  enough (H : fold_right Z.add 0 (map (fun d => cross_z (src d) (dst d)) C)
    = - total trap + fold_right Z.add 0 (map (fun x => g (dst x)) C) - fold_right Z.add 0 (map (fun x => g (src x)) C)) by lia.
  clear P. induction C as [|[s x] l IH]; [reflexivity|]. rewrite total_cons. cbn [map fold_right]. rewrite IH. unfold sg, trap, g, cross_z, TidyNext.src, TidyNext.dst.
  destruct x; cbn [fst snd end_z other_z]; ring.
Qed.

Definition slab (o : Z) (k : Z) : list (Z * Q) :=
  flat_map (fun d : bend => if over (eg (fst d)) k then [(o * sg d, yat (eg (fst d)) (mid k))] else []) C.

Lemma slab_below : forall o k y, below (slab o k) y = o * wind zs C (mid k) y.
Proof using D CS.
  intros o k y. unfold slab, wind. assert (H : forall d : bend, In d C -> lr (eg (fst d))) by (intros d Hd; now apply (seg_spec _ _ D), CS).
  clear CB CS. induction C as [|d l IH]; [cbn; ring|]. cbn [flat_map]. rewrite total_cons, passes_mid by (apply H; now left).
  specialize (IH (fun x Hx => H x (or_intror Hx))). destruct (over (eg (fst d)) k); cbn [app andb].
  - cbn [below fold_right]. fold (below (flat_map (fun d : bend => if over (eg (fst d)) k then [(o * sg d, yat (eg (fst d)) (mid k))] else []) l) y). rewrite IH. cbn [fst snd].
    destruct (qlt _ y); cbn; ring.
  - rewrite IH. cbn. ring.
Qed.

Lemma slab_sum : forall o k, sum0 (slab o k) = 0.
Proof using D CS CB.
  intros o k. assert (H : sum0 (slab o k) = o * total (fun e => b2z (over e k))).
  { unfold slab. clear CB CS D. induction C as [|d l IH]; [cbn; ring|]. cbn [flat_map]. rewrite total_cons. destruct (over (eg (fst d)) k); cbn [app].
    - cbn [sum0 fold_right]. fold (sum0 (flat_map (fun d : bend => if over (eg (fst d)) k then [(o * sg d, yat (eg (fst d)) (mid k))] else []) l)). rewrite IH. cbn. ring.
    - rewrite IH. cbn. ring. }
  rewrite H. enough (Q : - total (fun e => b2z (over e k)) = 0) by lia.
  rewrite <- (region_total zs C (fun w => fst w <=? k) CB).
  transitivity (total (fun e => 0 - b2z (over e k))).
  { rewrite total_sub, (total_zero zs C (fun _ => 0)); [lia|auto]. }
  apply total_ext. intros d Hd. assert (L : lr (eg (fst d))) by (now apply (seg_spec _ _ D), CS). unfold lr in L. apply lex_lt in L.
  unfold over. destruct (Z.leb_spec (fst (e_left (eg (fst d)))) k), (Z.ltb_spec k (fst (e_right (eg (fst d))))), (Z.leb_spec (fst (e_right (eg (fst d)))) k); cbn; lia.
Qed.

Definition row (k : Z) : Q := fold_right (fun d a => inject_Z (sg d) * strip (eg (fst d)) k + a)%Q 0%Q C.

Lemma row_moment : forall o k m, (inject_Z o * row k == 2 * moment (slab o k) m)%Q.
Proof using D CS CB.
  intros o k m. assert (Z0 : (moment (slab o k) m == moment (slab o k) 0)%Q).
  { rewrite (moment_shift (slab o k) m 0), slab_sum. change (inject_Z 0) with 0%Q. ring. }
  rewrite Z0. unfold row, slab. clear. induction C as [|d l IH]; [cbn; ring|]. cbn [flat_map fold_right].
  rewrite Qmult_plus_distr_r, IH. unfold strip. destruct (over (eg (fst d)) k); cbn [app].
  - cbn [moment fold_right fst snd]. fold (moment (flat_map (fun d : bend => if over (eg (fst d)) k then [(o * sg d, yat (eg (fst d)) (mid k))] else []) l) 0). rewrite inject_Z_mult. ring.
  - ring.
Qed.

Lemma reach : exists lo N, forall d : bend, In d C -> lo <= fst (e_left (eg (fst d))) /\ fst (e_right (eg (fst d))) <= lo + Z.of_nat N.
Proof using.
  clear CB CS D. induction C as [|d l (lo & N & IH)]; [exists 0, 0%nat; intros d []|].
  set (lo' := Z.min lo (fst (e_left (eg (fst d))))). set (hi := Z.max (lo + Z.of_nat N) (fst (e_right (eg (fst d))))).
  exists lo', (Z.to_nat (hi - lo')). intros x [<-|Hx]; [unfold lo', hi; lia|]. specialize (IH x Hx). unfold lo', hi; lia.
Qed.

Lemma area_rows : forall lo N, (forall d : bend, In d C -> lo <= fst (e_left (eg (fst d))) /\ fst (e_right (eg (fst d))) <= lo + Z.of_nat N) ->
  (inject_Z (- area2) == qsum row lo N)%Q.
Proof using D CS CB.
  intros lo N R. rewrite area_traps, Z.opp_involutive. assert (H : forall d : bend, In d C -> lr (eg (fst d))) by (intros d Hd; now apply (seg_spec _ _ D), CS).
  unfold row. clear CB CS. induction C as [|d l IH].
  - cbn [fold_right]. rewrite (qsum_ext _ (fun _ => 0 * 0)%Q) by (intros; ring). rewrite qsum_scale. cbn. ring.
  - rewrite total_cons. cbn [fold_right]. rewrite qsum_plus, qsum_scale, inject_Z_plus, inject_Z_mult.
    rewrite (IH (fun x Hx => R x (or_intror Hx)) (fun x Hx => H x (or_intror Hx))).
    destruct (R d (or_introl eq_refl)) as (R1 & R2). rewrite (strips _ lo N (H d (or_introl eq_refl)) R1 R2). reflexivity.
Qed.

Lemma bounded : forall l : list (Z * Q), forall y, exists m, (y <= m)%Q /\ forall p, In p l -> (snd p <= m)%Q.
Proof using.
  clear. induction l as [|p l IH]; intros y; [exists y; split; [lra|intros p []]|]. destruct (IH y) as (m & M1 & M2).
  destruct (Qlt_le_dec m (snd p)) as [G|G].
  - exists (snd p). split; [lra|]. intros q [<-|Hq]; [lra|]. specialize (M2 q Hq). lra.
  - exists m. split; [exact M1|]. intros q [<-|Hq]; auto.
Qed.

Lemma area_positive : forall o, (forall k y, 0 <= o * wind zs C (mid k) y) -> (exists k y, 0 < o * wind zs C (mid k) y) -> 0 < o * area2.
Proof using D CS CB.
  intros o H (k0 & y0 & H0). destruct reach as (lo & N & R). pose proof (area_rows lo N R) as A.
  assert (L : forall k, (inject_Z o * row k <= 0)%Q).
  { intros k. destruct (bounded (slab o k) 0) as (m & _ & M). rewrite (row_moment o k m).
    destruct (lower_first (length (slab o k)) (slab o k) m (le_n _)) as (B & _); [intros y; rewrite slab_below; apply H|exact M|]. lra. }
  assert (L0 : (inject_Z o * row k0 < 0)%Q).
  { destruct (bounded (slab o k0) y0) as (m & M1 & M2). rewrite (row_moment o k0 m).
    destruct (lower_first (length (slab o k0)) (slab o k0) m (le_n _)) as (_ & B); [intros y; rewrite slab_below; apply H|exact M2|].
    assert ((moment (slab o k0) m < 0)%Q); [|lra]. apply B. exists y0. rewrite slab_below. auto. }
  assert (In0 : lo <= k0 < lo + Z.of_nat N).
  { destruct (Z_lt_le_dec k0 lo) as [G|G]; [exfalso|].
    - assert (W : wind zs C (mid k0) y0 = 0); [|rewrite W in H0; lia]. apply total_zero. intros d Hd.
      replace (passes_below (eg (fst d)) (mid k0) y0) with false; [reflexivity|]. symmetry. rewrite passes_mid by (now apply (seg_spec _ _ D), CS).
      destruct (R d Hd) as (R1 & R2). unfold over. destruct (Z.leb_spec (fst (e_left (eg (fst d)))) k0); [lia|reflexivity].
    - split; [exact G|]. destruct (Z_lt_le_dec k0 (lo + Z.of_nat N)) as [G'|G']; [exact G'|exfalso].
      assert (W : wind zs C (mid k0) y0 = 0); [|rewrite W in H0; lia]. apply total_zero. intros d Hd.
      replace (passes_below (eg (fst d)) (mid k0) y0) with false; [reflexivity|]. symmetry. rewrite passes_mid by (now apply (seg_spec _ _ D), CS).
      destruct (R d Hd) as (R1 & R2). unfold over. destruct (Z.ltb_spec k0 (fst (e_right (eg (fst d))))); [lia|now rewrite andb_false_r]. }
  pose proof (qsum_lt (fun k => inject_Z o * row k)%Q lo N k0 L In0 L0) as Q. rewrite qsum_scale, <- A, <- inject_Z_mult in Q.
  change 0%Q with (inject_Z 0) in Q. rewrite <- Zlt_Qlt in Q. lia.
Qed.
End Area.

(** A height just above another. *)
Lemma gap : forall (l : list Q) h, exists y, (h < y)%Q /\ forall g, In g l -> (g < y)%Q -> (g <= h)%Q.
Proof.
  intros l h. induction l as [|g l (y & Y1 & Y2)]; [exists (h + 1)%Q; split; [lra|intros g []]|].
  destruct (Qlt_le_dec h g) as [G|G].
  - destruct (Qlt_le_dec g y) as [G'|G'].
    + exists g. split; [exact G|]. intros x [<-|Hx] X; [lra|]. apply Y2; [exact Hx|lra].
    + exists y. split; [exact Y1|]. intros x [<-|Hx] X; [lra|auto].
  - exists y. split; [exact Y1|]. intros x [<-|Hx] X; [lra|auto].
Qed.

Section Sign.
Variables (zs : list corners) (modes : list polygon_mode) (S : list bseg) (ks : list packet) (act sw : list bseg) (I : list bend).
Notation n := (length modes).
Notation E := (edges zs).
Notation eg := (eg (edges zs)).
Hypothesis (D : drawn E S) (V : inv zs S modes [] ks act sw) (Polys : forall s, In s S -> (e_poly (eg s) < n)%nat).
Hypothesis (PI : Permutation (flat_map (sides_of modes ks) sw) I).
Hypothesis (NE : covered modes zs).

Notation src := (src zs).
Notation dst := (dst zs).
Notation walk := (walk zs S I).
Notation first := (first zs).

(** Just above an edge of a walk. *)
Lemma wind_above : forall C (b : bend) x, (forall d : bend, In d C -> In (fst d) S) -> Permutation (map dst C) (map src C) ->
  In b C -> between x -> spans (eg (fst b)) x -> exists y, wind zs C x y = WL zs C (fst b).
Proof using D.
  intros C b x CS CB Hb B (X1 & X2). destruct (gap (map (fun d : bend => yat (eg (fst d)) x) C) (yat (eg (fst b)) x)) as (y & Y1 & Y2).
  exists y. assert (Sl : sloped (eg (fst b))) by (unfold sloped; rewrite Zlt_Qlt; lra).
  unfold WL. rewrite (wind_along zs S D C CS CB (fst b) x (CS b Hb) Sl X1 X2). unfold wind, WS. rewrite <- total_add. apply total_ext. intros d Hd.
  assert (Ld : lr (eg (fst d))) by (now apply (seg_spec _ _ D), CS).
  pose proof (passes_between (eg (fst d)) x y Ld B) as P1. pose proof (passes_between (eg (fst d)) x (yat (eg (fst b)) x) Ld B) as P2.
  destruct (same_ends (eg (fst d)) (eg (fst b))) eqn:SE.
  - apply same_ends_iff in SE. destruct SE as (S1 & S2).
    assert (Yd : (yat (eg (fst d)) x == yat (eg (fst b)) x)%Q) by (unfold yat, slope; rewrite S1, S2; reflexivity).
    replace (passes_below (eg (fst d)) x y) with true; [replace (passes_below (eg (fst d)) x (yat (eg (fst b)) x)) with false; [reflexivity|]|].
    + symmetry. apply not_true_iff_false. rewrite P2. intros (_ & Q). lra.
    + symmetry. apply P1. split; [unfold spans; rewrite S1, S2; auto|lra].
  - replace (passes_below (eg (fst d)) x y) with (passes_below (eg (fst d)) x (yat (eg (fst b)) x)); [cbn; lia|].
    apply eq_true_iff_eq. rewrite P1, P2. split; intros (Q1 & Q2); (split; [exact Q1|]); [lra|].
    assert (Q3 : (yat (eg (fst d)) x <= yat (eg (fst b)) x)%Q) by (apply Y2; [apply (in_map (fun d : bend => yat (eg (fst d)) x)); exact Hd|exact Q2]).
    destruct (Qlt_le_dec (yat (eg (fst d)) x) (yat (eg (fst b)) x)) as [G|G]; [exact G|exfalso].
    assert (SE' : same_ends (eg (fst d)) (eg (fst b)) = true); [|congruence].
    apply (level_same zs S D (fst d) (fst b) x); auto; [split; assumption|lra].
Qed.

Lemma walk_sides : forall T, walk T -> sides (map src T) = map (fun d => (src d, dst d)) T.
Proof using.
  clear. intros T (e & l & -> & _ & _ & Ch & Q & _). pose proof (chain_dst zs S I l e Ch) as X. rewrite Q in X.
  transitivity (combine (map src (e :: l)) (map dst (e :: l))); [rewrite X; reflexivity|]. clear.
  induction (e :: l) as [|x m IH]; [reflexivity|]. cbn [map combine]. now rewrite IH.
Qed.

Lemma walk_area : forall T, walk T -> shoelace (map src T) = area2 zs T.
Proof using.
  clear. intros T W. pose proof (walk_sides T W) as Q. unfold sides in Q. unfold shoelace, area2. destruct (map src T) as [|a t] eqn:M.
  - destruct T; [reflexivity|discriminate].
  - cbn [tl]. rewrite Q, map_map. reflexivity.
Qed.

Lemma area_turn : forall e l, walk (e :: l) -> first (e :: l) -> NoDup (e :: l) ->
  0 < (2 * turn zs e l - 1) * shoelace (map src (e :: l)).
Proof using D V Polys PI NE.
  intros e l W F ND. rewrite (walk_area _ W). set (o := 2 * turn zs e l - 1).
  pose proof (T_S zs modes S ks act sw I D V Polys PI NE e l W) as TS. pose proof (T_B zs S I e l W) as TB.
  assert (O : o = 1 \/ o = -1) by (unfold o, turn; destruct (0 <? _); auto).
  apply (area_positive zs S D (e :: l) TS TB).
  - intros k y. destruct (wind_range zs modes S ks act sw I D V Polys PI NE e l W F ND (mid k) y (mid_between k)) as [-> | ->]; fold o; destruct O as [-> | ->]; lia.
  - (* just above the lower of the two edges at the first corner *)
    pose proof (corner_neq zs modes S ks act sw I D V Polys PI NE e l W F) as CN.
    assert (B : exists b : bend, In b (e :: l) /\ e_left (eg (fst b)) = src e /\ sloped (eg (fst b)) /\ WL zs (e :: l) (fst b) = o).
    { assert (Ie : In e (e :: l)) by now left. pose proof (z_in e l) as Iz.
      pose proof (e_left_v zs S I e l W) as Le. pose proof (z_left_v zs modes S ks act sw I D V Polys PI NE e l W F) as Lz.
      pose proof (WL_side zs modes S ks act sw I D V Polys PI NE e l W F ND) as WLs.
      pose proof (proj1 (W_parts zs S I e l W)) as Se. pose proof (z_right zs modes S ks act sw I D V Polys PI NE e l W F) as Sz.
      assert (Low : forall a b : bend, In a (e :: l) -> In b (e :: l) -> e_left (eg (fst a)) = src e -> e_left (eg (fst b)) = src e ->
        0 < orient (src e) (e_right (eg (fst a))) (e_right (eg (fst b))) -> sloped (eg (fst a))).
      { intros a b Ha Hb La Lb O'. assert (lr (eg (fst a))) as A1 by (now apply (seg_spec _ _ D), TS). assert (lr (eg (fst b))) as B1 by (now apply (seg_spec _ _ D), TS).
        unfold lr in A1, B1. apply lex_lt in A1, B1. rewrite La in A1. rewrite Lb in B1. unfold orient in O'. unfold sloped. rewrite La. nia. }
      unfold corner in CN. set (q := src e) in *.
      assert (Re : dst e = e_right (eg (fst e))) by (unfold TidyNext.dst; now rewrite Se).
      assert (Rz : src (last l e) = e_right (eg (fst (last l e)))) by (unfold TidyNext.src; now rewrite Sz).
      destruct (Z_lt_le_dec 0 (corner zs e l)) as [G|G].
      - exists e. split; [exact Ie|]. split; [exact Le|]. split.
        + apply (Low e (last l e)); auto. unfold corner in G. fold q in G. now rewrite Re, Rz in G.
        + rewrite (WLs e Ie), Se. unfold o, turn. destruct (Z.ltb_spec 0 (corner zs e l)); lia.
      - exists (last l e). split; [exact Iz|]. split; [exact Lz|]. split.
        + apply (Low (last l e) e); auto. unfold corner in G. fold q in G. rewrite Re, Rz in *.
          assert (X : orient q (e_right (eg (fst (last l e)))) (e_right (eg (fst e))) = - orient q (e_right (eg (fst e))) (e_right (eg (fst (last l e))))) by (unfold orient; ring).
          lia.
        + rewrite (WLs _ Iz), Sz. unfold o, turn. destruct (Z.ltb_spec 0 (corner zs e l)); lia. }
    destruct B as (b & B1 & B2 & B3 & B4).
    destruct (wind_above (e :: l) b (mid (fst (src e))) TS TB B1 (mid_between _)) as (y & Hy).
    { unfold sloped in B3. rewrite B2 in B3. split; [|now apply mid_lt]. rewrite B2. unfold mid. lra. }
    exists (fst (src e)), y. rewrite Hy, B4. destruct O as [-> | ->]; lia.
Qed.
End Sign.
