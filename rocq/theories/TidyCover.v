(** What the contours traced along kept sides go round: every place that is kept, once. *)

From Coq Require Import List ZArith QArith Bool Lia Lqa Arith Permutation Sorted.
From Verif Require Import Base Float Sweep Compute SpecShape SpecOrder SpecIntersect SpecTurn SpecHandle SpecTidy SpecCompute
  OrderFacts TurnFacts3 TurnSamples TidyGeo TidyParity TidySetup TidyLine TidySweep TidyFacts TidyCorner TidyPair TidyNext TidyWalk TidyTrace TidyWinding TidySimple.
Import ListNotations.
Local Open Scope Z_scope.

(** *** Moving a point off the corners *)

(** For all small enough [d], for all small enough [c]. *)
Definition small2 (P : Q -> Q -> Prop) : Prop :=
  exists d0, (0 < d0)%Q /\ forall d, (0 < d)%Q -> (d < d0)%Q -> exists c0, (0 < c0)%Q /\ forall c, (0 < c)%Q -> (c < c0)%Q -> P d c.

Lemma small2_and : forall P P', small2 P -> small2 P' -> small2 (fun d c => P d c /\ P' d c).
Proof.
  assert (M : forall a b : Q, (0 < a)%Q -> (0 < b)%Q -> exists m, (0 < m)%Q /\ (m <= a)%Q /\ (m <= b)%Q).
  { intros a b A B. destruct (Qlt_le_dec a b); [exists a|exists b]; repeat split; lra. }
  intros P P' (d1 & D1 & H1) (d2 & D2 & H2). destruct (M d1 d2 D1 D2) as (d0 & D0 & Da & Db). exists d0. split; [exact D0|].
  intros d X1 X2. destruct (H1 d X1 ltac:(lra)) as (c1 & C1 & G1), (H2 d X1 ltac:(lra)) as (c2 & C2 & G2).
  destruct (M c1 c2 C1 C2) as (c0 & C0 & Ca & Cb). exists c0. split; [exact C0|]. intros c Y1 Y2. split; [apply G1|apply G2]; lra.
Qed.

Lemma bound : forall q : Q, exists k, (0 < k)%Q /\ (- k <= q)%Q /\ (q <= k)%Q.
Proof.
  intros q. exists (1 + (if Qlt_le_dec q 0 then - q else q))%Q. destruct (Qlt_le_dec q 0); repeat split; lra.
Qed.

Lemma nudge_edge : forall e x y, lr e -> small2 (fun d c => passes_below e (x + c) (y - d) = passes_below e x y).
Proof.
  intros e x y L.
  assert (R : forall (P Q : Prop) d c, (passes_below e (x + c) (y - d) = true <-> P) -> (passes_below e x y = true <-> Q) -> (P <-> Q) ->
    passes_below e (x + c) (y - d) = passes_below e x y) by (intros P Q d c H1 H2 H3; apply eq_true_iff_eq; tauto).
  destruct (Qlt_le_dec x (xl e)) as [A|A].
  { exists 1%Q. split; [lra|]. intros d _ _. exists (xl e - x)%Q. split; [lra|]. intros c C1 C2.
    eapply R; [apply passes_iff; exact L|apply passes_iff; exact L|]. split; intros (X & _); lra. }
  destruct (Qlt_le_dec x (xr e)) as [B|B].
  2:{ exists 1%Q. split; [lra|]. intros d _ _. exists 1%Q. split; [lra|]. intros c C1 C2.
      eapply R; [apply passes_iff; exact L|apply passes_iff; exact L|]. split; intros (_ & X & _); lra. }
  assert (Y : forall c, (yat e (x + c) == yat e x + slope e * c)%Q) by (intros c; unfold yat; ring).
  destruct (bound (slope e)) as (k & K0 & K1 & K2).
  assert (Sl : forall c, (0 < c)%Q -> (- (k * c) <= slope e * c)%Q /\ (slope e * c <= k * c)%Q) by (intros c C; split; nra).
  assert (Dv : forall g, (0 < g)%Q -> exists c0, (0 < c0)%Q /\ (c0 <= xr e - x)%Q /\ forall c, (0 < c)%Q -> (c < c0)%Q -> (k * c < g)%Q).
  { intros g G. assert (G' : (0 < g / k)%Q) by (apply Qlt_shift_div_l; lra).
    assert (U : forall c, (c < g / k)%Q -> (k * c < g)%Q).
    { intros c C. setoid_replace g with (k * (g / k))%Q by (field; lra). nra. }
    destruct (Qlt_le_dec (g / k) (xr e - x)); [exists (g / k)%Q|exists (xr e - x)%Q]; (split; [lra|]; split; [lra|]); intros c C1 C2; apply U; lra. }
  destruct (Qlt_le_dec (yat e x) y) as [G|G].
  - set (g := ((y - yat e x) * (1 # 2))%Q). assert (Pg : (0 < g)%Q) by (unfold g; lra). exists g. split; [exact Pg|]. intros d D1 D2.
    destruct (Dv g Pg) as (c0 & C0 & C1 & C2). exists c0. split; [exact C0|]. intros c Z1 Z2. specialize (C2 c Z1 Z2). specialize (Sl c Z1).
    eapply R; [apply passes_iff; exact L|apply passes_iff; exact L|]. rewrite (Y c). unfold g in *. split; intros _; repeat split; lra.
  - exists 1%Q. split; [lra|]. intros d D1 D2. destruct (Dv d D1) as (c0 & C0 & C1 & C2). exists c0. split; [exact C0|]. intros c Z1 Z2.
    specialize (C2 c Z1 Z2). specialize (Sl c Z1).
    eapply R; [apply passes_iff; exact L|apply passes_iff; exact L|]. rewrite (Y c). split; intros (_ & _ & X); lra.
Qed.

Lemma nudge : forall (l : list edge) x y, (forall e, In e l -> lr e) ->
  exists x' y', between x' /\ forall e, In e l -> passes_below e x' y' = passes_below e x y.
Proof.
  intros l x y HL. assert (H : small2 (fun d c => forall e, In e l -> passes_below e (x + c) (y - d) = passes_below e x y)).
  { induction l as [|e l IH]; [exists 1%Q; split; [lra|]; intros; exists 1%Q; split; [lra|]; intros; contradiction|].
    destruct (small2_and _ _ (nudge_edge e x y (HL e (or_introl eq_refl))) (IH (fun f Hf => HL f (or_intror Hf)))) as (d0 & D0 & H). exists d0. split; [exact D0|].
    intros d D1 D2. destruct (H d D1 D2) as (c0 & C0 & G). exists c0. split; [exact C0|]. intros c C1 C2 f [<-|Hf]; [exact (proj1 (G c C1 C2))|]. exact (proj2 (G c C1 C2) f Hf). }
  destruct H as (d0 & D0 & H). destruct (H (d0 * (1 # 2))%Q ltac:(lra) ltac:(lra)) as (c0 & C0 & G).
  set (c1 := if Qlt_le_dec c0 1 then c0 else 1%Q). assert (C1 : (0 < c1 /\ c1 <= c0 /\ c1 <= 1)%Q) by (unfold c1; destruct (Qlt_le_dec c0 1); lra).
  assert (B : between (x + c1 * (1 # 2)) \/ between (x + c1 * (1 # 3))).
  { destruct (Qeq_dec (x + c1 * (1 # 2)) (inject_Z (Qround.Qfloor (x + c1 * (1 # 2))))) as [Q|Q].
    - right. intros z Hz. set (w := Qround.Qfloor (x + c1 * (1 # 2))) in *.
      assert (X1 : (inject_Z z < inject_Z w)%Q) by lra. assert (X2 : (inject_Z w < inject_Z (z + 1))%Q) by (rewrite inject_Z_plus; change (inject_Z 1) with 1%Q; lra).
      rewrite <- Zlt_Qlt in X1, X2. lia.
    - left. intros z Hz. apply Q. rewrite Hz at 2. now rewrite Qround.Qfloor_Z. }
  destruct B as [B|B]; eexists _, _; (split; [exact B|]); apply G; lra.
Qed.

(** *** Covering *)

Section Cover.
Variables (zs : list corners) (modes : list polygon_mode) (S : list bseg).
Notation E := (edges zs).
Notation eg := (eg (edges zs)).
Notation src := (src zs).
Notation dst := (dst zs).
Notation face := (face zs).
Hypothesis (D : drawn E S).

(** The polygons that (x, y) is inside of. *)
Definition within_poly (x y : Q) (i : nat) : bool := parity (fun e => of_poly i e && passes_below e x y) E.

Lemma within_odd : forall x y i, within_poly x y i = Nat.odd (crossings zs i x y).
Proof using. intros x y i. unfold within_poly, crossings. now rewrite parity_odd. Qed.

(** The place just above the highest edge below a point. *)
Lemma highest_last : forall x y, between x ->
  (forall s, In s S -> passes_below (eg s) x y = false)
  \/ exists b, In b S /\ last_edge zs (eg b) /\ passes_below (eg b) x y = true /\
       forall s, In s S -> passes_below (eg s) x y = xorb (passes_below (eg s) x (yat (eg b) x)) (same_ends (eg s) (eg b))
         /\ (same_ends (eg s) (eg b) = true -> passes_below (eg s) x (yat (eg b) x) = false).
Proof using D.
  intros x y B. destruct (highest zs S D S x y (fun s H => H) B) as [N|(a & A1 & A2 & A3)]; [now left|right].
  destruct (last_exists zs S D a A1) as (b & B1 & B2 & B3). exists b. split; [exact B1|]. split; [exact B2|].
  pose proof B3 as B3'. apply same_ends_iff in B3'. destruct B3' as (Q1 & Q2).
  assert (Y : yat (eg b) x = yat (eg a) x) by (unfold yat, slope; now rewrite Q1, Q2).
  assert (P : forall y, passes_below (eg b) x y = passes_below (eg a) x y) by (intros y'; unfold passes_below; now rewrite Q1, Q2).
  assert (SB : forall s, same_ends (eg s) (eg b) = same_ends (eg s) (eg a)) by (intros s; unfold same_ends; now rewrite Q1, Q2).
  split; [now rewrite P|]. intros s Hs. rewrite (A3 s Hs), SB, Y.
  assert (NP : same_ends (eg s) (eg a) = true -> passes_below (eg s) x (yat (eg a) x) = false).
  { intros SE. apply same_ends_iff in SE. destruct SE as (S1 & S2). apply not_true_iff_false. intros X.
    apply passes_between in X; [|now apply (seg_spec _ _ D)|exact B]. destruct X as (_ & X). unfold yat, slope in X. rewrite S1, S2 in X. lra. }
  split; [|exact NP]. destruct (same_ends (eg s) (eg a)) eqn:SE; [rewrite (NP eq_refl)|]; destruct (passes_below _ _ _); reflexivity.
Qed.

Variable K : (nat -> bool) -> bool.
Hypothesis (Kext : forall f g, (forall i, f i = g i) -> K f = K g) (K0 : K (fun _ => false) = false).
Variable C : list bend.
Hypothesis (CI : forall d : bend, In d C <-> In (fst d) S /\ last_edge zs (eg (fst d)) /\ K (face d) = true) (CN : NoDup C)
  (CB : Permutation (map dst C) (map src C)).

Lemma C_S : forall d : bend, In d C -> In (fst d) S.
Proof using CI. intros d Hd. now apply CI. Qed.

Lemma WS_last : forall b, In b S -> last_edge zs (eg b) -> WS zs C b = b2z (K (LS zs (eg b))) - b2z (K (RS zs (eg b))).
Proof using D CI CN.
  intros b Hb LB.
  assert (G : forall l : list bend, NoDup l -> (forall d : bend, In d l -> In (fst d) S /\ last_edge zs (eg (fst d))) ->
    total zs l (fun e => b2z (same_ends e (eg b))) = (if in_dec (fun x y : bend => ltac:(repeat decide equality) : {x = y} + {x <> y}) (b, LeftEnd) l then 1 else 0)
      - (if in_dec (fun x y : bend => ltac:(repeat decide equality) : {x = y} + {x <> y}) (b, RightEnd) l then 1 else 0)).
  { clear - D Hb LB. induction l as [|d l IH]; intros ND HL; [reflexivity|]. rewrite total_cons. inversion ND as [|? ? N1 N2]; subst.
    rewrite (IH N2 (fun x Hx => HL x (or_intror Hx))). destruct (HL d (or_introl eq_refl)) as (Hd & LD).
    assert (SE : same_ends (eg (fst d)) (eg b) = true <-> fst d = b).
    { split; [intros SE; now apply (last_same zs S D)|]. intros ->. apply same_ends_iff. auto. }
    destruct d as [s x]. cbn [fst] in *.
    repeat match goal with |- context [in_dec ?f ?a ?m] => destruct (in_dec f a m) end; cbn [In] in *;
      destruct (same_ends (eg s) (eg b)) eqn:Q; destruct x; cbn [sg snd Z.b2z];
      repeat match goal with
      | H : true = true <-> _ |- _ => destruct H as [H _]; specialize (H eq_refl); subst
      | H : false = true <-> _ |- _ => assert (s <> b) by (intros X; apply H in X; discriminate); clear H
      end; try lia; exfalso; intuition congruence. }
  unfold WS. rewrite (G C CN) by (intros d Hd; apply CI in Hd; tauto).
  assert (X : forall x, (if in_dec (fun x y : bend => ltac:(repeat decide equality) : {x = y} + {x <> y}) (b, x) C then 1 else 0)
    = b2z (K (face (b, x)))).
  { intros x. destruct (in_dec _ _ _) as [H|H].
    - apply CI in H. destruct H as (_ & _ & ->). reflexivity.
    - destruct (K (face (b, x))) eqn:Q; [|reflexivity]. exfalso. apply H, CI. auto. }
  rewrite !X. unfold TidyNext.face. cbn [fst snd]. f_equal.
Qed.

Lemma cover_between : forall x, between x -> forall m y, (length (filter (fun s => passes_below (eg s) x y) S) <= m)%nat ->
  wind zs C x y = b2z (K (within_poly x y)).
Proof using D Kext K0 CI CN CB.
  intros x B. induction m as [|m IH]; intros y HM; destruct (highest_last x y B) as [N|(b & B1 & B2 & B3 & B4)].
  1,3: rewrite (Kext _ (fun _ => false)); [rewrite K0; apply total_zero; intros d Hd; rewrite N by (now apply C_S); reflexivity|];
    intros i; apply parity_false; intros e He; destruct (edge_seg _ _ D e He) as (s & Hs & <-); rewrite N by exact Hs; apply andb_false_r.
  - exfalso. assert (H : In b (filter (fun s => passes_below (eg s) x y) S)) by (apply filter_In; auto). destruct (filter _ S); [destruct H|cbn in HM; lia].
  - set (h := yat (eg b) x) in *.
    assert (Less : (length (filter (fun s => passes_below (eg s) x h) S) <= m)%nat).
    { enough (length (filter (fun s => passes_below (eg s) x h) S) < length (filter (fun s => passes_below (eg s) x y) S))%nat by lia.
      assert (Sub : forall s, In s S -> passes_below (eg s) x h = true -> passes_below (eg s) x y = true).
      { intros s Hs P. destruct (B4 s Hs) as (Q1 & Q2). rewrite Q1, P. destruct (same_ends _ _) eqn:SE; [rewrite Q2 in P by exact eq_refl; discriminate|reflexivity]. }
      assert (Nb : passes_below (eg b) x h = false) by (apply (B4 b B1), same_ends_iff; auto).
      clear - Sub B1 B3 Nb. 
      assert (Le : forall l, (forall s, In s l -> In s S) -> (length (filter (fun s => passes_below (eg s) x h) l) <= length (filter (fun s => passes_below (eg s) x y) l))%nat).
      { induction l as [|s l IHl]; intros Hl; [auto|]. cbn [filter]. specialize (IHl (fun t Ht => Hl t (or_intror Ht))). specialize (Sub s (Hl s (or_introl eq_refl))).
        destruct (passes_below (eg s) x h); [rewrite Sub by reflexivity; cbn; lia|]. destruct (passes_below (eg s) x y); cbn; lia. }
      destruct (in_split _ _ B1) as (p & q & Q). rewrite Q at 1 2. rewrite !filter_app, !app_length. cbn [filter]. rewrite Nb, B3. cbn [length].
      assert (length (filter (fun s => passes_below (eg s) x h) p) <= length (filter (fun s => passes_below (eg s) x y) p))%nat by (apply Le; intros s Hs; rewrite Q; apply in_or_app; now left).
      assert (length (filter (fun s => passes_below (eg s) x h) q) <= length (filter (fun s => passes_below (eg s) x y) q))%nat by (apply Le; intros s Hs; rewrite Q; apply in_or_app; right; now right).
      lia. }
    specialize (IH h Less).
    assert (Lb : lr (eg b)) by (now apply (seg_spec _ _ D)). apply passes_between in B3; auto. destruct B3 as ((X1 & X2) & _).
    assert (Sl : sloped (eg b)) by (unfold sloped; rewrite Zlt_Qlt; lra).
    pose proof (wind_along zs S D C C_S CB b x B1 Sl X1 X2) as WA. fold h in WA.
    assert (W : wind zs C x y = WR zs C b + WS zs C b).
    { rewrite WA. unfold wind, WS. rewrite <- total_add. apply total_ext. intros d Hd. destruct (B4 (fst d) (C_S d Hd)) as (Q1 & Q2). rewrite Q1.
      destruct (same_ends (eg (fst d)) (eg b)); [rewrite (Q2 eq_refl)|rewrite xorb_false_r]; cbn; lia. }
    assert (R : forall i, RS zs (eg b) i = within_poly x h i).
    { intros i. unfold RS, within_poly. apply along_parity; auto. intros e He. now apply (edges_related _ _ D). }
    assert (L : forall i, LS zs (eg b) i = within_poly x y i).
    { intros i. unfold LS. rewrite R, (stack_all zs b i B2). unfold within_poly. rewrite <- parity_and_xor. symmetry. apply parity_and_ext.
      intros e He. destruct (edge_seg _ _ D e He) as (s & Hs & <-). apply (B4 s Hs). }
    rewrite W, WA, IH, (WS_last b B1 B2), (Kext _ _ R), (Kext _ _ L). lia.
Qed.

Lemma cover : forall x y, wind zs C x y = b2z (K (within_poly x y)).
Proof using D Kext K0 CI CN CB.
  intros x y. destruct (nudge E x y) as (x' & y' & B & H); [apply edges_lr|].
  transitivity (wind zs C x' y').
  - apply total_ext. intros d Hd. now rewrite H by (now apply (seg_spec _ _ D), C_S).
  - rewrite (cover_between x' B _ y' (le_n _)). f_equal. apply Kext. intros i. apply parity_and_ext. exact H.
Qed.
End Cover.
