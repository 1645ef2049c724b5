(** Polygons beside each other are overlaid separately. *)

From Coq Require Import List ZArith QArith Bool Lia Lqa Arith Permutation Sorted.
From Verif Require Import Base Float Contours Sweep Compute SpecShape SpecOrder SpecIntersect SpecTurn SpecHandle SpecTidy SpecOverlay SpecCompute ContainerFacts
  SweepFacts TraceFacts ComputeFacts OrderFacts TidyGeo TidyParity TidySetup TidyOverlay TidyRegions TidyBorders TidyStart OverlayFacts HoleOrder FollowLines FollowFacts MoveFacts SpecFollow BesideGeo SpecBeside.
Import ListNotations.
Local Open Scope Z_scope.

Lemma pairs_app : forall A (P : A -> A -> Prop) l m, ForallOrdPairs P l -> ForallOrdPairs P m -> (forall a b, In a l -> In b m -> P a b) -> ForallOrdPairs P (l ++ m).
Proof.
  intros A P l m H. induction H as [|a l Ha Hl IH]; intros M X; [exact M|]. cbn [app]. constructor.
  - apply Forall_app. split; [exact Ha|]. apply Forall_forall. intros b Hb. apply X; [now left|exact Hb].
  - apply IH; [exact M|]. intros u v Hu Hv. apply X; [now right|exact Hv].
Qed.
Lemma nodup_app2 : forall A (l m : list A), NoDup l -> NoDup m -> (forall a, In a l -> In a m -> False) -> NoDup (l ++ m).
Proof.
  intros A l m H. induction H as [|a l Ha Hl IH]; intros M X; [exact M|]. cbn [app]. constructor.
  - intros I. apply in_app_or in I. destruct I as [I|I]; [now apply Ha|]. apply (X a); [now left|exact I].
  - apply IH; [exact M|]. intros b Hb. apply X. now right.
Qed.

Section Two.
Variables (std std1 std2 : std_impl) (fuel fuel1 fuel2 : nat) (polys ps qs : input) (op op1 op2 : boolean_op) (zs ws : list corners).
Hypothesis (SL : std_laws std) (SO : sorts std) (OV : overlayable polys (zs ++ ws)) (HF : (2 * length (edges (zs ++ ws)) <= fuel)%nat).
Hypothesis (SL1 : std_laws std1) (SO1 : sorts std1) (OV1 : overlayable ps zs) (HF1 : (2 * length (edges zs) <= fuel1)%nat).
Hypothesis (SL2 : std_laws std2) (SO2 : sorts std2) (OV2 : overlayable qs ws) (HF2 : (2 * length (edges ws) <= fuel2)%nat).
Hypothesis (B : beside zs ws) (HM : map snd polys = map snd ps ++ map snd qs).
Variables (r r1 r2 : polygon) (rz rz1 rz2 : corners).
Hypothesis (C : compute std fuel polys op = Ok r) (H : has_corners r rz).
Hypothesis (C1 : compute std1 fuel1 ps op1 = Ok r1) (H1 : has_corners r1 rz1).
Hypothesis (C2 : compute std2 fuel2 qs op2 = Ok r2) (H2 : has_corners r2 rz2).

Lemma modes_len : length (map snd ps) = length zs.
Proof using SL SO OV HF C H SL1 SO1 OV1 HF1 C1 H1 SL2 SO2 OV2 HF2 C2 H2 B HM. rewrite map_length. destruct OV1 as (A & _). apply Forall2_len in A. exact A. Qed.

Definition end_of (zs : list corners) (v : Z * Z) : Prop := exists e, In e (edges zs) /\ is_end v e.
Lemma apart_ends : forall v w, end_of zs v -> end_of ws w -> fst v < fst w.
Proof using SL SO OV HF C H SL1 SO1 OV1 HF1 C1 H1 SL2 SO2 OV2 HF2 C2 H2 B HM.
  intros v w (e & He & E) (f & Hf & F). pose proof (B e f He Hf) as S. pose proof (lr_le e (edges_lr _ _ _ He)). pose proof (lr_le f (edges_lr _ _ _ Hf)). destruct E as [->| ->], F as [->| ->]; lia.
Qed.
Lemma kept_ends : forall m z e a b, In e (edges z) -> kept_sides m z e a b -> end_of z a /\ end_of z b /\ a <> b.
Proof using.
  clear. intros m z e a b He (_ & x & y & _ & K). pose proof (edges_lr _ _ _ He) as O. unfold lr in O.
  assert (N : e_left e <> e_right e) by (intros E; rewrite E in O; unfold lex_z in O; rewrite !Z.compare_refl in O; discriminate).
  destruct K as [(-> & -> & _)|(-> & -> & _)]; (split; [exists e; split; [exact He|unfold is_end; auto]|]; split; [exists e; split; [exact He|unfold is_end; auto]|auto]).
Qed.
Lemma sides1 : forall a b, In (a, b) (flat_map sides rz1) -> end_of zs a /\ end_of zs b /\ a <> b.
Proof using SL SO OV HF C H SL1 SO1 OV1 HF1 C1 H1 SL2 SO2 OV2 HF2 C2 H2 B HM. intros a b I. apply (overlay_sides std1 fuel1 ps op1 zs SL1 SO1 OV1 HF1 r1 rz1 C1 H1) in I. destruct I as (e & He & K). now apply (kept_ends _ _ e a b He K). Qed.
Lemma sides2 : forall a b, In (a, b) (flat_map sides rz2) -> end_of ws a /\ end_of ws b /\ a <> b.
Proof using SL SO OV HF C H SL1 SO1 OV1 HF1 C1 H1 SL2 SO2 OV2 HF2 C2 H2 B HM. intros a b I. apply (overlay_sides std2 fuel2 qs op2 ws SL2 SO2 OV2 HF2 r2 rz2 C2 H2) in I. destruct I as (e & He & K). now apply (kept_ends _ _ e a b He K). Qed.
Lemma apart_sides : forall a b c d, In (a, b) (flat_map sides rz1) -> In (c, d) (flat_map sides rz2) -> fst a < fst c /\ fst b < fst c /\ fst a < fst d.
Proof using SL SO OV HF C H SL1 SO1 OV1 HF1 C1 H1 SL2 SO2 OV2 HF2 C2 H2 B HM.
  intros a b c d I J. apply sides1 in I. apply sides2 in J. destruct I as (I1 & I2 & _), J as (J1 & J2 & _). split; [|split]; apply apart_ends; assumption.
Qed.
Lemma two_corners : forall z l, (forall a b, In (a, b) (flat_map sides z) -> a <> b) -> In l z -> starts_leftmost l -> exists a b t, l = a :: b :: t /\ In (a, b) (flat_map sides z).
Proof using.
  clear. intros z l N I S. assert (G : forall s, In s (sides l) -> In s (flat_map sides z)) by (intros s Hs; apply in_flat_map; eauto). destruct l as [|a [|b t]]; [destruct S| |].
  - exfalso. apply (N a a); [|reflexivity]. apply G. now left.
  - exists a, b, t. split; [reflexivity|]. apply G. now left.
Qed.

Lemma beside_followed : well_followed (rz1 ++ rz2).
Proof using SL SO OV HF C H SL1 SO1 OV1 HF1 C1 H1 SL2 SO2 OV2 HF2 C2 H2 B HM.
  destruct (overlay_followed std1 fuel1 ps op1 zs SL1 SO1 OV1 HF1 r1 rz1 C1 H1) as (P1 & N1 & W1). destruct (overlay_followed std2 fuel2 qs op2 ws SL2 SO2 OV2 HF2 r2 rz2 C2 H2) as (P2 & N2 & W2).
  split; [|split].
  - apply pairs_app; [exact P1|exact P2|]. intros l l' I I'.
    destruct (two_corners rz1 l) as (a & b & t & -> & X); [intros u v K; now apply sides1 in K|exact I|now apply W1|].
    destruct (two_corners rz2 l') as (a' & b' & t' & -> & X'); [intros u v K; now apply sides2 in K|exact I'|now apply W2|].
    left. destruct (apart_sides _ _ _ _ X X') as (Y & _). unfold lex_z. apply Z.compare_lt_iff in Y. now rewrite Y.
  - rewrite flat_map_app. apply nodup_app2; [exact N1|exact N2|]. intros [a b] I J. destruct (apart_sides _ _ _ _ I J) as (Y & _). lia.
  - intros l I. rewrite flat_map_app. apply in_app_or in I. destruct I as [I|I].
    + destruct (W1 l I) as (S & T). split; [exact S|]. intros u a b c v E. destruct (T u a b c v E) as (X & Y). split; [exact X|]. intros d J. apply in_app_or in J. destruct J as [J|J]; [now apply Y|].
      exfalso. assert (In b l). { assert (K : In b (closed l)) by (rewrite E; apply in_or_app; right; right; now left). destruct l as [|p q]; [destruct K|]. cbn [closed] in K. change (In b ((p :: q) ++ [p])) in K. apply in_app_or in K. destruct K as [K|[<-|[]]]; [exact K|now left]. }
      destruct (corner_side l b H0) as (z & Hz). assert (G : In (b, z) (flat_map sides rz1)) by (apply in_flat_map; eauto). destruct (apart_sides _ _ _ _ G J) as (Z0 & _). lia.
    + destruct (W2 l I) as (S & T). split; [exact S|]. intros u a b c v E. destruct (T u a b c v E) as (X & Y). split; [exact X|]. intros d J. apply in_app_or in J. destruct J as [J|J]; [|now apply Y].
      exfalso. assert (In b l). { assert (K : In b (closed l)) by (rewrite E; apply in_or_app; right; right; now left). destruct l as [|p q]; [destruct K|]. cbn [closed] in K. change (In b ((p :: q) ++ [p])) in K. apply in_app_or in K. destruct K as [K|[<-|[]]]; [exact K|now left]. }
      destruct (corner_side l b H0) as (z & Hz). assert (G : In (b, z) (flat_map sides rz2)) by (apply in_flat_map; eauto). destruct (apart_sides _ _ _ _ J G) as (Z0 & _). lia.
Qed.

Lemma beside_lines : rz = rz1 ++ rz2.
Proof using SL SO OV HF C H SL1 SO1 OV1 HF1 C1 H1 SL2 SO2 OV2 HF2 C2 H2 B HM.
  apply (overlay_determined std fuel polys op (zs ++ ws) SL SO OV HF r rz C H); [exact beside_followed|]. intros a b. rewrite flat_map_app, in_app_iff, HM, edges_app.
  rewrite (proj2 (overlay_sides std1 fuel1 ps op1 zs SL1 SO1 OV1 HF1 r1 rz1 C1 H1) a b), (proj2 (overlay_sides std2 fuel2 qs op2 ws SL2 SO2 OV2 HF2 r2 rz2 C2 H2) a b). split.
  - intros [(e & He & K)|(f & Hf & K)].
    + exists e. split; [apply in_or_app; now left|]. apply (sides_first zs ws _ _ B modes_len); assumption.
    + exists (bumped (length zs) f). split; [apply in_or_app; right; now apply in_map|]. apply (sides_second zs ws _ _ B modes_len); assumption.
  - intros (e & He & K). apply in_app_or in He. destruct He as [He|He].
    + left. exists e. split; [exact He|]. now apply (sides_first zs ws _ _ B modes_len) in K.
    + right. apply in_map_iff in He. destruct He as (f & <- & Hf). exists f. split; [exact Hf|]. now apply (sides_second zs ws _ _ B modes_len) in K.
Qed.

Lemma len1 : length r1 = length rz1.
Proof using SL SO OV HF C H SL1 SO1 OV1 HF1 C1 H1 SL2 SO2 OV2 HF2 C2 H2 B HM. now apply Forall2_len in H1. Qed.
Lemma len2 : length r2 = length rz2.
Proof using SL SO OV HF C H SL1 SO1 OV1 HF1 C1 H1 SL2 SO2 OV2 HF2 C2 H2 B HM. now apply Forall2_len in H2. Qed.
Lemma len : length r = (length r1 + length r2)%nat.
Proof using SL SO OV HF C H SL1 SO1 OV1 HF1 C1 H1 SL2 SO2 OV2 HF2 C2 H2 B HM. pose proof H as X. apply Forall2_len in X. rewrite X, beside_lines, app_length, len1, len2. reflexivity. Qed.
Lemma at1 : forall i c, nth_error r1 i = Some c -> exists l, nth_error rz1 i = Some l /\ nth_error rz i = Some l.
Proof using SL SO OV HF C H SL1 SO1 OV1 HF1 C1 H1 SL2 SO2 OV2 HF2 C2 H2 B HM.
  intros i c Hc. apply nth_lt in Hc. rewrite len1 in Hc. destruct (nth_error rz1 i) as [l|] eqn:E; [|apply nth_error_None in E; lia]. exists l. split; [reflexivity|]. rewrite beside_lines, nth_error_app1; assumption.
Qed.
Lemma at2 : forall i c, nth_error r2 i = Some c -> exists l, nth_error rz2 i = Some l /\ nth_error rz (length r1 + i) = Some l.
Proof using SL SO OV HF C H SL1 SO1 OV1 HF1 C1 H1 SL2 SO2 OV2 HF2 C2 H2 B HM.
  intros i c Hc. apply nth_lt in Hc. rewrite len2 in Hc. destruct (nth_error rz2 i) as [l|] eqn:E; [|apply nth_error_None in E; lia]. exists l. split; [reflexivity|]. rewrite beside_lines, len1, nth_error_app2 by lia. now replace (length rz1 + i - length rz1)%nat with i by lia.
Qed.

(** *** Outer contours *)
Lemma same_external : forall s1 f1 p1 o1 z1 t1 l1 s2 f2 p2 o2 z2 t2 l2, std_laws s1 -> sorts s1 -> overlayable p1 z1 -> (2 * length (edges z1) <= f1)%nat -> std_laws s2 -> sorts s2 -> overlayable p2 z2 -> (2 * length (edges z2) <= f2)%nat ->
  compute s1 f1 p1 o1 = Ok t1 -> has_corners t1 l1 -> compute s2 f2 p2 o2 = Ok t2 -> has_corners t2 l2 ->
  forall i j c c' l, nth_error t1 i = Some c -> nth_error l1 i = Some l -> nth_error t2 j = Some c' -> nth_error l2 j = Some l -> c_external c' = c_external c.
Proof using.
  clear. intros s1 f1 p1 o1 z1 t1 l1 s2 f2 p2 o2 z2 t2 l2 A1 A2 A3 A4 B1 B2 B3 B4 D1 E1 D2 E2 i j c c' l Hc Hl Hc' Hl'.
  destruct (overlay_shapes s1 f1 p1 o1 z1 A1 A2 A3 A4 t1 l1 D1 E1 i c l 0%Q 0%Q Hc Hl) as (U & V). destruct (overlay_shapes s2 f2 p2 o2 z2 B1 B2 B3 B4 t2 l2 D2 E2 j c' l 0%Q 0%Q Hc' Hl') as (U' & V').
  destruct (c_external c), (c_external c'); auto; exfalso; [destruct (U eq_refl), (V' eq_refl)|destruct (U' eq_refl), (V eq_refl)]; lia.
Qed.
Lemma external1 : forall i c c', nth_error r1 i = Some c -> nth_error r i = Some c' -> c_external c' = c_external c.
Proof using SL SO OV HF C H SL1 SO1 OV1 HF1 C1 H1 SL2 SO2 OV2 HF2 C2 H2 B HM. intros i c c' Hc Hc'. destruct (at1 i c Hc) as (l & L1 & L2). eapply (same_external std1 fuel1 ps op1 zs r1 rz1 std fuel polys op (zs ++ ws) r rz); eassumption. Qed.
Lemma external2 : forall i c c', nth_error r2 i = Some c -> nth_error r (length r1 + i) = Some c' -> c_external c' = c_external c.
Proof using SL SO OV HF C H SL1 SO1 OV1 HF1 C1 H1 SL2 SO2 OV2 HF2 C2 H2 B HM. intros i c c' Hc Hc'. destruct (at2 i c Hc) as (l & L1 & L2). eapply (same_external std2 fuel2 qs op2 ws r2 rz2 std fuel polys op (zs ++ ws) r rz); eassumption. Qed.

(** *** The polygons a contour is part of *)
Lemma from_len : forall s f p o z t lz i c l, std_laws s -> sorts s -> overlayable p z -> (2 * length (edges z) <= f)%nat -> compute s f p o = Ok t -> has_corners t lz -> nth_error t i = Some c -> nth_error lz i = Some l -> length (c_from c) = length p.
Proof using.
  clear. intros s f p o z t lz i c l A1 A2 A3 A4 D E Hc Hl. destruct (have s f p o z A1 A2 A3 A4 t D) as (S & ks & act & sw & I & Ts & O). rewrite <- (map_length snd p). eapply (from_length z _ t S ks act sw I Ts O); eassumption.
Qed.
Lemma polys_len : length polys = (length ps + length qs)%nat.
Proof using SL SO OV HF C H SL1 SO1 OV1 HF1 C1 H1 SL2 SO2 OV2 HF2 C2 H2 B HM. rewrite <- (map_length snd polys), HM, app_length, !map_length. reflexivity. Qed.
Lemma ps_len : length ps = length zs.
Proof using SL SO OV HF C H SL1 SO1 OV1 HF1 C1 H1 SL2 SO2 OV2 HF2 C2 H2 B HM. rewrite <- modes_len. symmetry. apply map_length. Qed.

Lemma nth_repeat_none : forall k m, nth_error (repeat false k) m <> Some true.
Proof using. clear. intros k m E. apply nth_error_In in E. apply repeat_spec in E. discriminate. Qed.

Lemma from1 : forall i c c', nth_error r1 i = Some c -> nth_error r i = Some c' -> c_from c' = c_from c ++ repeat false (length qs).
Proof using SL SO OV HF C H SL1 SO1 OV1 HF1 C1 H1 SL2 SO2 OV2 HF2 C2 H2 B HM.
  intros i c c' Hc Hc'. destruct (at1 i c Hc) as (l & Hl & Hl').
  assert (L : length (c_from c) = length ps) by (eapply (from_len std1 fuel1 ps op1 zs r1 rz1); eassumption).
  assert (L' : length (c_from c') = length polys) by (eapply (from_len std fuel polys op (zs ++ ws) r rz); eassumption).
  pose proof polys_len as PL. pose proof ps_len as PZ.
  assert (F : starts_leftmost l) by (eapply (proj2 (proj2 (overlay_followed std1 fuel1 ps op1 zs SL1 SO1 OV1 HF1 r1 rz1 C1 H1))); now apply nth_error_In in Hl).
  destruct l as [|a t] eqn:El; [destruct F|]. destruct (corner_side (a :: t) a (or_introl eq_refl)) as (b & Hb).
  pose proof (in_flat rz1 (a :: t) _ (nth_error_In _ _ Hl) Hb) as X. apply (overlay_sides std1 fuel1 ps op1 zs SL1 SO1 OV1 HF1 r1 rz1 C1 H1) in X. destruct X as (e & He & KS).
  assert (KS' : kept_sides (map snd polys) (zs ++ ws) e a b) by (rewrite HM; apply (sides_first zs ws _ _ B modes_len); assumption).
  destruct KS as (KE & x & y & Ins & K). destruct KS' as (KE' & _).
  assert (He' : In e (edges (zs ++ ws))) by (rewrite edges_app; apply in_or_app; now left).
  apply nth_ext_error. intros k. destruct (le_gt_dec (length polys) k) as [G|G].
  { transitivity (@None bool); [apply nth_error_None; lia|symmetry; apply nth_error_None; rewrite app_length, repeat_length; lia]. }
  destruct (overlay_from std fuel polys op (zs ++ ws) SL SO OV HF r rz C H i c' (a :: t) e x y k Hc' Hl' He' KE' Ins G) as (U1' & U2').
  assert (GL : (k < length (c_from c'))%nat) by lia. assert (GR : (k < length (c_from c ++ repeat false (length qs)))%nat) by (rewrite app_length, repeat_length; lia).
  assert (R : forall Q1 : Prop, (Q1 -> (k < length ps)%nat) -> ((k < length ps)%nat -> nth_error (c_from c) k = Some true <-> Q1) -> nth_error (c_from c ++ repeat false (length qs)) k = Some true <-> Q1).
  { intros Q1 I1 I2. destruct (le_gt_dec (length ps) k) as [G'|G'].
    - rewrite nth_error_app2 by lia. split; [intros E; now apply nth_repeat_none in E|intros E; apply I1 in E; lia].
    - rewrite nth_error_app1 by lia. now apply I2. }
  destruct K as [(Q1 & Q2 & _)|(Q1 & Q2 & _)]; rewrite Q1, Q2 in Hb; rewrite Q1 in *.
  - eapply some_true; [exact GL|exact GR|apply U1'; exact Hb| |apply (above_first zs ws B e k x y He Ins)]. apply R; [intros V; rewrite PZ; exact (above_lt zs e k x y V)|]. intros G'.
    destruct (overlay_from std1 fuel1 ps op1 zs SL1 SO1 OV1 HF1 r1 rz1 C1 H1 i c _ e x y k Hc Hl He KE Ins G') as (U1 & U2). now apply U1.
  - eapply some_true; [exact GL|exact GR|apply U2'; exact Hb| |apply (below_first zs ws B e k x y He Ins)]. apply R; [intros V; rewrite PZ; exact (below_lt zs k x y V)|]. intros G'.
    destruct (overlay_from std1 fuel1 ps op1 zs SL1 SO1 OV1 HF1 r1 rz1 C1 H1 i c _ e x y k Hc Hl He KE Ins G') as (U1 & U2). now apply U2.
Qed.
Lemma from2 : forall i c c', nth_error r2 i = Some c -> nth_error r (length r1 + i) = Some c' -> c_from c' = repeat false (length ps) ++ c_from c.
Proof using SL SO OV HF C H SL1 SO1 OV1 HF1 C1 H1 SL2 SO2 OV2 HF2 C2 H2 B HM.
  intros i c c' Hc Hc'. destruct (at2 i c Hc) as (l & Hl & Hl').
  assert (L : length (c_from c) = length qs) by (eapply (from_len std2 fuel2 qs op2 ws r2 rz2); eassumption).
  assert (L' : length (c_from c') = length polys) by (eapply (from_len std fuel polys op (zs ++ ws) r rz); eassumption).
  pose proof polys_len as PL. pose proof ps_len as PZ.
  assert (F : starts_leftmost l) by (eapply (proj2 (proj2 (overlay_followed std2 fuel2 qs op2 ws SL2 SO2 OV2 HF2 r2 rz2 C2 H2))); now apply nth_error_In in Hl).
  destruct l as [|a t] eqn:El; [destruct F|]. destruct (corner_side (a :: t) a (or_introl eq_refl)) as (b & Hb).
  pose proof (in_flat rz2 (a :: t) _ (nth_error_In _ _ Hl) Hb) as X. apply (overlay_sides std2 fuel2 qs op2 ws SL2 SO2 OV2 HF2 r2 rz2 C2 H2) in X. destruct X as (e & He & KS).
  assert (KS' : kept_sides (map snd polys) (zs ++ ws) (bumped (length zs) e) a b) by (rewrite HM; apply (sides_second zs ws _ _ B modes_len); assumption).
  destruct KS as (KE & x & y & Ins & K). destruct KS' as (KE' & _).
  assert (He' : In (bumped (length zs) e) (edges (zs ++ ws))) by (rewrite edges_app; apply in_or_app; right; now apply in_map).
  apply nth_ext_error. intros k. destruct (le_gt_dec (length polys) k) as [G|G].
  { transitivity (@None bool); [apply nth_error_None; lia|symmetry; apply nth_error_None; rewrite app_length, repeat_length; lia]. }
  destruct (overlay_from std fuel polys op (zs ++ ws) SL SO OV HF r rz C H (length r1 + i) c' (a :: t) (bumped (length zs) e) x y k Hc' Hl' He' KE' Ins G) as (U1' & U2').
  assert (GL : (k < length (c_from c'))%nat) by lia. assert (GR : (k < length (repeat false (length ps) ++ c_from c))%nat) by (rewrite app_length, repeat_length; lia).
  assert (R : forall Q1 : nat -> Prop, (forall j, (j < length qs)%nat -> nth_error (c_from c) j = Some true <-> Q1 j) -> nth_error (repeat false (length ps) ++ c_from c) k = Some true <-> exists j, (k = length zs + j)%nat /\ Q1 j).
  { intros Q1 I2. destruct (le_gt_dec (length ps) k) as [G'|G'].
    - rewrite nth_error_app2 by (rewrite repeat_length; lia). rewrite repeat_length, (I2 (k - length ps)%nat) by lia. split; [intros E; exists (k - length ps)%nat; split; [lia|exact E]|]. intros (j & -> & E). now replace (length zs + j - length ps)%nat with j by lia.
    - rewrite nth_error_app1 by (rewrite repeat_length; lia). split; [intros E; now apply nth_repeat_none in E|intros (j & E & _); lia]. }
  destruct K as [(Q1 & Q2 & _)|(Q1 & Q2 & _)]; rewrite Q1, Q2 in Hb; rewrite Q1 in *.
  - eapply some_true; [exact GL|exact GR|apply U1'; exact Hb| |apply (above_second zs ws B e k x y He Ins)]. apply R. intros j G'.
    destruct (overlay_from std2 fuel2 qs op2 ws SL2 SO2 OV2 HF2 r2 rz2 C2 H2 i c _ e x y j Hc Hl He KE Ins G') as (U1 & U2). now apply U1.
  - eapply some_true; [exact GL|exact GR|apply U2'; exact Hb| |apply (below_second zs ws B e k x y He Ins)]. apply R. intros j G'.
    destruct (overlay_from std2 fuel2 qs op2 ws SL2 SO2 OV2 HF2 r2 rz2 C2 H2 i c _ e x y j Hc Hl He KE Ins G') as (U1 & U2). now apply U2.
Qed.

(** *** Neighbours *)
Lemma line_of : forall j, (j < length r)%nat -> exists l, nth_error rz j = Some l /\ (((j < length r1)%nat /\ nth_error rz1 j = Some l) \/ exists m, (j = length r1 + m)%nat /\ (m < length r2)%nat /\ nth_error rz2 m = Some l).
Proof using SL SO OV HF C H SL1 SO1 OV1 HF1 C1 H1 SL2 SO2 OV2 HF2 C2 H2 B HM.
  intros j G. rewrite len in G. destruct (le_gt_dec (length r1) j) as [G'|G'].
  - destruct (nth_error r2 (j - length r1)) as [c|] eqn:E; [|apply nth_error_None in E; lia]. destruct (at2 _ c E) as (l & L1 & L2). replace (length r1 + (j - length r1))%nat with j in L2 by lia. exists l. split; [exact L2|]. right. exists (j - length r1)%nat. split; [lia|]. split; [lia|exact L1].
  - destruct (nth_error r1 j) as [c|] eqn:E; [|apply nth_error_None in E; lia]. destruct (at1 _ c E) as (l & L1 & L2). exists l. split; [exact L2|]. left. split; [exact G'|exact L1].
Qed.
Lemma never_share : forall l m a b, In l rz1 -> In m rz2 -> In (a, b) (sides l) -> In (b, a) (sides m) -> False.
Proof using SL SO OV HF C H SL1 SO1 OV1 HF1 C1 H1 SL2 SO2 OV2 HF2 C2 H2 B HM.
  intros l m a b I J X Y. assert (X' : In (a, b) (flat_map sides rz1)) by (apply in_flat_map; eauto). assert (Y' : In (b, a) (flat_map sides rz2)) by (apply in_flat_map; eauto). destruct (apart_sides _ _ _ _ X' Y') as (_ & Q & _). lia.
Qed.
Lemma neighbours1 : forall i c c', nth_error r1 i = Some c -> nth_error r i = Some c' -> c_neighbors c' = c_neighbors c ++ repeat false (length r2).
Proof using SL SO OV HF C H SL1 SO1 OV1 HF1 C1 H1 SL2 SO2 OV2 HF2 C2 H2 B HM.
  intros i c c' Hc Hc'. destruct (at1 i c Hc) as (l & Hl & Hl'). pose proof (proj1 (compute_neighbors std1 fuel1 ps op1 r1 SL1 C1) c (nth_error_In _ _ Hc)) as L. pose proof (proj1 (compute_neighbors std fuel polys op r SL C) c' (nth_error_In _ _ Hc')) as L'.
  pose proof len as LN. apply nth_ext_error. intros j. destruct (le_gt_dec (length r) j) as [G|G].
  { transitivity (@None bool); [apply nth_error_None; lia|symmetry; apply nth_error_None; rewrite app_length, repeat_length; lia]. }
  destruct (line_of j G) as (m & Hm & D). assert (GL : (j < length (c_neighbors c'))%nat) by lia. assert (GR : (j < length (c_neighbors c ++ repeat false (length r2)))%nat) by (rewrite app_length, repeat_length; lia).
  eapply some_true; [exact GL|exact GR|apply (overlay_neighbours std fuel polys op (zs ++ ws) SL SO OV HF r rz C H i j c' l m Hc' Hl' Hm)| |reflexivity].
  destruct D as [(J & Jm)|(q & -> & J & Jm)].
  - rewrite nth_error_app1 by lia. apply (overlay_neighbours std1 fuel1 ps op1 zs SL1 SO1 OV1 HF1 r1 rz1 C1 H1 i j c l m Hc Hl Jm).
  - rewrite nth_error_app2 by lia. split; [intros E; now apply nth_repeat_none in E|]. intros (a & b & X & Y). exfalso. apply (never_share l m a b); [now apply nth_error_In in Hl|now apply nth_error_In in Jm|exact X|exact Y].
Qed.
Lemma neighbours2 : forall i c c', nth_error r2 i = Some c -> nth_error r (length r1 + i) = Some c' -> c_neighbors c' = repeat false (length r1) ++ c_neighbors c.
Proof using SL SO OV HF C H SL1 SO1 OV1 HF1 C1 H1 SL2 SO2 OV2 HF2 C2 H2 B HM.
  intros i c c' Hc Hc'. destruct (at2 i c Hc) as (l & Hl & Hl'). pose proof (proj1 (compute_neighbors std2 fuel2 qs op2 r2 SL2 C2) c (nth_error_In _ _ Hc)) as L. pose proof (proj1 (compute_neighbors std fuel polys op r SL C) c' (nth_error_In _ _ Hc')) as L'.
  pose proof len as LN. apply nth_ext_error. intros j. destruct (le_gt_dec (length r) j) as [G|G].
  { transitivity (@None bool); [apply nth_error_None; lia|symmetry; apply nth_error_None; rewrite app_length, repeat_length; lia]. }
  destruct (line_of j G) as (m & Hm & D). assert (GL : (j < length (c_neighbors c'))%nat) by lia. assert (GR : (j < length (repeat false (length r1) ++ c_neighbors c))%nat) by (rewrite app_length, repeat_length; lia).
  eapply some_true; [exact GL|exact GR|apply (overlay_neighbours std fuel polys op (zs ++ ws) SL SO OV HF r rz C H (length r1 + i) j c' l m Hc' Hl' Hm)| |reflexivity].
  destruct D as [(J & Jm)|(q & -> & J & Jm)].
  - rewrite nth_error_app1 by (rewrite repeat_length; lia). split; [intros E; now apply nth_repeat_none in E|]. intros (a & b & X & Y). exfalso. apply (never_share m l b a); [now apply nth_error_In in Jm|now apply nth_error_In in Hl|exact Y|exact X].
  - rewrite nth_error_app2 by (rewrite repeat_length; lia). rewrite repeat_length. replace (length r1 + q - length r1)%nat with q by lia. apply (overlay_neighbours std2 fuel2 qs op2 ws SL2 SO2 OV2 HF2 r2 rz2 C2 H2 i q c l m Hc Hl Jm).
Qed.

(** *** Holes *)
Lemma head_end1 : forall h lh, nth_error rz1 h = Some lh -> end_of zs (hd (0, 0) lh).
Proof using SL SO OV HF C H SL1 SO1 OV1 HF1 C1 H1 SL2 SO2 OV2 HF2 C2 H2 B HM.
  intros h lh Hl. pose proof (overlay_followed std1 fuel1 ps op1 zs SL1 SO1 OV1 HF1 r1 rz1 C1 H1) as W. apply nth_error_In in Hl. pose proof (proj1 (proj2 (proj2 W) lh Hl)) as F. destruct lh as [|a t]; [destruct F|].
  destruct (corner_side (a :: t) a (or_introl eq_refl)) as (b & Hb). assert (X : In (a, b) (flat_map sides rz1)) by (apply in_flat_map; eauto). now apply sides1 in X.
Qed.
Lemma head_end2 : forall h lh, nth_error rz2 h = Some lh -> end_of ws (hd (0, 0) lh).
Proof using SL SO OV HF C H SL1 SO1 OV1 HF1 C1 H1 SL2 SO2 OV2 HF2 C2 H2 B HM.
  intros h lh Hl. pose proof (overlay_followed std2 fuel2 qs op2 ws SL2 SO2 OV2 HF2 r2 rz2 C2 H2) as W. apply nth_error_In in Hl. pose proof (proj1 (proj2 (proj2 W) lh Hl)) as F. destruct lh as [|a t]; [destruct F|].
  destruct (corner_side (a :: t) a (or_introl eq_refl)) as (b & Hb). assert (X : In (a, b) (flat_map sides rz2)) by (apply in_flat_map; eauto). now apply sides2 in X.
Qed.
Lemma under_reach : forall e s, under e s = true -> fst (e_left e) <= fst (e_left s) < fst (e_right e).
Proof using. clear. intros e s U. unfold under in U. apply andb_true_iff in U. destruct U as (U & _). apply andb_true_iff in U. destruct U as (U1 & U2). apply Z.leb_le in U1. apply Z.ltb_lt in U2. lia. Qed.
Lemma next1 : forall b s, end_of zs (e_left s) -> next_below zs b s -> next_below (zs ++ ws) b s.
Proof using SL SO OV HF C H SL1 SO1 OV1 HF1 C1 H1 SL2 SO2 OV2 HF2 C2 H2 B HM.
  intros b s E (U & N). split; [exact U|]. intros e He Ue. rewrite edges_app in He. apply in_app_or in He. destruct He as [He|He]; [now apply N|]. exfalso. apply in_map_iff in He. destruct He as (f & <- & Hf). apply under_reach in Ue. cbn [bumped e_left e_right] in Ue.
  assert (X : fst (e_left s) < fst (e_left f)) by (apply apart_ends; [exact E|exists f; split; [exact Hf|now left]]). lia.
Qed.
Lemma next2 : forall b s, end_of ws (e_left s) -> next_below ws b s -> next_below (zs ++ ws) (bumped (length zs) b) s.
Proof using SL SO OV HF C H SL1 SO1 OV1 HF1 C1 H1 SL2 SO2 OV2 HF2 C2 H2 B HM.
  intros b s E (U & N). split; [exact U|]. intros e He Ue. rewrite edges_app in He. apply in_app_or in He. destruct He as [He|He].
  - exfalso. apply under_reach in Ue. assert (X : fst (e_right e) < fst (e_left s)) by (apply apart_ends; [exists e; split; [exact He|now right]|exact E]). lia.
  - apply in_map_iff in He. destruct He as (f & <- & Hf). exact (N f Hf Ue).
Qed.
Lemma one_line : forall i j l l' s, nth_error rz i = Some l -> nth_error rz j = Some l' -> In s (sides l) -> In s (sides l') -> i = j.
Proof using SL SO OV HF C H SL1 SO1 OV1 HF1 C1 H1 SL2 SO2 OV2 HF2 C2 H2 B HM.
  intros i j l l' s Hi Hj X Y. pose proof (overlay_followed std fuel polys op (zs ++ ws) SL SO OV HF r rz C H) as W.
  assert (Q : l = l') by (apply (nodup_line rz l l' s (proj1 (proj2 W))); auto; eapply nth_error_In; eassumption). subst l'. pose proof (well_nodup rz W) as N. rewrite NoDup_nth_error in N. apply N; [now apply nth_lt in Hi|congruence].
Qed.
Lemma whole_line : forall j c, nth_error r j = Some c -> exists l, nth_error rz j = Some l.
Proof using SL SO OV HF C H SL1 SO1 OV1 HF1 C1 H1 SL2 SO2 OV2 HF2 C2 H2 B HM. intros j c Hc. apply nth_lt in Hc. destruct (line_of j Hc) as (l & Hl & _). eauto. Qed.
Lemma parent1 : forall i j c c' h, nth_error r1 i = Some c -> In h (c_holes c) -> nth_error r j = Some c' -> In h (c_holes c') -> i = j.
Proof using SL SO OV HF C H SL1 SO1 OV1 HF1 C1 H1 SL2 SO2 OV2 HF2 C2 H2 B HM.
  intros i j c c' h Hc Hh Hc' Hh'. destruct (at1 i c Hc) as (l & Hl & Hl0). destruct (whole_line j c' Hc') as (l' & Hl').
  destruct (proj1 (proj2 (compute_hole_lists std1 fuel1 ps op1 r1 SL1 C1)) i c h Hc Hh) as (_ & ch & Hch & _). destruct (at1 h ch Hch) as (lh & Hlh & Hlh0).
  destruct (have std1 fuel1 ps op1 zs SL1 SO1 OV1 HF1 r1 C1) as (S1 & ks1 & act1 & sw1 & I1 & Ts1 & O1). destruct (have std fuel polys op (zs ++ ws) SL SO OV HF r C) as (S2 & ks2 & act2 & sw2 & I2 & Ts2 & O2).
  destruct (hole_parent zs _ r1 S1 ks1 act1 sw1 I1 Ts1 O1 rz1 i c l h lh H1 Hc Hh Hl Hlh) as (eb & es & A1 & A2 & A3 & A4 & A5).
  destruct (hole_parent (zs ++ ws) _ r S2 ks2 act2 sw2 I2 Ts2 O2 rz j c' l' h lh H Hc' Hh' Hl' Hlh0) as (eb' & es' & B1 & B2 & B3 & B4 & B5).
  pose proof (head_end1 h lh Hlh) as E. rewrite A3 in E. apply (next1 eb es E) in A2. assert (A1' : In eb (edges (zs ++ ws))) by (rewrite edges_app; apply in_or_app; now left).
  assert (AL : alike eb eb') by (apply (next_below_same (fun i => i) (zs ++ ws) (zs ++ ws) (itself (zs ++ ws)) eb es eb' es' A1' B1); [split; congruence|exact A2|exact B2]).
  destruct AL as (X1 & X2). rewrite X1, X2 in A5. apply (one_line i j l l' _ Hl0 Hl' A5 B5).
Qed.
Lemma parent2 : forall i j c c' h, nth_error r2 i = Some c -> In h (c_holes c) -> nth_error r j = Some c' -> In (length r1 + h)%nat (c_holes c') -> (length r1 + i)%nat = j.
Proof using SL SO OV HF C H SL1 SO1 OV1 HF1 C1 H1 SL2 SO2 OV2 HF2 C2 H2 B HM.
  intros i j c c' h Hc Hh Hc' Hh'. destruct (at2 i c Hc) as (l & Hl & Hl0). destruct (whole_line j c' Hc') as (l' & Hl').
  destruct (proj1 (proj2 (compute_hole_lists std2 fuel2 qs op2 r2 SL2 C2)) i c h Hc Hh) as (_ & ch & Hch & _). destruct (at2 h ch Hch) as (lh & Hlh & Hlh0).
  destruct (have std2 fuel2 qs op2 ws SL2 SO2 OV2 HF2 r2 C2) as (S1 & ks1 & act1 & sw1 & I1 & Ts1 & O1). destruct (have std fuel polys op (zs ++ ws) SL SO OV HF r C) as (S2 & ks2 & act2 & sw2 & I2 & Ts2 & O2).
  destruct (hole_parent ws _ r2 S1 ks1 act1 sw1 I1 Ts1 O1 rz2 i c l h lh H2 Hc Hh Hl Hlh) as (eb & es & A1 & A2 & A3 & A4 & A5).
  destruct (hole_parent (zs ++ ws) _ r S2 ks2 act2 sw2 I2 Ts2 O2 rz j c' l' _ lh H Hc' Hh' Hl' Hlh0) as (eb' & es' & B1 & B2 & B3 & B4 & B5).
  pose proof (head_end2 h lh Hlh) as E. rewrite A3 in E. apply (next2 eb es E) in A2. assert (A1' : In (bumped (length zs) eb) (edges (zs ++ ws))) by (rewrite edges_app; apply in_or_app; right; now apply in_map).
  assert (AL : alike (bumped (length zs) eb) eb') by (apply (next_below_same (fun i => i) (zs ++ ws) (zs ++ ws) (itself (zs ++ ws)) _ es eb' es' A1' B1); [split; congruence|exact A2|exact B2]).
  destruct AL as (X1 & X2). cbn [bumped e_left e_right] in X1, X2. rewrite X1, X2 in A5. apply (one_line _ j l l' _ Hl0 Hl' A5 B5).
Qed.
Lemma there1 : forall h c, nth_error r1 h = Some c -> exists c', nth_error r h = Some c'.
Proof using SL SO OV HF C H SL1 SO1 OV1 HF1 C1 H1 SL2 SO2 OV2 HF2 C2 H2 B HM. intros h c E. apply nth_lt in E. pose proof len. destruct (nth_error r h) as [c'|] eqn:F; [eauto|]. apply nth_error_None in F. lia. Qed.
Lemma there2 : forall h c, nth_error r2 h = Some c -> exists c', nth_error r (length r1 + h) = Some c'.
Proof using SL SO OV HF C H SL1 SO1 OV1 HF1 C1 H1 SL2 SO2 OV2 HF2 C2 H2 B HM. intros h c E. apply nth_lt in E. pose proof len. destruct (nth_error r (length r1 + h)) as [c'|] eqn:F; [eauto|]. apply nth_error_None in F. lia. Qed.
Lemma either : forall h c, nth_error r h = Some c -> (exists c0, nth_error r1 h = Some c0 /\ c_external c = c_external c0) \/ exists k c0, h = (length r1 + k)%nat /\ nth_error r2 k = Some c0 /\ c_external c = c_external c0.
Proof using SL SO OV HF C H SL1 SO1 OV1 HF1 C1 H1 SL2 SO2 OV2 HF2 C2 H2 B HM.
  intros h c E. pose proof E as G. apply nth_lt in G. pose proof len as LN. destruct (le_gt_dec (length r1) h) as [G'|G'].
  - right. destruct (nth_error r2 (h - length r1)) as [c0|] eqn:F; [|apply nth_error_None in F; lia]. exists (h - length r1)%nat, c0. split; [lia|]. split; [exact F|]. apply (external2 _ c0 c F). now replace (length r1 + (h - length r1))%nat with h by lia.
  - left. destruct (nth_error r1 h) as [c0|] eqn:F; [|apply nth_error_None in F; lia]. exists c0. split; [reflexivity|]. now apply (external1 h).
Qed.
Lemma holes1 : forall i c c', nth_error r1 i = Some c -> nth_error r i = Some c' -> c_holes c' = c_holes c.
Proof using SL SO OV HF C H SL1 SO1 OV1 HF1 C1 H1 SL2 SO2 OV2 HF2 C2 H2 B HM.
  intros i c c' Hc Hc'. pose proof (compute_hole_lists std fuel polys op r SL C) as (_ & P & Q). pose proof (compute_hole_lists std1 fuel1 ps op1 r1 SL1 C1) as (_ & P1 & Q1). pose proof (compute_hole_lists std2 fuel2 qs op2 r2 SL2 C2) as (_ & P2 & Q2).
  apply asc_same; [apply (holes_ascend std fuel polys op r c' C), (nth_error_In _ _ Hc')|apply (holes_ascend std1 fuel1 ps op1 r1 c C1), (nth_error_In _ _ Hc)|]. intros h. split; intros Hh.
  - destruct (P i c' h Hc' Hh) as (_ & ch & Hch & X & _). destruct (either h ch Hch) as [(c0 & K & E)|(k & c0 & -> & K & E)]; rewrite E in X.
    + destruct (Q1 h c0 K X) as (j & cj & Hj & Hhj). pose proof (parent1 j i cj c' h Hj Hhj Hc' Hh) as ->. rewrite Hc in Hj. injection Hj as <-. exact Hhj.
    + exfalso. destruct (Q2 k c0 K X) as (j & cj & Hj & Hhj). pose proof (parent2 j i cj c' k Hj Hhj Hc' Hh) as Y. apply nth_lt in Hc. lia.
  - destruct (P1 i c h Hc Hh) as (_ & ch & Hch & X & _). destruct (there1 h ch Hch) as (ch' & Hch'). rewrite <- (external1 h ch ch' Hch Hch') in X. destruct (Q h ch' Hch' X) as (j & cj & Hj & Hhj).
    pose proof (parent1 i j c cj h Hc Hh Hj Hhj) as <-. rewrite Hc' in Hj. injection Hj as <-. exact Hhj.
Qed.
Lemma asc_shift : forall k l, StronglySorted lt l -> StronglySorted lt (map (Nat.add k) l).
Proof using. clear. intros k l S. induction S as [|a l S IH F]; [constructor|]. cbn [map]. constructor; [exact IH|]. rewrite Forall_map. eapply Forall_impl; [|exact F]. intros b Hb. cbn beta. lia. Qed.
Lemma holes2 : forall i c c', nth_error r2 i = Some c -> nth_error r (length r1 + i) = Some c' -> c_holes c' = map (Nat.add (length r1)) (c_holes c).
Proof using SL SO OV HF C H SL1 SO1 OV1 HF1 C1 H1 SL2 SO2 OV2 HF2 C2 H2 B HM.
  intros i c c' Hc Hc'. pose proof (compute_hole_lists std fuel polys op r SL C) as (_ & P & Q). pose proof (compute_hole_lists std1 fuel1 ps op1 r1 SL1 C1) as (_ & P1 & Q1). pose proof (compute_hole_lists std2 fuel2 qs op2 r2 SL2 C2) as (_ & P2 & Q2).
  apply asc_same; [apply (holes_ascend std fuel polys op r c' C), (nth_error_In _ _ Hc')|apply asc_shift, (holes_ascend std2 fuel2 qs op2 r2 c C2), (nth_error_In _ _ Hc)|]. intros h. split; intros Hh.
  - destruct (P _ c' h Hc' Hh) as (_ & ch & Hch & X & _). destruct (either h ch Hch) as [(c0 & K & E)|(k & c0 & -> & K & E)]; rewrite E in X.
    + exfalso. destruct (Q1 h c0 K X) as (j & cj & Hj & Hhj). pose proof (parent1 j _ cj c' h Hj Hhj Hc' Hh) as Y. apply nth_lt in Hj. lia.
    + destruct (Q2 k c0 K X) as (j & cj & Hj & Hhj). pose proof (parent2 j _ cj c' k Hj Hhj Hc' Hh) as Y. assert (j = i) by lia. subst j. rewrite Hc in Hj. injection Hj as <-. now apply in_map.
  - apply in_map_iff in Hh. destruct Hh as (k & <- & Hh). destruct (P2 i c k Hc Hh) as (_ & ch & Hch & X & _). destruct (there2 k ch Hch) as (ch' & Hch'). rewrite <- (external2 k ch ch' Hch Hch') in X. destruct (Q _ ch' Hch' X) as (j & cj & Hj & Hhj).
    pose proof (parent2 i j c cj k Hc Hh Hj Hhj) as <-. rewrite Hc' in Hj. injection Hj as <-. exact Hhj.
Qed.

Lemma beside_free : rz = rz1 ++ rz2
  /\ (forall i c c', nth_error r1 i = Some c -> nth_error r i = Some c' ->
       c_external c' = c_external c /\ c_holes c' = c_holes c /\ c_neighbors c' = c_neighbors c ++ repeat false (length r2) /\ c_from c' = c_from c ++ repeat false (length qs))
  /\ (forall i c c', nth_error r2 i = Some c -> nth_error r (length r1 + i) = Some c' ->
       c_external c' = c_external c /\ c_holes c' = map (Nat.add (length r1)) (c_holes c) /\ c_neighbors c' = repeat false (length r1) ++ c_neighbors c /\ c_from c' = repeat false (length ps) ++ c_from c).
Proof using SL SO OV HF C H SL1 SO1 OV1 HF1 C1 H1 SL2 SO2 OV2 HF2 C2 H2 B HM.
  split; [exact beside_lines|]. split; intros i c c' Hc Hc'.
  - split; [now apply (external1 i)|]. split; [now apply (holes1 i)|]. split; [now apply (neighbours1 i)|now apply (from1 i)].
  - split; [now apply (external2 i)|]. split; [now apply (holes2 i)|]. split; [now apply (neighbours2 i)|now apply (from2 i)].
Qed.
End Two.
