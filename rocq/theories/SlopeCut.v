(** Polygons on a grid are cut well by the points on it where their sides cross. *)

From Coq Require Import List ZArith Bool Lia QArith Classical.
From Verif Require Import Base Float SpecFloat64 Geometry SpecShape ShapeFacts SpecOrder SpecIntersect SpecHandle SpecTidy SpecCross CrossSamples GridFacts CrossSetup CrossCover CrossAgain GridCut SlopeFacts SpecGrid SpecSlope.
From Coq Require Import Lqa.
Import ListNotations.
Local Open Scope Z_scope.

(** *** Segments on one line *)

Section Line.
  Variables a1 a2 d1 d2 : Q.
  Hypothesis Hd : (~ d1 == 0 \/ ~ d2 == 0)%Q.

  (** The point at [s] on the line. *)
  Definition spot (s x y : Q) : Prop := (x == a1 + s * d1 /\ y == a2 + s * d2)%Q.

  Lemma spot_same : forall s s' x y x' y', spot s x y -> spot s' x' y' -> same_point x y x' y' <-> (s == s')%Q.
  Proof using Hd.
    intros s s' x y x' y' [X Y] [X' Y']. unfold same_point. rewrite X, Y, X', Y'. split; [|intros ->; split; reflexivity].
    intros [A B]. destruct Hd as [H|H].
    - apply (Qmult_inj_r _ _ d1); [exact H|]. lra.
    - apply (Qmult_inj_r _ _ d2); [exact H|]. lra.
  Qed.
End Line.

Lemma minus_Q : forall u v, (inject_Z (u - v) == inject_Z u - inject_Z v)%Q.
Proof. intros. unfold Zminus. rewrite inject_Z_plus, inject_Z_opp. reflexivity. Qed.

Lemma line_pair : forall e f u w, lex_z (e_left e) (e_right e) = Lt -> (u < w)%Q ->
  spot (inject_Z (fst (e_left e))) (inject_Z (snd (e_left e))) (inject_Z (fst (e_right e) - fst (e_left e))) (inject_Z (snd (e_right e) - snd (e_left e))) u (inject_Z (fst (e_left f))) (inject_Z (snd (e_left f))) ->
  spot (inject_Z (fst (e_left e))) (inject_Z (snd (e_left e))) (inject_Z (fst (e_right e) - fst (e_left e))) (inject_Z (snd (e_right e) - snd (e_left e))) w (inject_Z (fst (e_right f))) (inject_Z (snd (e_right f))) ->
  ~ along e f -> parted e f \/ exists v, is_end v e /\ is_end v f /\ met e f v.
Proof.
  intros e f u w L UW. set (a1 := inject_Z (fst (e_left e))). set (a2 := inject_Z (snd (e_left e))). set (d1 := inject_Z (fst (e_right e) - fst (e_left e))). set (d2 := inject_Z (snd (e_right e) - snd (e_left e))).
  intros U W N.
  assert (Hd : (~ d1 == 0 \/ ~ d2 == 0)%Q).
  { apply lex_lt in L. unfold d1, d2. destruct L as [L|[L1 L2]]; [left|right]; intros Q; apply (inj_eq _ 0) in Q; lia. }
  assert (E : forall x y, on_segment (e_left e) (e_right e) x y <-> exists s, (0 <= s)%Q /\ (s <= 1)%Q /\ spot a1 a2 d1 d2 s x y) by (intros; reflexivity).
  assert (F : forall x y, on_segment (e_left f) (e_right f) x y <-> exists s, (u <= s)%Q /\ (s <= w)%Q /\ spot a1 a2 d1 d2 s x y).
  { intros x y. destruct U as [U1 U2], W as [W1 W2]. split.
    - intros (t & T0 & T1 & X & Y). rewrite minus_Q in X, Y. exists (u + t * (w - u))%Q.
      assert (P : (0 <= t * (w - u))%Q) by (apply Qmult_le_0_compat; lra). assert (P' : (0 <= (1 - t) * (w - u))%Q) by (apply Qmult_le_0_compat; lra).
      split; [lra|]. split; [lra|]. split; [rewrite X, U1, W1; ring|rewrite Y, U2, W2; ring].
    - intros (s & S0 & S1 & X & Y). exists ((s - u) / (w - u))%Q. rewrite !minus_Q.
      split; [apply Qle_shift_div_l; lra|]. split; [apply Qle_shift_div_r; lra|]. split; [rewrite X, U1, W1; field; lra|rewrite Y, U2, W2; field; lra]. }
  assert (EF : forall x y, on_both (e_left e) (e_right e) (e_left f) (e_right f) x y <-> exists s, (0 <= s)%Q /\ (s <= 1)%Q /\ (u <= s)%Q /\ (s <= w)%Q /\ spot a1 a2 d1 d2 s x y).
  { intros x y. unfold on_both. rewrite E, F. split.
    - intros [(s & S0 & S1 & S) (s' & S0' & S1' & S')]. assert (Q : (s == s')%Q) by (apply (spot_same a1 a2 d1 d2 Hd s s' x y x y S S'); split; reflexivity). exists s. repeat split; try assumption; try (rewrite Q; assumption); apply S.
    - intros (s & S0 & S1 & S2 & S3 & S). split; exists s; tauto. }
  assert (At : forall s, spot a1 a2 d1 d2 s (a1 + s * d1) (a2 + s * d2)) by (intros; split; reflexivity).
  assert (M1 : (d1 == inject_Z (fst (e_right e)) - a1)%Q) by apply minus_Q. assert (M2 : (d2 == inject_Z (snd (e_right e)) - a2)%Q) by apply minus_Q.
  destruct (Qlt_le_dec 1 u) as [C1|C1].
  { left. intros x y O. apply EF in O. destruct O as (s & ? & ? & ? & ? & _). lra. }
  destruct (Qlt_le_dec w 0) as [C2|C2].
  { left. intros x y O. apply EF in O. destruct O as (s & ? & ? & ? & ? & _). lra. }
  destruct (Qeq_dec u 1) as [Q|Q].
  { right. exists (e_right e). destruct U as [U1 U2]. rewrite Q in U1, U2.
    assert (V : e_right e = e_left f) by (apply injective_projections; apply inj_eq; rewrite ?U1, ?U2, ?M1, ?M2; ring).
    split; [now right|]. split; [now left|]. split.
    - apply EF. exists 1%Q. rewrite Q. repeat split; try lra; rewrite ?M1, ?M2; ring.
    - intros x y O. apply EF in O. destruct O as (s & S0 & S1 & S2 & S3 & S). apply (spot_same a1 a2 d1 d2 Hd s 1 x y); [exact S|split; rewrite ?M1, ?M2; ring|lra]. }
  destruct (Qeq_dec w 0) as [Q'|Q'].
  { right. exists (e_left e). destruct W as [W1 W2]. rewrite Q' in W1, W2.
    assert (V : e_left e = e_right f) by (apply injective_projections; apply inj_eq; rewrite ?W1, ?W2; unfold a1, a2; ring).
    split; [now left|]. split; [now right|]. split.
    - apply EF. exists 0%Q. rewrite Q'. repeat split; try lra; unfold a1, a2; ring.
    - intros x y O. apply EF in O. destruct O as (s & S0 & S1 & S2 & S3 & S). apply (spot_same a1 a2 d1 d2 Hd s 0 x y); [exact S|split; unfold a1, a2; ring|lra]. }
  exfalso. apply N.
  assert (Lo : exists lo hi, (0 <= lo /\ u <= lo /\ hi <= 1 /\ hi <= w /\ lo < hi)%Q).
  { destruct (Qlt_le_dec u 0) as [A|A], (Qlt_le_dec w 1) as [B|B]; [exists 0%Q, w|exists 0%Q, 1%Q|exists u, w|exists u, 1%Q]; lra. }
  destruct Lo as (lo & hi & H1 & H2 & H3 & H4 & H5). exists (a1 + lo * d1)%Q, (a2 + lo * d2)%Q, (a1 + hi * d1)%Q, (a2 + hi * d2)%Q.
  split; [apply EF; exists lo; repeat split; (lra || reflexivity)|]. split; [apply EF; exists hi; repeat split; (lra || reflexivity)|].
  intros X. apply (spot_same a1 a2 d1 d2 Hd lo hi _ _ _ _ (At lo) (At hi)) in X. lra.
Qed.

(** *** Segments in parallel *)

Lemma parallel_pair : forall e f, lex_z (e_left e) (e_right e) = Lt -> lex_z (e_left f) (e_right f) = Lt ->
  vcross (vsub (e_right e) (e_left e)) (vsub (e_right f) (e_left f)) = 0 ->
  ~ along e f -> parted e f \/ exists v, is_end v e /\ is_end v f /\ met e f v.
Proof.
  intros e f Le Lf K N. destruct (Z.eq_dec (vcross (vsub (e_left f) (e_left e)) (vsub (e_right e) (e_left e))) 0) as [S|S].
  - assert (J : vcross (vsub (e_right f) (e_left e)) (vsub (e_right e) (e_left e)) = 0) by (unfold vcross, vsub in *; cbn [fst snd] in *; lia).
    apply lex_lt in Lf. pose proof Le as Le'. apply lex_lt in Le'. destruct (Z.eq_dec (fst (e_right e)) (fst (e_left e))) as [X|X].
    + assert (Y : snd (e_left e) < snd (e_right e)) by lia. assert (Fx : fst (e_left f) = fst (e_right f)) by (unfold vcross, vsub in K; cbn [fst snd] in K; nia).
      assert (Ex : fst (e_left f) = fst (e_left e)) by (unfold vcross, vsub in S; cbn [fst snd] in S; nia).
      assert (P : (0 < inject_Z (snd (e_right e) - snd (e_left e)))%Q) by (change 0%Q with (inject_Z 0); rewrite <- Zlt_Qlt; lia).
      apply (line_pair e f (inject_Z (snd (e_left f) - snd (e_left e)) / inject_Z (snd (e_right e) - snd (e_left e))) (inject_Z (snd (e_right f) - snd (e_left e)) / inject_Z (snd (e_right e) - snd (e_left e)))); [exact Le| | | |exact N].
      * unfold Qdiv. apply Qmult_lt_compat_r; [now apply Qinv_lt_0_compat|]. rewrite <- Zlt_Qlt. lia.
      * split; [rewrite X, Z.sub_diag, Ex; change (inject_Z 0) with 0%Q; ring|rewrite (minus_Q (snd (e_left f))); field; lra].
      * split; [rewrite X, Z.sub_diag, <- Fx, Ex; change (inject_Z 0) with 0%Q; ring|rewrite (minus_Q (snd (e_right f))); field; lra].
    + assert (Y : fst (e_left e) < fst (e_right e)) by lia. assert (Fx : fst (e_left f) < fst (e_right f)) by (unfold vcross, vsub in K; cbn [fst snd] in K; nia).
      assert (P : (0 < inject_Z (fst (e_right e) - fst (e_left e)))%Q) by (change 0%Q with (inject_Z 0); rewrite <- Zlt_Qlt; lia).
      assert (Sd : forall z, vcross (vsub z (e_left e)) (vsub (e_right e) (e_left e)) = 0 -> (inject_Z (snd z) == inject_Z (snd (e_left e)) + inject_Z (fst z - fst (e_left e)) / inject_Z (fst (e_right e) - fst (e_left e)) * inject_Z (snd (e_right e) - snd (e_left e)))%Q).
      { intros z Hz. unfold vcross, vsub in Hz. cbn [fst snd] in Hz. assert (Hq : (fst z - fst (e_left e)) * (snd (e_right e) - snd (e_left e)) = (snd z - snd (e_left e)) * (fst (e_right e) - fst (e_left e))) by lia.
        apply (f_equal inject_Z) in Hq. rewrite !inject_Z_mult in Hq. apply (Qmult_inj_r _ _ (inject_Z (fst (e_right e) - fst (e_left e)))); [lra|].
        transitivity (inject_Z (snd (e_left e)) * inject_Z (fst (e_right e) - fst (e_left e)) + inject_Z (fst z - fst (e_left e)) * inject_Z (snd (e_right e) - snd (e_left e)))%Q; [rewrite Hq, (minus_Q (snd z)); ring|field; lra]. }
      apply (line_pair e f (inject_Z (fst (e_left f) - fst (e_left e)) / inject_Z (fst (e_right e) - fst (e_left e))) (inject_Z (fst (e_right f) - fst (e_left e)) / inject_Z (fst (e_right e) - fst (e_left e)))); [exact Le| | | |exact N].
      * unfold Qdiv. apply Qmult_lt_compat_r; [now apply Qinv_lt_0_compat|]. rewrite <- Zlt_Qlt. lia.
      * split; [rewrite (minus_Q (fst (e_left f))); field; lra|now apply Sd].
      * split; [rewrite (minus_Q (fst (e_right f))); field; lra|now apply Sd].
  - left. intros x y [(s & _ & _ & X & Y) (t & _ & _ & X' & Y')]. apply S. clear - K X Y X' Y'. unfold vcross, vsub in *. cbn [fst snd] in *. apply inj_eq. apply (f_equal inject_Z) in K. rename K into K0. match type of K0 with ?l = ?r => assert (K : (l == r)%Q) by (rewrite K0; reflexivity) end. clear K0.
    rewrite minus_Q, !inject_Z_mult. rewrite minus_Q, !inject_Z_mult in K. change (inject_Z 0) with 0%Q in *. rewrite (minus_Q (fst (e_left f))), (minus_Q (snd (e_left f))).
    set (d1 := inject_Z (fst (e_right e) - fst (e_left e))) in *. set (d2 := inject_Z (snd (e_right e) - snd (e_left e))) in *. set (g1 := inject_Z (fst (e_right f) - fst (e_left f))) in *. set (g2 := inject_Z (snd (e_right f) - snd (e_left f))) in *.
    assert (Q1 : (inject_Z (fst (e_left f)) - inject_Z (fst (e_left e)) == s * d1 - t * g1)%Q) by lra. assert (Q2 : (inject_Z (snd (e_left f)) - inject_Z (snd (e_left e)) == s * d2 - t * g2)%Q) by lra.
    rewrite Q1, Q2. transitivity (t * (d1 * g2 - d2 * g1))%Q; [ring|rewrite K; ring].
Qed.

(** *** How two edges lie *)

Lemma slope_fits : forall g R D e f, slope_edge g R D e -> slope_edge g R D f -> coincide e f \/ ~ along e f ->
  (forall x y, ~ along e f -> on_both (e_left e) (e_right e) (e_left f) (e_right f) x y -> exists v, slope_point g R v /\ is_at v x y) -> fit e f.
Proof.
  intros g R D e f He Hf [C|N] Wh; [now left|]. right. pose proof (slope_tell g R D e f He Hf) as T.
  assert (A : parted e f \/ (exists v, is_end v e /\ is_end v f /\ met e f v) -> apart e f) by (intros [P|(v & A & B & C)]; (split; [exact T|]); [now left|right; exists v; auto]).
  destruct (Z.eq_dec (vcross (vsub (e_right e) (e_left e)) (vsub (e_right f) (e_left f))) 0) as [K|K].
  { left. apply A. apply parallel_pair; [apply He|apply Hf|exact K|exact N]. }
  destruct (classic (exists x y, on_both (e_left e) (e_right e) (e_left f) (e_right f) x y)) as [(x & y & O)|P]; [|left; apply A; left; intros x y O; apply P; eauto].
  destruct (Wh x y N O) as (v & Gv & V1 & V2).
  assert (On : on_both (e_left e) (e_right e) (e_left f) (e_right f) (inject_Z (fst v)) (inject_Z (snd v))).
  { destruct O as [(s & S0 & S1 & S2 & S3) (t & T0 & T1 & T2 & T3)]. rewrite V1 in S2, T2. rewrite V2 in S3, T3. split; [exists s|exists t]; auto. }
  assert (M : met e f v) by (split; [exact On|]; intros x' y' O'; exact (once _ _ _ _ _ _ _ _ K O' On)).
  destruct (end_dec v e), (end_dec v f); [left; apply A; right; eauto| | |]; right; exists v; (split; [exact M|]; split; [tauto|]).
  all: split; [now apply (slope_found g R D)|apply (slope_found g R D); try assumption; [|now apply both_swap]].
  all: intros Q; apply K; unfold vcross in *; lia.
Qed.

Lemma segment_middle : forall a b x y x' y', on_segment a b x y -> on_segment a b x' y' -> on_segment a b ((x + x') / 2) ((y + y') / 2).
Proof.
  intros a b x y x' y' (s & S0 & S1 & S2 & S3) (t & T0 & T1 & T2 & T3). exists ((s + t) / 2)%Q. split; [apply Qle_shift_div_l; lra|]. split; [apply Qle_shift_div_r; lra|].
  split; [rewrite S2, T2|rewrite S3, T3]; field.
Qed.

(** Edges that have only ends in common do not run along each other. *)
Lemma only_once : forall e f, lex_z (e_left e) (e_right e) = Lt -> only_ends e f -> ~ along e f.
Proof.
  intros e f L O (x & y & x' & y' & H & H' & N).
  assert (M : on_both (e_left e) (e_right e) (e_left f) (e_right f) ((x + x') / 2) ((y + y') / 2)) by (destruct H, H'; split; now apply segment_middle).
  apply N. destruct (O _ _ H) as (v & V & _ & Av1 & Av2), (O _ _ H') as (w & W & _ & Aw1 & Aw2), (O _ _ M) as (u & U & _ & Au1 & Au2).
  rewrite Av1, Aw1 in Au1. rewrite Av2, Aw2 in Au2. unfold same_point. rewrite Av1, Av2, Aw1, Aw2.
  assert (Q : forall a b c, ((inject_Z a + inject_Z b) / 2 == inject_Z c)%Q -> a + b = c + c).
  { intros a b c E. apply inj_eq. rewrite !inject_Z_plus. rewrite <- E. field. }
  apply Q in Au1, Au2. unfold is_end in *. apply lex_lt in L.
  assert (R : v = w); [|rewrite R; split; reflexivity].
  destruct V as [->| ->], W as [->| ->]; try reflexivity; exfalso; destruct U as [->| ->]; lia.
Qed.

(** *** The edges of the polygons, and the parts of their sides *)

Lemma lex_flip : forall a b, lex_z a b = Gt -> lex_z b a = Lt.
Proof.
  intros [a1 a2] [b1 b2] L. unfold lex_z in *. cbn [fst snd] in *. rewrite (Z.compare_antisym a1 b1), (Z.compare_antisym a2 b2).
  destruct (a1 ?= b1) eqn:C1, (a2 ?= b2) eqn:C2; cbn in *; congruence.
Qed.

Lemma sloping_straight : forall g D l, sloping g D l -> forall a b c, In a l -> In b l -> In c l -> orient a b c = 0.
Proof.
  intros g D l (p & q & _ & H) a b c A B C. destruct (H a b A B) as (t & T), (H a c A C) as (s & S). unfold vsub in T, S. injection T as T1 T2. injection S as S1 S2.
  unfold orient. replace (fst b) with (fst a + t * (2 ^ g * p)) by lia. replace (snd b) with (snd a + t * (2 ^ g * q)) by lia. replace (fst c) with (fst a + s * (2 ^ g * p)) by lia. replace (snd c) with (snd a + s * (2 ^ g * q)) by lia. ring.
Qed.

Lemma straight_part : forall pre l post, straight (pre ++ l ++ post) -> straight l.
Proof.
  intros pre l post [F O]. split; [|intros a b c A B C; apply O; rewrite !in_app_iff; tauto].
  assert (Fa : forall l m, forward (l ++ m) -> forward m /\ forward l).
  { clear. induction l as [|a l IH]; intros m H; [split; [exact H|exact I]|]. destruct l as [|b l].
    - cbn [app] in H. split; [|exact I]. destruct m as [|c m]; [exact I|]. apply H.
    - change (forward (a :: (b :: l) ++ m)) in H. destruct H as [H1 H2]. apply (IH m) in H2. split; [apply H2|]. split; [exact H1|apply H2]. }
  destruct F as [F|F]; [left; apply Fa in F; destruct F as [F _]; now apply Fa in F|].
  right. rewrite !rev_app_distr, <- app_assoc in F. apply Fa in F. destruct F as [F _]. now apply Fa in F.
Qed.

Lemma pairs_apart : forall (P : edge -> edge -> Prop) rs j k r r' p q, ForallOrdPairs P (flat_map route_edges rs) -> nth_error rs j = Some r -> nth_error rs k = Some r' -> j <> k ->
  In p (route_edges r) -> In q (route_edges r') -> P p q \/ P q p.
Proof.
  intros P rs. induction rs as [|r0 rs IH]; intros j k r r' p q F J K N Hp Hq; [destruct j; discriminate|]. cbn [flat_map] in F.
  assert (Sp : forall l m, ForallOrdPairs P (l ++ m) -> ForallOrdPairs P m /\ forall a b, In a l -> In b m -> P a b).
  { clear. induction l as [|c l IH]; intros m H; [split; [exact H|intros a b []]|]. inversion H as [|? ? Hc Hl]; subst. destruct (IH m Hl) as [A B]. split; [exact A|].
    intros a b [->|Ia] Ib; [|now apply B]. rewrite Forall_forall in Hc. apply Hc. apply in_or_app. now right. }
  destruct (Sp _ _ F) as [F1 F2]. assert (Tl : forall i s e, nth_error rs i = Some s -> In e (route_edges s) -> In e (flat_map route_edges rs)) by (intros i s e Hi He; apply in_flat_map; exists s; split; [now apply nth_error_In in Hi|exact He]).
  destruct j as [|j], k as [|k]; cbn [nth_error] in J, K; [congruence| | |].
  - injection J as ->. left. apply F2; [exact Hp|exact (Tl k r' q K Hq)].
  - injection K as ->. right. apply F2; [exact Hq|exact (Tl j r p J Hp)].
  - apply (IH j k r r' p q F1 J K); congruence || assumption.
Qed.

Section Cut.
  Variables g R D : Z.
  Variable ms : list (list (list mark)).
  Hypothesis Hg : slope_cut g R D ms.

  Lemma slope_route_edge : forall r a b e, In r (routes ms) -> In a (snd r) -> In b (snd r) -> In e (left_to_right (fst r) (a, b)) -> slope_edge g R D e.
  Proof using Hg.
    assert (P : forall r a b i, In r (routes ms) -> In a (snd r) -> In b (snd r) -> lex_z a b = Lt -> slope_edge g R D (mk_edge i a b)).
    { intros r a b i I A B L. constructor; cbn [e_left e_right]; try apply Hg; [exact (slope_points _ _ _ ms Hg r a I A)|exact (slope_points _ _ _ ms Hg r b I B)|exact L| |exact (slope_reach _ _ _ ms Hg r I a b A B)].
      destruct (slope_sloping _ _ _ ms Hg r I) as (p & q & PQ & T). destruct (T a b A B) as (t & E). exists p, q, t. split; assumption. }
    intros r a b e I A B J. unfold left_to_right in J. cbn [fst snd] in J. destruct (lex_z a b) eqn:L; [destruct J| |]; destruct J as [<-|[]].
    - now apply (P r).
    - apply (P r); try assumption. now apply lex_flip.
  Qed.

  Lemma slope_stretch_edge : forall r e, In r (routes ms) -> stretch r e -> slope_edge g R D e.
  Proof using Hg.
    intros r e I (pre & a & mid & b & post & E & J). apply (slope_route_edge r a b); [exact I| | |exact J]; rewrite E; repeat (rewrite in_app_iff; cbn [In]); tauto.
  Qed.

  Lemma slope_marked_edge : forall e, In e (edges (marked ms)) -> slope_edge g R D e.
  Proof using Hg.
    intros e H. unfold edges in H. rewrite marked_edges in H. apply in_flat_map in H. destruct H as (r & I & H). unfold route_edges in H. apply in_flat_map in H. destruct H as ([a b] & S & H).
    apply steps_in in S. destruct S. now apply (slope_route_edge r a b).
  Qed.

  Lemma slope_route_straight : forall r, In r (routes ms) -> straight (snd r).
  Proof using Hg. intros r I. split; [exact (slope_order _ _ _ ms Hg r I)|]. exact (sloping_straight g D _ (slope_sloping _ _ _ ms Hg r I)). Qed.

  (** A point of a stretch is on one of the edges it is made of, which lies on the stretch. *)
  Lemma stretch_piece : forall r e x y, In r (routes ms) -> stretch r e -> on_segment (e_left e) (e_right e) x y ->
    exists p, In p (route_edges r) /\ on_segment (e_left p) (e_right p) x y /\ forall x' y', on_segment (e_left p) (e_right p) x' y' -> on_segment (e_left e) (e_right e) x' y'.
  Proof using Hg.
    intros r e x y I (pre & a & mid & b & post & E & J) O. pose proof (slope_route_straight r I) as St. rewrite E in St.
    assert (Sl : straight (a :: mid ++ [b])) by (apply (straight_part pre _ post); cbn [app]; rewrite <- app_assoc; exact St).
    assert (Pt : forall x y, on_segment a b x y <-> exists s, In s (steps (a :: mid ++ [b])) /\ on_segment (fst s) (snd s) x y).
    { intros x0 y0. pose proof (straight_points (a :: mid ++ [b]) x0 y0) as X. cbn [hd] in X. replace (last (a :: mid ++ [b]) (0, 0)) with b in X by (change (a :: mid ++ [b]) with ((a :: mid) ++ [b]); now rewrite last_last).
      apply X; [cbn [length]; rewrite app_length; cbn; lia|exact Sl]. }
    assert (Ea : forall x y, on_segment (e_left e) (e_right e) x y <-> on_segment a b x y).
    { intros x0 y0. unfold left_to_right in J. cbn [fst snd] in J. destruct (lex_z a b); [destruct J| |]; destruct J as [<-|[]]; cbn [e_left e_right]; [reflexivity|split; apply segment_swap]. }
    apply Ea, Pt in O. destruct O as (s & S & O). pose proof (straight_steps _ s Sl S) as Ns.
    pose proof (proj2 (ordered_segment (fst r) s x y Ns) O) as (p & P & Op). exists p. split.
    - unfold route_edges. apply in_flat_map. exists s. split; [|exact P]. rewrite E, (steps_app pre a (mid ++ b :: post)).
      assert (X : forall l m (z : Z * Z), In s (steps (l ++ [z])) -> In s (steps (l ++ z :: m))) by (intros l m z Hz; rewrite steps_app; apply in_or_app; now left).
      apply in_or_app. right. change (a :: mid ++ b :: post) with ((a :: mid) ++ b :: post). apply X. exact S.
    - split; [exact Op|]. intros x' y' O'. apply Ea, Pt. exists s. split; [exact S|]. apply (ordered_segment (fst r) s x' y' Ns). exists p. split; assumption.
  Qed.

  (** Where the edges of two sides meet is on the grid. *)
  Lemma slope_where : forall j k r r' e f x y, nth_error (routes ms) j = Some r -> nth_error (routes ms) k = Some r' -> j <> k -> stretch r e -> stretch r' f -> ~ along e f ->
    on_both (e_left e) (e_right e) (e_left f) (e_right f) x y -> exists v, slope_point g R v /\ is_at v x y.
  Proof using Hg.
    intros j k r r' e f x y J K N Se Sf A [O1 O2]. pose proof (nth_error_In _ _ J) as I. pose proof (nth_error_In _ _ K) as I'.
    destruct (stretch_piece r e x y I Se O1) as (p & P & Op & Pe), (stretch_piece r' f x y I' Sf O2) as (q & Q & Oq & Qf).
    assert (Ip : forall r p, In r (routes ms) -> In p (route_edges r) -> In p (edges (marked ms))) by (intros r0 p0 R0 P0; unfold edges; rewrite marked_edges; apply in_flat_map; exists r0; split; assumption).
    assert (S : coincide p q \/ only_ends p q).
    { assert (X : coincide p q \/ only_ends p q \/ coincide q p \/ only_ends q p).
      { pose proof (slope_tidy _ _ _ ms Hg) as T. unfold edges in T. rewrite marked_edges in T. fold (routes ms) in T. destruct (pairs_apart _ (routes ms) j k r r' p q T J K N P Q); tauto. }
      destruct X as [X|[X|[(X1 & X2 & X3)|X]]]; [now left|now right|left; repeat split; congruence|right]. intros x0 y0 O0. apply both_swap in O0. destruct (X _ _ O0) as (v & V1 & V2 & V3). exists v. auto. }
    destruct S as [(S1 & S2 & _)|S].
    - exfalso. apply A. pose proof (slope_marked_edge p (Ip r p I P)) as [_ _ _ _ _ L _ _]. rewrite <- S1, <- S2 in Qf.
      assert (El : forall a b, on_segment a b (inject_Z (fst a)) (inject_Z (snd a))) by (intros a b; exists 0%Q; repeat split; try lra; ring).
      exists (inject_Z (fst (e_left p))), (inject_Z (snd (e_left p))), (inject_Z (fst (e_right p))), (inject_Z (snd (e_right p))).
      split; [split; [apply Pe|apply Qf]; apply El|]. split; [split; [apply Pe|apply Qf]; apply segment_swap, El|].
      intros [E1 E2]. apply inj_eq in E1, E2. apply lex_lt in L. lia.
    - destruct (S x y (conj Op Oq)) as (v & V & _ & At). exists v. split; [|exact At]. pose proof (slope_marked_edge p (Ip r p I P)) as Hp. destruct V as [->| ->]; [apply (se_left g R D p Hp)|apply (se_right g R D p Hp)].
  Qed.

  Theorem slope_well : cut_well ms.
  Proof using Hg.
    constructor.
    - split.
      + rewrite Forall_forall. intros z Z. rewrite Forall_forall. intros c C. rewrite Forall_forall. intros v V. destruct (marked_point ms z c v Z C V) as (r & I & J).
        apply (slope_within g R); [apply (slope_size _ _ _ ms Hg)|apply (slope_wide _ _ _ ms Hg)|exact (slope_points _ _ _ ms Hg r v I J)].
      + eapply pairs_impl; [|exact (slope_tidy _ _ _ ms Hg)]. intros e f E F [C|O]; [now left|]. apply slope_marked_edge in E, F.
        destruct (slope_fits g R D e f E F) as [C|[A|(v & M & N & _)]]; [right; apply only_once; [apply E|exact O]| |now left|now right|].
        * intros x y _ On. destruct (O x y On) as (v & V & _ & At). exists v. split; [|exact At]. destruct V as [->| ->]; [apply (se_left g R D e E)|apply (se_right g R D e E)].
        * exfalso. apply N. destruct (O _ _ (proj1 M)) as (w & We & Wf & W1 & W2). apply inj_eq in W1, W2. assert (v = w) as -> by (now apply injective_projections). split; assumption.
    - exact slope_route_straight.
    - intros j k r r' e f J K N Se Sf. apply (slope_fits g R D); [apply (slope_stretch_edge r e); [now apply nth_error_In in J|exact Se]|apply (slope_stretch_edge r' f); [now apply nth_error_In in K|exact Sf]| |].
      + exact (slope_along _ _ _ ms Hg j k r r' e f J K N Se Sf).
      + intros x y. now apply (slope_where j k r r').
    - exact (slope_arrive _ _ _ ms Hg).
  Qed.
End Cut.
