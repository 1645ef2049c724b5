(** The next event is the next event of the edges. *)

From Coq Require Import List ZArith QArith Bool Arith Lia Permutation.
From Verif Require Import Base Float SpecFloat64 SpecShape SpecOrder SpecIntersect SpecHandle SpecTidy SpecContainers Geometry Sweep
  Contours Compute FloatFacts MapFacts ShapeFacts OrderFacts ContainerFacts HandleFacts TidyGeo TidyParity TidySetup TidyLine TidyPackets TidySweep
  CrossGeo CrossPieces CrossMeet CrossCore CrossSplit CrossResolve CrossPair CrossLeft SpecCross.
Import ListNotations.

Lemma sorted_pair : forall {A} (c : A -> A -> comparison) l1 x l2 y, strictly_sorted c (l1 ++ x :: l2) -> In y l2 -> c x y = Lt.
Proof.
  induction l1 as [|a l1 IH]; intros x l2 y H Hy; cbn [app strictly_sorted] in H; [|eapply IH; [apply H|exact Hy]].
  destruct H as [H _]. rewrite Forall_forall in H. auto.
Qed.

Section Next.
Variables (zs : list corners) (S : list bseg) (modes : list polygon_mode).
Notation E := (edges zs).
Notation n := (length modes).
Notation eg := (eg (edges zs)).
Notation L s := (e_left (eg s)).
Notation R s := (e_right (eg s)).
Notation poly s := (e_poly (eg s)).
Notation mode_at := (mode_at modes).
Notation together := (together (edges zs)).
Notation reach := (reach (edges zs)).
Hypothesis (D : drawn E S) (Polys : forall s, In s S -> (poly s < n)%nat).
Variable cs : list (list bseg).
Notation sub := (sub cs).
Notation chain := (chain (edges zs) S).
Notation span := (span (edges zs)).
Notation fine := (fine (edges zs) cs).
Notation p_span := (p_span (edges zs)).
Notation quiet := (quiet zs).
Notation calm := (calm zs).
Notation core := (core zs S modes cs).
Notation inv := (inv zs S modes).
Hypothesis Chain : forall k b tl, sub k b tl -> chain b tl.
Hypothesis Fit : forall k k' b tl b' tl', sub k b tl -> sub k' b' tl' -> k <> k' -> fit (span b tl) (span b' tl').
(** Where a side is cut, another edge ends. *)
Hypothesis Arrive : forall k b c tl, sub k b (c :: tl) -> exists t, In t S /\ t <> b /\ R t = R b.

Definition late (T W : list piece) : Prop :=
  forall x y, In x T -> p_tail x <> [] -> In y W -> lex_z (R (p_head y)) (R (p_head x)) = Lt.

Lemma min_piece : forall (bad : piece -> Prop), (forall x, bad x \/ ~ bad x) -> forall l, (exists x, In x l /\ bad x) ->
  exists x, In x l /\ bad x /\ forall y, In y l -> bad y -> lex_z (R (p_head y)) (R (p_head x)) <> Lt.
Proof using.
  clear D Polys Chain Fit Arrive. intros bad Dec. induction l as [|a l IH]; intros (x & Hx & B); [destruct Hx|].
  assert (N : forall v : Z * Z, lex_z v v <> Lt) by (intros v; rewrite lex_refl; discriminate).
  destruct (Dec a) as [Ba|Na].
  - destruct (Dec a) as [_|]; [|contradiction].
    assert (K : (exists x, In x l /\ bad x) \/ forall x, In x l -> ~ bad x).
    { clear IH Hx. induction l as [|b l IHl]; [right; intros ? []|]. destruct (Dec b) as [Bb|Nb]; [left; exists b; split; [now left|exact Bb]|].
      destruct IHl as [(y & Y1 & Y2)|Y]; [left; exists y; split; [now right|exact Y2]|right]. intros y [<-|Hy]; auto. }
    destruct K as [K|K].
    + destruct (IH K) as (m & M1 & M2 & M3). destruct (lex_z (R (p_head a)) (R (p_head m))) eqn:Q.
      * exists m. split; [now right|]. split; [exact M2|]. intros y [<-|Hy] By; [rewrite Q; discriminate|auto].
      * exists a. split; [now left|]. split; [exact Ba|]. intros y [<-|Hy] By; [apply N|]. intros X. apply (M3 y Hy By). eapply lex_trans; eassumption.
      * exists m. split; [now right|]. split; [exact M2|]. intros y [<-|Hy] By; [rewrite Q; discriminate|auto].
    + exists a. split; [now left|]. split; [exact Ba|]. intros y [<-|Hy] By; [apply N|]. now apply K in By.
  - destruct Hx as [<-|Hx]; [contradiction|]. destruct (IH (ex_intro _ x (conj Hx B))) as (m & M1 & M2 & M3).
    exists m. split; [now right|]. split; [exact M2|]. intros y [<-|Hy] By; [contradiction|auto].
Qed.

Lemma head_end_on : forall x, fine x -> on_at (p_span x) (R (p_head x)).
Proof using D Chain.
  clear Polys Fit Arrive. intros x Fx. unfold CrossMeet.p_span. apply (on_prefix _ _ D [] (p_tail x)).
  - now apply (fine_chain E S cs Chain).
  - apply (on_right (span (p_head x) [])).
Qed.

(** Neighbours of which one goes on do not end their first edges together. *)
Lemma no_touch : forall x c, fine x -> fine c -> p_side x <> p_side c -> p_tail x <> [] -> R (p_head c) = R (p_head x) -> quiet x c -> False.
Proof using D Chain Fit.
  clear Polys Arrive. intros x c Fx Fc N Tx Q Qu. pose proof (head_end_on x Fx) as O1. pose proof (head_end_on c Fc) as O2. rewrite Q in O2.
  destruct (fit_cases E S D cs Chain Fit x c Fx Fc N) as [(_ & T0 & _)|[(_ & A)|(_ & X)]]; [contradiction| |now apply Qu].
  destruct (apart_at _ _ _ A O1 O2) as [[V|V] _]; destruct (reach_spec _ _ D _ _ (fine_chain E S cs Chain x Fx)) as (R1 & R2 & R3 & R4);
    unfold CrossMeet.p_span, CrossPieces.span in V; cbn in V.
  - pose proof (seg_lr _ _ D _ (fine_head E S cs Chain x Fx)) as X. rewrite V, lex_refl in X. discriminate.
  - specialize (R4 Tx). rewrite V, lex_refl in R4. discriminate.
Qed.

Lemma quiet_sym : forall x y, quiet x y -> quiet y x.
Proof using.
  clear. intros x y Q (v & [[M1 M2] M3] & N & F1 & F2). apply Q. exists v. split; [|split; [tauto|now split]].
  split; [split; assumption|]. intros a b [G1 G2]. apply M3. now split.
Qed.

Section Facts.
Variables (w : sweep) (ks : list packet) (U T W : list piece) (st : list bseg).
Hypothesis (C : core w ks U T W st) (Cm : calm T) (Lt_ : late T W).
Variable z : Z * Z.
Hypothesis (PU : forall u, In u U -> lex_z (L (p_head u)) z <> Lt) (PT : forall x, In x T -> lex_z (reach (p_head x) (p_tail x)) z <> Lt).

Lemma no_break : forall x, In x T -> p_tail x <> [] -> lex_z z (R (p_head x)) = Lt.
Proof using D Chain Fit Arrive C Cm Lt_ PU PT.
  clear Polys. set (bad := fun x => p_tail x <> [] /\ lex_z z (R (p_head x)) <> Lt).
  assert (Dec : forall x, bad x \/ ~ bad x).
  { intros x. unfold bad. destruct (p_tail x); [right; tauto|]. destruct (lex_z z (R (p_head x))); [left|right|left]; (split; discriminate) || tauto. }
  assert (None_ : forall x, In x T -> bad x -> False).
  { intros x0 Hx0 B0. destruct (min_piece bad Dec T (ex_intro _ x0 (conj Hx0 B0))) as (x & Hx & [Tx Vx] & Mn). clear x0 Hx0 B0.
    set (v := R (p_head x)) in *. assert (FT : forall y, In y T -> fine y) by (intros y Hy; apply (c_fine _ _ _ _ _ _ _ _ _ _ C), core_T, Hy).
    pose proof (FT x Hx) as Fx.
    assert (HS : forall y, In y T -> In (p_head y) S) by (intros y Hy; apply (fine_head E S cs Chain), FT, Hy).
    assert (F1 : forall c, In c T -> lex_z (R (p_head c)) v <> Lt).
    { intros c Hc X. destruct (p_tail c) as [|d tl] eqn:Tc.
      - apply (PT c Hc). rewrite Tc. change (reach (p_head c) []) with (R (p_head c)). now apply (lex_lt_trans _ v).
      - apply (Mn c Hc); [|exact X]. split; [congruence|]. intros Y. apply Vx. eapply lex_trans; eassumption. }
    assert (F2 : forall c, In c T -> c <> x -> quiet x c \/ quiet c x -> R (p_head c) = v -> False).
    { intros c Hc Nc Qu Q. apply (no_touch x c); auto.
      - apply (sides_differ zs S D cs Chain); auto; [now apply (c_together _ _ _ _ _ _ _ _ _ _ C)|]. intros X. apply Nc. symmetry. now apply (head_piece zs S modes D cs Chain _ _ _ _ _ _ C).
      - destruct Qu; auto using quiet_sym. }
    assert (Later : forall c, In c T -> c <> x -> quiet x c \/ quiet c x -> lex_z v (R (p_head c)) = Lt).
    { intros c Hc Nc Qu. destruct (lex_not _ _ (F1 c Hc)) as [Q|Q]; [|exact Q]. exfalso. now apply (F2 c). }
    destruct (p_tail x) as [|d tl] eqn:Etl; [now apply Tx|]. pose proof Fx as [Sx _]. rewrite Etl in Sx.
    destruct (Arrive _ _ _ _ Sx) as (t & It & Nt & Rt). fold v in Rt.
    apply (Permutation_in _ (Permutation_sym (c_parts _ _ _ _ _ _ _ _ _ _ C))) in It. apply in_flat_map in It. destruct It as (y & Hy & Ht).
    pose proof (c_fine _ _ _ _ _ _ _ _ _ _ C y Hy) as Fy. pose proof (fine_chain E S cs Chain y Fy) as Cy.
    assert (Ht' : t = p_head y \/ (In t (p_tail y) /\ lex_z (R (p_head y)) (R t) = Lt)).
    { destruct Ht as [Ht|Ht]; [left; now symmetry|right]. split; [exact Ht|]. destruct (part_spec _ _ D _ _ _ Cy Ht) as [P1 _].
      apply (lex_le_trans _ (L t)); [exact P1|]. apply (seg_lr _ _ D). apply Cy. now right. }
    rewrite !in_app_iff in Hy. destruct Hy as [Hy|[Hy|Hy]].
    - (* not started *)
      apply (PU y Hy). apply (lex_lt_trans _ v); [|exact Vx]. rewrite <- Rt. destruct Ht' as [->|[_ X]].
      + now apply (seg_lr _ _ D), (fine_head E S cs Chain).
      + eapply lex_trans; [|exact X]. now apply (seg_lr _ _ D), (fine_head E S cs Chain).
    - destruct Ht' as [->|[X1 X2]]; [|rewrite Rt in X2; now apply (F1 y)].
      assert (Nyx : y <> x) by (intros ->; now apply Nt).
      assert (Between : forall c, In c T -> lex_z v (R (p_head c)) = Lt -> (sc (p_head x) (p_head c) = Lt /\ sc (p_head c) (p_head y) = Lt) \/ (sc (p_head y) (p_head c) = Lt /\ sc (p_head c) (p_head x) = Lt) -> False).
      { intros c Hc Vc Cc.
        assert (SE : forall u, In u T -> R (p_head u) = v -> same_ends (eg (p_head u)) (eg (p_head c)) = false).
        { intros u Hu Ru. apply not_true_iff_false. intros X. apply same_ends_iff in X. destruct X as [_ X]. rewrite Ru in X. rewrite X, lex_refl in Vc. discriminate. }
        pose proof (c_together _ _ _ _ _ _ _ _ _ _ C) as Tg.
        pose proof (end_under _ _ D (p_head x) (p_head c) (HS x Hx) (HS c Hc) (SE x Hx eq_refl) (Tg _ _ Hx Hc)) as U1.
        pose proof (end_over _ _ D (p_head x) (p_head c) (HS x Hx) (HS c Hc) (SE x Hx eq_refl) (Tg _ _ Hx Hc)) as U2.
        pose proof (end_under _ _ D (p_head y) (p_head c) (HS y Hy) (HS c Hc) (SE y Hy Rt) (Tg _ _ Hy Hc)) as U3.
        pose proof (end_over _ _ D (p_head y) (p_head c) (HS y Hy) (HS c Hc) (SE y Hy Rt) (Tg _ _ Hy Hc)) as U4.
        rewrite Rt in U3, U4. fold v in U1, U2. destruct Cc as [[Q1 Q2]|[Q1 Q2]]; [specialize (U1 Q1 Vc); specialize (U4 Q2 Vc); lia|specialize (U3 Q1 Vc); specialize (U2 Q2 Vc); lia]. }
      assert (ND : NoDup T).
      { pose proof (head_T zs S modes D cs Chain _ _ _ _ _ _ C) as N. eapply NoDup_map_inv. exact N. }
      pose proof (c_sorted _ _ _ _ _ _ _ _ _ _ C) as So. clear Ht.
      apply in_split in Hx. destruct Hx as (A & B & ET). pose proof Hy as Hy'. rewrite ET in Hy'. apply in_app_iff in Hy'. destruct Hy' as [Hy'|[Hy'|Hy']]; [|now apply Nyx|].
      + destruct A as [|c A _] using rev_ind; [destruct Hy'|]. rewrite <- app_assoc in ET. cbn [app] in ET.
        assert (Hc : In c T) by (rewrite ET; apply in_or_app; right; now left).
        assert (Ncx : c <> x) by (rewrite ET in ND; apply NoDup_remove_2 in ND; intros ->; apply ND, in_or_app; right; now left).
        assert (Qcx : quiet c x).
        { rewrite ET in Cm. apply (proj1 (calm_app zs A _)) in Cm. apply Cm. }
        pose proof (Later c Hc Ncx (or_intror Qcx)) as Lc. apply (Between c Hc Lc). right.
        apply in_app_iff in Hy'. destruct Hy' as [Hy'|[->|[]]]; [|rewrite Rt, lex_refl in Lc; discriminate].
        rewrite ET, map_app in So. cbn [map] in So. split.
        * apply in_split in Hy'. destruct Hy' as (A1 & A2 & ->). rewrite map_app in So. cbn [map] in So. rewrite <- app_assoc in So. cbn [app] in So.
          eapply sorted_pair; [exact So|]. apply in_or_app. right. now left.
        * eapply sorted_pair; [exact So|]. now left.
      + destruct B as [|c B]; [destruct Hy'|].
        assert (Hc : In c T) by (rewrite ET; apply in_or_app; right; right; now left).
        assert (Ncx : c <> x) by (rewrite ET in ND; apply NoDup_remove_2 in ND; intros ->; apply ND, in_or_app; right; now left).
        assert (Qcx : quiet x c).
        { rewrite ET in Cm. apply (proj1 (calm_app zs A _)) in Cm. apply Cm. }
        pose proof (Later c Hc Ncx (or_introl Qcx)) as Lc. apply (Between c Hc Lc). left.
        destruct Hy' as [->|Hy']; [rewrite Rt, lex_refl in Lc; discriminate|].
        rewrite ET, map_app in So. cbn [map] in So. split.
        * eapply sorted_pair; [exact So|]. now left.
        * apply (sorted_pair _ (map p_head A ++ [p_head x]) _ (map p_head B)); [rewrite <- app_assoc; exact So|now apply in_map].
    - (* ended *)
      destruct Ht' as [->|[X _]]; [|rewrite (c_done _ _ _ _ _ _ _ _ _ _ C y Hy) in X; destruct X].
      pose proof (Lt_ x y Hx) as X. rewrite Etl in X. specialize (X Tx Hy). fold v in X. rewrite Rt, lex_refl in X. discriminate. }
  intros x Hx Tx. destruct (Dec x) as [B|NB]; [exfalso; eauto|]. unfold bad in NB. destruct (lex_z z (R (p_head x))) eqn:Q; [|reflexivity|]; exfalso; apply NB; (split; [exact Tx|discriminate]).
Qed.
End Facts.

(** *** What the heap gives *)
Section Pop.
Variables (w : sweep) (ks : list packet) (U T W : list piece) (st : list bseg).
Hypothesis (C : core w ks U T W st) (Cm : calm T) (Lt_ : late T W).
Variables (p : piece) (e : seg_end).
Hypothesis (Min : forall b, In b (w_queue w) -> cmp_of (p_seg p, e) b <> Gt).
Hypothesis (Hp : match e with LeftEnd => In p U | RightEnd => In p T end).
Notation z := (end_z (L (p_head p)) (reach (p_head p) (p_tail p)) e).

Lemma pop_in : In p (U ++ T ++ W).
Proof using Hp. clear - Hp. rewrite !in_app_iff. destruct e; auto. Qed.
Lemma pop_fine : fine p.
Proof using C Hp. apply (c_fine _ _ _ _ _ _ _ _ _ _ C), pop_in. Qed.
Lemma pop_cmp : forall y f, fine y -> cmp_of (p_seg p, e) (p_seg y, f) = cmp_then (event_before_z z (end_z (L (p_head y)) (reach (p_head y) (p_tail y)) f) e f
    (other_z (L (p_head p)) (reach (p_head p) (p_tail p)) e) (other_z (L (p_head y)) (reach (p_head y) (p_tail y)) f)) (Nat.compare (poly (p_head p)) (poly (p_head y))).
Proof using D Chain C Hp.
  intros y f Fy. unfold cmp_of. rewrite (endpoint_cmp_int _ (p_seg p, e) (p_seg y, f) _ _ _ _ (piece_z E S D cs Chain p pop_fine) (piece_z E S D cs Chain y Fy)). cbn [fst snd].
  destruct Fy as [_ (_ & _ & Oy)]. destruct pop_fine as [_ (_ & _ & Op)]. now rewrite Oy, Op.
Qed.
Lemma pop_U : forall u, In u U -> lex_z (L (p_head u)) z <> Lt.
Proof using D Chain C Hp Min.
  intros u Hu X. assert (Fu : fine u) by (apply (c_fine _ _ _ _ _ _ _ _ _ _ C), in_or_app; now left). apply (Min (p_seg u, LeftEnd)).
  - apply (Permutation_in _ (Permutation_sym (c_queue _ _ _ _ _ _ _ _ _ _ C))). apply in_or_app. left. apply in_flat_map. exists u. split; [exact Hu|now left].
  - rewrite pop_cmp by assumption. apply lex_gt in X. unfold event_before_z. cbn [end_z]. now rewrite X.
Qed.
Lemma pop_T : forall x, In x T -> lex_z (reach (p_head x) (p_tail x)) z <> Lt /\ (e = LeftEnd -> lex_z z (reach (p_head x) (p_tail x)) = Lt).
Proof using D Chain C Hp Min.
  intros x Hx. assert (Fx : fine x) by (apply (c_fine _ _ _ _ _ _ _ _ _ _ C), core_T, Hx).
  assert (M : cmp_of (p_seg p, e) (p_seg x, RightEnd) <> Gt).
  { apply Min. apply (Permutation_in _ (Permutation_sym (c_queue _ _ _ _ _ _ _ _ _ _ C))). apply in_or_app. right. apply in_or_app. left.
    rewrite map_map. apply in_map_iff. exists x. split; [reflexivity|exact Hx]. }
  rewrite pop_cmp in M by assumption. unfold event_before_z in M. cbn [end_z] in M. split.
  - intros X. apply lex_gt in X. rewrite X in M. now apply M.
  - intros Q. rewrite Q in *. cbn [end_z] in *. destruct (lex_z (L (p_head p)) (reach (p_head x) (p_tail x))); [exfalso; now apply M|reflexivity|exfalso; now apply M].
Qed.
Lemma pop_break : forall x, In x T -> p_tail x <> [] -> lex_z z (R (p_head x)) = Lt.
Proof using D Chain Fit Arrive C Cm Lt_ Hp Min.
  apply (no_break w ks U T W st C Cm Lt_ z pop_U). intros x Hx. now apply pop_T.
Qed.
Lemma pop_right : e = RightEnd -> p_tail p = [].
Proof using D Chain Fit Arrive C Cm Lt_ Hp Min.
  intros Q. destruct (p_tail p) as [|c tl] eqn:Tp; [reflexivity|exfalso]. pose proof Hp as Hp'. rewrite Q in Hp'.
  assert (X : lex_z z (R (p_head p)) = Lt) by (apply pop_break; congruence). rewrite Q in X. cbn [end_z] in X.
  destruct (reach_spec _ _ D _ _ (fine_chain E S cs Chain p pop_fine)) as (_ & _ & R3 & _). contradiction.
Qed.

Variable q : list bend.
Hypothesis V : inv q ks (map p_head T) (map p_head W).
Lemma pop_first : forall b, In b q -> cmp_of (p_head p, e) b <> Gt.
Proof using D Polys Chain Fit Arrive C Cm Lt_ Hp Min V.
  intros [c f] Hb. pose proof (v_in _ _ _ _ _ _ _ V _ Hb) as Ic. cbn in Ic.
  assert (Ip : In (p_head p) S) by (apply (fine_head E S cs Chain), pop_fine).
  assert (Ee : e = LeftEnd \/ e = RightEnd) by (clear; destruct e; auto).
  assert (Zp : z = end_z (L (p_head p)) (R (p_head p)) e).
  { destruct Ee as [Q|Q]; [rewrite Q; reflexivity|]. rewrite (pop_right Q), Q. reflexivity. }
  assert (Soon : lex_z z (end_z (L c) (R c) f) = Lt -> cmp_of (p_head p, e) (c, f) <> Gt).
  { intros X. rewrite (ev zs S modes D Polys) by assumption. cbn [fst snd]. unfold event_before_z. rewrite <- Zp, X. discriminate. }
  assert (Ends : lex_z z (L c) = Lt -> cmp_of (p_head p, e) (c, f) <> Gt).
  { intros X. apply Soon. destruct f; cbn [end_z]; [exact X|]. eapply lex_trans; [exact X|]. now apply (seg_lr _ _ D). }
  pose proof Ic as Ic'. apply (Permutation_in _ (Permutation_sym (c_parts _ _ _ _ _ _ _ _ _ _ C))) in Ic'. apply in_flat_map in Ic'. destruct Ic' as (y & Hy & Hc).
  pose proof (c_fine _ _ _ _ _ _ _ _ _ _ C y Hy) as Fy. pose proof (fine_chain E S cs Chain y Fy) as Cy.
  assert (Hc' : c = p_head y \/ (In c (p_tail y) /\ lex_z (L c) (R (p_head y)) <> Lt)).
  { destruct Hc as [Hc|Hc]; [left; now symmetry|right]. split; [exact Hc|]. now destruct (part_spec _ _ D _ _ _ Cy Hc). }
  assert (Ly : lex_z (L (p_head y)) (R (p_head y)) = Lt) by (now apply (seg_lr _ _ D), (fine_head E S cs Chain)).
  rewrite !in_app_iff in Hy. destruct Hy as [Hy|[Hy|Hy]].
  - pose proof (pop_U y Hy) as PU. destruct Hc' as [->|[X1 X2]].
    + destruct f.
      * destruct Ee as [Q|Q].
        -- assert (M : cmp_of (p_seg p, e) (p_seg y, LeftEnd) <> Gt).
           { apply Min. apply (Permutation_in _ (Permutation_sym (c_queue _ _ _ _ _ _ _ _ _ _ C))). apply in_or_app. left. apply in_flat_map. exists y. split; [exact Hy|now left]. }
           rewrite Q in M |- *. pose proof (before_left E S D cs Chain p y pop_fine Fy) as X. intros Y. apply M. etransitivity; [exact X|exact Y].
        -- rewrite (ev zs S modes D Polys) by assumption. cbn [fst snd]. unfold event_before_z. rewrite <- Zp. cbn [end_z].
           destruct (lex_z z (L (p_head y))) eqn:X; [rewrite Q; discriminate|discriminate|]. apply lex_gt in X. contradiction.
      * apply Soon. cbn [end_z]. now apply (lex_le_trans _ (L (p_head y))).
    + apply Ends. apply (lex_lt_trans _ (R (p_head y))); [|exact X2]. now apply (lex_le_trans _ (L (p_head y))).
  - destruct Hc' as [->|[X1 X2]].
    + assert (Ha : In (p_head y) (map p_head T)) by (now apply in_map). apply (v_act _ _ _ _ _ _ _ V) in Ha. destruct Ha as (_ & A1 & A2).
      destruct f; [contradiction|]. destruct (p_tail y) as [|d tl] eqn:Ty; [|apply Soon; cbn [end_z]; apply pop_break; congruence].
      destruct (pop_T y Hy) as [T1 T2]. rewrite Ty in T1, T2. change (reach (p_head y) []) with (R (p_head y)) in *. destruct Ee as [Q|Q].
      * apply Soon. cbn [end_z]. now apply T2.
      * assert (M : cmp_of (p_seg p, e) (p_seg y, RightEnd) <> Gt).
        { apply Min. apply (Permutation_in _ (Permutation_sym (c_queue _ _ _ _ _ _ _ _ _ _ C))). apply in_or_app. right. apply in_or_app. left.
          rewrite map_map. apply in_map_iff. exists y. split; [reflexivity|exact Hy]. }
        rewrite (pop_cmp y RightEnd Fy), Ty, (pop_right Q) in M. rewrite (ev zs S modes D Polys) by assumption. exact M.
    + apply Ends. apply (lex_lt_trans _ (R (p_head y))); [|exact X2]. apply pop_break; [exact Hy|]. intros X. rewrite X in X1. destruct X1.
  - exfalso. destruct Hc' as [->|[X _]]; [|rewrite (c_done _ _ _ _ _ _ _ _ _ _ C y Hy) in X; destruct X].
    assert (Ha : In (p_head y) (map p_head W)) by (now apply in_map). apply (v_swept _ _ _ _ _ _ _ V) in Ha. destruct Ha as (_ & A2).
    apply A2. destruct f; [|exact Hb]. now apply (ends_later zs S modes D Polys _ _ _ _ _ V).
Qed.
End Pop.
End Next.
