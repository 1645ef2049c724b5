(** The segments of tidy polygons: which one is above which while the sweep passes. *)

From Coq Require Import List ZArith QArith Bool Arith Lia Lqa.
From Verif Require Import Base Float SpecShape SpecOrder SpecIntersect SpecHandle SpecTidy SpecContainers Geometry Sweep
  Contours Compute OrderFacts TidyGeo TidyParity.
Import ListNotations.

Definition no_edge : edge := mk_edge 0 (0, 0)%Z (0, 0)%Z.

(** [S] are the segments made of the edges [E], in order. *)
Record drawn (E : list edge) (S : list bseg) : Prop := mk_drawn {
  dr_len : length S = length E;
  dr_index : forall k s, nth_error S k = Some s -> s_index s = k;
  dr_seg : forall k s e, nth_error S k = Some s -> nth_error E k = Some e ->
    seg_z s (e_left e) (e_right e) /\ s_order s = e_poly e;
  dr_pairs : forall k k' e e', nth_error E k = Some e -> nth_error E k' = Some e' -> k <> k' -> coincide e e' \/ apart e e' }.

Definition sc (a b : bseg) : comparison := match segment_cmp a b with Ok c => c | _ => Eq end.
Definition ec (a b : bend) : comparison := cmp_of a b.

Section Drawn.
Variables (E : list edge) (S : list bseg).
Hypothesis D : drawn E S.

Definition eg (s : bseg) : edge := nth (s_index s) E no_edge.
Notation L s := (e_left (eg s)).
Notation R s := (e_right (eg s)).

Lemma in_seg : forall s, In s S -> nth_error S (s_index s) = Some s /\ nth_error E (s_index s) = Some (eg s).
Proof using D.
  intros s H. apply In_nth_error in H. destruct H as [k H]. pose proof (dr_index _ _ D k s H) as I. subst k.
  split; [exact H|]. unfold eg. apply nth_error_nth'. rewrite <- (dr_len _ _ D). apply nth_error_Some. congruence.
Qed.

Lemma seg_spec : forall s, In s S -> seg_z s (L s) (R s) /\ s_order s = e_poly (eg s) /\ lr (eg s) /\ In (eg s) E.
Proof using D.
  intros s H. destruct (in_seg s H) as [H1 H2]. destruct (dr_seg _ _ D _ _ _ H1 H2) as [H3 H4].
  split; [exact H3|]. split; [exact H4|]. split; [apply H3|]. eapply nth_error_In; eassumption.
Qed.

Lemma edge_seg : forall e, In e E -> exists s, In s S /\ eg s = e.
Proof using D.
  intros e H. apply In_nth_error in H. destruct H as [k H].
  assert (Hk : (k < length S)%nat) by (rewrite (dr_len _ _ D); apply nth_error_Some; congruence).
  destruct (nth_error S k) as [s|] eqn:Es; [|apply nth_error_None in Es; lia].
  exists s. split; [eapply nth_error_In; eassumption|]. unfold eg. rewrite (dr_index _ _ D k s Es). now apply nth_error_nth.
Qed.

Lemma index_eq : forall a b, In a S -> In b S -> s_index a = s_index b -> a = b.
Proof using D. intros a b Ha Hb H. apply in_seg in Ha, Hb. destruct Ha as [Ha _], Hb as [Hb _]. congruence. Qed.

Lemma pairs : forall a b, In a S -> In b S -> a <> b -> coincide (eg a) (eg b) \/ apart (eg a) (eg b).
Proof using D.
  intros a b Ha Hb N. apply (dr_pairs _ _ D (s_index a) (s_index b)).
  - now apply in_seg.
  - now apply in_seg.
  - intros I. apply N. now apply index_eq.
Qed.

Lemma pairs_related : forall a b, In a S -> In b S -> related (eg a) (eg b).
Proof using D.
  intros a b Ha Hb. destruct (Nat.eq_dec (s_index a) (s_index b)) as [I|I].
  - left. rewrite (index_eq a b Ha Hb I). auto.
  - destruct (pairs a b Ha Hb) as [C|A]; [congruence|left; split; apply C|right; exact A].
Qed.

Lemma edges_related : forall e s, In e E -> In s S -> related e (eg s).
Proof using D. intros e s He Hs. destruct (edge_seg e He) as (a & Ha & <-). now apply pairs_related. Qed.

(** Edges that are apart have different ends. *)
Lemma apart_ends : forall e f, lr e -> apart e f -> same_ends e f = false.
Proof using.
  intros e f Le A. apply not_true_iff_false. rewrite same_ends_iff. intros [H1 H2].
  assert (H : (xl e == xr e /\ yl e == yr e)%Q).
  { apply (apart_once e f _ _ _ _ A); auto using on_left, on_right.
    - rewrite H1. apply on_left.
    - rewrite H2. apply on_right. }
  destruct H as [X Y]. pose proof (point_ext _ _ X Y) as P. unfold lr in Le. rewrite P, lex_refl in Le. discriminate.
Qed.

Lemma pairs_same : forall a b, In a S -> In b S -> a <> b -> same_ends (eg a) (eg b) = true -> e_poly (eg a) <> e_poly (eg b).
Proof using D.
  intros a b Ha Hb N SE. destruct (pairs a b Ha Hb N) as [C|A]; [apply C|]. apply apart_ends in A; [congruence|]. now apply seg_spec.
Qed.
Lemma pairs_apart : forall a b, In a S -> In b S -> same_ends (eg a) (eg b) = false -> apart (eg a) (eg b).
Proof using D.
  intros a b Ha Hb SE. destruct (Nat.eq_dec (s_index a) (s_index b)) as [I|I].
  - rewrite (index_eq a b Ha Hb I) in SE. unfold same_ends in SE. rewrite !lex_refl in SE. discriminate.
  - destruct (pairs a b Ha Hb) as [C|A]; [congruence| |exact A].
    assert (T : same_ends (eg a) (eg b) = true) by (apply same_ends_iff; split; apply C). congruence.
Qed.

(** *** Comparing segments *)

Lemma sc_ok : forall a b, In a S -> In b S -> segment_cmp a b = Ok (sc a b).
Proof using D.
  intros a b Ha Hb. unfold sc. destruct (Nat.eq_dec (s_index a) (s_index b)) as [I|I].
  - unfold segment_cmp. rewrite I, Nat.eqb_refl. reflexivity.
  - destruct (segment_anti _ a b) as (c & H & _); [eexists _, _; apply seg_spec; assumption..|exact I|]. now rewrite H.
Qed.
Lemma sc_refl : forall a, sc a a = Eq.
Proof using. intros a. unfold sc, segment_cmp. now rewrite Nat.eqb_refl. Qed.
Lemma sc_anti : forall a b, In a S -> In b S -> sc b a = CompOpp (sc a b).
Proof using D.
  intros a b Ha Hb. destruct (Nat.eq_dec (s_index a) (s_index b)) as [I|I].
  - rewrite (index_eq a b Ha Hb I), sc_refl. reflexivity.
  - destruct (segment_anti _ a b) as (c & H1 & H2 & _); [eexists _, _; apply seg_spec; assumption..|exact I|].
    unfold sc. now rewrite H1, H2.
Qed.
Lemma sc_eq : forall a b, In a S -> In b S -> sc a b = Eq -> a = b.
Proof using D.
  intros a b Ha Hb H. apply index_eq; auto. destruct (Nat.eq_dec (s_index a) (s_index b)) as [I|I]; [exact I|exfalso].
  destruct (segment_anti _ a b) as (c & H1 & _ & H2); [eexists _, _; apply seg_spec; assumption..|exact I|].
  unfold sc in H. rewrite H1 in H. auto.
Qed.
Lemma sc_lt_neq : forall a b, sc a b = Lt -> a <> b.
Proof using. intros a b H ->. rewrite sc_refl in H. discriminate. Qed.

(** Along each other: by polygon. *)
Lemma sc_same : forall a b, In a S -> In b S -> a <> b -> same_ends (eg a) (eg b) = true ->
  sc a b = Nat.compare (e_poly (eg a)) (e_poly (eg b)).
Proof using D.
  intros a b Ha Hb N SE. pose proof (pairs_same a b Ha Hb N SE) as P. apply same_ends_iff in SE. destruct SE as [S1 S2].
  destruct (seg_spec a Ha) as (A1 & A2 & _), (seg_spec b Hb) as (B1 & B2 & _).
  unfold sc. rewrite (segment_cmp_int _ a b _ _ _ _ A1 B1) by (intros I; apply N; now apply index_eq).
  rewrite <- S1, <- S2. replace (orient (L a) (R a) (L a)) with 0%Z by (unfold orient; ring).
  replace (orient (L a) (R a) (R a)) with 0%Z by (unfold orient; ring). cbn [Z.eqb andb].
  rewrite A2, B2. destruct (Nat.compare_spec (e_poly (eg a)) (e_poly (eg b))); [contradiction|reflexivity..].
Qed.

(** Otherwise, by position, if they are on the sweep line together. *)
Definition together (a b : bseg) : Prop := lex_z (L a) (R b) = Lt /\ lex_z (L b) (R a) = Lt.

Lemma not_collinear : forall a b, In a S -> In b S -> same_ends (eg a) (eg b) = false -> together a b ->
  (orient (L a) (R a) (L b) =? 0)%Z && (orient (L a) (R a) (R b) =? 0)%Z = false.
Proof using D.
  intros a b Ha Hb N [T1 T2]. apply not_true_iff_false. rewrite andb_true_iff, !Z.eqb_eq. intros [O1 O2].
  destruct (seg_spec a Ha) as (_ & _ & La & _), (seg_spec b Hb) as (_ & _ & Lb & _).
  apply (apart_line (eg a) (eg b)); auto. now apply pairs_apart.
Qed.

Lemma sc_apart : forall a b, In a S -> In b S -> same_ends (eg a) (eg b) = false -> together a b ->
  sc a b = match lex_z (L a) (L b) with
           | Eq => if (0 <? orient (L a) (R a) (R b))%Z then Lt else Gt
           | Lt => if (0 <? orient (L a) (R a) (L b))%Z then Lt else Gt
           | Gt => if (0 <? orient (L b) (R b) (L a))%Z then Gt else Lt
           end.
Proof using D.
  intros a b Ha Hb N T. destruct (seg_spec a Ha) as (A1 & A2 & _), (seg_spec b Hb) as (B1 & B2 & _).
  unfold sc. rewrite (segment_cmp_int _ a b _ _ _ _ A1 B1).
  - rewrite not_collinear by assumption. reflexivity.
  - intros I. rewrite (index_eq a b Ha Hb I) in N. unfold same_ends in N. rewrite !lex_refl in N. discriminate.
Qed.

Lemma same_sym : forall e f, same_ends e f = same_ends f e.
Proof using. intros e f. apply eq_true_iff_eq. rewrite !same_ends_iff. split; intros [H1 H2]; auto. Qed.
Lemma same_trans : forall e f g, same_ends e f = true -> same_ends e g = same_ends f g.
Proof using. intros e f g H. apply same_ends_iff in H. destruct H as [H1 H2]. unfold same_ends. now rewrite H1, H2. Qed.

(** Segments along each other compare alike with others. *)
Lemma sc_like : forall a b t, In a S -> In b S -> In t S -> same_ends (eg a) (eg b) = true -> same_ends (eg a) (eg t) = false ->
  together a t -> sc a t = sc b t.
Proof using D.
  intros a b t Ha Hb Ht SE N T. rewrite (sc_apart a t) by assumption.
  pose proof (same_trans _ _ (eg t) SE) as N'. apply same_ends_iff in SE. destruct SE as [S1 S2].
  assert (T' : together b t) by (unfold together in *; now rewrite <- S1, <- S2).
  rewrite (sc_apart b t) by (auto; congruence). now rewrite S1, S2.
Qed.

(** *** While the sweep is at [p] *)

Section Here.
Variable p : Z * Z.
(** The segment has been reached and goes on. *)
Definition alive (a : bseg) : Prop := In a S /\ lex_z p (L a) <> Lt /\ lex_z p (R a) = Lt.

Lemma alive_together : forall a b, alive a -> alive b -> together a b.
Proof using.
  intros a b (_ & A1 & A2) (_ & B1 & B2). split; eapply lex_le_trans; eassumption.
Qed.

(** [t] starts here. *)
Variable t : bseg.
Hypothesis (At : alive t) (Lt_ : L t = p).

Lemma upright_here : forall a, alive a -> sloped (eg a) \/ L a = p.
Proof using D At Lt_.
  intros a (Ha & A1 & A2). destruct (seg_spec a Ha) as (_ & _ & La & _). unfold lr in La. apply lex_lt in La.
  destruct La as [La|[V La]]; [now left|right].
  destruct (same_ends (eg a) (eg t)) eqn:SE; [apply same_ends_iff in SE; destruct SE; congruence|].
  assert (Ht : In t S) by apply At. pose proof (pairs_apart a t Ha Ht SE) as A.
  destruct (lex_not _ _ A1) as [Q|A1']; [now symmetry|].
  apply lex_lt in A1', A2. assert (X : fst p = fst (L a)) by lia.
  destruct (apart_end (eg a) (eg t) (inject_Z (fst p)) (inject_Z (snd p)) A) as (v & W1 & _ & X' & Y').
  - apply on_upright; auto; try (rewrite <- Zle_Qle; lia). rewrite X. reflexivity.
  - rewrite <- Lt_. apply on_left.
  - apply (point_ext p v) in X'; [|exact Y']. subst v. destruct W1 as [W|W]; [now symmetry|]. rewrite W in A2. lia.
Qed.

Lemma under_here : forall a, alive a -> same_ends (eg a) (eg t) = false -> sc a t = Lt -> under (eg a) (eg t) = true.
Proof using D At Lt_.
  intros a Ha SE H. pose proof (alive_together a t Ha At) as T. assert (Ia : In a S) by apply Ha. assert (It : In t S) by apply At.
  rewrite (sc_apart a t) in H by assumption. rewrite Lt_ in H. destruct Ha as (_ & A1 & A2).
  destruct (seg_spec a Ia) as (_ & _ & La & _). destruct (seg_spec t It) as (_ & _ & Lt' & _).
  unfold under. rewrite Lt_. destruct (lex_z (L a) p) eqn:EL.
  - apply lex_eq in EL. destruct (0 <? orient (L a) (R a) (R t))%Z eqn:O; [|discriminate]. rewrite andb_true_r, orb_true_r, andb_true_r.
    rewrite EL. rewrite Z.leb_refl. cbn [andb]. apply Z.ltb_lt. apply Z.ltb_lt in O. unfold lr in La, Lt'. apply lex_lt in La, Lt'.
    rewrite Lt_ in Lt'. rewrite EL in La. unfold orient in O. rewrite EL in O. destruct La as [La|[V La]]; [exact La|exfalso]. nia.
  - destruct (0 <? orient (L a) (R a) p)%Z eqn:O; [|discriminate]. rewrite orb_true_l, andb_true_r.
    destruct (upright_here a (conj Ia (conj A1 A2))) as [Sa|Q]; [|rewrite Q, lex_refl in EL; discriminate].
    apply lex_lt in EL, A2. apply andb_true_iff. rewrite Z.leb_le, Z.ltb_lt. split; [lia|].
    destruct A2 as [A2|[X A2]]; [exact A2|exfalso]. apply Z.ltb_lt, orient_above in O; [|exact Sa].
    rewrite X, yat_right in O by exact Sa. rewrite <- Zlt_Qlt in O. lia.
  - apply lex_gt in EL. contradiction.
Qed.

Lemma under_alive : forall a, In a S -> under (eg a) (eg t) = true -> alive a /\ same_ends (eg a) (eg t) = false /\ sc a t = Lt.
Proof using D At Lt_.
  intros a Ia U. assert (It : In t S) by apply At.
  destruct (seg_spec a Ia) as (_ & _ & La & _). destruct (seg_spec t It) as (_ & _ & Lt' & _).
  apply under_iff in U. destruct U as [[U1 U2] U3]. pose proof (lr_sloped _ _ La U1 U2) as Sa.
  rewrite <- Zle_Qle in U1. rewrite <- Zlt_Qlt in U2. rewrite Lt_ in *.
  assert (SE : same_ends (eg a) (eg t) = false).
  { apply not_true_iff_false. intros SE. apply same_ends_iff in SE. destruct SE as [S1 S2]. rewrite Lt_ in S1. destruct U3 as [U3|[_ U3]].
    - rewrite <- S1, yat_left in U3. lra.
    - rewrite S2 in U3. unfold orient in U3. lia. }
  assert (AA : alive a).
  { split; [exact Ia|]. split; [|apply lex_lt; lia]. intros Q. apply lex_lt in Q. destruct Q as [Q|[Q1 Q2]]; [lia|].
    destruct U3 as [U3|[U3 _]]; [|rewrite U3 in Q2; lia]. rewrite Q1, yat_left in U3. rewrite <- Zlt_Qlt in U3. lia. }
  split; [exact AA|]. split; [exact SE|]. rewrite (sc_apart a t) by auto using alive_together. rewrite Lt_.
  destruct (lex_z (L a) p) eqn:EL.
  - apply lex_eq in EL. destruct U3 as [U3|[_ U3]].
    + rewrite <- EL, yat_left in U3. lra.
    + apply Z.ltb_lt in U3. now rewrite U3.
  - destruct U3 as [U3|[U3 _]].
    + apply orient_above in U3; [|exact Sa]. apply Z.ltb_lt in U3. now rewrite U3.
    + rewrite U3, lex_refl in EL. discriminate.
  - apply lex_gt in EL. destruct AA as (_ & AA & _). contradiction.
Qed.

(** Of two segments that are reached, the one that compares less is lower here. *)
Lemma lower_here : forall a b, alive a -> alive b -> sloped (eg a) -> sloped (eg b) -> same_ends (eg a) (eg b) = false -> sc a b = Lt ->
  let x := inject_Z (fst p) in
  (xl (eg a) <= x /\ x <= xr (eg a) /\ xl (eg b) <= x /\ x <= xr (eg b) /\ yat (eg a) x <= yat (eg b) x)%Q
  /\ (x < xr (eg b) -> (x < xr (eg a))%Q ->
      (yat (eg a) x < yat (eg b) x \/ (L a = L b /\ xl (eg b) == x /\ slope (eg a) < slope (eg b)))%Q)
  /\ (L b = p -> L a <> p -> (yat (eg a) x < yat (eg b) x)%Q).
Proof using D At Lt_.
  intros a b Ha Hb Sa Sb SE H x. pose proof (alive_together a b Ha Hb) as T.
  assert (Ia : In a S) by apply Ha. assert (Ib : In b S) by apply Hb.
  pose proof (pairs_apart a b Ia Ib SE) as A. rewrite (sc_apart a b) in H by assumption.
  destruct Ha as (_ & A1 & A2), Hb as (_ & B1 & B2).
  destruct (seg_spec a Ia) as (_ & _ & La & _), (seg_spec b Ib) as (_ & _ & Lb & _).
  assert (X1 : (xl (eg a) <= x)%Q) by (unfold x; rewrite <- Zle_Qle; rewrite lex_lt in A1; lia).
  assert (X2 : (x <= xr (eg a))%Q) by (unfold x; rewrite <- Zle_Qle; rewrite lex_lt in A2; lia).
  assert (X3 : (xl (eg b) <= x)%Q) by (unfold x; rewrite <- Zle_Qle; rewrite lex_lt in B1; lia).
  assert (X4 : (x <= xr (eg b))%Q) by (unfold x; rewrite <- Zle_Qle; rewrite lex_lt in B2; lia).
  pose proof (sloped_q _ Sa) as QA. pose proof (sloped_q _ Sb) as QB.
  destruct (lex_z (L a) (L b)) eqn:EL.
  - (* from one point *)
    apply lex_eq in EL. destruct (0 <? orient (L a) (R a) (R b))%Z eqn:O; [|discriminate]. apply Z.ltb_lt in O.
    apply (orient_slope (eg a) (eg b)) in O; auto. split; [|split].
    + repeat split; auto. apply fan_le; auto.
    + intros _ _. destruct (Qlt_le_dec (xl (eg b)) x) as [C|C].
      * left. apply fan; auto. rewrite EL. exact C.
      * right. repeat split; auto. lra.
    + congruence.
  - (* [b] starts above [a] *)
    destruct (0 <? orient (L a) (R a) (L b))%Z eqn:O; [|discriminate]. apply Z.ltb_lt, orient_above in O; [|exact Sa].
    assert (O' : (yat (eg a) (xl (eg b)) < yat (eg b) (xl (eg b)))%Q) by (rewrite yat_left; exact O).
    assert (XX : (xl (eg a) <= xl (eg b))%Q) by (rewrite <- Zle_Qle; apply lex_lt in EL; lia).
    split; [|split].
    + repeat split; auto. apply (same_side (eg a) (eg b) (xl (eg b)) x); auto; lra.
    + intros C1 C2. left. destruct (Qlt_le_dec (xl (eg b)) x) as [C|C].
      * apply (same_side_strict (eg a) (eg b) (xl (eg b)) x); auto; lra.
      * assert (E1 : (x == xl (eg b))%Q) by lra. now rewrite E1.
    + intros Q _. unfold x. rewrite <- Q. exact O'.
  - (* [a] starts below [b] *)
    destruct (0 <? orient (L b) (R b) (L a))%Z eqn:O; [discriminate|]. apply Z.ltb_ge in O. apply lex_gt in EL.
    assert (AB : lex_z (L a) (R b) = Lt) by apply T.
    assert (O' : (orient (L b) (R b) (L a) < 0)%Z).
    { destruct (Z.eq_dec (orient (L b) (R b) (L a)) 0) as [Z0|]; [exfalso|lia].
      destruct (apart_end (eg a) (eg b) (xl (eg a)) (yl (eg a)) A) as (v & W1 & W2 & X' & Y').
      - apply on_left.
      - apply on_line; auto using lex_lt_not.
      - apply point_ext in X'; [|exact Y']. subst v. destruct W2 as [W|W]; rewrite W in *; [rewrite lex_refl in EL|rewrite lex_refl in AB]; discriminate. }
    apply orient_below in O'; [|exact Sb]. rewrite <- (yat_left (eg a)) in O'.
    assert (XX : (xl (eg b) <= xl (eg a))%Q) by (rewrite <- Zle_Qle; apply lex_lt in EL; lia).
    split; [|split].
    + repeat split; auto. apply (same_side (eg a) (eg b) (xl (eg a)) x); auto; lra.
    + intros C1 C2. left. destruct (Qlt_le_dec (xl (eg a)) x) as [C|C].
      * apply (same_side_strict (eg a) (eg b) (xl (eg a)) x); auto; lra.
      * assert (E1 : (x == xl (eg a))%Q) by lra. now rewrite E1.
    + intros Q _. rewrite Q in EL. contradiction.
Qed.
End Here.
End Drawn.
