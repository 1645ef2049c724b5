(** Around a corner of tidy polygons, every side leads on to another one that faces the
    same place. *)

From Coq Require Import List ZArith Bool Lia Arith.
From Verif Require Import Base Float Sweep Compute SpecShape SpecOrder SpecIntersect SpecTurn SpecHandle SpecTidy
  OrderFacts TidyGeo TidyParity TidySetup TidyLine TidyFacts TidyCorner.
Import ListNotations.
Local Open Scope Z_scope.

(** *** Three directions around a point *)

Definition turns (a b c : Z * Z) : Prop :=
  (0 < vcross a b /\ 0 < vcross b c) \/ (0 < vcross b c /\ 0 < vcross c a) \/ (0 < vcross c a /\ 0 < vcross a b).

Lemma turns_rot : forall a b c, turns a b c -> turns b c a.
Proof. intros a b c. unfold turns. tauto. Qed.

Definition back (u : Z * Z) : Z * Z := neg2 u.

Lemma turns_left : forall t a b, turns t a b -> ~ as_left (back t) a b.
Proof.
  intros [tx ty] [ax ay] [bx by_]. unfold turns, as_left, back, neg2, vcross, vdot. cbn [fst snd]. intros H.
  destruct (Z.ltb_spec 0 (- tx * ay - - ty * ax)) as [L|L]; intros Q; [|destruct Q as (Q1 & Q2 & _)]; lia.
Qed.

Lemma cross_vz : forall u v, vcross u v = cross_z u v.
Proof. intros [a b] [c d]. reflexivity. Qed.
Lemma cross_swap : forall u v, vcross v u = - vcross u v.
Proof. intros [a b] [c d]. unfold vcross. cbn. ring. Qed.
Lemma cross_neg_l : forall u v, vcross (neg2 u) v = - vcross u v.
Proof. intros [a b] [c d]. unfold vcross, neg2. cbn. ring. Qed.
Lemma cross_neg_r : forall u v, vcross u (neg2 v) = - vcross u v.
Proof. intros [a b] [c d]. unfold vcross, neg2. cbn. ring. Qed.

Lemma ccw_trans : forall u v w, rightward u -> rightward v -> rightward w -> 0 <= vcross u v -> 0 <= vcross v w -> 0 <= vcross u w.
Proof.
  intros u v w Hu Hv Hw H1 H2. pose proof (cross_trans u v w Hu Hv Hw) as T.
  change (vcross v u <= 0 -> vcross w v <= 0 -> vcross w u <= 0) in T.
  pose proof (cross_swap u v). pose proof (cross_swap v w). pose proof (cross_swap u w). lia.
Qed.

Section Pair.
Variables (zs : list corners) (S : list bseg).
Notation E := (edges zs).
Notation eg := (eg (edges zs)).
Hypothesis (D : drawn E S).
Variable v : Z * Z.

Definition here (s : bseg) : Prop := In s S /\ inc v (eg s) = true.
Notation bf a b := (bef v (eg a) (eg b)).
Notation o s := (out v (eg s)).

Lemma here_cases : forall s, here s ->
  (at_left v (eg s) = true /\ e_left (eg s) = v /\ rightward (o s))
  \/ (at_left v (eg s) = false /\ e_right (eg s) = v /\ rightward (neg2 (o s))).
Proof using D.
  intros s (Hs & I). destruct (seg_spec _ _ D s Hs) as (_ & _ & L & _). unfold inc in I. unfold out.
  destruct (at_left v (eg s)) eqn:A.
  - left. apply same_z_iff in A. split; [reflexivity|]. split; [exact A|]. rewrite <- A. apply dir_rightward. exact L.
  - right. cbn in I. apply same_z_iff in I. split; [reflexivity|]. split; [exact I|]. rewrite <- I. apply dir_leftward. exact L.
Qed.

Lemma bef_turns : forall a b c, here a -> here b -> here c -> bf a b = true -> bf b c = true -> turns (o a) (o b) (o c).
Proof using D.
  intros a b c Ha Hb Hc H1 H2. unfold bef in H1, H2. apply here_cases in Ha, Hb, Hc.
  destruct Ha as [(A & _ & Ra)|(A & _ & Ra)], Hb as [(B & _ & Rb)|(B & _ & Rb)], Hc as [(C & _ & Rc)|(C & _ & Rc)]; rewrite A, B in H1; rewrite B, C in H2;
    try discriminate; try apply Z.ltb_lt in H1; try apply Z.ltb_lt in H2; unfold turns.
  - auto.
  - destruct (Z_lt_le_dec 0 (vcross (o b) (o c))) as [|G]; [auto|]. destruct (Z_lt_le_dec 0 (vcross (o c) (o a))) as [|G']; [auto|].
    pose proof (ccw_trans (o b) (neg2 (o c)) (o a) Rb Rc Ra) as T. rewrite cross_neg_r, cross_neg_l, (cross_swap (o a) (o b)) in T. lia.
  - destruct (Z_lt_le_dec 0 (vcross (o a) (o b))) as [|G]; [auto|]. destruct (Z_lt_le_dec 0 (vcross (o c) (o a))) as [|G']; [auto|].
    pose proof (ccw_trans (neg2 (o c)) (o a) (neg2 (o b)) Rc Ra Rb) as T. rewrite cross_neg_l, !cross_neg_r, cross_neg_l, (cross_swap (o b) (o c)) in T. lia.
  - auto.
Qed.

Lemma bef_trans : forall a b c, here a -> here b -> here c -> bf a b = true -> bf b c = true -> bf a c = true.
Proof using D.
  intros a b c Ha Hb Hc H1 H2. unfold bef in *. apply here_cases in Ha, Hb, Hc.
  destruct Ha as [(A & _ & Ra)|(A & _ & Ra)], Hb as [(B & _ & Rb)|(B & _ & Rb)], Hc as [(C & _ & Rc)|(C & _ & Rc)]; rewrite A, B in H1; rewrite B, C in H2; rewrite A, C;
    try discriminate; try reflexivity; apply Z.ltb_lt in H1, H2; apply Z.ltb_lt.
  - rewrite cross_vz in *. now apply (cross_trans_strict _ (o b)).
  - rewrite cross_vz in *. rewrite <- cross_neg2 in *. now apply (cross_trans_strict _ (neg2 (o b))).
Qed.

Lemma bef_irr : forall a b, bf a b = true -> bf b a = false.
Proof using.
  intros a b. unfold bef. rewrite (cross_swap (o a) (o b)). destruct (at_left v (eg a)), (at_left v (eg b)); try discriminate; try reflexivity; lia.
Qed.

Lemma bef_same : forall a b c, same_ends (eg a) (eg b) = true -> bf a c = bf b c /\ bf c a = bf c b.
Proof using.
  intros a b c H. apply same_ends_iff in H. destruct H as [H1 H2]. unfold bef, out, at_left. now rewrite H1, H2.
Qed.

Lemma bef_total : forall a b, here a -> here b -> same_ends (eg a) (eg b) = false -> bf a b = true \/ bf b a = true.
Proof using D.
  intros a b Ha Hb N. assert (Ia : In a S) by apply Ha. assert (Ib : In b S) by apply Hb.
  destruct (seg_spec _ _ D a Ia) as (_ & _ & La & _), (seg_spec _ _ D b Ib) as (_ & _ & Lb & _).
  apply here_cases in Ha, Hb. unfold bef. rewrite (cross_swap (o a) (o b)).
  destruct Ha as [(A & VA & Ra)|(A & VA & Ra)], Hb as [(B & VB & Rb)|(B & VB & Rb)]; rewrite A, B; auto.
  - destruct (Z.eq_dec (vcross (o a) (o b)) 0) as [Q|Q]; [exfalso|lia].
    pose proof (not_collinear _ _ D a b Ia Ib N) as C. unfold together in C. rewrite VA, VB in C.
    rewrite (proj2 (Z.eqb_eq _ _)) in C by (unfold orient; ring).
    rewrite (proj2 (Z.eqb_eq _ _)) in C; [discriminate C|].
    + unfold lr in La, Lb. rewrite VA in La. rewrite VB in Lb. auto.
    + unfold out in Q. rewrite A, B in Q. rewrite orient_cross. exact Q.
  - destruct (Z.eq_dec (vcross (o a) (o b)) 0) as [Q|Q]; [exfalso|lia].
    pose proof (not_collinear _ _ D a b Ia Ib N) as C. unfold together in C. rewrite VA, VB in C.
    rewrite (proj2 (Z.eqb_eq (orient (e_left (eg a)) v v) 0)) in C by (unfold orient; ring).
    rewrite (proj2 (Z.eqb_eq _ _)) in C; [discriminate C|].
    + unfold lr in La, Lb. rewrite VA in La. rewrite VB in Lb. auto.
    + unfold out in Q. rewrite A, B in Q. unfold vcross, vsub in Q. cbn [fst snd] in Q. unfold orient. lia.
Qed.

(** *** The last of the edges along each other *)

Notation last s := (last_edge zs (eg s)).

Lemma last_same : forall a b, In a S -> In b S -> last a -> last b -> same_ends (eg a) (eg b) = true -> a = b.
Proof using D.
  intros a b Ha Hb La Lb SE. destruct (Nat.eq_dec (s_index a) (s_index b)) as [I|I]; [now apply (index_eq _ _ D)|exfalso].
  apply (pairs_same _ _ D a b Ha Hb); [congruence|exact SE|].
  assert (H1 : has_edge zs (e_poly (eg b)) (eg a)) by (apply (has_edge_seg zs S D); exists b; rewrite same_sym; auto).
  assert (H2 : has_edge zs (e_poly (eg a)) (eg b)) by (apply (has_edge_seg zs S D); exists a; auto).
  apply La in H1. apply Lb in H2. lia.
Qed.

Lemma last_exists : forall a, In a S -> exists b, In b S /\ last b /\ same_ends (eg a) (eg b) = true.
Proof using D.
  intros a Ha.
  assert (X : forall l m, In m S -> same_ends (eg a) (eg m) = true -> exists b, In b S /\ same_ends (eg a) (eg b) = true
    /\ (e_poly (eg m) <= e_poly (eg b))%nat /\ forall t, In t l -> In t S -> same_ends (eg t) (eg b) = true -> (e_poly (eg t) <= e_poly (eg b))%nat).
  { induction l as [|t l IH]; intros m Hm Sm; [exists m; repeat split; auto; intros t []|].
    destruct (same_ends (eg a) (eg t) && (e_poly (eg m) <? e_poly (eg t))%nat) eqn:Q.
    - apply andb_true_iff in Q. destruct Q as (Q1 & Q2). apply Nat.ltb_lt in Q2.
      destruct (in_dec (fun x y : bseg => ltac:(repeat decide equality) : {x = y} + {x <> y}) t S) as [It|It].
      + destruct (IH t It Q1) as (b & B1 & B2 & B3 & B4). exists b. split; [exact B1|]. split; [exact B2|]. split; [lia|].
        intros u [<-|Hu] Iu Su; [exact B3|auto].
      + destruct (IH m Hm Sm) as (b & B1 & B2 & B3 & B4). exists b. split; [exact B1|]. split; [exact B2|]. split; [exact B3|].
        intros u [<-|Hu] Iu Su; [contradiction|auto].
    - destruct (IH m Hm Sm) as (b & B1 & B2 & B3 & B4). exists b. split; [exact B1|]. split; [exact B2|]. split; [exact B3|].
      intros u [<-|Hu] Iu Su; [|auto].
      assert (Q' : same_ends (eg a) (eg t) = true) by (rewrite (same_trans _ _ (eg t) B2); rewrite same_sym; exact Su).
      rewrite Q' in Q. cbn in Q. apply Nat.ltb_ge in Q. lia. }
  destruct (X S a Ha) as (b & B1 & B2 & _ & B4); [apply same_ends_iff; auto|]. exists b. split; [exact B1|]. split; [|exact B2].
  intros i H. apply (has_edge_seg zs S D) in H. destruct H as (t & T1 & <- & T3). apply B4; auto.
Qed.

Definition stop (s : bseg) : Prop := here s /\ last s.

Lemma stop_total : forall a b, stop a -> stop b -> a <> b -> bf a b = true \/ bf b a = true.
Proof using D.
  intros a b (Ha & La) (Hb & Lb) N. apply bef_total; auto. apply not_true_iff_false. intros Q. apply N.
  apply last_same; auto; [apply Ha|apply Hb].
Qed.

(** *** What is on either side *)

(** Clockwise of the edge, and counter-clockwise of it, seen from [v]. *)
Definition cw (s : bseg) (i : nat) : bool := if at_left v (eg s) then RS zs (eg s) i else LS zs (eg s) i.
Definition cc (s : bseg) (i : nat) : bool := if at_left v (eg s) then LS zs (eg s) i else RS zs (eg s) i.

Lemma stack_all : forall s i, last s -> ST zs (eg s) i = parity (fun f => of_poly i f && same_ends f (eg s)) E.
Proof using.
  clear v D. intros s i L. unfold ST. apply parity_ext. intros f Hf. destruct (of_poly i f && same_ends f (eg s)) eqn:Q.
  - apply andb_true_iff in Q. destruct Q as (Q1 & Q2). rewrite Q1, Q2. cbn [andb]. apply Nat.leb_le. apply L. exists f.
    apply same_ends_iff in Q2. tauto.
  - destruct (of_poly i f); [|reflexivity]. cbn [andb] in Q |- *. now rewrite Q.
Qed.

Lemma corner_clean : forall s, here s -> forall e, In e E -> clean v e.
Proof using D.
  intros s Hs e He. apply (related_clean e (eg s)); [apply (edges_related _ _ D); [exact He|apply Hs]|].
  apply here_cases in Hs. destruct Hs as [(_ & H & _)|(_ & H & _)]; auto.
Qed.

Lemma same_inc : forall f s, here s -> same_ends f (eg s) = true -> inc v f = true.
Proof using.
  intros f s (_ & I) H. apply same_ends_iff in H. destruct H as [H1 H2]. unfold inc, at_left, at_right in *. now rewrite H1, H2.
Qed.

Notation "'ar' P" := (fun i => around zs v i P) (at level 10, P at level 9).

Lemma around_ext : forall i P Q, (forall s, here s -> P (eg s) = Q (eg s)) -> around zs v i P = around zs v i Q.
Proof using D.
  intros i P Q H. unfold around. apply parity_and_ext. intros e He. destruct (inc v e) eqn:I; [|reflexivity]. cbn [andb].
  destruct (edge_seg _ _ D e He) as (s & Hs & <-). apply H. split; assumption.
Qed.
Lemma around_xor : forall i P Q, around zs v i (fun e => xorb (P e) (Q e)) = xorb (around zs v i P) (around zs v i Q).
Proof using.
  intros i P Q. unfold around. rewrite <- parity_and_xor. apply parity_and_ext. intros e _. destruct (inc v e), (P e), (Q e); reflexivity.
Qed.
Lemma around_stack : forall s i, here s -> last s -> ST zs (eg s) i = around zs v i (fun e => same_ends e (eg s)).
Proof using.
  intros s i Hs Ls. rewrite (stack_all s i Ls). unfold around. apply parity_and_ext. intros f Hf.
  destruct (same_ends f (eg s)) eqn:Q; [|now rewrite andb_false_r]. rewrite (same_inc f s Hs Q). reflexivity.
Qed.

Lemma bef_self : forall s, bf s s = false.
Proof using. intros s. destruct (bf s s) eqn:Q; [|reflexivity]. pose proof (bef_irr s s Q). congruence. Qed.

Lemma cw_eq : forall s i, stop s -> cw s i = xorb (base zs v i) (around zs v i (fun e => bef v e (eg s))).
Proof using D.
  intros s i (Hs & Ls). pose proof (corner_clean s Hs) as CL. assert (Is : In s S) by apply Hs.
  destruct (seg_spec _ _ D s Is) as (_ & _ & L & _).
  assert (R : forall e, In e E -> related e (eg s)) by (intros e He; now apply (edges_related _ _ D)).
  unfold cw. destruct (here_cases s Hs) as [(A & V & _)|(A & V & _)]; rewrite A.
  - now apply starts_right.
  - unfold LS, RS. rewrite (ends_right zs v CL i (eg s) L R V), xorb_assoc, (around_stack s i Hs Ls). f_equal.
    rewrite <- around_xor.
    assert (Q : around zs v i (fun e => xorb (xorb (bef v (eg s) e) (same_ends e (eg s))) (bef v e (eg s))) = false).
    { rewrite <- (degree zs v i). apply around_ext. intros t Ht.
      destruct (same_ends (eg t) (eg s)) eqn:SE.
      - destruct (bef_same t s s SE) as (B1 & B2). rewrite B1, B2, bef_self. reflexivity.
      - destruct (bef_total t s Ht Hs SE) as [B|B]; rewrite B, (bef_irr _ _ B); reflexivity. }
    rewrite around_xor in Q. apply xorb_eq in Q. exact Q.
Qed.

Lemma cc_eq : forall s i, stop s -> cc s i = xorb (base zs v i) (around zs v i (fun e => bef v e (eg s) || same_ends e (eg s))).
Proof using D.
  intros s i Ss. pose proof (cw_eq s i Ss) as C. destruct Ss as (Hs & Ls).
  assert (Q : cc s i = xorb (cw s i) (ST zs (eg s) i)).
  { unfold cc, cw, LS. destruct (at_left v (eg s)); [reflexivity|]. destruct (RS _ _ _), (ST _ _ _); reflexivity. }
  rewrite Q, C, xorb_assoc, (around_stack s i Hs Ls), <- around_xor. f_equal. apply around_ext. intros t Ht.
  destruct (same_ends (eg t) (eg s)) eqn:SE.
  - destruct (bef_same t s s SE) as (-> & _). now rewrite bef_self.
  - destruct (bef _ _ _); reflexivity.
Qed.

(** *** The neighbour *)

(** [u] is next to [t], clockwise around [v]. *)
Definition prior (t u : bseg) : Prop :=
  (bf u t = true /\ forall w, stop w -> bf w t = true -> bf w u = true \/ w = u)
  \/ ((forall w, stop w -> bf w t = false) /\ forall w, stop w -> bf w u = true \/ w = u).

Lemma greatest : forall (P : bseg -> Prop) (Pd : forall s, P s \/ ~ P s) (l : list bseg), (forall s, P s -> stop s) -> (exists s, In s l /\ P s) ->
  exists u, P u /\ forall w, In w l -> P w -> bf w u = true \/ w = u.
Proof using D.
  intros P Pd l HP. induction l as [|a l IH]; intros (s & Hs & Ps); [destruct Hs|].
  assert (DE : (exists s, In s l /\ P s) \/ ~ exists s, In s l /\ P s).
  { clear - Pd. induction l as [|b l IH]; [right; intros (x & [] & _)|]. destruct (Pd b) as [Y|N]; [left; exists b; split; [now left|exact Y]|].
    destruct IH as [(x & X1 & X2)|N']; [left; exists x; split; [now right|exact X2]|]. right. intros (x & [<-|X1] & X2); [auto|]. apply N'. now exists x. }
  destruct DE as [Y|N].
  - destruct (IH Y) as (u & U1 & U2). destruct (Pd a) as [Pa|Na].
    + destruct (Nat.eq_dec (s_index a) (s_index u)) as [I|I].
      { assert (a = u) by (apply (index_eq _ _ D); auto; apply HP; auto). subst a. exists u. split; [exact U1|]. intros w [<-|Hw] Pw; auto. }
      destruct (stop_total a u) as [B|B]; auto; [congruence| |].
      * exists u. split; [exact U1|]. intros w [<-|Hw] Pw; auto.
      * exists a. split; [exact Pa|]. intros w [<-|Hw] Pw; [now right|]. left. destruct (U2 w Hw Pw) as [C| ->]; [|exact B].
        apply (bef_trans w u a); auto; apply HP; auto.
    + exists u. split; [exact U1|]. intros w [<-|Hw] Pw; [contradiction|auto].
  - destruct Hs as [<-|Hs]; [|exfalso; apply N; now exists s]. exists a. split; [exact Ps|]. intros w [<-|Hw] Pw; [now right|]. exfalso. apply N. now exists w.
Qed.

Lemma stop_dec : forall s, stop s \/ ~ stop s.
Proof using.
  intros s. destruct (in_dec (fun x y : bseg => ltac:(repeat decide equality) : {x = y} + {x <> y}) s S) as [I|I]; [|right; intros ((H & _) & _); auto].
  destruct (inc v (eg s)) eqn:Q; [|right; intros ((_ & H) & _); congruence].
  destruct (existsb (fun f => same_ends f (eg s) && (e_poly (eg s) <? e_poly f)%nat) E) eqn:X.
  - right. intros (_ & H). apply existsb_exists in X. destruct X as (f & F1 & F2). apply andb_true_iff in F2. rewrite same_ends_iff, Nat.ltb_lt in F2.
    assert (Y : has_edge zs (e_poly f) (eg s)) by (exists f; tauto). apply H in Y. lia.
  - left. split; [split; assumption|]. intros i (f & F1 & F2 & F3). apply Nat.nlt_ge. intros C. assert (Y : existsb (fun f => same_ends f (eg s) && (e_poly (eg s) <? e_poly f)%nat) E = true); [|congruence].
    apply existsb_exists. exists f. split; [exact F1|]. apply andb_true_iff. rewrite same_ends_iff, Nat.ltb_lt. split; [tauto|lia].
Qed.

Lemma prior_exists : forall t, stop t -> exists u, stop u /\ u <> t /\ prior t u.
Proof using D.
  intros t St. assert (It : In t S) by apply St.
  assert (P1 : forall s, (stop s /\ bf s t = true) \/ ~ (stop s /\ bf s t = true)).
  { intros s. destruct (stop_dec s) as [Y|N]; [|right; tauto]. destruct (bf s t); [left|right]; intuition congruence. }
  assert (DE : (exists s, In s S /\ stop s /\ bf s t = true) \/ ~ exists s, In s S /\ stop s /\ bf s t = true).
  { clear - P1. induction S as [|b l IH]; [right; intros (x & [] & _)|]. destruct (P1 b) as [Y|N]; [left; exists b; split; [now left|exact Y]|].
    destruct IH as [(x & X1 & X2)|N']; [left; exists x; split; [now right|exact X2]|]. right. intros (x & [<-|X1] & X2); [auto|]. apply N'. now exists x. }
  destruct DE as [Y|N].
  - destruct (greatest (fun s => stop s /\ bf s t = true) P1 S) as (u & (U1 & U2) & U3); [tauto|exact Y|].
    exists u. split; [exact U1|]. split; [intros ->; rewrite bef_self in U2; discriminate|]. left. split; [exact U2|].
    intros w Sw Bw. apply U3; auto. apply Sw.
  - destruct (greatest stop stop_dec S) as (u & U1 & U2); [auto|exists t; auto|].
    assert (M : forall w, stop w -> bf w t = false).
    { intros w Sw. destruct (bf w t) eqn:B; [|reflexivity]. exfalso. apply N. exists w. split; [apply Sw|auto]. }
    exists u. split; [exact U1|]. split; [|right; split; [exact M|]; intros w Sw; apply U2; auto; apply Sw].
    intros ->. assert (O : forall w, here w -> same_ends (eg w) (eg t) = true).
    { intros w Hw. destruct (last_exists w (proj1 Hw)) as (b & B1 & B2 & B3).
      assert (Hb : here b) by (split; [exact B1|]; apply (same_inc (eg b) w Hw); now rewrite same_sym).
      destruct (U2 b B1 (conj Hb B2)) as [C| ->]; [|exact B3]. rewrite (M b (conj Hb B2)) in C. discriminate. }
    pose proof (degree zs v (e_poly (eg t))) as DG. rewrite (around_ext _ _ (fun e => same_ends e (eg t))) in DG.
    + destruct St as (Ht & Lt). rewrite <- (around_stack t _ Ht Lt) in DG.
      assert (Q : ST zs (eg t) (e_poly (eg t)) = true).
      { apply (stack_has zs S D t _ It Lt). apply (has_edge_seg zs S D). exists t. split; [exact It|]. split; [reflexivity|]. apply same_ends_iff. auto. }
      congruence.
    + intros s Hs. symmetry. auto.
Qed.

Lemma prior_faces : forall t u i, stop t -> stop u -> prior t u -> cw t i = cc u i.
Proof using D.
  intros t u i St Su P. rewrite (cw_eq t i St), (cc_eq u i Su). f_equal.
  assert (ST_ : forall s, here s -> exists b, stop b /\ same_ends (eg s) (eg b) = true).
  { intros s Hs. destruct (last_exists s (proj1 Hs)) as (b & B1 & B2 & B3). exists b. split; [|exact B3]. split; [|exact B2].
    split; [exact B1|]. apply (same_inc (eg b) s Hs). now rewrite same_sym. }
  destruct P as [(P1 & P2)|(P1 & P2)].
  - apply around_ext. intros s Hs. destruct (ST_ s Hs) as (b & Sb & B). destruct (bef_same s b t B) as (-> & _), (bef_same s b u B) as (-> & _).
    rewrite (same_trans _ _ (eg u) B). destruct (bf b t) eqn:Q.
    + destruct (P2 b Sb Q) as [C| ->]; [rewrite C; reflexivity|]. symmetry. apply orb_true_iff. right. apply same_ends_iff. auto.
    + symmetry. apply orb_false_iff. split.
      * destruct (bf b u) eqn:Q'; [|reflexivity]. rewrite (bef_trans b u t) in Q; auto; [apply Sb|apply Su|apply St].
      * destruct (same_ends (eg b) (eg u)) eqn:Q'; [|reflexivity]. destruct (bef_same b u t Q') as (Q1 & _). congruence.
  - transitivity (around zs v i (fun _ => true)).
    + rewrite degree. rewrite (around_ext _ _ (fun _ => false)).
      * unfold around. apply parity_false. intros e _. now rewrite !andb_false_r.
      * intros s Hs. destruct (ST_ s Hs) as (b & Sb & B). destruct (bef_same s b t B) as (-> & _). auto.
    + apply around_ext. intros s Hs. destruct (ST_ s Hs) as (b & Sb & B). destruct (bef_same s b u B) as (-> & _).
      rewrite (same_trans _ _ (eg u) B). destruct (P2 b Sb) as [C| ->]; [now rewrite C|]. symmetry. apply orb_true_iff. right. apply same_ends_iff. auto.
Qed.

Lemma prior_turns : forall t u w, stop t -> stop u -> stop w -> w <> t -> w <> u -> prior t u -> turns (o t) (o w) (o u).
Proof using D.
  intros t u w St Su Sw N1 N2 [(P1 & P2)|(P1 & P2)].
  - destruct (stop_total w u Sw Su N2) as [B|B].
    + apply turns_rot, turns_rot. apply bef_turns; auto; [apply Sw|apply Su|apply St].
    + assert (Q : bf t w = true).
      { destruct (stop_total t w St Sw (not_eq_sym N1)) as [C|C]; [exact C|]. destruct (P2 w Sw C) as [X|X]; [|contradiction].
        apply bef_irr in X. congruence. }
      apply turns_rot. apply bef_turns; auto; [apply Su|apply St|apply Sw].
  - assert (Q : bf t w = true).
    { destruct (stop_total t w St Sw (not_eq_sym N1)) as [C|C]; [exact C|]. rewrite (P1 w Sw) in C. discriminate. }
    destruct (P2 w Sw) as [C|C]; [|contradiction]. apply bef_turns; auto; [apply St|apply Sw|apply Su].
Qed.

Lemma prior_once : forall t t' u, stop t -> stop t' -> stop u -> prior t u -> prior t' u -> t = t'.
Proof using D.
  intros t t' u St St' Su P P'. destruct (Nat.eq_dec (s_index t) (s_index t')) as [I|I]; [apply (index_eq _ _ D); [apply St|apply St'|exact I]|exfalso].
  assert (N : t <> t') by congruence.
  assert (H : forall a b, stop a -> stop b -> prior a u -> prior b u -> bf a b = true -> False).
  { intros a b Sa Sb [(A1 & A2)|(A1 & A2)] [(B1 & B2)|(B1 & B2)] Q.
    - destruct (B2 a Sa Q) as [C| ->]; [apply bef_irr in A1; congruence|]. rewrite bef_self in A1. discriminate.
    - rewrite (B1 a Sa) in Q. discriminate.
    - destruct (A2 b Sb) as [C| ->]; [apply bef_irr in B1; congruence|]. rewrite bef_self in B1. discriminate.
    - rewrite (B1 a Sa) in Q. discriminate. }
  destruct (stop_total t t' St St' N) as [B|B]; [apply (H t t')|apply (H t' t)]; auto.
Qed.
End Pair.
