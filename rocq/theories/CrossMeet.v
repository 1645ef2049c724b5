(** How segments that run along several edges of tidy polygons compare and meet. *)

From Coq Require Import List ZArith QArith Bool Arith Lia Lqa Permutation.
From Verif Require Import Base Float SpecFloat64 SpecShape SpecOrder SpecIntersect SpecHandle SpecTidy SpecContainers Geometry Sweep
  Contours Compute FloatFacts MapFacts ShapeFacts OrderFacts ContainerFacts HandleFacts TidyGeo TidyParity TidySetup TidyPackets CrossGeo CrossPieces SpecCross.
Import ListNotations.

Lemma int_point_at : forall v, within (2 ^ 24) v -> at_z (int_point v) v.
Proof.
  intros [x y] [W1 W2]. cbn [fst snd] in *. assert (B : (2 ^ 24 < 2 ^ 53)%Z) by reflexivity.
  assert (I1 : is_int (f64_of_Z x) x) by (apply is_int_of_Z; lia). assert (I2 : is_int (f64_of_Z y) y) by (apply is_int_of_Z; lia).
  unfold at_z, int_point. cbn [px py fst snd]. split; [eapply is_int_is_f64; eassumption|]. split; [eapply is_int_is_f64; eassumption|].
  split; now apply is_int_valued.
Qed.

Lemma int_point_eqb : forall a b, within (2 ^ 24) a -> within (2 ^ 24) b -> point_eqb (int_point a) (int_point b) = true <-> a = b.
Proof.
  intros [ax ay] [bx by_] Wa Wb. assert (B : (2 ^ 24 < 2 ^ 53)%Z) by reflexivity. pose proof Wa as [A1 A2]. pose proof Wb as [B1 B2].
  destruct (at_z_int _ _ (int_point_at _ Wa)) as [P1 P2]; [lia..|]. destruct (at_z_int _ _ (int_point_at _ Wb)) as [Q1 Q2]; [lia..|].
  unfold point_eqb. rewrite (eq_int _ _ _ _ P1 Q1), (eq_int _ _ _ _ P2 Q2). cbn [fst snd]. rewrite andb_true_iff, !Z.eqb_eq.
  split; [intros [-> ->]; reflexivity|intros [= -> ->]; auto].
Qed.

Lemma meet_once : forall e f v w, meet_at (e_left e) (e_right e) (e_left f) (e_right f) (inject_Z (fst v)) (inject_Z (snd v)) ->
  on_at e w -> on_at f w -> w = v.
Proof. intros e f v w [_ U] O1 O2. destruct (U _ _ (conj O1 O2)) as [X Y]. now apply point_ext. Qed.
Lemma apart_at : forall e f v, apart e f -> on_at e v -> on_at f v -> is_end v e /\ is_end v f.
Proof. intros e f v A O1 O2. destruct (apart_end _ _ _ _ A O1 O2) as (w & W1 & W2 & X & Y). apply (point_ext v w X) in Y. now subst w. Qed.
Lemma apart_one : forall e f v w, apart e f -> on_at e v -> on_at f v -> on_at e w -> on_at f w -> v = w.
Proof. intros e f v w A O1 O2 O3 O4. destruct (apart_once _ _ _ _ _ _ A O1 O2 O3 O4). now apply point_ext. Qed.

Record piece := mk_piece { p_side : nat; p_seg : bseg; p_head : bseg; p_tail : list bseg }.
Definition parts (p : piece) : list bseg := p_head p :: p_tail p.

Section Cross.
Variables (E : list edge) (S : list bseg).
Hypothesis D : drawn E S.
Notation eg := (eg E).
Notation L s := (e_left (eg s)).
Notation R s := (e_right (eg s)).
Notation poly s := (e_poly (eg s)).
Notation together := (together E).
Notation reach := (reach E).
Notation chain := (chain E S).
Notation span := (span E).

(** The sides of the polygons, each as the list of its edges from left to right. *)
Variable cs : list (list bseg).
Definition sub (k : nat) (b : bseg) (tl : list bseg) : Prop :=
  exists pre post, nth_error cs k = Some (pre ++ (b :: tl) ++ post).
Hypothesis Chain : forall k b tl, sub k b tl -> chain b tl.
Hypothesis Fit : forall k k' b tl b' tl', sub k b tl -> sub k' b' tl' -> k <> k' -> fit (span b tl) (span b' tl').

Definition covers (p : piece) : Prop :=
  s_left (p_seg p) = int_point (L (p_head p)) /\ s_right (p_seg p) = int_point (reach (p_head p) (p_tail p)) /\ s_order (p_seg p) = poly (p_head p).
Definition fine (p : piece) : Prop := sub (p_side p) (p_head p) (p_tail p) /\ covers p.
Definition p_span (p : piece) : edge := span (p_head p) (p_tail p).

Lemma fine_chain : forall p, fine p -> chain (p_head p) (p_tail p).
Proof using Chain. intros p [H _]. eapply Chain; eassumption. Qed.
Lemma fine_head : forall p, fine p -> In (p_head p) S.
Proof using Chain. intros p H. eapply chain_head, fine_chain, H. Qed.
Lemma span_lr : forall p, fine p -> lr (p_span p).
Proof using D Chain. intros p H. now apply (reach_spec _ _ D _ _ (fine_chain p H)). Qed.

Lemma within_lr : forall c, In c S -> within (2 ^ 24) (L c) /\ within (2 ^ 24) (R c).
Proof using D. intros c H. destruct (seg_spec _ _ D c H) as ((_ & _ & _ & W1 & W2) & _). auto. Qed.
Lemma final_in : forall tl b, chain b tl -> In (final b tl) (b :: tl).
Proof using. induction tl as [|c tl IH]; intros b C; cbn [final]; [now left|]. right. apply IH. eapply chain_tail; eassumption. Qed.
Lemma within_reach : forall b tl, chain b tl -> within (2 ^ 24) (reach b tl).
Proof using D. intros b tl C. unfold reach. apply within_lr. apply C. now apply final_in. Qed.

Lemma piece_z : forall p, fine p -> seg_z (p_seg p) (L (p_head p)) (reach (p_head p) (p_tail p)).
Proof using D Chain.
  intros p F. pose proof (fine_chain p F) as C. destruct F as [_ (C1 & C2 & _)]. unfold seg_z. rewrite C1, C2.
  destruct (within_lr _ (chain_head _ _ _ _ C)) as [W1 _]. pose proof (within_reach _ _ C) as W2.
  split; [now apply int_point_at|]. split; [now apply int_point_at|]. split; [|auto]. now apply (reach_spec _ _ D).
Qed.

Lemma sub_prefix : forall k b t1 t2, sub k b (t1 ++ t2) -> sub k b t1.
Proof using. intros k b t1 t2 (pre & post & H). exists pre, (t2 ++ post). rewrite H. f_equal. f_equal. cbn [app]. now rewrite <- app_assoc. Qed.
Lemma sub_suffix : forall k b t1 c t2, sub k b (t1 ++ c :: t2) -> sub k c t2.
Proof using. intros k b t1 c t2 (pre & post & H). exists (pre ++ b :: t1), post. rewrite H. f_equal. cbn [app]. now rewrite <- !app_assoc. Qed.

Lemma sub_part : forall k b tl c, sub k b tl -> In c (b :: tl) -> exists X, nth_error cs k = Some X /\ In c X.
Proof using. intros k b tl c (pre & post & H) I. eexists. split; [exact H|]. rewrite !in_app_iff. auto. Qed.

Lemma side_apart : forall k b tl b' tl' c d, sub k b tl -> sub k b' tl' -> In c (b :: tl) -> In d (b' :: tl') -> together c d -> c = d.
Proof using D Chain.
  intros k b tl b' tl' c d H H' Hc Hd T. destruct (sub_part _ _ _ _ H Hc) as (X & X1 & X2). destruct (sub_part _ _ _ _ H' Hd) as (X' & X1' & X2').
  rewrite X1 in X1'. injection X1' as <-. destruct X as [|x X]; [destruct X2|].
  assert (Sx : sub k x X) by (exists [], []; rewrite X1; cbn [app]; now rewrite app_nil_r).
  exact (parts_not_together _ _ D X x c d (Chain _ _ _ Sx) X2 X2' T).
Qed.
Lemma side_end : forall k b tl b' tl' c d, sub k b tl -> sub k b' tl' -> In c (b :: tl) -> In d (b' :: tl') -> R c = R d -> c = d.
Proof using D Chain.
  intros k b tl b' tl' c d H H' Hc Hd T. destruct (sub_part _ _ _ _ H Hc) as (X & X1 & X2). destruct (sub_part _ _ _ _ H' Hd) as (X' & X1' & X2').
  rewrite X1 in X1'. injection X1' as <-. destruct X as [|x X]; [destruct X2|].
  assert (Sx : sub k x X) by (exists [], []; rewrite X1; cbn [app]; now rewrite app_nil_r).
  exact (parts_same_end _ _ D X x c d (Chain _ _ _ Sx) X2 X2' T).
Qed.

(** *** Meeting *)

Lemma on_ends : forall e, lr e -> on_at e (e_left e) /\ on_at e (e_right e).
Proof using. intros e H. split; [apply on_left|apply on_right]. Qed.

Lemma along : forall b tl b' tl' k k', sub k b tl -> sub k' b' tl' -> k <> k' -> same_ends (eg b) (eg b') = true -> tl' = [].
Proof using D Chain Fit.
  intros b tl b' tl' k k' H H' N SE. apply same_ends_iff in SE. destruct SE as [S1 S2]. destruct tl' as [|c tl']; [reflexivity|exfalso].
  pose proof (sub_prefix k b [] tl H) as H0. pose proof (Chain _ _ _ H') as C'. pose proof (Chain _ _ _ H0) as C0.
  destruct (reach_spec _ _ D _ _ C') as (R1 & R2 & _ & R4). specialize (R4 ltac:(discriminate)).
  assert (Lb : lex_z (L b) (R b) = Lt) by (now apply (seg_lr _ _ D), (chain_head _ _ _ _ C0)).
  assert (O1 : on_at (span b []) (L b) /\ on_at (span b []) (R b)) by (split; [apply (on_left (span b []))|apply (on_right (span b []))]).
  assert (O2 : on_at (span b' (c :: tl')) (L b)) by (rewrite S1; apply (on_left (span b' (c :: tl')))).
  assert (O3 : on_at (span b' (c :: tl')) (R b)).
  { apply on_at_iff; [exact R1|]. cbn [span e_left e_right]. rewrite S2. split; [rewrite orient_swap, R2; reflexivity|].
    split; apply lex_lt_not; [|exact R4]. apply (seg_lr _ _ D), (chain_head _ _ _ _ C'). }
  assert (NE : L b <> R b) by (intros Q; rewrite Q, lex_refl in Lb; discriminate).
  destruct (Fit k k' _ _ _ _ H0 H' N) as [C|[A|(v & M & _)]].
  - destruct C as (_ & C & _). cbn [span e_right] in C. change (reach b []) with (R b) in C. rewrite <- C, S2, lex_refl in R4. discriminate.
  - apply NE. apply (apart_one _ _ _ _ A); tauto.
  - apply NE. transitivity v; [|symmetry]; apply (meet_once _ _ _ _ M); tauto.
Qed.

(** Neighbours run along each other, or stay apart, or cross. *)
Lemma fit_cases : forall x y, fine x -> fine y -> p_side x <> p_side y ->
  (same_ends (eg (p_head x)) (eg (p_head y)) = true /\ p_tail x = [] /\ p_tail y = [])
  \/ (same_ends (eg (p_head x)) (eg (p_head y)) = false /\ apart (p_span x) (p_span y))
  \/ (same_ends (eg (p_head x)) (eg (p_head y)) = false /\ exists v, crosses (p_span x) (p_span y) v).
Proof using D Chain Fit.
  intros x y Fx Fy N. destruct (same_ends (eg (p_head x)) (eg (p_head y))) eqn:SE.
  - left. split; [reflexivity|]. split; [|exact (along _ _ _ _ _ _ (proj1 Fx) (proj1 Fy) N SE)].
    apply (along _ _ _ _ _ _ (proj1 Fy) (proj1 Fx)); [congruence|]. now rewrite same_sym.
  - right. destruct (Fit _ _ _ _ _ _ (proj1 Fx) (proj1 Fy) N) as [C|[A|C]]; [|auto..]. exfalso.
    destruct C as (C1 & C2 & _). cbn [span e_left e_right] in C1, C2.
    destruct (reach_spec _ _ D _ _ (fine_chain x Fx)) as (X1 & X2 & _). destruct (reach_spec _ _ D _ _ (fine_chain y Fy)) as (Y1 & Y2 & _).
    pose proof (seg_lr _ _ D _ (fine_head x Fx)) as Lx. pose proof (seg_lr _ _ D _ (fine_head y Fy)) as Ly.
    assert (T : together (p_head x) (p_head y)) by (split; [rewrite C1; exact Ly|rewrite <- C1; exact Lx]).
    pose proof (not_collinear _ _ D _ _ (fine_head x Fx) (fine_head y Fy) SE T) as NC. rewrite <- C1 in NC. rewrite orient_start in NC. cbn [Z.eqb andb] in NC.
    apply Z.eqb_neq in NC. apply NC. apply Z.sgn_null_iff. rewrite (dir_sign _ _ _ (R (p_head y)) Lx X1 X2), C2, C1, orient_swap, Y2. reflexivity.
Qed.

Lemma part_end : forall tl b c, chain b tl -> In c (b :: tl) -> R c = reach b tl \/ exists t1 c' t2, tl = t1 ++ c' :: t2 /\ L c' = R c.
Proof using.
  induction tl as [|d tl IH]; intros b c C [<-|H].
  - now left.
  - destruct H.
  - right. exists [], d, tl. split; [reflexivity|]. destruct C as [(H1 & _) _]. now symmetry.
  - destruct (IH d c (chain_tail _ _ _ _ _ C) H) as [Q|(t1 & c' & t2 & -> & Q)]; [now left|]. right. now exists (d :: t1), c', t2.
Qed.

(** Where two cross, something begins. *)
Lemma cross_part : forall x y v, fine x -> fine y -> meet_at (e_left (p_span x)) (e_right (p_span x)) (e_left (p_span y)) (e_right (p_span y)) (inject_Z (fst v)) (inject_Z (snd v)) ->
  v = L (p_head x) \/ v = reach (p_head x) (p_tail x) \/ exists t1 c t2, p_tail x = t1 ++ c :: t2 /\ L c = v.
Proof using D Chain.
  intros x y v Fx Fy M. destruct M as [[Mx My] U]. pose proof (fine_chain x Fx) as Cx. pose proof (fine_chain y Fy) as Cy.
  destruct (on_span _ _ D _ _ v Cx Mx) as (c & C1 & C2). destruct (on_span _ _ D _ _ v Cy My) as (d & D1 & D2).
  assert (Ic : In c S) by (now apply Cx). assert (Id : In d S) by (now apply Cy).
  assert (Full : forall p, fine p -> forall e, In e (parts p) -> on_at (p_span p) (L e) /\ on_at (p_span p) (R e)).
  { intros p Fp e He. pose proof (fine_chain p Fp) as Cp. destruct (reach_spec _ _ D _ _ Cp) as (R1 & R2 & R3 & R4).
    revert Fp He Cp R1 R2 R3 R4. destruct p as [k a b tl]. unfold p_span, parts. cbn [p_head p_tail p_side p_seg]. intros _ He Cp R1 R2 R3 R4.
    assert (Lb : lex_z (L b) (R b) = Lt) by (now apply (seg_lr _ _ D), (chain_head _ _ _ _ Cp)).
    assert (Base : on_at (span b tl) (L b) /\ on_at (span b tl) (R b)).
    { split; apply on_at_iff; auto; cbn [span e_left e_right].
      - split; [apply orient_start|]. split; [rewrite lex_refl; discriminate|now apply lex_lt_not].
      - split; [rewrite orient_swap, R2; reflexivity|]. split; [now apply lex_lt_not|exact R3]. }
    destruct He as [<-|He]; [exact Base|]. apply in_split in He. destruct He as (t1 & t2 & ->).
    destruct (chain_app _ _ _ _ _ _ Cp) as (A1 & A2 & A3 & A4 & _).
    destruct (reach_spec _ _ D _ _ A1) as (B1 & B2 & _). destruct (reach_spec _ _ D _ _ A2) as (B3 & B4 & B5 & _).
    assert (Le : lex_z (L e) (R e) = Lt) by (now apply (seg_lr _ _ D), (chain_head _ _ _ _ A2)).
    replace (t1 ++ e :: t2) with ((t1 ++ [e]) ++ t2) by (now rewrite <- app_assoc).
    assert (C3 : chain b ((t1 ++ [e]) ++ t2)) by (now rewrite <- app_assoc).
    assert (C4 : chain b (t1 ++ [e])).
    { destruct t2 as [|f t2]; [now rewrite app_nil_r in C3|]. now apply (chain_app _ _ _ _ _ _ C3). }
    destruct (chain_app _ _ _ _ _ _ C4) as (_ & _ & _ & A5 & _).
    split; apply (on_prefix _ _ D); auto.
    - apply (on_prefix _ _ D); [exact C4|]. rewrite <- A3. apply (on_right (span b t1)).
    - change (R e) with (reach e []). rewrite <- A5. apply (on_right (span b (t1 ++ [e]))). }
  assert (Once : forall w, on_at (p_span x) w -> on_at (p_span y) w -> w = v).
  { intros w O1 O2. destruct (U _ _ (conj O1 O2)). now apply point_ext. }
  destruct (Full x Fx c C1) as [X1 X2]. destruct (Full y Fy d D1) as [Y1 Y2].
  assert (SE : same_ends (eg c) (eg d) = false).
  { apply not_true_iff_false. intros SE. apply same_ends_iff in SE. destruct SE as [S1 S2]. pose proof (seg_lr _ _ D c Ic) as Lc.
    rewrite (Once (L c) X1), (Once (R c) X2), lex_refl in Lc; [discriminate| |]; congruence. }
  pose proof (pairs_apart _ _ D c d Ic Id SE) as A. destruct (apart_at _ _ v A C2 D2) as [Ev _].
  destruct Ev as [->| ->].
  - destruct C1 as [<-|C1]; [now left|]. right. right. apply in_split in C1. destruct C1 as (t1 & t2 & Q). now exists t1, c, t2.
  - destruct (part_end _ _ _ Cx C1) as [Q|(t1 & c' & t2 & Q1 & Q2)]; [auto|]. right. right. now exists t1, c', t2.
Qed.

(** *** Comparing *)

Lemma cmp_pieces : forall x y, fine x -> fine y -> p_side x <> p_side y -> together (p_head x) (p_head y) ->
  s_index (p_seg x) <> s_index (p_seg y) -> p_head x <> p_head y -> segment_cmp (p_seg x) (p_seg y) = segment_cmp (p_head x) (p_head y).
Proof using D Chain Fit.
  intros x y Fx Fy N T NI NH. pose proof (fine_head x Fx) as Hx. pose proof (fine_head y Fy) as Hy.
  destruct (seg_spec _ _ D _ Hx) as (Zx & Ox & Lx & _). destruct (seg_spec _ _ D _ Hy) as (Zy & Oy & Ly & _).
  destruct (reach_spec _ _ D _ _ (fine_chain x Fx)) as (X1 & X2 & X3 & _). destruct (reach_spec _ _ D _ _ (fine_chain y Fy)) as (Y1 & Y2 & Y3 & _).
  rewrite (segment_cmp_int _ _ _ _ _ _ _ (piece_z x Fx) (piece_z y Fy) NI).
  rewrite (segment_cmp_int _ _ _ _ _ _ _ Zx Zy) by (intros Q; apply NH; now apply (index_eq _ _ D)).
  destruct Fx as [Sx (_ & _ & Qx)]. destruct Fy as [Sy (_ & _ & Qy)]. rewrite Qx, Qy, Ox, Oy.
  destruct (same_ends (eg (p_head x)) (eg (p_head y))) eqn:SE.
  - assert (Ty : p_tail y = []) by exact (along _ _ _ _ _ _ Sx Sy N SE).
    assert (Tx : p_tail x = []). { apply (along _ _ _ _ _ _ Sy Sx); [congruence|]. now rewrite same_sym. }
    rewrite Tx, Ty. change (reach (p_head x) []) with (R (p_head x)). change (reach (p_head y) []) with (R (p_head y)).
    pose proof (pairs_same _ _ D _ _ Hx Hy NH SE) as NP. destruct (_ && _); [|reflexivity].
    destruct (Nat.compare_spec (poly (p_head x)) (poly (p_head y))); [contradiction|reflexivity..].
  - pose proof (not_collinear _ _ D _ _ Hx Hy SE T) as NC. rewrite NC.
    set (a := p_head x) in *. set (b := p_head y) in *. set (ra := reach a (p_tail x)) in *. set (rb := reach b (p_tail y)) in *.
    assert (SA : forall z, Z.sgn (orient (L a) ra z) = Z.sgn (orient (L a) (R a) z)) by (intros z; symmetry; now apply dir_sign).
    assert (SB : forall z, Z.sgn (orient (L b) rb z) = Z.sgn (orient (L b) (R b) z)) by (intros z; symmetry; now apply dir_sign).
    assert (NC' : (orient (L a) ra (L b) =? 0)%Z && (orient (L a) ra rb =? 0)%Z = false).
    { rewrite (sgn_eqb _ _ (SA (L b))), (sgn_eqb _ _ (SA rb)). destruct (orient (L a) (R a) (L b) =? 0)%Z eqn:O; [|reflexivity]. apply Z.eqb_eq in O.
      rewrite <- (sgn_eqb _ _ (col_sign _ _ _ _ _ O Ly Y1 Y2)). exact NC. }
    rewrite NC'. f_equal. destruct (lex_z (L a) (L b)) eqn:Q.
    + apply lex_eq in Q. replace (0 <? orient (L a) ra rb)%Z with (0 <? orient (L a) (R a) (R b))%Z; [reflexivity|]. apply sgn_ltb.
      rewrite SA. apply (col_sign (L a) (R a) (L b)); auto. rewrite Q. apply orient_start.
    + now rewrite (sgn_ltb _ _ (SA (L b))).
    + now rewrite (sgn_ltb _ _ (SB (L a))).
Qed.

(** Left ends that are compared. *)
Lemma before_left : forall x y, fine x -> fine y -> cmp_of (p_seg x, LeftEnd) (p_seg y, LeftEnd) = cmp_of (p_head x, LeftEnd) (p_head y, LeftEnd).
Proof using D Chain.
  intros x y Fx Fy. pose proof (fine_head x Fx) as Hx. pose proof (fine_head y Fy) as Hy.
  destruct (seg_spec _ _ D _ Hx) as (Zx & Ox & Lx & _). destruct (seg_spec _ _ D _ Hy) as (Zy & Oy & Ly & _).
  destruct (reach_spec _ _ D _ _ (fine_chain x Fx)) as (X1 & X2 & X3 & _). destruct (reach_spec _ _ D _ _ (fine_chain y Fy)) as (Y1 & Y2 & Y3 & _).
  unfold cmp_of. rewrite (endpoint_cmp_int _ (p_seg x, LeftEnd) (p_seg y, LeftEnd) _ _ _ _ (piece_z x Fx) (piece_z y Fy)).
  rewrite (endpoint_cmp_int _ (p_head x, LeftEnd) (p_head y, LeftEnd) _ _ _ _ Zx Zy). cbn [fst snd end_z other_z].
  destruct Fx as [_ (_ & _ & Qx)]. destruct Fy as [_ (_ & _ & Qy)]. rewrite Qx, Qy, Ox, Oy. unfold event_before_z.
  destruct (lex_z (L (p_head x)) (L (p_head y))) eqn:Q; [|reflexivity..]. apply lex_eq in Q.
  replace (orient (L (p_head y)) (reach (p_head y) (p_tail y)) (reach (p_head x) (p_tail x)) ?= 0)%Z
    with (orient (L (p_head y)) (R (p_head y)) (R (p_head x)) ?= 0)%Z; [reflexivity|]. apply sgn_cmp.
  transitivity (Z.sgn (orient (L (p_head y)) (R (p_head y)) (reach (p_head x) (p_tail x)))); [|now apply dir_sign].
  apply (col_sign _ _ (L (p_head x))); auto. rewrite Q. apply orient_start.
Qed.

Lemma vertical_piece : forall x, fine x -> vertical (p_seg x) = vertical (p_head x).
Proof using D Chain.
  intros x Fx. pose proof (fine_head x Fx) as Hx. destruct (seg_spec _ _ D _ Hx) as (Zx & Ox & Lx & _).
  destruct (reach_spec _ _ D _ _ (fine_chain x Fx)) as (X1 & X2 & X3 & _).
  assert (V : forall (s : bseg) l r, seg_z s l r -> vertical s = (fst l =? fst r)%Z).
  { intros s l r (Z1 & Z2 & _ & (Z4 & Z4') & Z5 & Z5'). assert (B : (2 ^ 24 < 2 ^ 53)%Z) by reflexivity. unfold vertical.
    destruct (at_z_int _ _ Z1) as [P1 _]; [lia..|]. destruct (at_z_int _ _ Z2) as [P2 _]; [lia..|]. now rewrite (eq_int _ _ _ _ P1 P2). }
  rewrite (V _ _ _ (piece_z x Fx)), (V _ _ _ Zx). clear - Lx X1 X2. unfold lr in Lx. apply lex_lt in Lx, X1. unfold orient in X2.
  destruct (Z.eqb_spec (fst (L (p_head x))) (fst (reach (p_head x) (p_tail x)))) as [Q|Q];
    destruct (Z.eqb_spec (fst (L (p_head x))) (fst (R (p_head x)))) as [Q'|Q']; try reflexivity; exfalso.
  - rewrite <- Q in X2. rewrite Z.sub_diag, Z.mul_0_r, Z.sub_0_r in X2. apply Z.mul_eq_0 in X2. lia.
  - rewrite <- Q' in X2. rewrite Z.sub_diag, Z.mul_0_l in X2. assert (X2' : ((snd (R (p_head x)) - snd (L (p_head x))) * (fst (reach (p_head x) (p_tail x)) - fst (L (p_head x))) = 0)%Z) by lia.
    apply Z.mul_eq_0 in X2'. lia.
Qed.
End Cross.
