(** The contours of tidy polygons turn as far left as possible, and do not depend on how
    the polygons are written down. *)

From Coq Require Import List ZArith QArith Bool Lia Lqa Arith Permutation Sorted.
From Verif Require Import Base Float Contours Sweep Compute SpecShape SpecOrder SpecIntersect SpecTurn SpecHandle SpecTidy SpecOverlay SpecCompute ContainerFacts
  SweepFacts TraceFacts ComputeFacts OrderFacts TidyGeo TidyParity TidySetup TidyLine TidyPackets TidySweep TidyFacts TidyCorner TidyPair TidyNext TidyWalk
  TidyTrace TidyContours TidyWinding TidySimple TidyArea TidyShapes TidyOverlay TidyRegions TidyBorders TidyStart OverlayFacts.
From Verif Require Import HoleOrder FollowLines SpecFollow.
Import ListNotations.
Local Open Scope Z_scope.

Section Follow.
Variables (zs : list corners) (modes : list polygon_mode) (r : polygon) (S : list bseg) (ks : list packet) (act sw : list bseg)
  (I : list bend) (Ts : list (list bend)).
Notation eg := (eg (edges zs)).
Hypothesis (O : overlaid zs modes r S ks act sw I Ts) (NE : covered modes zs).
Notation src := (src zs).
Notation dst := (dst zs).
Notation walk := (walk zs S I).
Notation next := (next zs S I).

Let D := o_drawn _ _ _ _ _ _ _ _ _ O.
Let V := o_inv _ _ _ _ _ _ _ _ _ O.
Let Polys := o_polys _ _ _ _ _ _ _ _ _ O.
Let PI := o_kept _ _ _ _ _ _ _ _ _ O.

Lemma chain_steps : forall t e u a b c v, chain zs S I e t -> src e :: map dst (e :: t) = u ++ a :: b :: c :: v ->
  exists d d', In d (e :: t) /\ In d' t /\ next d d' /\ src d = a /\ dst d = b /\ dst d' = c.
Proof using.
  induction t as [|x t IH]; intros e u a b c v H Q.
  - apply (f_equal (@length _)) in Q. rewrite app_length in Q. cbn in Q. lia.
  - destruct H as (N & H). destruct u as [|u0 u].
    + injection Q as Qa Qb Qc _. exists e, x. split; [now left|]. split; [now left|]. auto.
    + change (u0 :: u) with ([u0] ++ u) in Q. rewrite <- app_assoc in Q. cbn [map app] in Q. injection Q as _ Q.
      assert (Sx : src x = dst e) by apply N. rewrite <- Sx in Q.
      destruct (IH x u a b c v H Q) as (d & d' & H1 & H2 & H3). exists d, d'. split; [now right|]. split; [now right|exact H3].
Qed.

Lemma walk_closed : forall T, walk T -> closed (map src T) = map src (firstn 1 T) ++ map dst T.
Proof using.
  intros T (e & t & -> & _ & _ & C & Q & _). rewrite (chain_dst zs S I t e C), Q. reflexivity.
Qed.

Lemma two_corners : forall T, walk T -> exists e f l, T = e :: f :: l /\ next e f.
Proof using O NE.
  intros T (e & t & -> & _ & He & C & Q & _). destruct t as [|f t].
  - exfalso. cbn in Q. now apply (ends_neq zs S D e (proj1 (proj1 (kept_iff zs modes S ks act sw I D V Polys PI NE e) He))).
  - exists e, f, t. split; [reflexivity|]. apply C.
Qed.

Lemma listed_before : forall T T', In T Ts -> In T' Ts -> (forall d, In d T -> ~ In d T') -> listed zs T T' -> starts_before (map src T) (map src T').
Proof using O NE.
  intros T T' HT HT' Dis L. pose proof (o_walks _ _ _ _ _ _ _ _ _ O) as W. rewrite Forall_forall in W.
  destruct (two_corners T (W _ HT)) as (e & f & l & -> & N). destruct (two_corners T' (W _ HT')) as (e' & f' & l' & -> & N').
  pose proof (W _ HT) as (x & y & Q & Le & Ie & _). injection Q as <- _. pose proof (W _ HT') as (x & y' & Q & Le' & Ie' & _). injection Q as <- _.
  assert (Sf : src f = dst e) by apply N. assert (Sf' : src f' = dst e') by apply N'.
  cbn [map starts_before]. rewrite Sf, Sf'. destruct (L e _ e' _ eq_refl eq_refl) as [X|(X1 & X2)]; [now left|right]. split; [exact X1|].
  enough (orient (src e) (dst e) (dst e') <> 0) by (clear - X2 H; lia). intros Z0.
  apply (kept_iff zs modes S ks act sw I D V Polys PI NE) in Ie, Ie'. destruct Ie as (I1 & I2 & _), Ie' as (I1' & I2' & _).
  destruct e as [s xx], e' as [s' xx']. cbn [fst snd] in *. subst xx xx'. unfold TidyNext.src, TidyNext.dst in *. cbn [fst snd end_z other_z] in *.
  assert (L1 : lr (eg s)) by (now apply (seg_spec _ _ D)). assert (L2 : lr (eg s')) by (now apply (seg_spec _ _ D)).
  destruct (pairs_related _ _ D s s' I1 I1') as [(R1 & R2)|A].
  - apply (Dis (s, LeftEnd)); [now left|]. left. f_equal. symmetry. now apply (last_seg zs modes r S ks act sw I Ts O).
  - apply (apart_line _ _ L1 L2 A); [rewrite <- X1; unfold orient; clear; ring|exact Z0|rewrite X1; exact L2|rewrite <- X1; exact L1].
Qed.

Lemma pairs_map : forall A B (f : A -> B) (R : A -> A -> Prop) (R' : B -> B -> Prop) l, (forall a b, R a b -> R' (f a) (f b)) -> ForallOrdPairs R l -> ForallOrdPairs R' (map f l).
Proof using.
  clear. intros A B f R R' l HR H. induction H as [|a l Ha H IH]; [constructor|]. cbn [map]. constructor; [|exact IH].
  rewrite Forall_forall in *. intros b Hb. apply in_map_iff in Hb. destruct Hb as (x & <- & Hx). auto.
Qed.

Lemma pairs_disjoint : forall A (R : list A -> list A -> Prop) Ls, NoDup (concat Ls) -> ForallOrdPairs R Ls ->
  ForallOrdPairs (fun a b => In a Ls /\ In b Ls /\ (forall x, In x a -> ~ In x b) /\ R a b) Ls.
Proof using.
  clear. intros A R Ls N H. induction H as [|a Ls Ha H IH]; [constructor|]. cbn [concat] in N. apply NoDup_parts in N. destruct N as (_ & N & X). constructor.
  - rewrite Forall_forall in Ha |- *. intros b Hb. split; [now left|]. split; [now right|]. split; [|now apply Ha].
    intros x Hx Hx'. apply (X x Hx). apply in_concat. eauto.
  - enough (Z : ForallOrdPairs (fun b c => In b (a :: Ls) /\ In c (a :: Ls) /\ (forall x, In x b -> ~ In x c) /\ R b c) (map (fun x => x) Ls)) by (now rewrite map_id in Z).
    eapply pairs_map; [|exact (IH N)]. intros b c (C1 & C2 & C3). split; [now right|]. split; [now right|exact C3].
Qed.

Lemma followed : forall z, has_corners r z -> well_followed z.
Proof using O NE.
  intros z H. split.
  { rewrite (rz_is zs modes r S ks act sw I Ts O z H). pose proof (pairs_disjoint _ _ _ (o_once _ _ _ _ _ _ _ _ _ O) (o_order _ _ _ _ _ _ _ _ _ O)) as X.
    eapply pairs_map; [|exact X]. intros a b (A1 & A2 & A3 & A4). now apply listed_before. }
  split; [exact (sides_once zs modes r S ks act sw I Ts O NE z H)|]. intros l Hl.
  pose proof (rz_is zs modes r S ks act sw I Ts O z H) as Z0.
  pose proof Hl as Hl'. rewrite Z0 in Hl'. apply in_map_iff in Hl'. destruct Hl' as (T & <- & HT).
  pose proof (o_walks _ _ _ _ _ _ _ _ _ O) as W. rewrite Forall_forall in W. specialize (W T HT).
  pose proof (o_first _ _ _ _ _ _ _ _ _ O) as F. rewrite Forall_forall in F. specialize (F T HT).
  pose proof (walk_closed T W) as Cl. pose proof W as (e & t & -> & LE & He & C & Q & Once). split.
  - cbn [map starts_leftmost]. apply Forall_forall. intros v Hv. apply in_map_iff in Hv. destruct Hv as (d & <- & Hd).
    destruct (chain_prev zs S I t e d C Hd) as (m & M1 & M2). pose proof (Once m M1) as X.
    assert (Sd : src d = dst m) by apply M2. pose proof (F e t d eq_refl (or_intror Hd)) as G.
    destruct (lex_z (src e) (src d)) eqn:K; [apply lex_eq in K; congruence|reflexivity|now destruct G].
  - intros u a b c v Q1. rewrite Q1 in Cl. cbn [firstn map app] in Cl. symmetry in Cl.
    destruct (chain_steps t e u a b c v C Cl) as (d & d' & H1 & H2 & N & <- & <- & <-).
    assert (Id : In d I) by (eapply walk_in; [exact W|exact H1]). assert (Id' : In d' I) by (eapply chain_in; [exact C|exact H2]).
    assert (N0 := N). destruct N0 as (_ & N1 & N2 & _). split.
    + intros B. destruct (side_back zs modes r S ks act sw I Ts O NE d' d Id' Id) as (X & _); [exact N1|exact B|]. now apply N2.
    + intros p Hp P1 P2. rewrite Z0, (all_sides zs modes r S ks act sw I Ts O) in Hp. apply in_map_iff in Hp. destruct Hp as (w & Qw & Hw).
      injection Qw as Qs Qd. apply (walks_I zs modes r S ks act sw I Ts O) in Hw. rewrite <- Qd. rewrite <- N1 at 3. rewrite <- Qs at 2.
      apply (next_left zs modes S ks act sw I D V Polys PI NE d d' w Id N Hw).
      * congruence.
      * intros Fw. apply P1. rewrite <- Qd. destruct d as [sd xd], w as [s2 xw]. cbn [fst] in Fw. subst s2.
        pose proof (ends_neq zs S D (sd, xd) (proj1 (proj1 (kept_iff zs modes S ks act sw I D V Polys PI NE _) Id))) as NN.
        unfold TidyNext.src, TidyNext.dst in *. cbn [fst snd] in *. destruct xd, xw; cbn [end_z other_z] in *; congruence.
      * congruence.
Qed.

(** A hole is listed with the contour that runs along the edge next below its last side. *)
Lemma hole_parent : forall z i c l h lh, has_corners r z -> nth_error r i = Some c -> In h (c_holes c) -> nth_error z i = Some l -> nth_error z h = Some lh ->
  exists eb es, In eb (edges zs) /\ next_below zs eb es /\ hd (0, 0) lh = e_left es /\ last lh (0, 0) = e_right es /\ In (e_left eb, e_right eb) (sides l).
Proof using O.
  intros z i c l h lh H Hc Hh Hl Hlh.
  destruct (walk_at zs modes r S ks act sw I Ts O i c z l H Hc Hl) as (e & t & HT & -> & W & _ & _ & (_ & _ & _ & P)).
  destruct (P h Hh) as (T' & s & b & T1 & T2 & T3 & T4). rewrite (rz_is zs modes r S ks act sw I Ts O z H), nth_error_map, T1 in Hlh. injection Hlh as <-.
  pose proof (o_walks _ _ _ _ _ _ _ _ _ O) as Ws. rewrite Forall_forall in Ws. pose proof (Ws _ (nth_error_In _ _ T1)) as (e1 & t1 & -> & _ & _ & C & Q & _).
  exists (eg b), (eg s). destruct T4 as (B1 & _ & _ & _ & B2). split; [now apply (seg_spec _ _ D)|]. split; [exact B2|].
  assert (La : last t1 e1 = (s, RightEnd)) by (rewrite <- T2; symmetry; apply last_cons). split; [|split].
  - cbn [map hd]. rewrite <- Q, La. reflexivity.
  - assert (X : forall (k : list bend) d0, last (map src (d0 :: k)) (0, 0) = src (last k d0)).
    { induction k as [|k0 k IH]; intros d0; [reflexivity|]. specialize (IH k0). rewrite last_cons. exact IH. }
    rewrite X, La. reflexivity.
  - rewrite (walk_sides zs S I _ W). apply in_map_iff. exists (b, LeftEnd). split; [reflexivity|exact T3].
Qed.

Lemma from_length : forall z i c l, has_corners r z -> nth_error r i = Some c -> nth_error z i = Some l -> length (c_from c) = length modes.
Proof using O.
  intros z i c l H Hc Hl. destruct (walk_at zs modes r S ks act sw I Ts O i c z l H Hc Hl) as (e0 & t & HT & -> & W & _ & _ & (_ & P & _)).
  rewrite (P e0 (or_introl eq_refl)). apply bits_length.
Qed.
End Follow.

(** *** The same polygons *)

Definition alike (e f : edge) : Prop := e_left e = e_left f /\ e_right e = e_right f.
Lemma alike_dec : forall e f, {alike e f} + {~ alike e f}.
Proof.
  intros e f. assert (X : forall p q : Z * Z, {p = q} + {p <> q}) by (decide equality; apply Z.eq_dec).
  destruct (X (e_left e) (e_left f)) as [H1|H1]; [|right; intros (H & _); auto].
  destruct (X (e_right e) (e_right f)) as [H2|H2]; [|right; intros (_ & H); auto]. now left.
Qed.
Lemma alike_has : forall zs i e f, alike e f -> has_edge zs i e -> has_edge zs i f.
Proof. intros zs i e f (H1 & H2) (g & G1 & G2 & G3 & G4). exists g. split; [exact G1|]. split; [exact G2|]. split; congruence. Qed.
Lemma alike_sym : forall e f, alike e f -> alike f e.
Proof. intros e f (H1 & H2). split; now symmetry. Qed.

Lemma last_of : forall L e, In e L -> exists f, In f L /\ alike f e /\ forall g, In g L -> alike g e -> (e_poly g <= e_poly f)%nat.
Proof.
  induction L as [|x L IH]; intros e H; [destruct H|].
  destruct (Exists_dec (fun g => alike g e) L (fun g => alike_dec g e)) as [X|X].
  - apply Exists_exists in X. destruct X as (g0 & G1 & G2). destruct (IH g0 G1) as (f & F1 & F2 & F3).
    assert (F4 : alike f e) by (destruct F2, G2; split; congruence).
    assert (F5 : forall g, In g L -> alike g e -> (e_poly g <= e_poly f)%nat).
    { intros g Hg A. apply F3; [exact Hg|]. destruct A, G2. split; congruence. }
    destruct (alike_dec x e) as [Ax|Ax].
    + destruct (le_gt_dec (e_poly x) (e_poly f)) as [LE|GT].
      * exists f. split; [now right|]. split; [exact F4|]. intros g [<-|Hg] A; [lia|now apply F5].
      * exists x. split; [now left|]. split; [exact Ax|]. intros g [<-|Hg] A; [lia|]. specialize (F5 g Hg A). lia.
    + exists f. split; [now right|]. split; [exact F4|]. intros g [<-|Hg] A; [contradiction|now apply F5].
  - destruct H as [<-|H].
    + exists x. split; [now left|]. split; [split; reflexivity|]. intros g [<-|Hg] A; [lia|]. exfalso. apply X, Exists_exists. now exists g.
    + exfalso. apply X, Exists_exists. exists e. split; [exact H|]. split; reflexivity.
Qed.

Lemma none_below : forall zs i x y, (length zs <= i)%nat -> ~ inner_below zs i x y.
Proof.
  intros zs i x y H. unfold inner_below, crossings. replace (filter _ (edges zs)) with (@nil edge); [discriminate|].
  symmetry. assert (G : forall e, In e (edges zs) -> (e_poly e < length zs)%nat) by (intros e He; apply edges_poly in He; lia).
  induction (edges zs) as [|e L IH]; [reflexivity|]. cbn [filter]. assert (X : (e_poly e =? i)%nat = false) by (apply Nat.eqb_neq; specialize (G e (or_introl eq_refl)); lia).
  rewrite X. cbn [andb]. apply IH. intros f Hf. apply G. now right.
Qed.
Lemma none_edge : forall zs i e, (length zs <= i)%nat -> ~ has_edge zs i e.
Proof. intros zs i e H (f & F1 & F2 & _). apply edges_poly in F1. lia. Qed.
Lemma none_above : forall zs e i x y, (length zs <= i)%nat -> ~ inner_above zs e i x y.
Proof. intros zs e i x y H [(X & _)|(_ & X)]; [now apply (none_edge zs i e H)|now apply (none_below zs i x y H)]. Qed.

Section Same.
Variables (sigma : nat -> nat) (zs zs' : list corners) (modes modes' : list polygon_mode).
Hypothesis (SP : same_polygons sigma zs zs') (Len : length modes = length zs) (Len' : length modes' = length zs).
Hypothesis (HM : forall i, (i < length zs)%nat -> nth_error modes' (sigma i) = nth_error modes i).
Notation n := (length zs).

Lemma sigma_onto : forall j, (j < n)%nat -> exists i, (i < n)%nat /\ sigma i = j.
Proof using SP.
  clear Len Len' HM. destruct SP as (_ & R & Inj & _). intros j Hj.
  assert (X : incl (seq 0 n) (map sigma (seq 0 n))).
  { apply NoDup_length_incl.
    - apply NoDup_map_on; [|apply seq_NoDup]. intros a b Ha Hb. apply in_seq in Ha, Hb. apply Inj; lia.
    - now rewrite map_length.
    - intros x Hx. apply in_map_iff in Hx. destruct Hx as (i & <- & Hi). apply in_seq in Hi. apply in_seq. specialize (R i). lia. }
  assert (Y : In j (seq 0 n)) by (apply in_seq; lia). apply X in Y. apply in_map_iff in Y. destruct Y as (i & Q & Hi). apply in_seq in Hi. exists i. split; [lia|exact Q].
Qed.

Lemma edge_there : forall e, In e (edges zs) -> In (numbered sigma e) (edges zs').
Proof using SP. intros e H. destruct SP as (_ & _ & _ & P). apply (Permutation_in _ (Permutation_sym P)). now apply in_map. Qed.
Lemma edge_back : forall e', In e' (edges zs') -> exists e, In e (edges zs) /\ e' = numbered sigma e.
Proof using SP. intros e' H. destruct SP as (_ & _ & _ & P). apply (Permutation_in _ P) in H. apply in_map_iff in H. destruct H as (e & <- & He). eauto. Qed.
Lemma poly_in : forall e, In e (edges zs) -> (e_poly e < n)%nat.
Proof using. clear. intros e He. apply edges_poly in He. lia. Qed.

Lemma crossings_same : forall i x y, (i < n)%nat -> crossings zs' (sigma i) x y = crossings zs i x y.
Proof using SP.
  intros i x y Hi. unfold crossings. destruct SP as (_ & _ & Inj & P). rewrite (filter_perm _ _ _ _ P), <- filter_map_length.
  f_equal. apply filter_ext_in. intros e He. unfold numbered, passes_below. cbn [e_poly e_left e_right]. f_equal.
  destruct (Nat.eqb_spec (e_poly e) i) as [<-|N]; [apply Nat.eqb_refl|]. apply Nat.eqb_neq. intros Q. apply N, Inj; auto. now apply poly_in.
Qed.
Lemma below_same : forall i x y, (i < n)%nat -> inner_below zs' (sigma i) x y <-> inner_below zs i x y.
Proof using SP. intros i x y Hi. unfold inner_below. now rewrite crossings_same. Qed.
Lemma has_same : forall i e e', (i < n)%nat -> alike e' e -> has_edge zs' (sigma i) e' <-> has_edge zs i e.
Proof using SP.
  intros i e e' Hi (A1 & A2). split.
  - intros (f & F1 & F2 & F3 & F4). destruct (edge_back f F1) as (g & G1 & ->). cbn [numbered e_poly e_left e_right] in *. exists g.
    split; [exact G1|]. split; [|split; congruence]. destruct SP as (_ & _ & Inj & _). apply Inj; auto. now apply poly_in.
  - intros (f & F1 & F2 & F3 & F4). exists (numbered sigma f). split; [now apply edge_there|]. cbn [numbered e_poly e_left e_right]. repeat split; congruence.
Qed.
Lemma above_same : forall i e e' x y, (i < n)%nat -> alike e' e -> inner_above zs' e' (sigma i) x y <-> inner_above zs e i x y.
Proof using SP. intros i e e' x y Hi A. unfold inner_above. now rewrite (has_same i e e' Hi A), (below_same i x y Hi). Qed.

Lemma place_same : forall (P P' : nat -> Prop), (forall i, (i < n)%nat -> P' (sigma i) <-> P i) -> (forall i, (n <= i)%nat -> ~ P i) -> (forall i, (n <= i)%nat -> ~ P' i) ->
  kept_place modes' P' <-> kept_place modes P.
Proof using SP Len Len' HM.
  intros P P' H N N'. unfold kept_place. rewrite Len, Len'. pose proof SP as (_ & R & _). split; intros ((i & H1 & H2) & H3).
  - split.
    + destruct (sigma_onto i H1) as (k & K1 & <-). exists k. split; [exact K1|]. now apply H.
    + intros k Hk. destruct (le_gt_dec n k) as [G|G]; [now destruct (N k G)|]. rewrite <- (HM k) by lia. apply H3, H; [lia|exact Hk].
  - split.
    + exists (sigma i). split; [now apply R|]. now apply H.
    + intros k Hk. destruct (le_gt_dec n k) as [G|G]; [now destruct (N' k G)|]. destruct (sigma_onto k) as (j & J1 & <-); [lia|].
      rewrite HM by lia. apply H3, H; [lia|exact Hk].
Qed.

(** The edge next below is the same. *)
Lemma lower_not : forall s s' a b a' b', alike s s' -> alike a a' -> alike b b' -> lower_at s a b -> lower_at s' b' a' -> False.
Proof using.
  clear. intros s s' a b a' b' (S1 & _) (A1 & A2) (B1 & B2). unfold lower_at, yat, slope. rewrite <- S1, <- A1, <- A2, <- B1, <- B2.
  intros [L|(L1 & L2 & L3)] [R|(R1 & R2 & R3)].
  - lra.
  - rewrite <- R1 in *. rewrite R2 in L. ring_simplify in L. rewrite R1 in L. lra.
  - rewrite <- L1 in *. rewrite L2 in R. ring_simplify in R. lra.
  - lra.
Qed.
Lemma next_below_same : forall b s b' s', In b (edges zs) -> In b' (edges zs') -> alike s s' -> next_below zs b s -> next_below zs' b' s' -> alike b b'.
Proof using SP.
  intros b s b' s' Hb Hb' As (U & N) (U' & N'). destruct (edge_back b' Hb') as (b0 & B0 & ->).
  assert (Us : forall e, under e s = under e s') by (intros e; destruct As as (A1 & A2); unfold under; now rewrite A1, A2).
  destruct (N b0 B0) as [X|X].
  { rewrite Us. exact U'. }
  { apply same_ends_iff in X. destruct X. split; cbn; congruence. }
  destruct (N' (numbered sigma b) (edge_there b Hb)) as [Y|Y].
  { rewrite <- Us. exact U. }
  { apply same_ends_iff in Y. destruct Y as (Y1 & Y2). cbn in Y1, Y2. split; cbn; assumption. }
  exfalso. eapply (lower_not s s' b0 b (numbered sigma b0) (numbered sigma b)); [exact As|split; reflexivity|split; reflexivity|exact X|exact Y].
Qed.

Hypothesis (NE : covered modes zs) (NE' : covered modes' zs').

Lemma zs_length : length zs' = n.
Proof using SP. exact (proj1 SP). Qed.

Lemma kept_below_same : forall x y, kept_place modes' (fun i => inner_below zs' i x y) <-> kept_place modes (fun i => inner_below zs i x y).
Proof using SP Len Len' HM.
  intros x y. apply place_same; [intros i Hi; now apply below_same|intros i Hi; now apply none_below|intros i Hi; apply none_below; now rewrite zs_length].
Qed.
Lemma kept_above_same : forall e e' x y, alike e' e -> kept_place modes' (fun i => inner_above zs' e' i x y) <-> kept_place modes (fun i => inner_above zs e i x y).
Proof using SP Len Len' HM.
  intros e e' x y A. apply place_same; [intros i Hi; now apply above_same|intros i Hi; now apply none_above|intros i Hi; apply none_above; now rewrite zs_length].
Qed.

Lemma is_kept : forall zs0 modes0 e, covered modes0 zs0 -> In e (edges zs0) -> (forall g, In g (edges zs0) -> alike g e -> (e_poly g <= e_poly e)%nat) -> kept_edge modes0 zs0 e.
Proof using.
  intros zs0 modes0 e N He H. assert (LE : forall i, has_edge zs0 i e -> (i <= e_poly e)%nat) by (intros i (f & F1 & <- & F3 & F4); apply H; [exact F1|now split]).
  split; [|exact LE]. intros X. destruct (N e He X) as (i & Hi & L). apply LE in Hi. clear -Hi L. lia.
Qed.

Lemma kept_sides_same : forall a b, (exists e, In e (edges zs) /\ kept_sides modes zs e a b) <-> (exists e', In e' (edges zs') /\ kept_sides modes' zs' e' a b).
Proof using SP Len Len' HM NE NE'.
  intros a b. split.
  - intros (e & He & _ & x & y & Ins & K). destruct (last_of _ _ (edge_there e He)) as (f & F1 & F2 & F3).
    assert (A : alike f e) by exact F2. exists f. split; [exact F1|]. split.
    { apply is_kept; [exact NE'|exact F1|]. intros g Hg Ag. apply F3; [exact Hg|]. destruct Ag, F2. split; congruence. }
    exists x, y. destruct A as (A1 & A2). split; [unfold inside_edge in *; now rewrite A1, A2|].
    rewrite (kept_above_same e f x y (conj A1 A2)), kept_below_same, A1, A2. exact K.
  - intros (e' & He & _ & x & y & Ins & K). destruct (edge_back e' He) as (e0 & E0 & ->). destruct (last_of _ _ E0) as (f & F1 & F2 & F3).
    exists f. split; [exact F1|]. split.
    { apply is_kept; [exact NE|exact F1|]. intros g Hg Ag. apply F3; [exact Hg|]. destruct Ag, F2. split; congruence. }
    exists x, y. destruct F2 as (A1 & A2). assert (A : alike (numbered sigma e0) f) by (split; cbn; congruence).
    split; [unfold inside_edge in *; rewrite A1, A2; exact Ins|].
    rewrite <- (kept_above_same f _ x y A), <- kept_below_same, A1, A2. exact K.
Qed.
End Same.

(** *** C117 *)
Lemma overlay_followed : forall std fuel polys op zs, std_laws std -> sorts std -> overlayable polys zs -> (2 * length (edges zs) <= fuel)%nat ->
  forall r rz, compute std fuel polys op = Ok r -> has_corners r rz -> well_followed rz.
Proof.
  intros std fuel polys op zs SL SO OV HF r rz C H. destruct (have std fuel polys op zs SL SO OV HF r C) as (S & ks & act & sw & I & Ts & O).
  apply (followed zs _ r S ks act sw I Ts O); [apply OV|exact H].
Qed.

Lemma overlay_determined : forall std fuel polys op zs, std_laws std -> sorts std -> overlayable polys zs -> (2 * length (edges zs) <= fuel)%nat ->
  forall r rz, compute std fuel polys op = Ok r -> has_corners r rz -> forall ls, well_followed ls ->
  (forall a b, In (a, b) (flat_map sides ls) <-> exists e, In e (edges zs) /\ kept_sides (map snd polys) zs e a b) -> rz = ls.
Proof.
  intros std fuel polys op zs SL SO OV HF r rz C H ls W HS. apply follow_unique; [|exact W|].
  - eapply overlay_followed; eassumption.
  - intros [a b]. rewrite HS. apply (overlay_sides std fuel polys op zs SL SO OV HF r rz C H).
Qed.

(** *** C118 *)
Section Twice.
Variables (std std' : std_impl) (fuel fuel' : nat) (polys polys' : input) (op op' : boolean_op) (zs zs' : list corners) (sigma : nat -> nat).
Hypothesis (SL : std_laws std) (SO : sorts std) (OV : overlayable polys zs) (HF : (2 * length (edges zs) <= fuel)%nat).
Hypothesis (SL' : std_laws std') (SO' : sorts std') (OV' : overlayable polys' zs') (HF' : (2 * length (edges zs') <= fuel')%nat).
Hypothesis (SP : same_polygons sigma zs zs').
Hypothesis (HM : forall i, (i < length polys)%nat -> nth_error (map snd polys') (sigma i) = nth_error (map snd polys) i).
Variables (r r' : polygon) (rz rz' : corners).
Hypothesis (C : compute std fuel polys op = Ok r) (C' : compute std' fuel' polys' op' = Ok r') (H : has_corners r rz) (H' : has_corners r' rz').

Lemma len_polys : length (map snd polys) = length zs.
Proof using OV. symmetry. now apply modes_len. Qed.
Lemma len_polys' : length (map snd polys') = length zs.
Proof using OV' SP. rewrite <- (proj1 SP). symmetry. now apply modes_len. Qed.
Lemma modes_same : forall i, (i < length zs)%nat -> nth_error (map snd polys') (sigma i) = nth_error (map snd polys) i.
Proof using OV HM. intros i Hi. apply HM. rewrite <- len_polys, map_length in Hi. exact Hi. Qed.

Lemma kept_same : forall a b, (exists e, In e (edges zs) /\ kept_sides (map snd polys) zs e a b)
  <-> (exists e', In e' (edges zs') /\ kept_sides (map snd polys') zs' e' a b).
Proof using OV OV' SP HM.
  apply (kept_sides_same sigma); [exact SP|exact len_polys|exact len_polys'|exact modes_same|apply OV|apply OV'].
Qed.

Lemma lines_same : rz' = rz.
Proof using SL SO OV HF SL' SO' OV' HF' SP HM C C' H H'.
  symmetry. apply (overlay_determined std fuel polys op zs SL SO OV HF r rz C H).
  - apply (overlay_followed std' fuel' polys' op' zs' SL' SO' OV' HF' r' rz' C' H').
  - intros a b. rewrite (kept_same a b). apply (overlay_sides std' fuel' polys' op' zs' SL' SO' OV' HF' r' rz' C' H').
Qed.

Variables (i j : nat) (c c' : contour) (l : list (Z * Z)).
Hypothesis (Hc : nth_error r i = Some c) (Hl : nth_error rz i = Some l) (Hc' : nth_error r' j = Some c') (Hl' : nth_error rz' j = Some l).

Lemma external_same : c_external c' = c_external c.
Proof using SL SO OV HF SL' SO' OV' HF' C C' H H' Hc Hl Hc' Hl'.
  destruct (overlay_shapes std fuel polys op zs SL SO OV HF r rz C H i c l 0%Q 0%Q Hc Hl) as (A & B).
  destruct (overlay_shapes std' fuel' polys' op' zs' SL' SO' OV' HF' r' rz' C' H' j c' l 0%Q 0%Q Hc' Hl') as (A' & B').
  destruct (c_external c), (c_external c'); auto; [destruct (A eq_refl), (B' eq_refl)|destruct (A' eq_refl), (B eq_refl)]; exfalso; clear - H0 H2; lia.
Qed.

Lemma some_true : forall A B (k m : nat) (a : list bool) (b : list bool), (k < length a)%nat -> (m < length b)%nat ->
  (nth_error a k = Some true <-> A) -> (nth_error b m = Some true <-> B) -> (A <-> B) -> nth_error a k = nth_error b m.
Proof using.
  clear. intros A B k m a b Ha Hb H1 H2 H3. destruct (nth_error a k) as [x|] eqn:E1; [|apply nth_error_None in E1; lia].
  destruct (nth_error b m) as [y|] eqn:E2; [|apply nth_error_None in E2; lia].
  assert (X : x = true <-> y = true) by (split; intros ->; [assert (Q : Some y = Some true) by (apply H2, H3, H1; reflexivity)|assert (Q : Some x = Some true) by (apply H1, H3, H2; reflexivity)]; congruence).
  destruct x, y; auto; [now rewrite (proj1 X)|now rewrite (proj2 X)].
Qed.

Lemma from_same : forall k, (k < length polys)%nat -> nth_error (c_from c') (sigma k) = nth_error (c_from c) k.
Proof using SL SO OV HF SL' SO' OV' HF' SP HM C C' H H' Hc Hl Hc' Hl'.
  intros k Hk. assert (Hkz : (k < length zs)%nat) by (rewrite <- len_polys, map_length; exact Hk).
  pose proof (proj1 (proj2 SP) k Hkz) as Hs.
  assert (L : length (c_from c) = length zs).
  { destruct (have std fuel polys op zs SL SO OV HF r C) as (S & ks & act & sw & I & Ts & O). rewrite <- len_polys. eapply (from_length zs _ r S ks act sw I Ts O); eassumption. }
  assert (L' : length (c_from c') = length zs).
  { destruct (have std' fuel' polys' op' zs' SL' SO' OV' HF' r' C') as (S & ks & act & sw & I & Ts & O). rewrite <- len_polys'. eapply (from_length zs' _ r' S ks act sw I Ts O); eassumption. }
  assert (F : starts_leftmost l).
  { eapply (proj2 (proj2 (overlay_followed std fuel polys op zs SL SO OV HF r rz C H))). now apply nth_error_In in Hl. }
  destruct l as [|a t] eqn:El; [destruct F|]. destruct (corner_side (a :: t) a (or_introl eq_refl)) as (b & Hb).
  pose proof (in_flat rz (a :: t) _ (nth_error_In _ _ Hl) Hb) as X. pose proof (in_flat rz' (a :: t) _ (nth_error_In _ _ Hl') Hb) as X'.
  apply (overlay_sides std fuel polys op zs SL SO OV HF r rz C H) in X. apply (overlay_sides std' fuel' polys' op' zs' SL' SO' OV' HF' r' rz' C' H') in X'.
  destruct X as (e & He & KE & x & y & Ins & K), X' as (e' & He' & KE' & x' & y' & Ins' & K').
  assert (LR : lex_z (e_left e) (e_right e) = Lt) by (now apply edges_lr in He). assert (LR' : lex_z (e_left e') (e_right e') = Lt) by (now apply edges_lr in He').
  assert (Hk' : (sigma k < length polys')%nat) by (rewrite <- (map_length snd polys'), len_polys'; exact Hs).
  assert (A : (a = e_left e /\ b = e_right e /\ a = e_left e' /\ b = e_right e') \/ (a = e_right e /\ b = e_left e /\ a = e_right e' /\ b = e_left e')).
  { destruct K as [(K1 & K2 & _)|(K1 & K2 & _)], K' as [(K1' & K2' & _)|(K1' & K2' & _)]; auto; exfalso; apply lex_gt in LR'; congruence. }
  assert (AL : alike e' e) by (destruct A as [(?&?&?&?)|(?&?&?&?)]; split; congruence).
  assert (Ins2 : inside_edge e' x y) by (destruct AL as (A1 & A2); unfold inside_edge in *; rewrite A1, A2; exact Ins).
  destruct (overlay_from std fuel polys op zs SL SO OV HF r rz C H i c (a :: t) e x y k Hc Hl He KE Ins Hk) as (U1 & U2).
  destruct (overlay_from std' fuel' polys' op' zs' SL' SO' OV' HF' r' rz' C' H' j c' (a :: t) e' x y (sigma k) Hc' Hl' He' KE' Ins2 Hk') as (U1' & U2').
  destruct A as [(Q1 & Q2 & Q3 & Q4)|(Q1 & Q2 & Q3 & Q4)].
  - eapply some_true; [rewrite L'; exact Hs|rewrite L; exact Hkz|apply U1'|apply U1|]; [congruence|congruence|].
    now apply (above_same sigma zs zs' SP).
  - eapply some_true; [rewrite L'; exact Hs|rewrite L; exact Hkz|apply U2'|apply U2|]; [congruence|congruence|].
    now apply (below_same sigma zs zs' SP).
Qed.

Lemma neighbour_same : forall i2 l2, nth_error rz i2 = Some l2 -> nth_error rz' i2 = Some l2 ->
  nth_error (c_neighbors c') i2 = Some true <-> nth_error (c_neighbors c) i2 = Some true.
Proof using SL SO OV HF SL' SO' OV' HF' C C' H H' Hc Hl Hc' Hl'.
  intros i2 l2 H2 H2'. rewrite (overlay_neighbours std fuel polys op zs SL SO OV HF r rz C H i i2 c l l2 Hc Hl H2).
  rewrite (overlay_neighbours std' fuel' polys' op' zs' SL' SO' OV' HF' r' rz' C' H' j i2 c' l l2 Hc' Hl' H2'). reflexivity.
Qed.
End Twice.

Section Result.
Variables (std std' : std_impl) (fuel fuel' : nat) (polys polys' : input) (op op' : boolean_op) (zs zs' : list corners) (sigma : nat -> nat).
Hypothesis (SL : std_laws std) (SO : sorts std) (OV : overlayable polys zs) (HF : (2 * length (edges zs) <= fuel)%nat).
Hypothesis (SL' : std_laws std') (SO' : sorts std') (OV' : overlayable polys' zs') (HF' : (2 * length (edges zs') <= fuel')%nat).
Hypothesis (SP : same_polygons sigma zs zs').
Hypothesis (HM : forall i, (i < length polys)%nat -> nth_error (map snd polys') (sigma i) = nth_error (map snd polys) i).
Variables (r r' : polygon) (rz rz' : corners).
Hypothesis (C : compute std fuel polys op = Ok r) (C' : compute std' fuel' polys' op' = Ok r') (H : has_corners r rz) (H' : has_corners r' rz').

Lemma same_lines : rz' = rz.
Proof using SL SO OV HF SL' SO' OV' HF' SP HM C C' H H'.
  exact (lines_same std std' fuel fuel' polys polys' op op' zs zs' sigma SL SO OV HF SL' SO' OV' HF' SP HM r r' rz rz' C C' H H').
Qed.

Lemma at_lines : forall i c, nth_error r i = Some c -> exists l, nth_error rz i = Some l.
Proof using H.
  intros i c Hc. destruct (nth_error rz i) eqn:E; [eauto|]. apply nth_error_None in E. apply nth_lt in Hc. apply Forall2_len in H. clear - E Hc H. lia.
Qed.
Lemma at_lines' : forall i c, nth_error r' i = Some c -> exists l, nth_error rz i = Some l.
Proof using SL SO OV HF SL' SO' OV' HF' SP HM C C' H H'.
  intros i c Hc. rewrite <- same_lines. destruct (nth_error rz' i) eqn:E; [eauto|]. apply nth_error_None in E. apply nth_lt in Hc. apply Forall2_len in H'. clear - E Hc H'. lia.
Qed.
Lemma len_same : length r' = length r.
Proof using SL SO OV HF SL' SO' OV' HF' SP HM C C' H H'.
  pose proof H as A. pose proof H' as B. apply Forall2_len in A, B. rewrite same_lines in B. clear - A B. lia.
Qed.

Lemma same_external : forall i c c', nth_error r i = Some c -> nth_error r' i = Some c' -> c_external c' = c_external c.
Proof using SL SO OV HF SL' SO' OV' HF' SP HM C C' H H'.
  intros i c c' Hc Hc'. destruct (at_lines i c Hc) as (l & Hl). assert (Hl' : nth_error rz' i = Some l) by (now rewrite same_lines).
  apply (external_same std std' fuel fuel' polys polys' op op' zs zs' SL SO OV HF SL' SO' OV' HF' r r' rz rz' C C' H H' i i c c' l Hc Hl Hc' Hl').
Qed.

(** A hole has the same parent in both. *)
Lemma same_parent : forall i j c c' h, nth_error r i = Some c -> In h (c_holes c) -> nth_error r' j = Some c' -> In h (c_holes c') -> i = j.
Proof using SL SO OV HF SL' SO' OV' HF' SP HM C C' H H'.
  intros i j c c' h Hc Hh Hc' Hh'. destruct (at_lines i c Hc) as (l & Hl). destruct (at_lines' j c' Hc') as (l' & Hl').
  destruct (proj1 (proj2 (compute_hole_lists std fuel polys op r SL C)) i c h Hc Hh) as (_ & ch & Hch & _). destruct (at_lines h ch Hch) as (lh & Hlh).
  destruct (have std fuel polys op zs SL SO OV HF r C) as (S1 & ks1 & act1 & sw1 & I1 & Ts1 & O1).
  destruct (have std' fuel' polys' op' zs' SL' SO' OV' HF' r' C') as (S2 & ks2 & act2 & sw2 & I2 & Ts2 & O2).
  destruct (hole_parent zs _ r S1 ks1 act1 sw1 I1 Ts1 O1 rz i c l h lh H Hc Hh Hl Hlh) as (eb & es & A1 & A2 & A3 & A4 & A5).
  rewrite <- same_lines in Hl', Hlh.
  destruct (hole_parent zs' _ r' S2 ks2 act2 sw2 I2 Ts2 O2 rz' j c' l' h lh H' Hc' Hh' Hl' Hlh) as (eb' & es' & B1 & B2 & B3 & B4 & B5).
  assert (AL : alike eb eb').
  { apply (next_below_same sigma zs zs' SP eb es eb' es' A1 B1); [|exact A2|exact B2]. split; congruence. }
  destruct AL as (L1 & L2). rewrite <- L1, <- L2 in B5. rewrite same_lines in Hl'.
  pose proof (overlay_followed std fuel polys op zs SL SO OV HF r rz C H) as W.
  assert (Q : l = l') by (apply (nodup_line rz l l' (e_left eb, e_right eb) (proj1 (proj2 W))); auto; eapply nth_error_In; eassumption).
  subst l'. pose proof (well_nodup rz W) as N. rewrite NoDup_nth_error in N. apply N; [now apply nth_lt in Hl|congruence].
Qed.

Lemma asc_pairs : forall l, StronglySorted lt l -> ForallOrdPairs lt l.
Proof using. clear. intros l S. induction S; constructor; auto. Qed.
Lemma asc_nodup : forall l, StronglySorted lt l -> NoDup l.
Proof using. clear. intros l S. induction S as [|a l S IH F]; constructor; auto. intros X. rewrite Forall_forall in F. specialize (F a X). lia. Qed.
Lemma asc_same : forall l m, StronglySorted lt l -> StronglySorted lt m -> (forall h, In h l <-> In h m) -> l = m.
Proof using.
  clear. intros l m L M Q. apply (sorted_once _ lt); [intros x y; lia|now apply asc_pairs|now apply asc_pairs|].
  apply NoDup_Permutation; [now apply asc_nodup|now apply asc_nodup|exact Q].
Qed.

Lemma same_holes : forall i c c', nth_error r i = Some c -> nth_error r' i = Some c' -> c_holes c' = c_holes c.
Proof using SL SO OV HF SL' SO' OV' HF' SP HM C C' H H'.
  intros i c c' Hc Hc'. pose proof (compute_hole_lists std fuel polys op r SL C) as (_ & P1 & P2).
  pose proof (compute_hole_lists std' fuel' polys' op' r' SL' C') as (_ & P1' & P2'). apply asc_same.
  - apply (holes_ascend std' fuel' polys' op' r' c' C'). eapply nth_error_In; eassumption.
  - apply (holes_ascend std fuel polys op r c C). eapply nth_error_In; eassumption.
  - intros h. split; intros Hh.
    + destruct (P1' i c' h Hc' Hh) as (_ & ch' & Hch' & X & _). destruct (nth_error r h) as [ch|] eqn:Hch.
      2:{ apply nth_error_None in Hch. apply nth_lt in Hch'. rewrite len_same in Hch'. clear - Hch Hch'. lia. }
      rewrite (same_external h ch ch' Hch Hch') in X. destruct (P2 h ch Hch X) as (j & cj & Hj & Hhj).
      pose proof (same_parent j i cj c' h Hj Hhj Hc' Hh) as ->. rewrite Hc in Hj. injection Hj as <-. exact Hhj.
    + destruct (P1 i c h Hc Hh) as (_ & ch & Hch & X & _). destruct (nth_error r' h) as [ch'|] eqn:Hch'.
      2:{ apply nth_error_None in Hch'. apply nth_lt in Hch. rewrite len_same in Hch'. clear - Hch Hch'. lia. }
      rewrite <- (same_external h ch ch' Hch Hch') in X. destruct (P2' h ch' Hch' X) as (j & cj & Hj & Hhj).
      pose proof (same_parent i j c cj h Hc Hh Hj Hhj) as <-. rewrite Hc' in Hj. injection Hj as <-. exact Hhj.
Qed.

Lemma same_neighbours : forall i c c', nth_error r i = Some c -> nth_error r' i = Some c' -> c_neighbors c' = c_neighbors c.
Proof using SL SO OV HF SL' SO' OV' HF' SP HM C C' H H'.
  intros i c c' Hc Hc'. destruct (compute_neighbors std fuel polys op r SL C) as (L & _). destruct (compute_neighbors std' fuel' polys' op' r' SL' C') as (L' & _).
  specialize (L c (nth_error_In _ _ Hc)). specialize (L' c' (nth_error_In _ _ Hc')). rewrite len_same in L'.
  destruct (at_lines i c Hc) as (l & Hl). assert (Hl' : nth_error rz' i = Some l) by (now rewrite same_lines).
  apply (nth_ext_error (c_neighbors c') (c_neighbors c)). intros j. destruct (le_gt_dec (length r) j) as [G|G].
  - transitivity (@None bool); [apply nth_error_None; lia|symmetry; apply nth_error_None; lia].
  - destruct (nth_error r j) as [cj|] eqn:Ej; [|apply nth_error_None in Ej; clear - Ej G; lia].
    destruct (at_lines j cj Ej) as (l2 & H2). assert (H2' : nth_error rz' j = Some l2) by (now rewrite same_lines).
    pose proof (neighbour_same std std' fuel fuel' polys polys' op op' zs zs' SL SO OV HF SL' SO' OV' HF' r r' rz rz' C C' H H' i i c c' l Hc Hl Hc' Hl' j l2 H2 H2') as X.
    assert (G1 : (j < length (c_neighbors c'))%nat) by lia. assert (G2 : (j < length (c_neighbors c))%nat) by lia.
    eapply some_true; [exact G1|exact G2|reflexivity|reflexivity|exact X].
Qed.

Lemma order_free : rz' = rz /\ forall i c c', nth_error r i = Some c -> nth_error r' i = Some c' ->
  c_holes c' = c_holes c /\ c_external c' = c_external c /\ c_neighbors c' = c_neighbors c
  /\ forall k, (k < length polys)%nat -> nth_error (c_from c') (sigma k) = nth_error (c_from c) k.
Proof using SL SO OV HF SL' SO' OV' HF' SP HM C C' H H'.
  split; [exact same_lines|]. intros i c c' Hc Hc'. split; [now apply (same_holes i)|]. split; [now apply (same_external i)|]. split; [now apply (same_neighbours i)|].
  destruct (at_lines i c Hc) as (l & Hl). assert (Hl' : nth_error rz' i = Some l) by (now rewrite same_lines). 
  exact (from_same std std' fuel fuel' polys polys' op op' zs zs' sigma SL SO OV HF SL' SO' OV' HF' SP HM r r' rz rz' C C' H H' i i c c' l Hc Hl Hc' Hl').
Qed.
End Result.
