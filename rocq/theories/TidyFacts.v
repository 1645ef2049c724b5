(** Overlaying tidy polygons: which sides of which edges are kept. *)

From Coq Require Import List ZArith QArith Bool Arith Lia Permutation Sorted.
From Verif Require Import Base Float SpecShape SpecOrder SpecIntersect SpecHandle SpecTidy SpecCompute SpecContainers Geometry Sweep
  Contours Compute ShapeFacts SweepFacts OrderFacts ContainerFacts FuelFacts SortFacts HandleFacts TidyGeo TidyParity TidySetup TidyLine TidyPackets TidySweep TidyStart.
Import ListNotations.

Lemma nth_combine : forall {A B} (l : list A) (m : list B) i a b,
  nth_error (combine l m) i = Some (a, b) <-> nth_error l i = Some a /\ nth_error m i = Some b.
Proof.
  induction l as [|x l IH]; intros m i a b; [destruct i; cbn; split; [discriminate|now intros (? & _)|discriminate|now intros (? & _)]|].
  destruct m as [|y m]; [destruct i; cbn; split; try discriminate; now intros (_ & ?)|].
  destruct i as [|i]; cbn; [|apply IH]. split; [intros X; injection X; intros; subst; auto|intros (X & Y); congruence].
Qed.

Lemma NoDup_join : forall {A} (l r : list A), NoDup l -> NoDup r -> (forall x, In x l -> ~ In x r) -> NoDup (l ++ r).
Proof.
  induction l as [|x l IH]; intros r Hl Hr H; [exact Hr|]. inversion Hl; subst. cbn. constructor.
  - intros C. apply in_app_or in C. destruct C as [C|C]; [auto|]. exact (H x (or_introl eq_refl) C).
  - apply IH; auto. intros y Hy. apply H. now right.
Qed.

(** A list without repetitions can be put in order. *)
Section Sorted.
Context {A : Type} (P : A -> Prop) (cmp : A -> A -> outcome comparison) (c : A -> A -> comparison).
Hypothesis (Law : lawful P cmp c).
Notation SS := (StronglySorted (fun a b => c a b = Lt)).

Lemma lt3 : forall a b d, P a -> P b -> P d -> c a b = Lt -> c b d = Lt -> c a d = Lt.
Proof using Law.
  destruct Law as (H1 & H2 & H3). intros a b d Ha Hb Hd X Y. apply (c_lt_le_trans P cmp c H1 H2 H3 a b d); auto. congruence.
Qed.

Lemma put_in : forall m x, P x -> Forall P m -> SS m -> (forall y, In y m -> c x y = Lt \/ c y x = Lt) ->
  exists m', Permutation (x :: m) m' /\ SS m'.
Proof using Law.
  induction m as [|y m IH]; intros x Px Pm Sm T; [exists [x]; split; [apply Permutation_refl|repeat constructor]|].
  inversion Pm as [|? ? Py Pm']; subst. inversion Sm as [|? ? Sm' Fy]; subst. destruct (T y (or_introl eq_refl)) as [Q|Q].
  - exists (x :: y :: m). split; [apply Permutation_refl|]. constructor; [exact Sm|]. constructor; [exact Q|].
    rewrite Forall_forall in *. intros z Hz. apply (lt3 x y z); auto.
  - destruct (IH x Px Pm' Sm') as (m' & M1 & M2); [intros z Hz; apply T; now right|]. exists (y :: m').
    split; [transitivity (y :: x :: m); [apply perm_swap|now constructor]|]. constructor; [exact M2|].
    rewrite Forall_forall in *. intros z Hz. apply (Permutation_in _ (Permutation_sym M1)) in Hz. destruct Hz as [<-|Hz]; auto.
Qed.

Lemma sort_exists : forall l, Forall P l -> NoDup l -> (forall a b, In a l -> In b l -> c a b = Eq -> a = b) ->
  exists l', Permutation l l' /\ increasing cmp l'.
Proof using Law.
  intros l HP HN HE. assert (G : exists l', Permutation l l' /\ SS l').
  { induction l as [|x l IH]; [exists []; split; constructor|].
    inversion HP as [|? ? Px Pl]; subst. inversion HN as [|? ? Nx Nl]; subst.
    destruct IH as (m & M1 & M2); auto. { intros a b Ha Hb. apply HE; now right. }
    destruct (put_in m x Px) as (m' & M3 & M4); auto.
    - apply Forall_forall. intros y Hy. apply (Permutation_in _ (Permutation_sym M1)) in Hy. rewrite Forall_forall in Pl. auto.
    - intros y Hy. apply (Permutation_in _ (Permutation_sym M1)) in Hy. destruct (c x y) eqn:Q; auto.
      + exfalso. apply Nx. rewrite (HE x y); auto; [now left|now right].
      + right. destruct Law as (_ & H2 & _). rewrite (H2 x y), Q; auto. rewrite Forall_forall in Pl. auto.
    - exists m'. split; [|exact M4]. transitivity (x :: m); [now constructor|exact M3]. }
  destruct G as (l' & G1 & G2). exists l'. split; [exact G1|]. destruct Law as (H1 & H2 & _). unfold increasing.
  assert (P' : Forall P l') by (apply Forall_forall; intros y Hy; apply (Permutation_in _ (Permutation_sym G1)) in Hy; rewrite Forall_forall in HP; auto).
  clear - H1 H2 G2 P'. induction G2 as [|x l Sl IH F]; [constructor|]. inversion P' as [|? ? Px Pl]; subst. constructor; [auto|].
  rewrite Forall_forall in *. intros y Hy. specialize (F y Hy). split; [now rewrite H1, F; auto|]. rewrite H1, H2, F; auto.
Qed.
End Sorted.

(** Nothing is left to sweep. *)
Section Swept.
Variables (zs : list corners) (modes : list polygon_mode) (S : list bseg) (ks : list packet) (act sw : list bseg).
Notation n := (length modes).
Notation E := (edges zs).
Notation eg := (eg (edges zs)).
Hypothesis (D : drawn E S) (V : inv zs S modes [] ks act sw).

Definition last_edge (e : edge) : Prop := forall i, has_edge zs i e -> (i <= e_poly e)%nat.

Lemma swept_all : Permutation sw S.
Proof using D V.
  apply NoDup_Permutation.
  - apply (v_once _ _ _ _ _ _ _ V).
  - apply NoDup_nth_error. intros i j Hi Q. destruct (nth_error S i) as [s|] eqn:Ei; [|apply nth_error_None in Ei; lia].
    symmetry in Q. rewrite <- (dr_index _ _ D i s Ei). now apply (dr_index _ _ D).
  - intros s. rewrite (v_swept _ _ _ _ _ _ _ V). cbn. tauto.
Qed.

Lemma has_edge_seg : forall i e, has_edge zs i e <-> exists t, In t S /\ e_poly (eg t) = i /\ same_ends (eg t) e = true.
Proof using D.
  intros i e. split.
  - intros (f & H1 & H2 & H3 & H4). destruct (edge_seg _ _ D f H1) as (t & Ht & <-). exists t. split; [exact Ht|]. split; [exact H2|].
    apply same_ends_iff. auto.
  - intros (t & H1 & H2 & H3). apply same_ends_iff in H3. exists (eg t). split; [now apply (seg_spec _ _ D)|]. tauto.
Qed.

Lemma has_edge_or : forall i e, has_edge zs i e \/ ~ has_edge zs i e.
Proof using.
  intros i e. destruct (existsb (fun f => (e_poly f =? i)%nat && same_ends f e) E) eqn:X.
  - left. apply existsb_exists in X. destruct X as (f & H1 & H2). apply andb_true_iff in H2. rewrite Nat.eqb_eq, same_ends_iff in H2.
    exists f. tauto.
  - right. intros (f & H1 & H2 & H3). assert (Y : existsb (fun f => (e_poly f =? i)%nat && same_ends f e) E = true); [|congruence].
    apply existsb_exists. exists f. split; [exact H1|]. apply andb_true_iff. rewrite Nat.eqb_eq, same_ends_iff. auto.
Qed.

Lemma swept_last : forall s k, In s S -> good zs S modes [] s k -> is_non_contributing (k_edge k) = false <-> last_edge (eg s).
Proof using D.
  intros s k Hs (_ & _ & _ & G & _). rewrite <- not_true_iff_false, G. split.
  - intros N i H. apply has_edge_seg in H. destruct H as (t & T1 & T2 & T3). apply Nat.nlt_ge. intros C. apply N. exists t.
    rewrite T2. auto.
  - intros A (t & T1 & _ & T3 & T4). assert (H : has_edge zs (e_poly (eg t)) (eg s)) by (apply has_edge_seg; exists t; auto).
    apply A in H. clear V. lia.
Qed.

Lemma swept_below : forall s x y i, In s S -> inside_edge (eg s) x y -> RS zs (eg s) i = true <-> inner_below zs i x y.
Proof using D.
  intros s x y i Hs I. unfold inner_below, RS. rewrite (crossings_parity zs i (eg s) x y); [reflexivity|now apply (seg_spec _ _ D)| |exact I].
  intros e He. now apply (edges_related _ _ D).
Qed.

Lemma stack_has : forall s i, In s S -> last_edge (eg s) -> ST zs (eg s) i = true <-> has_edge zs i (eg s).
Proof using D.
  intros s i Hs LE. split.
  - intros H. destruct (has_edge_or i (eg s)) as [Y|N]; [exact Y|exfalso]. unfold ST in H. rewrite parity_false in H; [discriminate|].
    intros f Hf. apply not_true_iff_false. rewrite !andb_true_iff. unfold of_poly. rewrite Nat.eqb_eq, same_ends_iff.
    intros (H1 & H2 & _). apply N. exists f. tauto.
  - intros H. pose proof (LE i H) as Li. apply has_edge_seg in H. destruct H as (t & T1 & T2 & T3).
    pose proof (own_parity zs S D t i T1) as P. rewrite T2, Nat.eqb_refl in P. unfold ST. rewrite <- P. apply parity_ext. intros f Hf.
    unfold of_poly. destruct (e_poly f =? i)%nat eqn:X; [|reflexivity]. apply Nat.eqb_eq in X. cbn [andb].
    replace (e_poly f <=? e_poly (eg s))%nat with true by (symmetry; apply Nat.leb_le; clear V; lia).
    replace (e_poly f =? i)%nat with true by (symmetry; now apply Nat.eqb_eq). rewrite !andb_true_r.
    apply eq_iff_eq_true. rewrite !same_ends_iff. apply same_ends_iff in T3. destruct T3 as (-> & ->). reflexivity.
Qed.

Lemma swept_above : forall s x y i, In s S -> last_edge (eg s) -> inside_edge (eg s) x y ->
  LS zs (eg s) i = true <-> inner_above zs (eg s) i x y.
Proof using D.
  intros s x y i Hs LE I. unfold LS, inner_above. rewrite <- (swept_below s x y i Hs I), <- (stack_has s i Hs LE).
  destruct (RS zs (eg s) i), (ST zs (eg s) i); cbn; intuition congruence.
Qed.

Lemma skip_bits : forall f, skip_side modes (bits n f) = false <-> kept_place modes (fun i => f i = true).
Proof using.
  intros f. unfold skip_side, kept_place, bits_none, bits. rewrite orb_false_iff. split.
  - intros (H1 & H2). split.
    + apply not_true_iff_false in H2. destruct (existsb f (seq 0 n)) eqn:X.
      * apply existsb_exists in X. destruct X as (i & B1 & B2). apply in_seq in B1. exists i. split; [lia|exact B2].
      * exfalso. apply H2. apply forallb_forall. intros b B. apply in_map_iff in B. destruct B as (i & <- & B).
        destruct (f i) eqn:Fi; [|reflexivity]. assert (Y : existsb f (seq 0 n) = true); [|congruence].
        apply existsb_exists. exists i. auto.
    + intros i Fi Q. assert (Li : (i < n)%nat) by (apply nth_error_Some; congruence).
      apply not_true_iff_false in H1. apply H1. apply existsb_exists. exists (true, RemoveInterior). split; [|reflexivity].
      apply (nth_error_In _ i). apply nth_combine. split; [|exact Q]. rewrite <- Fi. now apply bits_nth.
  - intros ((i & Li & Fi) & H). split.
    + apply not_true_iff_false. intros X. apply existsb_exists in X. destruct X as ((b & m) & X1 & X2). cbn [fst snd] in X2.
      apply andb_true_iff in X2. destruct X2 as (-> & X2). apply In_nth_error in X1. destruct X1 as (j & X1). apply nth_combine in X1.
      destruct X1 as (X1 & X3). assert (Lj : (j < n)%nat) by (apply nth_error_Some; congruence).
      pose proof (bits_nth n f j Lj) as Y. unfold bits in Y. rewrite Y in X1. injection X1 as X1. apply (H j X1). rewrite X3.
      destruct m; try discriminate. reflexivity.
    + apply not_true_iff_false. intros X. rewrite forallb_forall in X. specialize (X (f i)). rewrite Fi in X.
      discriminate X. apply in_map_iff. exists i. split; [exact Fi|]. apply in_seq. lia.
Qed.

(** The ends kept for one segment. *)
Definition keeps_left (s : bseg) : bool := match nth_error ks (s_index s) with
  | Some k => k_in_result k && negb (skip_side modes (k_left k)) | None => false end.
Definition keeps_right (s : bseg) : bool := match nth_error ks (s_index s) with
  | Some k => k_in_result k && negb (skip_side modes (k_right k)) | None => false end.
Definition sides_of (s : bseg) : list bend :=
  (if keeps_left s then [(s, LeftEnd)] else []) ++ (if keeps_right s then [(s, RightEnd)] else []).

Lemma good_at : forall s, In s S -> exists k, nth_error ks (s_index s) = Some k /\ get_packet ks s = Ok k /\ good zs S modes [] s k.
Proof using V.
  intros s Hs. destruct (v_done _ _ _ _ _ _ _ V s Hs (fun H => H)) as (k & K1 & K2). exists k. split; [exact K1|]. split; [|exact K2].
  unfold get_packet, index_nat. now rewrite K1.
Qed.

Lemma include_sides : exists segs, include_all modes ks sw = Ok (segs, flat_map sides_of sw) /\ incl segs S.
Proof using D V.
  assert (A : forall l, (forall s, In s l -> In s S) -> exists r, omap (include_one modes ks) l = Ok r /\ flat_map snd r = flat_map sides_of l /\ incl (flat_map fst r) l).
  { induction l as [|s l IH]; intros H; [exists []; repeat split; intros ? []|]. destruct IH as (r & R1 & R2 & R3); [intros; apply H; now right|].
    destruct (good_at s) as (k & K1 & K2 & _); [apply H; now left|].
    assert (B : exists a, include_one modes ks s = Ok (a, sides_of s) /\ incl a [s]).
    { unfold include_one, sides_of, keeps_left, keeps_right. rewrite K2, K1. cbn [obind]. destruct (k_in_result k); cbn [negb andb]; [|eexists; split; [reflexivity|intros ? []]].
      destruct (skip_side modes (k_left k)), (skip_side modes (k_right k)); eexists; (split; [reflexivity|intros ? H'; exact H' || destruct H']). }
    destruct B as (a & B & B').  exists ((a, sides_of s) :: r). split; [cbn [omap]; rewrite B; cbn [obind]; now rewrite R1|].
    cbn [flat_map fst snd]. rewrite R2. split; [reflexivity|]. intros y Hy. apply in_app_or in Hy.
    destruct Hy as [Hy|Hy]; [apply B' in Hy; destruct Hy as [<-|[]]; now left|right; auto]. }
  destruct (A sw) as (r & R1 & R2 & R3); [intros s H; apply (v_swept _ _ _ _ _ _ _ V) in H; tauto|].
  exists (flat_map fst r). unfold include_all. rewrite R1. cbn [obind]. rewrite R2. split; [reflexivity|].
  intros y Hy. apply R3, (v_swept _ _ _ _ _ _ _ V) in Hy. tauto.
Qed.

Lemma in_sides : forall s e, In (s, e) (flat_map sides_of sw) <-> In s S /\ (match e with LeftEnd => keeps_left s | RightEnd => keeps_right s end) = true.
Proof using D V.
  intros s e. rewrite in_flat_map. split.
  - intros (t & T1 & T2). assert (t = s /\ (match e with LeftEnd => keeps_left s | RightEnd => keeps_right s end) = true) as (-> & T3).
    { unfold sides_of in T2. apply in_app_or in T2. destruct (keeps_left t) eqn:X, (keeps_right t) eqn:Y; cbn in T2;
      destruct T2 as [T2|T2]; repeat (destruct T2 as [T2|T2]); try easy; injection T2 as <- <-; auto. }
    split; [|exact T3]. apply (Permutation_in _ swept_all T1).
  - intros (H1 & H2). exists s. split; [apply (Permutation_in _ (Permutation_sym swept_all) H1)|].
    unfold sides_of. apply in_or_app. destruct e; rewrite H2; [left|right]; now left.
Qed.

Lemma sides_once : NoDup (flat_map sides_of sw).
Proof using D V.
  pose proof (v_once _ _ _ _ _ _ _ V) as N. clear - N. induction sw as [|s l IH]; [constructor|]. inversion N as [|? ? N1 N2]; subst. cbn [flat_map].
  assert (F : forall d, In d (sides_of s) -> fst d = s).
  { intros d H. unfold sides_of in H. apply in_app_or in H. destruct (keeps_left s), (keeps_right s); cbn in H;
    destruct H as [H|H]; repeat (destruct H as [H|H]); try easy; now subst d. }
  assert (G : forall d l, In d (flat_map sides_of l) -> In (fst d) l).
  { clear. intros d l H. apply in_flat_map in H. destruct H as (t & T1 & T2). replace (fst d) with t; [exact T1|].
    unfold sides_of in T2. apply in_app_or in T2. destruct (keeps_left t), (keeps_right t); cbn in T2;
    destruct T2 as [T2|T2]; repeat (destruct T2 as [T2|T2]); try easy; now subst d. }
  apply NoDup_join; [|now apply IH|].
  - unfold sides_of. destruct (keeps_left s), (keeps_right s); cbn; repeat constructor; cbn; intuition congruence.
  - intros d D1 D2. apply F in D1. apply G in D2. now subst s.
Qed.

Lemma ends_strict : forall a b : bend, In (fst a) S -> In (fst b) S -> cmp_of a b = Eq -> a = b.
Proof using D.
  intros [a x] [b y] Ha Hb Q. cbn [fst] in Ha, Hb.
  destruct (seg_spec _ _ D _ Ha) as (A1 & A2 & A3 & _), (seg_spec _ _ D _ Hb) as (B1 & B2 & B3 & _).
  unfold cmp_of in Q. rewrite (endpoint_cmp_int _ (a, x) (b, y) _ _ _ _ A1 B1) in Q. cbn [fst snd] in Q. rewrite A2, B2 in Q. unfold event_before_z in Q.
  assert (M : forall c i, cmp_then c i = Eq -> c = Eq /\ i = Eq) by (clear; intros [] i; cbn; try discriminate; auto).
  apply M in Q. destruct Q as (Q & O). apply Nat.compare_eq in O.
  destruct (Nat.eq_dec (s_index a) (s_index b)) as [I|I].
  - assert (a = b) by (now apply (index_eq _ _ D)). subst b.
    destruct x, y; try reflexivity; exfalso; cbn [end_z] in Q; unfold lr in A3.
    + rewrite A3 in Q. discriminate.
    + apply lex_gt in A3. rewrite A3 in Q. discriminate.
  - exfalso. assert (N : a <> b) by congruence.
    assert (same_ends (eg a) (eg b) = false) as SE.
    { apply not_true_iff_false. intros SE. now apply (pairs_same _ _ D a b Ha Hb N SE). }
    destruct (lex_z _ _) eqn:LX in Q; try discriminate. apply lex_eq in LX.
    destruct x, y; cbn [end_z other_z] in *; try discriminate.
    + apply Z.compare_eq in Q. assert (T : together E b a) by (split; [rewrite <- LX; exact A3|rewrite LX; exact B3]).
      assert (C := not_collinear _ _ D b a Hb Ha). rewrite <- LX in C at 1. rewrite LX, Q in C.
      replace (orient (e_left (eg b)) (e_right (eg b)) (e_left (eg b))) with 0%Z in C by (unfold orient; ring).
      discriminate C; [now rewrite same_sym|exact T].
    + apply Z.compare_eq in Q. assert (T : together E b a) by (split; [rewrite LX; exact B3|rewrite <- LX; exact A3]).
      assert (C := not_collinear _ _ D b a Hb Ha). rewrite LX in C.
      replace (orient (e_left (eg b)) (e_right (eg b)) (e_left (eg a))) with 0%Z in C by (revert Q; unfold orient; lia).
      replace (orient (e_left (eg b)) (e_right (eg b)) (e_right (eg b))) with 0%Z in C by (unfold orient; ring).
      discriminate C; [now rewrite same_sym|exact T].
Qed.

Lemma ends_sorted : exists l, Permutation (flat_map sides_of sw) l /\ increasing endpoint_cmp l.
Proof using D V.
  assert (I : forall d, In d (flat_map sides_of sw) -> In (fst d) S) by (intros [s x] H; now apply in_sides in H).
  apply (sort_exists int_event endpoint_cmp cmp_of (endpoint_lawful unit)).
  - apply Forall_forall. intros d H. apply I in H. eexists _, _. now apply (seg_spec _ _ D).
  - exact sides_once.
  - intros a b Ha Hb. apply ends_strict; auto.
Qed.

Lemma in_result : forall s k, In s S -> (e_poly (eg s) < n)%nat -> good zs S modes [] s k -> k_in_result k = true <-> kept_edge modes zs (eg s).
Proof using D.
  intros s k Hs P G. pose proof (swept_last s k Hs G) as SL. destruct G as (_ & G2 & _ & _ & G5 & _). rewrite G5. unfold kept_edge. fold (last_edge (eg s)).
  rewrite <- SL. unfold is_in_result. rewrite G2. unfold mode_at.
  rewrite (nth_error_nth' modes Normal P). destruct (is_non_contributing (k_edge k)); [split; [discriminate|intros (_ & X); discriminate]|].
  cbn [negb andb]. destruct (nth _ modes Normal); cbn; split; intros X; try easy; split; easy.
Qed.

Lemma kept_ext : forall (P Q : nat -> Prop), (forall i, P i <-> Q i) -> kept_place modes P <-> kept_place modes Q.
Proof using.
  intros P Q H. unfold kept_place. split; intros ((i & I1 & I2) & A); (split; [exists i; split; [exact I1|now apply H]|]); intros j J; apply A; now apply H.
Qed.

Lemma keeps : forall s x y, In s S -> (e_poly (eg s) < n)%nat -> inside_edge (eg s) x y ->
  (keeps_left s = true <-> kept_edge modes zs (eg s) /\ kept_place modes (fun i => inner_above zs (eg s) i x y)) /\
  (keeps_right s = true <-> kept_edge modes zs (eg s) /\ kept_place modes (fun i => inner_below zs i x y)).
Proof using D V.
  intros s x y Hs P I. destruct (good_at s Hs) as (k & K1 & K2 & G). pose proof (in_result s k Hs P G) as IR.
  destruct G as (_ & _ & (G1 & G2 & _) & _). unfold keeps_left, keeps_right. rewrite K1, G1, G2. rewrite !andb_true_iff, !negb_true_iff, !skip_bits, IR.
  split; split; intros (A & B); split; try exact A; revert B; apply kept_ext; intros i.
  - symmetry. apply swept_above; try assumption. exact (proj2 A).
  - apply swept_above; try assumption. exact (proj2 A).
  - symmetry. now apply swept_below.
  - now apply swept_below.
Qed.
End Swept.

(** *** The theorems *)

Lemma tidy_swept : forall polys zs fuel, Forall2 (fun p z => has_corners (fst p) z) polys zs -> tidy zs -> (2 * length (edges zs) <= fuel)%nat ->
  exists w0 w act, add_polygons (length polys) 0 polys (mk_sweep [] [] [] [] []) = Ok w0
    /\ sweep_loop fuel (length polys) w0 = Ok w
    /\ w_segs w = w_segs w0 /\ made (map snd polys) (edges zs) w0 /\ drawn (edges zs) (w_segs w)
    /\ (forall s, In s (w_segs w) -> (e_poly (eg (edges zs) s) < length (map snd polys))%nat)
    /\ inv zs (w_segs w) (map snd polys) [] (w_packets w) act (w_swept w).
Proof.
  intros polys zs fuel HC (T1 & T2) HF. rewrite <- (map_length snd polys).
  destruct (add_polygons_made (map snd polys) polys zs 0 HC T1 eq_refl [] (mk_sweep [] [] [] [] [])) as (w0 & W1 & W2).
  { constructor; cbn; try reflexivity; try (now constructor); intros i; intros; destruct i; discriminate. }
  cbn [app] in W2. fold (edges zs) in W2. pose proof (made_drawn _ _ _ W2 T2) as D. pose proof (made_inv _ _ _ W2 D) as V0.
  assert (Polys : forall s, In s (w_segs w0) -> (e_poly (eg (edges zs) s) < length (map snd polys))%nat).
  { intros s Hs. assert (H : In (eg (edges zs) s) (edges zs)) by (now apply (seg_spec _ _ D)).
    apply edges_poly in H. rewrite map_length, (Forall2_len _ _ _ HC). lia. }
  destruct (sweep_ok zs (w_segs w0) (map snd polys) D Polys fuel (w_queue w0) (w_packets w0) [] [] V0) as (ks & act & sw & X1 & X2).
  { rewrite (Permutation_length (m_queue _ _ _ W2)). replace (length (flat_map _ (w_segs w0))) with (2 * length (w_segs w0))%nat.
    - rewrite <- (dr_len _ _ D) in HF. lia.
    - clear. induction (w_segs w0) as [|s l IH]; [reflexivity|]. cbn [flat_map app length]. rewrite <- IH. lia. }
  exists w0, (mk_sweep (w_segs w0) ks [] act sw), act. split; [exact W1|]. split.
  { rewrite <- X1. f_equal. destruct w0 as [a b q d e]. pose proof (m_active _ _ _ W2) as A1. pose proof (m_swept _ _ _ W2) as A2. cbn in A1, A2 |- *. now subst. }
  cbn [w_segs w_packets w_swept]. auto.
Qed.

Lemma eg_at : forall zs S k e s, drawn (edges zs) S -> nth_error (edges zs) k = Some e -> nth_error S k = Some s -> eg (edges zs) s = e /\ In s S.
Proof.
  intros zs S k e s D He Hs. split; [|now apply nth_error_In in Hs]. unfold eg. rewrite (dr_index _ _ D k s Hs). now apply nth_error_nth.
Qed.

Lemma tidy_sides : forall polys zs fuel, Forall2 (fun p z => has_corners (fst p) z) polys zs -> tidy zs -> (2 * length (edges zs) <= fuel)%nat ->
  exists w0 w segments ends, add_polygons (length polys) 0 polys (mk_sweep [] [] [] [] []) = Ok w0
    /\ sweep_loop fuel (length polys) w0 = Ok w
    /\ include_all (map snd polys) (w_packets w) (w_swept w) = Ok (segments, ends)
    /\ Forall2 (fun e s => seg_z s (e_left e) (e_right e) /\ s_order s = e_poly e) (edges zs) (w_segs w)
    /\ Permutation (w_swept w) (w_segs w) /\ NoDup ends /\ (forall d, In d ends -> In (fst d) (w_segs w))
    /\ forall k e s x y, nth_error (edges zs) k = Some e -> nth_error (w_segs w) k = Some s -> inside_edge e x y ->
         (In (s, LeftEnd) ends <-> kept_edge (map snd polys) zs e /\ kept_place (map snd polys) (fun i => inner_above zs e i x y))
         /\ (In (s, RightEnd) ends <-> kept_edge (map snd polys) zs e /\ kept_place (map snd polys) (fun i => inner_below zs i x y)).
Proof.
  intros polys zs fuel HC HT HF. destruct (tidy_swept polys zs fuel HC HT HF) as (w0 & w & act & W1 & W2 & W3 & M & D & Polys & V).
  destruct (include_sides _ _ _ _ _ _ D V) as (segs & I1 & _).
  exists w0, w, segs, (flat_map (sides_of (map snd polys) (w_packets w)) (w_swept w)). split; [exact W1|]. split; [exact W2|]. split; [exact I1|].
  split; [rewrite W3; apply (m_segs _ _ _ M)|]. split; [apply (swept_all _ _ _ _ _ _ D V)|].
  split; [apply (sides_once _ _ _ _ _ _ D V)|].
  split; [intros [s d] H; now apply (in_sides _ _ _ _ _ _ D V) in H|].
  intros k e s x y He Hs I. destruct (eg_at _ _ _ _ _ D He Hs) as (Q & Is). rewrite <- Q in I.
  rewrite !(in_sides _ _ _ _ _ _ D V). destruct (keeps _ _ _ _ _ _ D V s x y Is (Polys s Is) I) as (K1 & K2). rewrite Q in K1, K2.
  rewrite K1, K2. tauto.
Qed.

Lemma tidy_faces : forall polys zs fuel w0 w, Forall2 (fun p z => has_corners (fst p) z) polys zs -> tidy zs -> (2 * length (edges zs) <= fuel)%nat ->
  add_polygons (length polys) 0 polys (mk_sweep [] [] [] [] []) = Ok w0 -> sweep_loop fuel (length polys) w0 = Ok w ->
  forall j e s x y, nth_error (edges zs) j = Some e -> nth_error (w_segs w) j = Some s -> inside_edge e x y ->
    exists k, get_packet (w_packets w) s = Ok k /\ length (k_left k) = length polys /\ length (k_right k) = length polys
      /\ forall i, (nth_error (k_right k) i = Some true <-> inner_below zs i x y)
         /\ (kept_edge (map snd polys) zs e -> nth_error (k_left k) i = Some true <-> inner_above zs e i x y).
Proof.
  intros polys zs fuel w0 w HC HT HF A0 A1 j e s x y He Hs I.
  destruct (tidy_swept polys zs fuel HC HT HF) as (w0' & w' & act & W1 & W2 & W3 & M & D & Polys & V).
  rewrite A0 in W1. inv W1. rewrite A1 in W2. inv W2.
  destruct (eg_at _ _ _ _ _ D He Hs) as (Q & Is). rewrite <- Q in I. destruct (good_at _ _ _ _ _ _ V s Is) as (k & K1 & K2 & G).
  destruct G as (_ & _ & (G1 & G2 & _) & _). exists k. split; [exact K2|]. rewrite G1, G2, !bits_length, map_length. split; [reflexivity|]. split; [reflexivity|].
  assert (B : forall f i, (forall i, f i = true -> (i < length polys)%nat) -> nth_error (bits (length polys) f) i = Some true <-> f i = true).
  { intros f i F. destruct (Nat.lt_ge_cases i (length polys)) as [L|L].
    - rewrite bits_nth by exact L. split; congruence.
    - rewrite (proj2 (nth_error_None _ _)) by (now rewrite bits_length). split; [discriminate|]. intros X. apply F in X. lia. }
  assert (Far : forall P i, parity (fun f => of_poly i f && P f) (edges zs) = true -> (i < length polys)%nat).
  { intros P i H. apply Nat.nle_gt. intros Li. rewrite parity_false in H; [discriminate|]. intros f Hf.
    destruct (of_poly i f) eqn:X; [exfalso|reflexivity]. apply Nat.eqb_eq in X. apply edges_poly in Hf. rewrite <- (Forall2_len _ _ _ HC) in Hf. lia. }
  intros i. split.
  - rewrite B by (intros; now apply (Far _ _ H)). now apply (swept_below _ _ D).
  - intros KE. rewrite B.
    + rewrite <- Q. apply (swept_above _ _ D); auto. rewrite Q. exact (proj2 KE).
    + intros i' H. unfold LS in H. destruct (RS zs _ i') eqn:X; [now apply (Far _ _ X)|]. destruct (ST zs _ i') eqn:Y; [now apply (Far _ _ Y)|discriminate].
Qed.

Lemma sweeps_fuel : forall fuel n w w' x, sweeps n fuel w w' -> heap_pop endpoint_cmp (w_queue w') = Ok (Some x) -> sweep_loop fuel n w = Panic PFuel.
Proof.
  intros fuel n w w' x H. induction H as [w|m w s e q w1 w' H1 H2 H3 IH]; intros P; cbn [sweep_loop].
  - rewrite P. destruct x as [[s e] q]. reflexivity.
  - rewrite H1. cbn [obind]. cbv zeta in H2. rewrite H2. cbn [obind]. now apply IH.
Qed.

Lemma tidy_fuel : forall std polys zs fuel op, std_laws std -> Forall2 (fun p z => has_corners (fst p) z) polys zs -> tidy zs ->
  (2 * length (edges zs) <= fuel)%nat -> compute std fuel polys op <> Panic PFuel.
Proof.
  intros std polys zs fuel op SL HC HT HF H. apply compute_fuel in H; [|exact SL]. destruct H as (w0' & w' & X1 & X2 & q & X3).
  destruct (tidy_swept polys zs fuel HC HT HF) as (w0 & w & act & W1 & W2 & _). rewrite X1 in W1. inv W1.
  rewrite (sweeps_fuel _ _ _ _ _ X2 X3) in W2. discriminate.
Qed.

Lemma tidy_ordered : forall polys zs fuel, Forall2 (fun p z => has_corners (fst p) z) polys zs -> tidy zs ->
  (2 * length (edges zs) <= fuel)%nat -> pieces_ordered fuel polys.
Proof.
  intros polys zs fuel HC HT HF w0' w' segs ends A0 A1 A2.
  destruct (tidy_swept polys zs fuel HC HT HF) as (w0 & w & act & W1 & W2 & W3 & M & D & Polys & V).
  rewrite A0 in W1. inv W1. rewrite A1 in W2. inv W2. destruct (include_sides _ _ _ _ _ _ D V) as (segs' & I1 & I2). rewrite A2 in I1. inv I1.
  split; [|split].
  - intros a b Ha Hb. eexists. apply (sc_ok _ _ D); auto.
  - intros [a x] Ha. apply (in_sides _ _ _ _ _ _ D V) in Ha. destruct Ha as (Ha & _). destruct (seg_spec _ _ D _ Ha) as (B1 & _).
    destruct (endpoint_lawful unit) as (H1 & H2 & H3). assert (P : @int_event unit (a, x)) by (eexists _, _; exact B1).
    etransitivity; [exact (H1 _ _ P P)|]. f_equal. exact (c_refl int_event endpoint_cmp cmp_of H1 H2 H3 _ P).
  - exact (ends_sorted _ _ _ _ _ _ D V).
Qed.

Lemma tidy_same : forall std std' polys zs fuel op, std_laws std -> std_laws std' -> sorts std -> sorts std' ->
  Forall2 (fun p z => has_corners (fst p) z) polys zs -> tidy zs -> (2 * length (edges zs) <= fuel)%nat ->
  compute std fuel polys op = compute std' fuel polys op.
Proof. intros. apply compute_same; auto. now apply (tidy_ordered _ zs). Qed.
