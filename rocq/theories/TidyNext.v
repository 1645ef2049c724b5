(** The sides kept of tidy polygons: where each leads. *)

From Coq Require Import List ZArith Bool Lia Arith Permutation Sorted.
From Verif Require Import Base Float Sweep Compute SpecShape SpecOrder SpecIntersect SpecTurn SpecHandle SpecTidy SpecCompute
  OrderFacts TurnFacts3 TurnSamples TidyGeo TidyParity TidySetup TidyLine TidySweep TidyFacts TidyCorner TidyPair.
Import ListNotations.
Local Open Scope Z_scope.

Lemma ss_nth : forall A (R : A -> A -> Prop) l, StronglySorted R l -> forall i j a b, nth_error l i = Some a -> nth_error l j = Some b -> (i < j)%nat -> R a b.
Proof.
  intros A R l H. induction H as [|x l Sl IH F]; intros i j a b Hi Hj L; [destruct i; discriminate|].
  destruct j as [|j]; [lia|]. cbn in Hj. destruct i as [|i]; cbn in Hi.
  - injection Hi as <-. rewrite Forall_forall in F. apply F. eapply nth_error_In; eassumption.
  - apply (IH i j); auto. lia.
Qed.

Lemma lex_squeeze : forall p q r, lex_z p q <> Gt -> lex_z q r <> Gt -> p = r -> q = p.
Proof.
  intros p q r H1 H2 <-. destruct (lex_z p q) eqn:Q; [symmetry; now apply lex_eq| |congruence].
  apply lex_gt in Q. congruence.
Qed.

Section Next.
Variables (zs : list corners) (modes : list polygon_mode) (S : list bseg) (ks : list packet) (act sw : list bseg) (I : list bend).
Notation n := (length modes).
Notation E := (edges zs).
Notation eg := (eg (edges zs)).
Hypothesis (D : drawn E S) (V : inv zs S modes [] ks act sw) (Polys : forall s, In s S -> (e_poly (eg s) < n)%nat).
Hypothesis (PI : Permutation (flat_map (sides_of modes ks) sw) I) (II : increasing endpoint_cmp I).
Hypothesis (Short : forall e, In e E -> short (vsub (e_right e) (e_left e))).
Hypothesis (NE : covered modes zs).

Definition src (d : bend) : Z * Z := end_z (e_left (eg (fst d))) (e_right (eg (fst d))) (snd d).
Definition dst (d : bend) : Z * Z := other_z (e_left (eg (fst d))) (e_right (eg (fst d))) (snd d).
Definition face (d : bend) (i : nat) : bool := match snd d with LeftEnd => LS zs (eg (fst d)) i | RightEnd => RS zs (eg (fst d)) i end.

Lemma kept_iff : forall d, In d I <-> In (fst d) S /\ last_edge zs (eg (fst d)) /\ kept_place modes (fun i => face d i = true).
Proof using D V Polys PI NE.
  intros [s x]. cbn [fst]. rewrite <- (Permutation_in' eq_refl PI). rewrite (in_sides _ _ _ _ _ _ D V).
  split.
  - intros (Hs & K). split; [exact Hs|]. destruct (good_at _ _ _ _ _ _ V s Hs) as (k & K1 & K2 & G).
    pose proof (in_result zs modes S D s k Hs (Polys s Hs) G) as IR. destruct G as (_ & _ & (G1 & G2 & _) & _).
    unfold keeps_left, keeps_right in K. rewrite K1, G1, G2 in K.
    destruct x; apply andb_true_iff in K; destruct K as (K & KS); apply negb_true_iff, skip_bits in KS; apply IR in K; exact (conj (proj2 K) KS).
  - intros (Hs & LE & KS). split; [exact Hs|]. destruct (good_at _ _ _ _ _ _ V s Hs) as (k & K1 & K2 & G).
    pose proof (in_result zs modes S D s k Hs (Polys s Hs) G) as IR. destruct G as (_ & _ & (G1 & G2 & _) & _).
    assert (K : k_in_result k = true).
    { apply IR. split; [|exact LE]. intros Q. destruct (NE (eg s)) as (i & Hi & L); [now apply (seg_spec _ _ D)|exact Q|]. apply LE in Hi. lia. }
    unfold keeps_left, keeps_right. rewrite K1, G1, G2, K. destruct x; cbn [andb]; apply negb_true_iff, skip_bits; exact KS.
Qed.

Lemma kept_seg : forall d, In d I -> In (fst d) S.
Proof using D V Polys PI NE. intros d H. now apply kept_iff in H. Qed.

Lemma I_once : NoDup I.
Proof using D V PI. apply (Permutation_NoDup PI). apply (sides_once _ _ _ _ _ _ D V). Qed.

Lemma end_of : forall d, In (fst d) S -> end_at d (src d) (dst d).
Proof using D.
  intros [s x] Hs. cbn [fst] in Hs. destruct (seg_spec _ _ D s Hs) as (A & _). unfold end_at, src, dst. cbn [fst snd]. destruct x; exact A.
Qed.

Lemma end_once : forall d a b, In (fst d) S -> end_at d a b -> a = src d /\ b = dst d.
Proof using D. intros d a b Hs H. apply (end_at_inj d); [exact H|now apply end_of]. Qed.

Lemma ends_neq : forall d, In (fst d) S -> src d <> dst d.
Proof using D.
  intros [s x] Hs Q. destruct (seg_spec _ _ D s Hs) as (_ & _ & L & _). unfold lr in L. unfold src, dst in Q. cbn [fst snd] in Q.
  destruct x; cbn [end_z other_z] in Q; rewrite Q, lex_refl in L; discriminate.
Qed.

Lemma I_short : Forall (fun e => short_end e /\ (s_index (fst e) < length S)%nat) I.
Proof using D V Polys PI NE Short.
  apply Forall_forall. intros d Hd. apply kept_seg in Hd. split; [|destruct (in_seg _ _ D _ Hd) as (A & _); apply nth_error_Some; congruence].
  exists (src d), (dst d). split; [now apply end_of|]. destruct (seg_spec _ _ D _ Hd) as (_ & _ & _ & He). pose proof (Short _ He) as ((Q1 & Q2) & Q3).
  unfold src, dst. destruct (snd d); cbn [end_z other_z]; [split; [split|]; assumption|].
  unfold short, within, vsub in *. cbn [fst snd] in *. split; [lia|]. intros Q. apply Q3. injection Q as Q4 Q5. f_equal; lia.
Qed.

Lemma I_lex : forall i j a b, nth_error I i = Some a -> nth_error I j = Some b -> (i <= j)%nat -> lex_z (src a) (src b) <> Gt.
Proof using D V Polys PI NE II.
  intros i j x y Hi Hj L. destruct (Nat.eq_dec i j) as [->|N].
  { rewrite Hi in Hj. injection Hj as <-. rewrite lex_refl. discriminate. }
  destruct (ss_nth _ _ _ II i j x y Hi Hj) as (C & _); [lia|].
  apply nth_error_In in Hi, Hj. apply kept_seg in Hi, Hj.
  destruct (seg_spec _ _ D _ Hi) as (A1 & _), (seg_spec _ _ D _ Hj) as (B1 & _).
  rewrite (endpoint_cmp_int _ x y _ _ _ _ A1 B1) in C. unfold event_before_z in C. fold (src x) (src y) in C.
  destruct (lex_z (src x) (src y)); discriminate.
Qed.

Lemma I_grouped : grouped I.
Proof using D V Polys PI NE II.
  intros i j k ei ej ek p b b' (L1 & L2) Hi Hj Hk Ei Ek.
  pose proof (I_lex i j ei ej Hi Hj L1) as X1. pose proof (I_lex j k ej ek Hj Hk L2) as X2.
  apply nth_error_In in Hi, Hj, Hk. apply kept_seg in Hi, Hj, Hk.
  destruct (end_once ei p b Hi Ei) as (P1 & _), (end_once ek p b' Hk Ek) as (P2 & _). rewrite <- P1 in X1. rewrite <- P2 in X2.
  exists (dst ej). replace p with (src ej); [now apply end_of|]. apply (lex_squeeze p _ p); auto.
Qed.

(** *** The next side *)

Definition next (d e : bend) : Prop :=
  In e I /\ src e = dst d /\ fst e <> fst d /\ (forall i, face e i = face d i) /\ prior zs S (dst d) (fst d) (fst e).

(** The side leaving [v] along [s]. *)
Definition leave (v : Z * Z) (s : bseg) : bend := (s, if at_left v (eg s) then LeftEnd else RightEnd).

Lemma leave_src : forall v s, here zs S v s -> src (leave v s) = v.
Proof using D.
  intros v s H. destruct (here_cases zs S D v s H) as [(A & Q & _)|(A & Q & _)]; unfold leave, src; rewrite A; exact Q.
Qed.
Lemma src_leave : forall d, In (fst d) S -> d = leave (src d) (fst d).
Proof using D.
  intros [s x] Hs. cbn [fst]. unfold leave, src. cbn [fst snd] in *. destruct (seg_spec _ _ D s Hs) as (_ & _ & L & _). unfold lr in L.
  destruct x; cbn [end_z].
  - replace (at_left _ _) with true; [reflexivity|]. symmetry. now apply same_z_iff.
  - replace (at_left _ _) with false; [reflexivity|]. symmetry. apply same_z_false. intros Q. rewrite Q, lex_refl in L. discriminate.
Qed.
Lemma face_src : forall d i, In (fst d) S -> face d i = cc zs (src d) (fst d) i.
Proof using D.
  intros [s x] i Hs. cbn [fst] in *. unfold face, cc, src. cbn [fst snd]. destruct (seg_spec _ _ D s Hs) as (_ & _ & L & _). unfold lr in L.
  destruct x; cbn [end_z].
  - replace (at_left _ _) with true; [reflexivity|]. symmetry. now apply same_z_iff.
  - replace (at_left _ _) with false; [reflexivity|]. symmetry. apply same_z_false. intros Q. rewrite Q, lex_refl in L. discriminate.
Qed.
Lemma face_dst : forall d i, In (fst d) S -> face d i = cw zs (dst d) (fst d) i.
Proof using D.
  intros [s x] i Hs. cbn [fst] in *. unfold face, cw, dst. cbn [fst snd]. destruct (seg_spec _ _ D s Hs) as (_ & _ & L & _). unfold lr in L.
  destruct x; cbn [other_z].
  - replace (at_left _ _) with false; [reflexivity|]. symmetry. apply same_z_false. intros Q. rewrite Q, lex_refl in L. discriminate.
  - replace (at_left _ _) with true; [reflexivity|]. symmetry. now apply same_z_iff.
Qed.
Lemma here_src : forall d, In (fst d) S -> here zs S (src d) (fst d).
Proof using.
  intros [s x] Hs. split; [exact Hs|]. unfold inc, at_left, at_right, src. cbn [fst snd]. apply orb_true_iff. rewrite !same_z_iff. destruct x; auto.
Qed.
Lemma here_dst : forall d, In (fst d) S -> here zs S (dst d) (fst d).
Proof using.
  intros [s x] Hs. split; [exact Hs|]. unfold inc, at_left, at_right, dst. cbn [fst snd]. apply orb_true_iff. rewrite !same_z_iff. destruct x; auto.
Qed.
(** The other end of a segment, seen from one end. *)
Lemma out_src : forall d, In (fst d) S -> out (src d) (eg (fst d)) = vsub (dst d) (src d).
Proof using D.
  intros [s x] Hs. cbn [fst] in *. unfold out, dst, src. cbn [fst snd]. destruct (seg_spec _ _ D s Hs) as (_ & _ & L & _). unfold lr in L.
  destruct x; cbn [end_z other_z].
  - replace (at_left _ _) with true; [reflexivity|]. symmetry. now apply same_z_iff.
  - replace (at_left _ _) with false; [reflexivity|]. symmetry. apply same_z_false. intros Q. rewrite Q, lex_refl in L. discriminate.
Qed.
Lemma out_dst : forall d, In (fst d) S -> vsub (dst d) (src d) = back (out (dst d) (eg (fst d))).
Proof using D.
  intros [s x] Hs. cbn [fst] in *. unfold out, dst, src. cbn [fst snd]. destruct (seg_spec _ _ D s Hs) as (_ & _ & L & _). unfold lr in L.
  destruct x; cbn [end_z other_z].
  - replace (at_left _ _) with false; [unfold vsub, back, neg2; cbn; f_equal; ring|]. symmetry. apply same_z_false. intros Q. rewrite Q, lex_refl in L. discriminate.
  - replace (at_left _ _) with true; [unfold vsub, back, neg2; cbn; f_equal; ring|]. symmetry. now apply same_z_iff.
Qed.

Lemma next_exists : forall d, In d I -> exists e, next d e.
Proof using D V Polys PI NE.
  intros d Hd. apply kept_iff in Hd as K. destruct K as (Hs & LE & KP).
  assert (St : stop zs S (dst d) (fst d)) by (split; [now apply here_dst|exact LE]).
  destruct (prior_exists zs S D (dst d) (fst d) St) as (u & Su & Nu & P).
  exists (leave (dst d) u). assert (Q : src (leave (dst d) u) = dst d) by (apply leave_src; apply Su).
  assert (Iu : In (fst (leave (dst d) u)) S) by apply Su.
  assert (F : forall i, face (leave (dst d) u) i = face d i).
  { intros i. rewrite (face_src _ i Iu), (face_dst d i Hs), Q. symmetry. now apply (prior_faces zs S D). }
  split; [|auto]. apply kept_iff. split; [exact Iu|]. split; [apply Su|]. revert KP. apply kept_ext. intros i. now rewrite F.
Qed.

Lemma next_once : forall d d' e, In d I -> In d' I -> next d e -> next d' e -> d = d'.
Proof using D V Polys PI NE.
  intros d d' e Hd Hd' (A1 & A2 & A3 & A4 & A5) (B1 & B2 & B3 & B4 & B5). apply kept_iff in Hd, Hd', A1.
  destruct Hd as (Hs & LE & _), Hd' as (Hs' & LE' & _), A1 as (He & LEe & _). rewrite A2 in B2. rewrite <- B2 in B5.
  assert (Q : fst d = fst d').
  { apply (prior_once zs S D (dst d) _ _ (fst e)); auto.
    - split; [now apply here_dst|exact LE].
    - rewrite B2. split; [now apply here_dst|exact LE'].
    - rewrite <- A2. split; [now apply here_src|exact LEe]. }
  destruct d as [s x], d' as [s' x']. cbn [fst] in Q. subst s'. f_equal. unfold dst in B2. cbn [fst snd] in B2.
  destruct (seg_spec _ _ D s Hs) as (_ & _ & L & _). unfold lr in L.
  destruct x, x'; try reflexivity; cbn [other_z] in B2; rewrite B2, lex_refl in L; discriminate.
Qed.

Lemma next_left : forall d e w, In d I -> next d e -> In w I -> src w = dst d -> fst w <> fst d -> w <> e ->
  ~ as_left (vsub (dst d) (src d)) (vsub (dst w) (src w)) (vsub (dst e) (src e)).
Proof using D V Polys PI NE.
  intros d e w Hd (A1 & A2 & A3 & A4 & A5) Hw W1 W2 W3. apply kept_iff in Hd, A1, Hw.
  destruct Hd as (Hs & LE & _), A1 as (He & LEe & _), Hw as (Hsw & LEw & _).
  rewrite (out_dst d Hs), <- (out_src w Hsw), <- (out_src e He). apply turns_left. rewrite W1, A2.
  apply (prior_turns zs S D); auto.
  - split; [now apply here_dst|exact LE].
  - rewrite <- A2. split; [now apply here_src|exact LEe].
  - rewrite <- W1. split; [now apply here_src|exact LEw].
  - intros Q. apply W3. rewrite (src_leave w Hsw), (src_leave e He). now rewrite W1, A2, Q.
Qed.

(** [find_next_segment] finds it, as long as it is open. *)
Lemma next_found : forall ks' d e, length ks' = length S -> In d I -> next d e -> open_end ks' d e ->
  find_next_segment ks' d I = Ok e.
Proof using D V Polys PI II NE Short.
  intros ks' d e Len Hd Ne O. pose proof (kept_seg d Hd) as Hs.
  assert (SH : short (vsub (dst d) (src d))).
  { pose proof I_short as F. rewrite Forall_forall in F. destruct (F d Hd) as ((a & b & H1 & H2) & _). destruct (end_once d a b Hs H1) as (-> & ->). exact H2. }
  pose proof I_short as F. rewrite <- Len in F.
  assert (Ie : In e I) by apply Ne. assert (Es : src e = dst d) by apply Ne.
  destruct (TurnSamples.next_left ks' d _ _ I (end_of d Hs) SH F I_grouped) as (G & _).
  destruct G as (w & b & W1 & W2 & W3 & W4 & W5).
  { exists e, (dst e). split; [exact Ie|]. split; [exact O|]. rewrite <- Es. apply end_of. now apply kept_seg. }
  rewrite W1. f_equal. destruct (end_once w _ _ (kept_seg w W2) W4) as (Q1 & Q2).
  assert (EE : end_at e (dst d) (dst e)) by (rewrite <- Es; apply end_of; now apply kept_seg).
  specialize (W5 e (dst e) Ie O EE).
  destruct (Nat.eq_dec (s_index (fst w)) (s_index (fst e))) as [Q|Q].
  - assert (X : fst w = fst e) by (apply (index_eq _ _ D); auto using kept_seg).
    transitivity (leave (src w) (fst w)); [apply src_leave; now apply kept_seg|]. rewrite X, <- Q1, <- Es.
    symmetry. apply src_leave. now apply kept_seg.
  - exfalso. apply (next_left d e w); auto.
    + intros X. destruct W3 as (W3 & _). apply W3. now rewrite X.
    + congruence.
    + rewrite <- Q2, <- Q1. rewrite Es. exact W5.
Qed.
End Next.
