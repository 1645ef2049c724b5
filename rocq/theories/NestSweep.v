(** The sweep of [compute_holes] over closed lines that do not cross. *)

From Coq Require Import List ZArith QArith Bool Arith Lia Lqa Permutation Sorting.Sorted.
From Verif Require Import Base Float SpecFloat64 SpecShape SpecOrder SpecIntersect SpecHandle SpecTidy SpecOverlay SpecHoles SpecCompute SpecContainers Geometry Sweep
  Contours Compute OrderFacts SweepFacts TidyGeo TidyParity TidySetup TidyLine TidyWinding TidyArea TidyFacts NestGeo NestPlace.
Import ListNotations.
Local Open Scope Z_scope.

(** *** Sorted lists *)

Lemma sorted_app : forall {A} (R : A -> A -> Prop) l r, StronglySorted R (l ++ r) <-> StronglySorted R l /\ StronglySorted R r /\ forall a b, In a l -> In b r -> R a b.
Proof.
  intros A R l r. induction l as [|x l IH]; cbn [app].
  - split; [intros H; split; [constructor|]; split; [exact H|]; intros a b []|tauto].
  - split.
    + intros H. inversion H as [|? ? H1 H2]; subst. apply IH in H1. destruct H1 as (A1 & A2 & A3). rewrite Forall_forall in H2.
      split; [constructor; [exact A1|]; apply Forall_forall; intros y Hy; apply H2, in_or_app; now left|]. split; [exact A2|].
      intros a b [<-|Ha] Hb; [apply H2, in_or_app; now right|auto].
    + intros (A1 & A2 & A3). inversion A1 as [|? ? B1 B2]; subst. constructor.
      * apply IH. split; [exact B1|]. split; [exact A2|]. intros a b Ha. apply A3. now right.
      * apply Forall_forall. intros y Hy. apply in_app_or in Hy. destruct Hy as [Hy|Hy]; [rewrite Forall_forall in B2; auto|apply A3; [now left|exact Hy]].
Qed.

Lemma split_at : forall {A} (R : A -> A -> Prop) (P : A -> bool) l, StronglySorted R l -> (forall a b, In a l -> In b l -> R a b -> P b = true -> P a = true) ->
  exists l1 l2, l = l1 ++ l2 /\ (forall a, In a l1 -> P a = true) /\ forall a, In a l2 -> P a = false.
Proof.
  intros A R P l. induction l as [|x l IH]; intros H C.
  - exists [], []. split; [reflexivity|]. split; intros a [].
  - inversion H as [|? ? H1 H2]; subst. rewrite Forall_forall in H2. destruct (P x) eqn:Q.
    + destruct IH as (l1 & l2 & E & P1 & P2); [exact H1|intros a b Ha Hb; apply C; now right|]. exists (x :: l1), l2. split; [now rewrite E|]. split; [|exact P2].
      intros a [<-|Ha]; auto.
    + exists [], (x :: l). split; [reflexivity|]. split; [intros a []|]. intros a [<-|Ha]; [exact Q|]. apply not_true_iff_false. intros Pa.
      rewrite (C x a) in Q; [discriminate|now left|now right|auto|exact Pa].
Qed.

Lemma strict_sorted : forall {A} (c : A -> A -> comparison) l, strictly_sorted c l <-> StronglySorted (fun a b => c a b = Lt) l.
Proof.
  intros A c l. induction l as [|x l IH]; [split; constructor|]. cbn [strictly_sorted]. rewrite IH. split; [intros [H1 H2]; now constructor|intros H; inversion H; auto].
Qed.
Lemma sorted_map : forall {A B} (f : A -> B) (R : B -> B -> Prop) l, StronglySorted R (map f l) <-> StronglySorted (fun a b => R (f a) (f b)) l.
Proof.
  intros A B f R l. induction l as [|x l IH]; [split; constructor|]. cbn [map]. split; intros H; inversion H as [|? ? H1 H2]; subst; constructor; try now apply IH.
  - rewrite Forall_forall in *. intros y Hy. apply H2. now apply in_map.
  - rewrite Forall_forall in *. intros y Hy. apply in_map_iff in Hy. destruct Hy as (y' & <- & Hy). now apply H2.
Qed.
Lemma sorted_weaken : forall {A} (R Q : A -> A -> Prop) l, (forall a b, In a l -> In b l -> R a b -> Q a b) -> StronglySorted R l -> StronglySorted Q l.
Proof.
  intros A R Q l. induction l as [|x l IH]; intros H W; [constructor|]. inversion W as [|? ? H1 H2]; subst. constructor.
  - apply IH; [intros a b Ha Hb; apply H; now right|exact H1].
  - rewrite Forall_forall in *. intros y Hy. apply H; [now left|now right|auto].
Qed.

Notation hseg := (sseg nat).
Notation hend := (endpoint nat).

Section Sweep.
Variable z : corners.
Notation zs := (map (fun l : list (Z * Z) => [l]) z).
Notation E := (edges zs).
Notation eg := (eg (edges zs)).
Variable S : list bseg.
Hypothesis (D : drawn E S) (F : ForallOrdPairs apart E) (CC : forall i l, nth_error z i = Some l -> goes_once 1 l)
  (NS : forall i j, i <> j -> has_inside z i j \/ has_inside z j i \/ separate z i j).
Notation poly s := (e_poly (eg s)).
Notation L s := (e_left (eg s)).
Notation R s := (e_right (eg s)).

(** The segments that are swept, each drawn from one that is not upright. *)
Variables (T : list hseg) (pr : hseg -> bseg).
Hypothesis (Tin : forall t, In t T -> In (pr t) S /\ sloped (eg (pr t)) /\ seg_z t (L (pr t)) (R (pr t)) /\ s_order t = 0%nat /\ s_data t = poly (pr t)
              /\ s_out t = negb (LS zs (eg (pr t)) (poly (pr t))))
  (Tinj : forall a b, In a T -> In b T -> pr a = pr b \/ s_index a = s_index b -> a = b)
  (Tonto : forall s, In s S -> sloped (eg s) -> exists t, In t T /\ pr t = s).

Lemma eg_inj : forall a b, In a S -> In b S -> eg a = eg b -> a = b.
Proof using D F.
  intros a b Ha Hb Q. apply (index_eq _ _ D); auto. destruct (in_seg _ _ D a Ha) as (_ & A), (in_seg _ _ D b Hb) as (_ & B). rewrite <- Q in B.
  apply (proj1 (NoDup_nth_error E) (edges_nodup z F)); [apply nth_error_Some; congruence|congruence].
Qed.
Lemma ends_neq : forall a b, In a S -> In b S -> a <> b -> same_ends (eg a) (eg b) = false.
Proof using D F.
  intros a b Ha Hb N. apply not_true_iff_false. intros SE. apply N, eg_inj; auto. apply (ends_eq z F); auto; now apply (seg_spec _ _ D).
Qed.

Lemma cmp_t : forall a b, In a T -> In b T -> together E (pr a) (pr b) -> segment_cmp a b = Ok (sc (pr a) (pr b)).
Proof using D F Tin Tinj.
  intros a b Ha Hb Tg. destruct (Tin a Ha) as (A1 & A2 & A3 & _), (Tin b Hb) as (B1 & B2 & B3 & _).
  destruct (Nat.eq_dec (s_index a) (s_index b)) as [I|I].
  - assert (a = b) by (apply Tinj; auto). subst b. unfold sc, segment_cmp. now rewrite !Nat.eqb_refl.
  - assert (N : pr a <> pr b) by (intros Q; apply I; f_equal; apply Tinj; auto).
    pose proof (ends_neq _ _ A1 B1 N) as SE. rewrite (segment_cmp_int _ a b _ _ _ _ A3 B3 I), (not_collinear _ _ D _ _ A1 B1 SE Tg), (sc_apart _ _ D _ _ A1 B1 SE Tg). reflexivity.
Qed.

Lemma ev_t : forall a b : hend, In (fst a) T -> In (fst b) T ->
  cmp_of a b = event_before_z (end_z (L (pr (fst a))) (R (pr (fst a))) (snd a)) (end_z (L (pr (fst b))) (R (pr (fst b))) (snd b)) (snd a) (snd b)
      (other_z (L (pr (fst a))) (R (pr (fst a))) (snd a)) (other_z (L (pr (fst b))) (R (pr (fst b))) (snd b)).
Proof using Tin.
  intros a b Ha Hb. destruct (Tin _ Ha) as (_ & _ & A3 & A4 & _), (Tin _ Hb) as (_ & _ & B3 & B4 & _).
  unfold cmp_of. rewrite (endpoint_cmp_int _ a b _ _ _ _ A3 B3), A4, B4. cbn [Nat.compare]. now destruct (event_before_z _ _ _ _ _ _).
Qed.

Lemma t_lr : forall a b, In a T -> In b T -> cmp_of (a, LeftEnd) (b, RightEnd) = Lt -> lex_z (L (pr a)) (R (pr b)) = Lt.
Proof using Tin.
  intros a b Ha Hb H. rewrite ev_t in H by assumption. unfold event_before_z in H. cbn [fst snd end_z] in H. destruct (lex_z _ _); [discriminate|reflexivity|discriminate].
Qed.
Lemma t_rl : forall a b, In a T -> In b T -> cmp_of (a, RightEnd) (b, LeftEnd) = Lt -> lex_z (R (pr a)) (L (pr b)) <> Gt.
Proof using Tin. intros a b Ha Hb H Q. rewrite ev_t in H by assumption. unfold event_before_z in H. cbn [fst snd end_z] in H. rewrite Q in H. discriminate. Qed.
Lemma t_ll : forall a b, In a T -> In b T -> cmp_of (a, LeftEnd) (b, LeftEnd) = Lt ->
  lex_z (L (pr a)) (L (pr b)) = Lt \/ (L (pr a) = L (pr b) /\ orient (L (pr b)) (R (pr b)) (R (pr a)) < 0).
Proof using Tin.
  intros a b Ha Hb H. rewrite ev_t in H by assumption. unfold event_before_z in H. cbn [fst snd end_z other_z] in H.
  destruct (lex_z _ _) eqn:Q; [right|now left|discriminate]. split; [now apply lex_eq|exact H].
Qed.

Lemma t_strict : forall a b : hend, In (fst a) T -> In (fst b) T -> cmp_of a b = Eq -> a = b.
Proof using D F Tin Tinj.
  intros [a x] [b y] Ha Hb Q. rewrite ev_t in Q by assumption. cbn [fst snd] in *. destruct (Tin a Ha) as (A1 & A2 & A3 & _), (Tin b Hb) as (B1 & B2 & B3 & _).
  pose proof A3 as (_ & _ & LA & _). pose proof B3 as (_ & _ & LB & _). unfold event_before_z in Q.
  destruct (Nat.eq_dec (s_index a) (s_index b)) as [I|I].
  - assert (a = b) by (apply Tinj; auto). subst b. destruct x, y; try reflexivity; exfalso; cbn [end_z] in Q.
    + rewrite LA in Q. discriminate.
    + apply lex_gt in LA. rewrite LA in Q. discriminate.
  - exfalso. assert (N : pr a <> pr b) by (intros N; apply I; f_equal; apply Tinj; auto).
    pose proof (ends_neq _ _ A1 B1 N) as SE.
    destruct (lex_z _ _) eqn:LX in Q; try discriminate. apply lex_eq in LX. destruct x, y; cbn [end_z other_z] in *; try discriminate; apply Z.compare_eq in Q.
    + assert (C := not_collinear _ _ D _ _ B1 A1). rewrite <- LX in C at 1. rewrite LX, Q in C.
      replace (orient (L (pr b)) (R (pr b)) (L (pr b))) with 0 in C by (unfold orient; ring).
      discriminate C; [now rewrite same_sym|]. split; [rewrite <- LX; exact LA|rewrite LX; exact LB].
    + assert (C := not_collinear _ _ D _ _ B1 A1). rewrite LX in C.
      replace (orient (L (pr b)) (R (pr b)) (L (pr a))) with 0 in C by (revert Q; unfold orient; lia).
      replace (orient (L (pr b)) (R (pr b)) (R (pr b))) with 0 in C by (unfold orient; ring).
      discriminate C; [now rewrite same_sym|]. split; [rewrite LX; exact LB|rewrite <- LX; exact LA].
Qed.

Lemma in_both : forall (d : hend), In d (both_ends T) <-> In (fst d) T.
Proof using.
  clear. intros [t x]. unfold both_ends. rewrite in_flat_map. cbn [fst]. split.
  - intros (s & Hs & [Q|[Q|[]]]); injection Q as <- <-; exact Hs.
  - intros H. exists t. split; [exact H|]. destruct x; cbn; auto.
Qed.

Lemma t_sorted : NoDup T -> exists q, Permutation (both_ends T) q /\ increasing endpoint_cmp q.
Proof using D F Tin Tinj.
  intros ND. apply (sort_exists int_event endpoint_cmp cmp_of (endpoint_lawful nat)).
  - apply Forall_forall. intros d H. apply in_both in H. eexists _, _. now apply Tin.
  - clear - ND. unfold both_ends. induction T as [|t l IH]; [constructor|]. inversion ND as [|? ? N1 N2]; subst. cbn [flat_map app].
    assert (G : forall x, ~ In (t, x) (flat_map (fun s : hseg => [(s, LeftEnd); (s, RightEnd)]) l)).
    { intros x H. apply in_flat_map in H. destruct H as (s & Hs & [Q|[Q|[]]]); injection Q as -> _; contradiction. }
    constructor; [intros [Q|Q]; [discriminate|exact (G _ Q)]|]. constructor; [apply G|]. now apply IH.
  - intros a b Ha Hb. apply in_both in Ha, Hb. now apply t_strict.
Qed.

(** *** While sweeping: [q] is still to come *)

Section Queue.
Variables (d q : list hend).
Hypothesis (QP : Permutation (both_ends T) (d ++ q)) (QS : increasing endpoint_cmp (d ++ q)).

Lemma q_in : forall a, In a (d ++ q) <-> In (fst a) T.
Proof using QP. intros a. rewrite <- in_both. split; apply Permutation_in; [now apply Permutation_sym|exact QP]. Qed.
Lemma q_lt : forall a b, In a d -> In b q -> cmp_of a b = Lt.
Proof using QS. intros a b Ha Hb. apply sorted_app in QS. destruct QS as (_ & _ & H). unfold cmp_of. now rewrite (proj1 (H a b Ha Hb)). Qed.
Lemma q_or : forall a, In (fst a) T -> In a d \/ In a q.
Proof using QP. intros a H. apply q_in in H. now apply in_app_or. Qed.
Lemma q_not : forall a, In (fst a) T -> In a d -> ~ In a q.
Proof using QP QS Tin.
  intros a Ha H1 H2. pose proof (q_lt a a H1 H2) as Q. destruct (Tin _ Ha) as (_ & _ & A3 & _). unfold cmp_of in Q.
  rewrite (endpoint_cmp_int _ a a _ _ _ _ A3 A3) in Q. unfold event_before_z in Q. rewrite lex_refl, Nat.compare_refl in Q.
  destruct (snd a); cbn [end_z other_z cmp_then] in Q.
  - replace (orient (L (pr (fst a))) (R (pr (fst a))) (R (pr (fst a)))) with 0 in Q by (unfold orient; ring). discriminate.
  - replace (orient (R (pr (fst a))) (L (pr (fst a))) (L (pr (fst a)))) with 0 in Q by (unfold orient; ring). discriminate.
Qed.

(** The active segments are those begun and not ended, in order. *)
Definition line (act : list hseg) : Prop :=
  strictly_sorted sc (map pr act) /\ forall t, In t act <-> In t T /\ In (t, LeftEnd) d /\ In (t, RightEnd) q.

Lemma line_together : forall act a b, line act -> In a act -> In b act -> together E (pr a) (pr b).
Proof using QS Tin.
  intros act a b (_ & H) Ha Hb. apply H in Ha, Hb. destruct Ha as (A1 & A2 & A3), Hb as (B1 & B2 & B3). split; apply t_lr; auto; now apply q_lt.
Qed.
Lemma line_cmp : forall act a b, line act -> In a act -> In b act -> segment_cmp a b = Ok (sc (pr a) (pr b)).
Proof using QS D F Tin Tinj. intros act a b H Ha Hb. apply cmp_t; [now apply (proj2 H)..|]. now apply (line_together act). Qed.
Lemma line_increasing : forall act, line act -> increasing segment_cmp act.
Proof using QS D F Tin Tinj.
  intros act H. pose proof (proj1 H) as SS. apply strict_sorted, (sorted_map pr) in SS. revert SS. apply sorted_weaken. intros a b Ha Hb Q.
  rewrite !(line_cmp act) by auto. rewrite Q. split; [reflexivity|]. f_equal. rewrite (sc_anti _ _ D (pr a) (pr b)), Q; [reflexivity|apply Tin; now apply (proj2 H)..].
Qed.
End Queue.

(** A segment starts. *)
Section Start.
Variables (d q : list hend) (s : hseg) (act : list hseg).
Hypothesis (QP : Permutation (both_ends T) (d ++ (s, LeftEnd) :: q)) (QS : increasing endpoint_cmp (d ++ (s, LeftEnd) :: q)) (Ln : line d ((s, LeftEnd) :: q) act).

Lemma s_in : In s T.
Proof using QP. apply (q_in d _ QP (s, LeftEnd)). apply in_or_app. right. now left. Qed.
Lemma s_new : ~ In (s, LeftEnd) d.
Proof using QP QS Tin. intros H. apply (q_not d _ QP QS (s, LeftEnd) s_in H). now left. Qed.
Lemma s_inactive : ~ In s act.
Proof using QP QS Tin Ln. intros H. apply Ln in H. apply s_new. tauto. Qed.
Lemma q_after : forall b, In b q -> cmp_of (s, LeftEnd) b = Lt.
Proof using QS.
  intros b Hb. apply sorted_app in QS. destruct QS as (_ & H & _). inversion H as [|? ? _ H1]; subst. rewrite Forall_forall in H1. unfold cmp_of. now rewrite (proj1 (H1 b Hb)).
Qed.

Let Ss : In (pr s) S := proj1 (Tin s s_in).

Lemma act_al : forall a, In a (map pr act) -> alive E S (L (pr s)) a /\ a <> pr s
  /\ (L a = L (pr s) -> (0 <= orient (L (pr s)) (R a) (R (pr s)))%Z /\ (R a = R (pr s) -> (poly a < poly (pr s))%nat)).
Proof using QP QS Tin Ln Tinj D F.
  intros a' Ha'. apply in_map_iff in Ha'. destruct Ha' as (a & <- & Ha). assert (Na : a <> s) by (intros ->; exact (s_inactive Ha)).
  apply Ln in Ha. destruct Ha as (A1 & A2 & A3). destruct (Tin a A1) as (Ia & _). assert (Np : pr a <> pr s) by (intros Q; apply Na, Tinj; auto using s_in).
  pose proof (q_lt d _ QS _ _ A2 (or_introl eq_refl)) as C1. destruct A3 as [A3|A3]; [discriminate|]. pose proof (q_after _ A3) as C2.
  apply t_ll in C1; auto using s_in. apply t_lr in C2; auto using s_in. split; [|split; [exact Np|]].
  - split; [exact Ia|]. split; [|exact C2]. destruct C1 as [C1|[C1 _]].
    + intros X. apply lex_gt in X. rewrite lex_anti in X. rewrite lex_anti in C1. destruct (lex_z (L (pr s)) (L (pr a))); discriminate.
    + rewrite C1, lex_refl. discriminate.
  - intros Q. rewrite Q, lex_refl in C1. destruct C1 as [C1|[_ C1]]; [discriminate|].
    assert (O : orient (L (pr s)) (R (pr a)) (R (pr s)) = (- orient (L (pr s)) (R (pr s)) (R (pr a)))%Z) by (unfold orient; ring).
    split; [lia|]. intros QR. rewrite QR in C1. unfold orient in C1. lia.
Qed.

Lemma act_full : forall a, In a S -> under (eg a) (eg (pr s)) = true -> In a (map pr act).
Proof using QP QS Tin Ln Tinj Tonto D F.
  intros a Ia U. pose proof (start_alive zs S D _ _ Ss eq_refl) as As. destruct (under_alive _ _ D _ _ As eq_refl a Ia U) as ((_ & A1 & A2) & SE & C).
  pose proof U as U'. apply under_iff in U'. destruct U' as [[U1 U2] _]. assert (La : lr (eg a)) by now apply (seg_spec _ _ D). pose proof (lr_sloped _ _ La U1 U2) as Sa.
  destruct (Tonto a Ia Sa) as (t & Ht & Pt). subst a. apply in_map, Ln. split; [exact Ht|]. split.
  - destruct (q_or d _ QP (t, LeftEnd) Ht) as [H|[H|H]]; [exact H| |].
    + injection H as <-. exfalso. unfold same_ends in SE. rewrite !lex_refl in SE. discriminate.
    + exfalso. pose proof (q_after _ H) as M. apply t_ll in M; auto using s_in. destruct M as [M|[M1 M2]]; [contradiction|].
      rewrite (sc_apart _ _ D _ _ Ia Ss SE) in C by (apply (alive_together E S (L (pr s))); [now split|exact As]).
      rewrite M1, lex_refl in C. destruct (Z.ltb_spec 0 (orient (L (pr t)) (R (pr t)) (R (pr s)))) as [O|O]; [lia|discriminate].
  - destruct (q_or d _ QP (t, RightEnd) Ht) as [H|H]; [exfalso|exact H].
    apply (t_rl t s Ht s_in); [apply (q_lt d _ QS _ _ H); now left|]. now apply lex_gt.
Qed.
Lemma act_same : forall a, In a S -> same_ends (eg a) (eg (pr s)) = true -> (poly a < poly (pr s))%nat -> In a (map pr act).
Proof using QP Tin Tinj Tonto D F.
  intros a Ia SE P. exfalso. apply (ends_eq z F) in SE; [rewrite SE in P; lia|now apply (seg_spec _ _ D)..].
Qed.

Let SS : strictly_sorted sc (map pr act) := proj1 Ln.

Lemma place : exists l r, act = l ++ r /\ line (d ++ [(s, LeftEnd)]) q (l ++ s :: r) /\ increasing segment_cmp (l ++ s :: r)
  /\ ((l = [] /\ forall i, RS zs (eg (pr s)) i = false) \/ (exists l' y, l = l' ++ [y] /\ forall i, RS zs (eg (pr s)) i = LS zs (eg (pr y)) i)).
Proof using QP QS Tin Ln Tinj Tonto D F.
  assert (Al : forall a, In a act -> alive E S (L (pr s)) (pr a) /\ pr a <> pr s) by (intros a Ha; apply (in_map pr) in Ha; apply act_al in Ha; tauto).
  assert (InT : forall a, In a act -> In a T) by (intros a Ha; now apply Ln).
  assert (InS : forall a, In a act -> In (pr a) S) by (intros a Ha; apply Tin; auto).
  pose proof SS as SO. apply strict_sorted, (sorted_map pr) in SO.
  destruct (split_at _ (fun a => match sc (pr a) (pr s) with Lt => true | _ => false end) act SO) as (l & r & Q & P1 & P2).
  { intros a b Ha Hb C Pb. destruct (sc (pr b) (pr s)) eqn:Cb; try discriminate.
    now rewrite (prefix_step zs S D (L (pr s)) (pr s) (map pr act) Ss eq_refl act_al (pr a) (pr b) (in_map pr _ _ Ha) (in_map pr _ _ Hb) C Cb). }
  assert (Lo : forall a, In a l -> sc (pr a) (pr s) = Lt) by (intros a Ha; apply P1 in Ha; now destruct (sc (pr a) (pr s))).
  assert (Hi : forall a, In a r -> sc (pr s) (pr a) = Lt).
  { intros a Ha. assert (Ia : In a act) by (rewrite Q; apply in_or_app; now right). specialize (P2 a Ha). rewrite (sc_anti _ _ D (pr a) (pr s)) by auto.
    destruct (sc (pr a) (pr s)) eqn:C; try discriminate; [|reflexivity]. exfalso. apply (sc_eq _ _ D) in C; auto. now apply (Al a Ia). }
  assert (SN : StronglySorted (fun a b => sc (pr a) (pr b) = Lt) (l ++ s :: r)).
  { rewrite Q in SO. apply sorted_app in SO. destruct SO as (S1 & S2 & S3). apply sorted_app. split; [exact S1|]. split.
    - constructor; [exact S2|]. now apply Forall_forall.
    - intros a b Ha [<-|Hb]; auto. }
  assert (LN : line (d ++ [(s, LeftEnd)]) q (l ++ s :: r)).
  { split; [now apply strict_sorted, (sorted_map pr)|]. intros t.
    assert (IQ : In t (l ++ s :: r) <-> t = s \/ In t act) by (rewrite Q, !in_app_iff; cbn [In]; intuition). rewrite IQ, in_app_iff. cbn [In]. split.
    - intros [->|Ht].
      + split; [exact s_in|]. split; [right; now left|]. destruct (q_or d _ QP (s, RightEnd) s_in) as [H|[H|H]]; [exfalso|discriminate|exact H].
        apply (t_rl s s s_in s_in); [apply (q_lt d _ QS _ _ H); now left|]. apply lex_gt. now apply (seg_spec _ _ D).
      + apply Ln in Ht. destruct Ht as (A1 & A2 & [A3|A3]); [discriminate|]. auto.
    - intros (A1 & [A2|[A2|[]]] & A3); [right; apply Ln; split; [exact A1|]; split; [exact A2|now right]|left; congruence]. }
  assert (QS' : increasing endpoint_cmp ((d ++ [(s, LeftEnd)]) ++ q)) by (rewrite <- app_assoc; exact QS).
  exists l, r. split; [exact Q|]. split; [exact LN|]. split; [now apply (line_increasing _ _ QS')|].
  pose proof (facing zs S D (L (pr s)) (pr s) (map pr act) Ss eq_refl act_al act_full act_same SS (pr s)) as Fa.
  assert (SE : same_ends (eg (pr s)) (eg (pr s)) = true) by (unfold same_ends; now rewrite !lex_refl).
  destruct (list_eq_dec Nat.eq_dec (map (fun _ => 0%nat) l) []) as [N|N].
  - left. assert (l = []) as -> by (now destruct l). split; [reflexivity|]. apply (Fa None (or_introl eq_refl) SE).
    intros y [<-|Hy]; [rewrite sc_refl; discriminate|]. apply in_map_iff in Hy. destruct Hy as (a & <- & Ha). rewrite Q in Ha. cbn [app] in Ha.
    specialize (P2 a Ha). destruct (sc (pr a) (pr s)); discriminate.
  - right. assert (Nl : l <> []) by (intros ->; now apply N). destruct (exists_last Nl) as (l' & y & ->). exists l', y. split; [reflexivity|].
    assert (Iy : In y act) by (rewrite Q; apply in_or_app; left; apply in_or_app; right; now left).
    specialize (Fa (Some (pr y)) (or_introl eq_refl) SE). cbn beta iota in Fa. destruct Fa as (Fa & _).
    + split; [right; now apply in_map|]. split; [apply Lo, in_or_app; right; now left|]. intros b [<-|Hb] Cb; [rewrite sc_refl in Cb; discriminate|].
      apply in_map_iff in Hb. destruct Hb as (a & <- & Ha). pose proof Ha as Ha'. rewrite Q in Ha'. apply in_app_or in Ha'. destruct Ha' as [Ha'|Ha'].
      * apply in_app_or in Ha'. destruct Ha' as [Ha'|[<-|[]]]; [|rewrite sc_refl; discriminate].
        apply sorted_app in SN. destruct SN as (SN & _ & _). apply sorted_app in SN. destruct SN as (_ & _ & SN). rewrite (SN a y Ha' (or_introl eq_refl)). discriminate.
      * specialize (P2 a Ha'). rewrite Cb in P2. discriminate.
    + intros i. rewrite Fa. now rewrite (ends_neq _ _ (InS y Iy) Ss (proj2 (Al y Iy))).
Qed.

(** Nothing of a contour that has not begun lies below. *)
Lemma not_begun : (forall t, In t act -> s_data t <> s_data s) -> RS zs (eg (pr s)) (s_data s) = false.
Proof using QP QS Tin Ln Tinj Tonto D F.
  intros H. apply parity_false. intros e He. destruct (edge_seg _ _ D e He) as (a & Ia & <-). apply not_true_iff_false. intros Q. apply andb_true_iff in Q. destruct Q as (Q1 & Q2).
  pose proof (act_full a Ia Q2) as Ha. apply in_map_iff in Ha. destruct Ha as (t & <- & Ht). apply (H t Ht). unfold of_poly in Q1. apply Nat.eqb_eq in Q1.
  assert (It : In t T) by now apply Ln. destruct (Tin t It) as (_ & _ & _ & _ & B & _). congruence.
Qed.
End Start.

(** A segment ends. *)
Lemma leave : forall d q s act, Permutation (both_ends T) (d ++ (s, RightEnd) :: q) -> increasing endpoint_cmp (d ++ (s, RightEnd) :: q) -> line d ((s, RightEnd) :: q) act ->
  exists l r, act = l ++ s :: r /\ line (d ++ [(s, RightEnd)]) q (l ++ r) /\ increasing segment_cmp act.
Proof using Tin Tinj D F.
  intros d q s act QP QS Ln. assert (Is : In s T) by (apply (q_in d _ QP (s, RightEnd)), in_or_app; right; now left).
  assert (Ha : In s act).
  { apply Ln. split; [exact Is|]. split; [|now left]. destruct (q_or d _ QP (s, LeftEnd) Is) as [H|[H|H]]; [exact H|discriminate|exfalso].
    apply sorted_app in QS. destruct QS as (_ & W & _). inversion W as [|? ? _ W1]; subst. rewrite Forall_forall in W1. destruct (W1 _ H) as (W2 & _).
    apply (t_rl s s Is Is); [unfold cmp_of; now rewrite W2|]. apply lex_gt. apply (seg_spec _ _ D). now apply Tin. }
  pose proof (line_increasing _ _ QS act Ln) as IN. destruct (in_split _ _ Ha) as (l & r & Q). exists l, r. split; [exact Q|]. split; [|exact IN].
  assert (NA : ~ In (s, RightEnd) q).
  { intros H. assert (QP' : Permutation (both_ends T) ((d ++ [(s, RightEnd)]) ++ q)) by (rewrite <- app_assoc; exact QP).
    assert (QS' : increasing endpoint_cmp ((d ++ [(s, RightEnd)]) ++ q)) by (rewrite <- app_assoc; exact QS).
    apply (q_not _ _ QP' QS' (s, RightEnd) Is); [apply in_or_app; right; now left|exact H]. }
  split.
  - pose proof (proj1 Ln) as W. apply strict_sorted, (sorted_map pr) in W. apply strict_sorted, (sorted_map pr). rewrite Q in W. apply sorted_app in W. destruct W as (W1 & W2 & W3).
    inversion W2 as [|? ? W4 W5]; subst. apply sorted_app. split; [exact W1|]. split; [exact W4|]. intros a b Ha' Hb. apply W3; [exact Ha'|now right].
  - intros t. assert (Ns : forall t, In t (l ++ r) -> t <> s).
    { intros t' Ht ->. pose proof (proj1 Ln) as W. apply strict_sorted, (sorted_map pr) in W. rewrite Q in W. apply sorted_app in W. destruct W as (_ & W2 & W3).
      inversion W2 as [|? ? _ W5]; subst. rewrite Forall_forall in W5. apply in_app_or in Ht. destruct Ht as [Ht|Ht].
      - specialize (W3 s s Ht (or_introl eq_refl)). rewrite sc_refl in W3. discriminate.
      - specialize (W5 s Ht). rewrite sc_refl in W5. discriminate. }
    assert (IQ : In t (l ++ r) <-> In t act /\ t <> s).
    { rewrite Q. split; [intros H; split; [|auto]; rewrite in_app_iff in *; cbn [In]; tauto|]. rewrite !in_app_iff. cbn [In]. intuition congruence. }
    rewrite IQ, in_app_iff. pose proof (proj2 Ln t) as W. rewrite W. cbn [In]. split.
    + intros ((A1 & A2 & [A3|A3]) & A4); [congruence|]. auto.
    + intros (A1 & [A2|[A2|[]]] & A3); [|discriminate]. split; [auto|]. intros ->. contradiction.
Qed.

End Sweep.
