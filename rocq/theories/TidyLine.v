(** The sweep line over tidy polygons: what lies below a segment that starts. *)

From Coq Require Import List ZArith QArith Bool Arith Lia Lqa.
From Verif Require Import Base Float SpecShape SpecOrder SpecIntersect SpecHandle SpecTidy SpecContainers Geometry Sweep
  Contours Compute OrderFacts ContainerFacts TidyGeo TidyParity TidySetup.
Import ListNotations.

(** *** Sorted lists *)

Section Sorted.
Variables (A : Type) (c : A -> A -> comparison) (P : A -> Prop).
Hypothesis (anti : forall a b, P a -> P b -> c b a = CompOpp (c a b)) (eqs : forall a b, P a -> P b -> c a b = Eq -> a = b)
  (refl : forall a, c a a = Eq).

Lemma sorted_nth : forall l i j a b, strictly_sorted c l -> nth_error l i = Some a -> nth_error l j = Some b -> (i < j)%nat -> c a b = Lt.
Proof using.
  clear. induction l as [|x l IH]; intros i j a b H Hi Hj L; [now destruct i|]. destruct H as [H1 H2]. destruct j as [|j]; [lia|].
  destruct i as [|i]; cbn in Hi, Hj.
  - inversion Hi; subst. rewrite Forall_forall in H1. apply H1. eapply nth_error_In; eassumption.
  - apply (IH i j); auto. lia.
Qed.

Lemma sorted_pos : forall l i j a b, strictly_sorted c l -> Forall P l -> nth_error l i = Some a -> nth_error l j = Some b ->
  c a b = Lt -> (i < j)%nat.
Proof using anti eqs refl.
  intros l i j a b H HP Hi Hj C. destruct (lt_eq_lt_dec i j) as [[L|L]|L]; [exact L| |].
  - subst j. assert (a = b) by congruence. subst. rewrite refl in C. discriminate.
  - pose proof (sorted_nth l j i b a H Hj Hi L) as C'. rewrite Forall_forall in HP. apply nth_error_In in Hi, Hj.
    rewrite anti, C in C' by auto. discriminate.
Qed.

Lemma sorted_trans : forall l a b d, strictly_sorted c l -> Forall P l -> In a l -> In b l -> In d l ->
  c a b = Lt -> c b d = Lt -> c a d = Lt.
Proof using anti eqs refl.
  intros l a b d H HP Ha Hb Hd C1 C2. apply In_nth_error in Ha, Hb, Hd. destruct Ha as [i Ha], Hb as [j Hb], Hd as [k Hd].
  pose proof (sorted_pos l i j a b H HP Ha Hb C1). pose proof (sorted_pos l j k b d H HP Hb Hd C2).
  apply (sorted_nth l i k); auto. lia.
Qed.

Lemma lawful_of_lt : forall (Q : A -> Prop) cmp, (forall a, Q a -> P a) -> (forall a b, P a -> P b -> cmp a b = Ok (c a b)) ->
  (forall a b d, Q a -> Q b -> Q d -> c a b = Lt -> c b d = Lt -> c a d = Lt) -> lawful Q cmp c.
Proof using anti eqs.
  intros Q cmp QP Hc T. split; [|split].
  - auto.
  - auto.
  - intros a b d Ha Hb Hd C1 C2.
    destruct (c a b) eqn:E1; [apply eqs in E1; auto; now subst| |congruence].
    destruct (c b d) eqn:E2; [apply eqs in E2; auto; subst; rewrite E1; discriminate| |congruence].
    rewrite (T a b d) by auto. discriminate.
Qed.

Lemma lawful_list : forall l cmp, strictly_sorted c l -> Forall P l -> (forall a b, P a -> P b -> cmp a b = Ok (c a b)) ->
  lawful (fun x => In x l) cmp c.
Proof using anti eqs refl.
  intros l cmp H HP Hc. apply lawful_of_lt; auto.
  - intros a Ha. rewrite Forall_forall in HP. auto.
  - intros a b d Ha Hb Hd. now apply (sorted_trans l).
Qed.

Lemma lawful_add : forall l s cmp, strictly_sorted c l -> Forall P l -> P s -> (forall a b, P a -> P b -> cmp a b = Ok (c a b)) ->
  ~ In s l -> (forall a b, In a l -> In b l -> c a b = Lt -> c b s = Lt -> c a s = Lt) ->
  lawful (fun x => x = s \/ In x l) cmp c.
Proof using anti eqs refl.
  intros l s cmp H HP Ps Hc N T. assert (HP' : forall x, In x l -> P x) by (now apply Forall_forall).
  apply lawful_of_lt; auto.
  - intros a [->|Ha]; auto.
  - intros a b d Ha Hb Hd C1 C2.
    assert (NE : a <> d).
    { intros ->. assert (P b) by (destruct Hb; subst; auto). assert (P d) by (destruct Hd; subst; auto).
      rewrite (anti d b), C1 in C2 by auto. discriminate. }
    destruct Ha as [->|Ha], Hb as [->|Hb], Hd as [->|Hd]; try congruence.
    + destruct (c s d) eqn:E1; [apply eqs in E1; auto; congruence|reflexivity|exfalso].
      assert (E2 : c d s = Lt) by (rewrite (anti s d), E1 by auto; reflexivity).
      pose proof (T b d Hb Hd C2 E2) as E3. rewrite (anti s b), C1 in E3 by auto. discriminate.
    + destruct (c a d) eqn:E1; [apply eqs in E1; auto; congruence|reflexivity|exfalso].
      assert (E2 : c d a = Lt) by (rewrite (anti a d), E1 by auto; reflexivity).
      pose proof (T d a Hd Ha E2 C1) as E3. rewrite (anti s d), C2 in E3 by auto. discriminate.
    + now apply (T a b).
    + now apply (sorted_trans l a b d).
Qed.
End Sorted.

(** *** What is below *)

Section Line.
Variables (zs : list corners) (S : list bseg).
Notation E := (edges zs).
Hypothesis D : drawn E S.
Notation eg := (eg E).
Notation L s := (e_left (eg s)).
Notation R s := (e_right (eg s)).
Notation poly s := (e_poly (eg s)).

(** Whether polygon [i] is just below the edge; and, counting it and those of the edges
    along it that are of earlier polygons, just above. *)
Definition RS (e : edge) (i : nat) : bool := parity (fun f => of_poly i f && under f e) E.
Definition ST (e : edge) (i : nat) : bool := parity (fun f => of_poly i f && (same_ends f e && (e_poly f <=? e_poly e)%nat)) E.
Definition LS (e : edge) (i : nat) : bool := xorb (RS e i) (ST e i).

Lemma own_parity : forall t i, In t S ->
  parity (fun f => of_poly i f && (same_ends f (eg t) && (e_poly f =? poly t)%nat)) E = (i =? poly t)%nat.
Proof using D.
  intros t i Ht. destruct (in_seg _ _ D t Ht) as [_ N]. destruct (nth_error_split _ _ N) as (E1 & E2 & EE & LE).
  assert (F : forall k f, nth_error E k = Some f -> k <> s_index t -> same_ends f (eg t) && (e_poly f =? poly t)%nat = false).
  { intros k f Hf Nk. apply not_true_iff_false. rewrite andb_true_iff, Nat.eqb_eq. intros [SE P].
    destruct (dr_pairs _ _ D _ _ _ _ Hf N Nk) as [C|A].
    - destruct C as (_ & _ & C). contradiction.
    - apply apart_ends in A; [congruence|]. apply (edges_lr zs 0). eapply nth_error_In; eassumption. }
  etransitivity; [exact (f_equal (parity _) EE)|]. rewrite parity_app, parity_cons.
  rewrite (parity_false _ E1), (parity_false _ E2).
  - unfold same_ends. rewrite !lex_refl, Nat.eqb_refl. cbn [andb]. rewrite andb_true_r, xorb_false_r. unfold of_poly. rewrite xorb_false_l. apply Nat.eqb_sym.
  - intros f Hf. apply In_nth_error in Hf. destruct Hf as [k Hf]. rewrite (F (Datatypes.S (length E1 + k)) f), andb_false_r; [reflexivity| |lia].
    etransitivity; [exact (f_equal (fun l => nth_error l _) EE)|]. rewrite nth_error_app2 by lia. replace (Datatypes.S (length E1 + k) - length E1)%nat with (Datatypes.S k) by lia. exact Hf.
  - intros f Hf. apply In_nth_error in Hf. destruct Hf as [k Hf].
    assert (Hk : (k < length E1)%nat) by (apply nth_error_Some; congruence).
    rewrite (F k f), andb_false_r; [reflexivity| |lia]. etransitivity; [exact (f_equal (fun l => nth_error l _) EE)|]. rewrite nth_error_app1 by lia. exact Hf.
Qed.

Lemma RS_same : forall e f i, same_ends e f = true -> RS e i = RS f i.
Proof using.
  intros e f i H. apply same_ends_iff in H. destruct H as [H1 H2]. unfold RS. apply parity_and_ext. intros g _. unfold under. now rewrite H1, H2.
Qed.

Lemma lower_under : forall p t a b, alive E S p t -> L t = p -> alive E S p a -> alive E S p b ->
  under (eg a) (eg t) = true -> under (eg b) (eg t) = true -> same_ends (eg a) (eg b) = false -> sc a b = Lt ->
  lower_at (eg t) (eg a) (eg b).
Proof using D.
  intros p t a b At Lt' Aa Ab Ua Ub SE C. apply under_iff in Ua, Ub. destruct Ua as [[U1 U2] _], Ub as [[V1 V2] _].
  assert (La : lr (eg a)) by (apply (seg_spec _ _ D), Aa). assert (Lb : lr (eg b)) by (apply (seg_spec _ _ D), Ab).
  pose proof (lr_sloped _ _ La U1 U2) as Sa. pose proof (lr_sloped _ _ Lb V1 V2) as Sb.
  destruct (lower_here _ _ D p t At Lt' a b Aa Ab Sa Sb SE C) as (_ & H & _). unfold lower_at. rewrite <- Lt' in H. apply H; assumption.
Qed.

(** A segment starts. *)
Section Start.
Variables (p : Z * Z) (s : bseg) (l : list bseg).
Hypothesis (Is : In s S) (Ls : L s = p)
  (Al : forall a, In a l -> alive E S p a /\ a <> s
          /\ (L a = p -> (0 <= orient p (R a) (R s))%Z /\ (R a = R s -> (poly a < poly s)%nat)))
  (Full : forall a, In a S -> under (eg a) (eg s) = true -> In a l)
  (Same : forall a, In a S -> same_ends (eg a) (eg s) = true -> (poly a < poly s)%nat -> In a l)
  (Sorted : strictly_sorted sc l).

Lemma start_alive : alive E S p s.
Proof using D Is Ls.
  split; [exact Is|]. destruct (seg_spec _ _ D s Is) as (_ & _ & H & _). unfold lr in H. rewrite Ls in *. split; [rewrite lex_refl; discriminate|exact H].
Qed.
Lemma start_in : forall a, In a l -> In a S.
Proof using Al. intros a Ha. apply Al in Ha. apply Ha. Qed.

Lemma first_lower : forall a, In a l -> L a = p -> same_ends (eg a) (eg s) = false -> sc a s = Lt.
Proof using D Is Ls Al.
  clear Full Same Sorted. intros a Ha La SE. destruct (Al a Ha) as (A1 & A2 & A3). destruct (A3 La) as [O _].
  pose proof (alive_together E S p a s A1 start_alive) as T.
  pose proof (not_collinear _ _ D a s (start_in a Ha) Is SE T) as NC.
  rewrite (sc_apart _ _ D a s) by auto using start_in. rewrite La, Ls, lex_refl in *.
  replace (orient p (R a) p) with 0%Z in NC by (unfold orient; ring). cbn in NC. apply Z.eqb_neq in NC.
  destruct (Z.ltb_spec 0 (orient p (R a) (R s))); [reflexivity|lia].
Qed.

Lemma same_lower : forall a, In a l -> same_ends (eg a) (eg s) = true -> (poly a < poly s)%nat /\ sc a s = Lt.
Proof using D Is Ls Al.
  clear Full Same Sorted. intros a Ha SE. destruct (Al a Ha) as (A1 & A2 & A3).
  pose proof SE as SE'. apply same_ends_iff in SE'. destruct SE' as [S1 S2].
  assert (P : (poly a < poly s)%nat) by (apply A3; congruence). split; [exact P|].
  rewrite (sc_same _ _ D a s) by auto using start_in. now apply Nat.compare_lt_iff.
Qed.

Lemma prefix_step : forall a b, In a l -> In b l -> sc a b = Lt -> sc b s = Lt -> sc a s = Lt.
Proof using D Is Ls Al.
  clear Full Same Sorted. intros a b Ha Hb C1 C2. destruct (Al a Ha) as (A1 & A2 & _). destruct (Al b Hb) as (B1 & B2 & _).
  pose proof (start_in a Ha) as Ia. pose proof (start_in b Hb) as Ib. pose proof start_alive as As.
  pose proof (alive_together E S p a s A1 As) as Tas. pose proof (alive_together E S p b s B1 As) as Tbs.
  pose proof (alive_together E S p a b A1 B1) as Tab. pose proof (sc_lt_neq a b C1) as Nab.
  destruct (same_ends (eg a) (eg s)) eqn:Eas; [now apply same_lower|].
  destruct (same_ends (eg b) (eg s)) eqn:Ebs.
  { (* [b] is along [s] *)
    assert (Eab : same_ends (eg b) (eg a) = false) by (rewrite (same_trans _ _ (eg a) Ebs), same_sym; exact Eas).
    assert (Q : sc b a = sc s a) by (apply (sc_like _ _ D); auto; now destruct Tab).
    assert (Q' : sc s a = Gt) by (rewrite <- Q, (sc_anti _ _ D a b), C1 by auto; reflexivity).
    rewrite (sc_anti _ _ D s a), Q' by auto. reflexivity. }
  destruct (same_ends (eg a) (eg b)) eqn:Eab.
  { rewrite (sc_like _ _ D a b s) by auto. exact C2. }
  destruct (upright_here _ _ D p s As Ls a A1) as [Sa|Q]; [|now apply first_lower].
  pose proof (under_here _ _ D p s As Ls b B1 Ebs C2) as Ub. apply under_iff in Ub. destruct Ub as [[V1 V2] V3].
  assert (Lb : lr (eg b)) by (apply (seg_spec _ _ D), Ib). pose proof (lr_sloped _ _ Lb V1 V2) as Sb.
  destruct (lower_here _ _ D p s As Ls a b A1 B1 Sa Sb Eab C1) as ((X1 & X2 & X3 & X4 & LE) & _ & ST').
  rewrite Ls in V1, V2, V3.
  assert (DD : L a = p \/ L a <> p).
  { destruct (lex_z (L a) p) eqn:EL; [left; now apply lex_eq|right; intros Q; rewrite Q, lex_refl in EL; discriminate..]. }
  destruct DD as [Q|Q]; [now apply first_lower|].
  assert (LT : (yat (eg a) (inject_Z (fst p)) < inject_Z (snd p))%Q).
  { destruct V3 as [V3|[V3 _]]; [lra|]. specialize (ST' V3 Q).
    assert (YB : (yat (eg b) (inject_Z (fst p)) == inject_Z (snd p))%Q) by (rewrite <- V3; apply yat_left). lra. }
  apply (orient_above (eg a) p Sa) in LT.
  rewrite (sc_apart _ _ D a s) by auto. rewrite Ls. destruct A1 as (_ & A1 & _). destruct (lex_z (L a) p) eqn:EL.
  - apply lex_eq in EL. contradiction.
  - apply Z.ltb_lt in LT. now rewrite LT.
  - apply lex_gt in EL. contradiction.
Qed.

Lemma line_forall : Forall (fun x => In x S) l.
Proof using Al. apply Forall_forall. apply start_in. Qed.

Lemma start_lawful : lawful (fun x => x = s \/ In x l) segment_cmp sc.
Proof using D Is Ls Al Sorted.
  apply (lawful_add _ sc (fun x => In x S)); auto using line_forall, (sc_anti _ _ D), (sc_eq _ _ D), sc_refl, (sc_ok _ _ D).
  - intros H. apply Al in H. tauto.
  - exact prefix_step.
Qed.

Lemma in_line_cases : forall a, In a S -> (under (eg a) (eg s) = true \/ (same_ends (eg a) (eg s) = true /\ (poly a < poly s)%nat)) -> In a l.
Proof using Full Same. intros a Ia [H|[H1 H2]]; auto. Qed.

(** For the new segment, and those along it. *)
Lemma facing : forall t r, (t = s \/ In t l) -> same_ends (eg t) (eg s) = true ->
  predecessor sc (s :: l) t r ->
  match r with
  | None => (forall i, RS (eg t) i = false) /\ forall i, LS (eg t) i = (i =? poly t)%nat
  | Some b => (forall i, RS (eg t) i = if same_ends (eg b) (eg t) then RS (eg b) i else LS (eg b) i)
      /\ (forall i, LS (eg t) i = xorb (LS (eg b) i) (i =? poly t)%nat)
      /\ (same_ends (eg b) (eg t) = false -> forall f, In f S -> same_ends (eg f) (eg b) = true -> (poly f <= poly b)%nat)
      /\ (same_ends (eg b) (eg t) = false -> next_below zs (eg b) (eg t))
  end.
Proof using D Is Ls Al Full Same Sorted.
  intros t r Ht SEt Hr.
  assert (It : In t S) by (destruct Ht as [->|Ht]; auto using start_in).
  assert (At : alive E S p t) by (destruct Ht as [->|Ht]; [apply start_alive|now apply Al]).
  assert (Lt' : L t = p) by (apply same_ends_iff in SEt; destruct SEt; congruence).
  assert (Pt : (poly t <= poly s)%nat).
  { destruct Ht as [->|Ht]; [lia|]. pose proof (same_lower t Ht SEt). lia. }
  assert (Ut : forall f, under f (eg t) = under f (eg s)).
  { intros f. apply same_ends_iff in SEt. destruct SEt as [H1 H2]. unfold under. now rewrite H1, H2. }
  (* what is along [t] and of an earlier polygon is in the line *)
  assert (St : forall a, In a S -> same_ends (eg a) (eg t) = true -> (poly a < poly t)%nat -> In a l /\ sc a t = Lt).
  { intros a Ia SE P. split.
    - apply Same; auto; [|lia]. now rewrite (same_trans _ _ (eg s) SE).
    - rewrite (sc_same _ _ D a t); auto; [now apply Nat.compare_lt_iff|]. intros ->. lia. }
  (* what is under [t] is in the line *)
  assert (Fu : forall a, In a S -> under (eg a) (eg t) = true -> In a l /\ sc a t = Lt /\ same_ends (eg a) (eg t) = false).
  { intros a Ia U. destruct (under_alive _ _ D p t At Lt' a Ia U) as (_ & H1 & H2). split; [|auto]. apply Full; auto. now rewrite <- Ut. }
  destruct r as [b|].
  - destruct Hr as (Hb & Cb & Max). assert (Nb : b <> t) by now apply sc_lt_neq.
    assert (Ib : In b S) by (destruct Hb as [<-|Hb]; auto using start_in).
    assert (Ab : alive E S p b) by (destruct Hb as [<-|Hb]; [apply start_alive|now apply Al]).
    pose proof (alive_together E S p b t Ab At) as Tbt.
    destruct (same_ends (eg b) (eg t)) eqn:SE.
    + (* along [t] *)
      assert (Pb : (poly b < poly t)%nat).
      { rewrite (sc_same _ _ D b t) in Cb by auto. now apply Nat.compare_lt_iff. }
      assert (RR : forall i, RS (eg t) i = RS (eg b) i) by (intros i; symmetry; now apply RS_same).
      split; [exact RR|]. split; [|split; discriminate]. intros i. unfold LS. rewrite RR, xorb_assoc. f_equal.
      unfold ST. rewrite <- (own_parity t i It), <- parity_and_xor. apply parity_and_ext. intros f Hf.
      assert (SS : same_ends f (eg b) = same_ends f (eg t)) by (rewrite !(same_sym f); now apply same_trans).
      rewrite SS. destruct (same_ends f (eg t)) eqn:SF; [|reflexivity]. cbn [andb].
      destruct (Nat.leb_spec (e_poly f) (poly t)) as [P1|P1], (Nat.leb_spec (e_poly f) (poly b)) as [P2|P2],
        (Nat.eqb_spec (e_poly f) (poly t)) as [P3|P3]; try reflexivity; try lia.
      exfalso. destruct (edge_seg _ _ D f Hf) as (a & Ia & <-). destruct (St a Ia SF ltac:(lia)) as [La Ca].
      assert (M : sc a b <> Gt) by (apply Max; [now right|exact Ca]). apply M.
      rewrite (sc_same _ _ D a b); auto; [apply Nat.compare_gt_iff; lia|]. intros ->. lia.
    + (* below [t] *)
      pose proof (under_here _ _ D p t At Lt' b Ab SE Cb) as Ub.
      assert (Sb : forall f, In f S -> same_ends (eg f) (eg b) = true -> (poly f <= poly b)%nat).
      { intros f If SF. destruct (Nat.le_gt_cases (poly f) (poly b)) as [|P]; [assumption|exfalso].
        assert (Uf : under (eg f) (eg t) = true) by (apply same_ends_iff in SF; destruct SF; now rewrite (under_same _ (eg b))).
        destruct (Fu f If Uf) as (Lf & Cf & _). assert (M : sc f b <> Gt) by (apply Max; [now right|exact Cf]). apply M.
        rewrite (sc_same _ _ D f b); auto; [apply Nat.compare_gt_iff; lia|]. intros ->. lia. }
      assert (NB : next_below zs (eg b) (eg t)).
      { split; [exact Ub|]. intros e He Ue. destruct (edge_seg _ _ D e He) as (a & Ia & <-). destruct (Fu a Ia Ue) as (La & Ca & _).
        destruct (same_ends (eg a) (eg b)) eqn:SF; [now left|right].
        assert (M : sc a b = Lt).
        { assert (M : sc a b <> Gt) by (apply Max; [now right|exact Ca]). destruct (sc a b) eqn:Q; [|reflexivity|congruence].
          apply (sc_eq _ _ D) in Q; auto. subst. unfold same_ends in SF. rewrite !lex_refl in SF. discriminate. }
        apply (lower_under p); auto. now apply Al. }
      assert (RR : forall i, RS (eg t) i = LS (eg b) i).
      { intros i. unfold LS, RS at 1. rewrite (next_parity zs i (eg t) (eg b)); [|apply (seg_spec _ _ D); assumption..|exact Ub| |exact (proj2 NB)].
        - unfold RS, ST. f_equal. apply parity_and_ext. intros f Hf. destruct (same_ends f (eg b)) eqn:SF; [|reflexivity].
          destruct (edge_seg _ _ D f Hf) as (a & Ia & <-). specialize (Sb a Ia SF). cbn [andb]. symmetry. now apply Nat.leb_le.
        - intros e He. now apply (edges_related _ _ D). }
      split; [exact RR|]. split; [|split; [intros _; exact Sb|intros _; exact NB]]. intros i. unfold LS at 1. rewrite RR. f_equal.
      unfold ST. rewrite <- (own_parity t i It). apply parity_and_ext. intros f Hf.
      destruct (same_ends f (eg t)) eqn:SF; [|reflexivity]. cbn [andb].
      destruct (Nat.leb_spec (e_poly f) (poly t)) as [P1|P1], (Nat.eqb_spec (e_poly f) (poly t)) as [P3|P3]; try reflexivity; try lia.
      exfalso. destruct (edge_seg _ _ D f Hf) as (a & Ia & <-). destruct (St a Ia SF ltac:(lia)) as [La Ca].
      assert (M : sc a b <> Gt) by (apply Max; [now right|exact Ca]). apply M.
      assert (SB : same_ends (eg a) (eg b) = false) by (rewrite (same_trans _ _ (eg b) SF), same_sym; exact SE).
      rewrite (sc_like _ _ D a t b); auto.
      * rewrite (sc_anti _ _ D b t), Cb by auto. reflexivity.
      * apply (alive_together E S p); [now apply Al|exact Ab].
  - assert (NU : forall a, In a S -> under (eg a) (eg t) = false).
    { intros a Ia. apply not_true_iff_false. intros U. destruct (Fu a Ia U) as (La & Ca & _). apply (Hr a); [now right|exact Ca]. }
    assert (RR : forall i, RS (eg t) i = false).
    { intros i. apply parity_false. intros f Hf. destruct (edge_seg _ _ D f Hf) as (a & Ia & <-). rewrite NU by auto. apply andb_false_r. }
    split; [exact RR|]. intros i. unfold LS. rewrite RR, xorb_false_l. unfold ST. rewrite <- (own_parity t i It).
    apply parity_and_ext. intros f Hf. destruct (same_ends f (eg t)) eqn:SF; [|reflexivity]. cbn [andb].
    destruct (Nat.leb_spec (e_poly f) (poly t)) as [P1|P1], (Nat.eqb_spec (e_poly f) (poly t)) as [P3|P3]; try reflexivity; try lia.
    exfalso. destruct (edge_seg _ _ D f Hf) as (a & Ia & <-). destruct (St a Ia SF ltac:(lia)) as [La Ca]. apply (Hr a); [now right|exact Ca].
Qed.
End Start.
End Line.
