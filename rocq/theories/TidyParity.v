(** The even-odd rule gives the same answer all along an edge. *)

From Coq Require Import List ZArith QArith Bool Lia Lqa.
From Verif Require Import Base Float SpecShape SpecOrder SpecIntersect SpecHandle SpecTidy OrderFacts TidyGeo.
Import ListNotations.

Definition parity {A} (P : A -> bool) (l : list A) : bool := fold_right (fun a b => xorb (P a) b) false l.

Lemma parity_cons : forall {A} (P : A -> bool) a l, parity P (a :: l) = xorb (P a) (parity P l).
Proof. reflexivity. Qed.
Lemma parity_app : forall {A} (P : A -> bool) l m, parity P (l ++ m) = xorb (parity P l) (parity P m).
Proof.
  intros A P l m. induction l as [|a l IH]; [symmetry; apply xorb_false_l|].
  rewrite <- app_comm_cons, !parity_cons. now rewrite IH, xorb_assoc.
Qed.
Lemma parity_odd : forall {A} (P : A -> bool) l, Nat.odd (length (filter P l)) = parity P l.
Proof.
  intros A P l. induction l as [|a l IH]; [reflexivity|]. rewrite parity_cons. cbn [filter]. destruct (P a); cbn [length].
  - rewrite Nat.odd_succ, <- Nat.negb_odd, IH. symmetry. apply xorb_true_l.
  - rewrite IH. symmetry. apply xorb_false_l.
Qed.
Lemma parity_ext : forall {A} (P P' : A -> bool) l, (forall a, In a l -> P a = P' a) -> parity P l = parity P' l.
Proof.
  intros A P P' l H. induction l as [|a l IH]; [reflexivity|]. rewrite !parity_cons. rewrite (H a) by (now left). f_equal. apply IH.
  intros b Hb. apply H. now right.
Qed.
Lemma parity_xor : forall {A} (P P' : A -> bool) l, parity (fun a => xorb (P a) (P' a)) l = xorb (parity P l) (parity P' l).
Proof.
  intros A P P' l. induction l as [|a l IH]; [reflexivity|]. rewrite !parity_cons. rewrite IH.
  destruct (P a), (P' a), (parity P l), (parity P' l); reflexivity.
Qed.
Lemma parity_false : forall {A} (P : A -> bool) l, (forall a, In a l -> P a = false) -> parity P l = false.
Proof.
  intros A P l H. induction l as [|a l IH]; [reflexivity|]. rewrite parity_cons, (H a) by (now left). rewrite xorb_false_l. apply IH.
  intros b Hb. apply H. now right.
Qed.

(** *** A closed walk enters a region as often as it leaves it *)

Section Region.
Variable f : Z * Z -> bool.

Lemma walk_parity : forall t a b, parity (fun s => xorb (f (fst s)) (f (snd s))) (combine (a :: t) (t ++ [b])) = xorb (f a) (f b).
Proof.
  induction t as [|c t IH]; intros a b.
  - cbn [combine app]. rewrite parity_cons. apply xorb_false_r.
  - change (combine (a :: c :: t) ((c :: t) ++ [b])) with ((a, c) :: combine (c :: t) (t ++ [b])).
    rewrite parity_cons, IH. cbn [fst snd]. destruct (f a), (f b), (f c); reflexivity.
Qed.

Lemma sides_parity : forall l, parity (fun s => xorb (f (fst s)) (f (snd s))) (sides l) = false.
Proof. intros [|a t]; [reflexivity|]. unfold sides. rewrite walk_parity. apply xorb_nilpotent. Qed.

Lemma polygon_parity : forall i z, parity (fun e => xorb (f (e_left e)) (f (e_right e))) (polygon_edges i z) = false.
Proof.
  intros i z. unfold polygon_edges.
  assert (H : forall ss, parity (fun e => xorb (f (e_left e)) (f (e_right e))) (flat_map (left_to_right i) ss)
                         = parity (fun s => xorb (f (fst s)) (f (snd s))) ss).
  { induction ss as [|[a b] ss IH]; [reflexivity|]. cbn [flat_map]. rewrite parity_app, IH, parity_cons. f_equal.
    unfold left_to_right. cbn [fst snd]. destruct (lex_z a b) eqn:E; cbn.
    - apply lex_eq in E. subst b. now rewrite xorb_nilpotent.
    - apply xorb_false_r.
    - rewrite xorb_false_r. apply xorb_comm. }
  rewrite H. clear H. induction z as [|l z IH]; [reflexivity|]. cbn [flat_map]. now rewrite parity_app, IH, sides_parity.
Qed.

Lemma polygon_edges_poly : forall i z e, In e (polygon_edges i z) -> e_poly e = i /\ lr e.
Proof.
  intros i z e H. apply in_flat_map in H. destruct H as ([a b] & _ & H). unfold left_to_right in H. cbn [fst snd] in H.
  destruct (lex_z a b) eqn:E; [contradiction|destruct H as [<-|[]]; split; [reflexivity|exact E]|].
  destruct H as [<-|[]]. split; [reflexivity|]. now apply lex_gt.
Qed.

Lemma region_parity : forall zs j i, parity (fun e => (e_poly e =? i)%nat && xorb (f (e_left e)) (f (e_right e))) (edges_from j zs) = false.
Proof.
  induction zs as [|z zs IH]; intros j i; [reflexivity|]. cbn [edges_from]. rewrite parity_app, IH, xorb_false_r.
  destruct (Nat.eqb_spec j i) as [->|N].
  - rewrite <- (polygon_parity i z). apply parity_ext. intros e He. apply polygon_edges_poly in He. destruct He as [-> _].
    now rewrite Nat.eqb_refl.
  - apply parity_false. intros e He. apply polygon_edges_poly in He. destruct He as [-> _].
    apply Nat.eqb_neq in N. now rewrite N.
Qed.
End Region.

Lemma edges_lr : forall zs j e, In e (edges_from j zs) -> lr e.
Proof.
  induction zs as [|z zs IH]; intros j e H; [contradiction|]. cbn [edges_from] in H. apply in_app_iff in H.
  destruct H as [H|H]; [|eapply IH; eassumption]. now apply polygon_edges_poly in H.
Qed.

(** *** Below an edge *)

Lemma qlt_iff : forall a b, qlt a b = true <-> (a < b)%Q.
Proof. intros a b. unfold qlt. destruct (Qcompare_spec a b); split; try lra; try discriminate; reflexivity. Qed.
Lemma qlt_false : forall a b, qlt a b = false <-> (b <= a)%Q.
Proof.
  intros a b. split; intros H.
  - destruct (Qlt_le_dec a b) as [L|L]; [|exact L]. apply qlt_iff in L. congruence.
  - apply not_true_iff_false. intros L. apply qlt_iff in L. lra.
Qed.

Lemma lr_sloped : forall e x, lr e -> (xl e <= x)%Q -> (x < xr e)%Q -> sloped e.
Proof. intros e x L H1 H2. unfold sloped. rewrite Zlt_Qlt. lra. Qed.

Lemma passes_iff : forall e x y, lr e -> passes_below e x y = true <-> (xl e <= x /\ x < xr e /\ yat e x < y)%Q.
Proof.
  intros e x y L. unfold passes_below. rewrite (surjective_pairing (e_left e)) at 1. rewrite (surjective_pairing (e_right e)) at 1.
  rewrite !andb_true_iff, negb_true_iff, qlt_false, !qlt_iff, !inject_sub.
  split.
  - intros [[H1 H2] H3]. split; [exact H1|]. split; [exact H2|]. pose proof (lr_sloped e x L H1 H2) as S.
    pose proof (sloped_q e S). rewrite <- (slope_eq e S) in H3. unfold yat. nra.
  - intros (H1 & H2 & H3). split; [split; assumption|]. pose proof (lr_sloped e x L H1 H2) as S.
    pose proof (sloped_q e S). rewrite <- (slope_eq e S). unfold yat in H3. nra.
Qed.

(** [e] passes below the beginning of [t]. *)
Definition under (e t : edge) : bool :=
  (fst (e_left e) <=? fst (e_left t))%Z && (fst (e_left t) <? fst (e_right e))%Z
  && ((0 <? orient (e_left e) (e_right e) (e_left t))%Z
      || (match lex_z (e_left e) (e_left t) with Eq => true | _ => false end && (0 <? orient (e_left e) (e_right e) (e_right t))%Z)).

Lemma under_iff : forall e t, under e t = true <->
  (xl e <= xl t /\ xl t < xr e)%Q
  /\ ((yat e (xl t) < yl t)%Q \/ (e_left e = e_left t /\ (0 < orient (e_left e) (e_right e) (e_right t))%Z)).
Proof.
  intros e t. unfold under. rewrite !andb_true_iff, orb_true_iff, andb_true_iff, Z.leb_le, !Z.ltb_lt.
  rewrite <- Zle_Qle, <- Zlt_Qlt.
  assert (E : (match lex_z (e_left e) (e_left t) with Eq => true | _ => false end = true) <-> e_left e = e_left t).
  { rewrite <- lex_eq. destruct (lex_z _ _); split; congruence. }
  rewrite E. split; intros [[H1 H2] H]; (split; [split; assumption|]).
  - destruct H as [H|H]; [left|now right]. apply orient_above; [unfold sloped; lia|exact H].
  - destruct H as [H|H]; [left|now right]. apply orient_above; [unfold sloped; lia|exact H].
Qed.

Definition related (e t : edge) : Prop := (e_left e = e_left t /\ e_right e = e_right t) \/ apart e t.

Definition region (t : edge) (x : Q) (v : Z * Z) : bool :=
  qlt (xl t) (inject_Z (fst v)) && negb (qlt x (inject_Z (fst v))) && qlt (inject_Z (snd v)) (yat t (inject_Z (fst v))).
Lemma region_iff : forall t x v, region t x v = true <->
  (xl t < inject_Z (fst v) /\ inject_Z (fst v) <= x /\ inject_Z (snd v) < yat t (inject_Z (fst v)))%Q.
Proof. intros t x v. unfold region. rewrite !andb_true_iff, negb_true_iff, qlt_false, !qlt_iff. tauto. Qed.

Lemma bool_iff : forall (b : bool) (P : Prop), (b = true <-> P) -> ~ P -> b = false.
Proof. intros [] P H N; [exfalso; apply N; now apply H|reflexivity]. Qed.

Lemma no_flow : forall e t x, lr e -> sloped t -> related e t -> (xl t < x)%Q -> (x < xr t)%Q ->
  xorb (region t x (e_left e)) (region t x (e_right e)) = xorb (under e t) (passes_below e x (yat t x)).
Proof.
  intros e t x L St R X1 X2. pose proof (region_iff t x (e_left e)) as RL. pose proof (region_iff t x (e_right e)) as RR.
  pose proof (under_iff e t) as U. pose proof (passes_iff e x (yat t x) L) as P.
  pose proof (sloped_q t St) as QT.
  destruct R as [[E1 E2]|A].
  { (* along [t] *)
    assert (Se : sloped e) by (unfold sloped; rewrite E1, E2; exact St).
    assert (Y : forall z, (yat e z == yat t z)%Q) by (intros z; unfold yat, slope; rewrite E1, E2; reflexivity).
    rewrite (bool_iff _ _ RL), (bool_iff _ _ RR), (bool_iff _ _ U), (bool_iff _ _ P); [reflexivity|..].
    - intros (_ & _ & H). rewrite Y in H. lra.
    - intros (_ & [H|[_ H]]).
      + rewrite Y, yat_left in H. lra.
      + rewrite E2 in H. unfold orient in H. lia.
    - intros (_ & H & _). rewrite E2 in H. lra.
    - intros (H & _). rewrite E1 in H. lra. }
  destruct (Z_lt_le_dec (fst (e_left e)) (fst (e_right e))) as [Se|V].
  2:{ (* upright *)
    assert (V' : (fst (e_left e) = fst (e_right e) /\ snd (e_left e) < snd (e_right e))%Z).
    { unfold lr in L. apply lex_lt in L. lia. }
    destruct V' as [V1 V2]. rewrite (bool_iff _ _ U), (bool_iff _ _ P); cycle 1.
    { intros (H1 & H2 & _). rewrite V1 in H1. lra. }
    { intros ((H1 & H2) & _). rewrite V1 in H1. lra. }
    assert (EQ : region t x (e_left e) = region t x (e_right e)); [|rewrite EQ; apply xorb_nilpotent].
    apply eq_true_iff_eq. rewrite RL, RR. rewrite V1 in *. rewrite Zlt_Qlt in V2.
    destruct (Qlt_le_dec (xl t) (xr e)) as [C1|C1]; [|split; intros H; exfalso; lra].
    destruct (Qlt_le_dec x (xr e)) as [C2|C2]; [split; intros H; exfalso; lra|].
    assert (NT : ~ (yl e <= yat t (xr e) /\ yat t (xr e) <= yr e)%Q).
    { intros [H1 H2]. destruct (apart_end e t (xr e) (yat t (xr e)) A) as (v & _ & W & X & _).
      - apply on_upright; auto; [rewrite V1; reflexivity|]. rewrite Zlt_Qlt. exact V2.
      - apply on_sloped; [exact St|lra..].
      - apply (end_x t v (xr e)); auto; lra. }
    split; intros (H1 & H2 & H3); (split; [exact H1|]; split; [exact H2|]).
    - destruct (Qlt_le_dec (yr e) (yat t (xr e))); [assumption|exfalso]. apply NT. split; lra.
    - lra. }
  assert (Se' : sloped e) by exact Se. pose proof (sloped_q e Se') as QE.
  destruct (Qlt_le_dec (xl t) (xr e)) as [C1|C1].
  2:{ rewrite (bool_iff _ _ RL), (bool_iff _ _ RR), (bool_iff _ _ U), (bool_iff _ _ P); [reflexivity|..]; intros H; lra. }
  destruct (Qlt_le_dec x (xl e)) as [C2|C2].
  { rewrite (bool_iff _ _ RL), (bool_iff _ _ RR), (bool_iff _ _ U), (bool_iff _ _ P); [reflexivity|..]; intros H; lra. }
  (* a point of the common range that is inside [t] *)
  assert (MID : exists m, (xl t < m /\ m < xr t /\ xl e < m /\ m < xr e)%Q).
  { assert (G : forall a b c d : Q, (a < c -> a < d -> b < c -> b < d -> exists m, a < m /\ b < m /\ m < c /\ m < d)%Q).
    { intros a b c d H1 H2 H3 H4.
      destruct (Qlt_le_dec a b), (Qlt_le_dec c d);
        [exists ((b + c) * (1 # 2))%Q|exists ((b + d) * (1 # 2))%Q|exists ((a + c) * (1 # 2))%Q|exists ((a + d) * (1 # 2))%Q]; lra. }
    destruct (G (xl t) (xl e) (xr t) (xr e)) as (m & ? & ? & ? & ?); try lra. exists m. auto. }
  destruct MID as (m & M1 & M2 & M3 & M4).
  pose proof (yat_left e) as YEL. pose proof (yat_right e Se') as YER.
  destruct (Q_dec (yat e m) (yat t m)) as [[B|B]|B].
  - (* [e] is below [t] *)
    assert (ST : forall z, (xl e <= z -> z <= xr e -> xl t <= z -> z <= xr t -> (xl t < z /\ z < xr t) \/ (xl e < z /\ z < xr e) -> yat e z < yat t z)%Q).
    { intros z Z1 Z2 Z3 Z4 Z5. apply (same_side_strict e t m z); auto; lra. }
    assert (RL' : region t x (e_left e) = negb (fst (e_left e) <=? fst (e_left t))%Z).
    { apply eq_true_iff_eq. rewrite RL, negb_true_iff, Z.leb_gt, Zlt_Qlt. split; [tauto|]. intros H. split; [exact H|].
      split; [exact C2|]. rewrite <- YEL. apply ST; lra. }
    assert (RR' : region t x (e_right e) = negb (qlt x (xr e))).
    { apply eq_true_iff_eq. rewrite RR, negb_true_iff, qlt_false. split; [tauto|]. intros H. split; [exact C1|].
      split; [exact H|]. rewrite <- YER. apply ST; lra. }
    assert (U' : under e t = (fst (e_left e) <=? fst (e_left t))%Z).
    { apply eq_true_iff_eq. rewrite U, Z.leb_le, Zle_Qle. split; [tauto|]. intros H. split; [split; [exact H|exact C1]|].
      destruct (Qlt_le_dec (yat e (xl t)) (yl t)) as [|G]; [now left|right].
      assert (LE : (yat e (xl t) <= yat t (xl t))%Q) by (apply (same_side e t m (xl t)); auto; lra).
      rewrite yat_left in LE.
      destruct (level e t (xl t) A Se' St) as (v & W1 & W2 & X & Y); try lra; [rewrite yat_left; lra|].
      assert (HV : v = e_left t) by (destruct W2 as [W|W]; [exact W|]; rewrite W in X; lra).
      assert (HV' : v = e_left e) by (destruct W1 as [W|W]; [exact W|]; rewrite W in X; lra).
      assert (EL : e_left e = e_left t) by congruence. split; [exact EL|].
      apply orient_slope; [assumption..|]. clear - B EL M1. unfold yat in B. rewrite EL in B. nra. }
    assert (P' : passes_below e x (yat t x) = qlt x (xr e)).
    { apply eq_true_iff_eq. rewrite P, qlt_iff. split; [tauto|]. intros H. split; [exact C2|]. split; [exact H|]. apply ST; lra. }
    rewrite RL', RR', U', P'. destruct (fst (e_left e) <=? fst (e_left t))%Z, (qlt x (xr e)); reflexivity.
  - (* [e] is above [t] *)
    assert (ST : forall z, (xl e <= z -> z <= xr e -> xl t <= z -> z <= xr t -> yat t z <= yat e z)%Q).
    { intros z Z1 Z2 Z3 Z4. apply (same_side t e m z); auto; try lra.
      apply apart_sym; auto. apply lex_lt. left. exact St. }
    rewrite (bool_iff _ _ RL), (bool_iff _ _ RR), (bool_iff _ _ U), (bool_iff _ _ P); [reflexivity|..].
    + intros (H1 & H2 & H3). specialize (ST x). lra.
    + intros ((H1 & H2) & [H|[H H']]).
      * specialize (ST (xl t)). rewrite yat_left in ST. lra.
      * apply orient_slope in H'; auto. pose proof (fan e t m Se' St H H' M3). lra.
    + intros (H1 & H2 & H3). specialize (ST (xr e)). lra.
    + intros (H1 & H2 & H3). specialize (ST (xl e)). lra.
  - exfalso. destruct (level e t m A Se' St) as (v & W1 & W2 & X & Y); try lra. apply (end_x t v m); auto.
Qed.

Lemma cross_trans_strict : forall u v w, rightward u -> rightward v -> rightward w ->
  (0 < cross_z u v -> 0 < cross_z v w -> 0 < cross_z u w)%Z.
Proof.
  intros [ux uy] [vx vy] [wx wy]. unfold rightward, cross_z. cbn [fst snd]. intros Hu Hv Hw H1 H2.
  destruct Hv as [Hv|[-> Hv]].
  - assert (E : (vx * (ux * wy - uy * wx) = ux * (vx * wy - vy * wx) + wx * (ux * vy - uy * vx))%Z) by ring.
    assert (0 <= ux)%Z by lia. assert (0 <= wx)%Z by lia.
    assert (0 <= ux * (vx * wy - vy * wx))%Z by nia. assert (0 <= wx * (ux * vy - uy * vx))%Z by nia.
    assert (0 < ux \/ 0 < wx)%Z by nia. nia.
  - exfalso. nia.
Qed.

Definition of_poly (i : nat) (e : edge) : bool := (e_poly e =? i)%nat.

Lemma parity_and_ext : forall (c P P' : edge -> bool) l, (forall e, In e l -> P e = P' e) ->
  parity (fun e => c e && P e) l = parity (fun e => c e && P' e) l.
Proof. intros c P P' l H. apply parity_ext. intros e He. now rewrite (H e He). Qed.
Lemma parity_and_xor : forall (c P P' : edge -> bool) l,
  parity (fun e => c e && xorb (P e) (P' e)) l = xorb (parity (fun e => c e && P e) l) (parity (fun e => c e && P' e) l).
Proof. intros c P P' l. rewrite <- parity_xor. apply parity_ext. intros e _. destruct (c e), (P e), (P' e); reflexivity. Qed.

Lemma along_parity : forall zs i t x, sloped t -> (forall e, In e (edges zs) -> related e t) -> (xl t < x)%Q -> (x < xr t)%Q ->
  parity (fun e => of_poly i e && under e t) (edges zs) = parity (fun e => of_poly i e && passes_below e x (yat t x)) (edges zs).
Proof.
  intros zs i t x S R X1 X2. apply xorb_eq. rewrite <- parity_and_xor.
  rewrite (parity_and_ext _ _ (fun e => xorb (region t x (e_left e)) (region t x (e_right e)))).
  - apply region_parity.
  - intros e He. symmetry. apply no_flow; auto. eapply edges_lr; eassumption.
Qed.

Lemma upright_passes : forall e t x y, lr e -> related e t -> fst (e_left t) = fst (e_right t) -> (x == xl t)%Q ->
  (yl t < y)%Q -> (y < yr t)%Q -> passes_below e x y = under e t.
Proof.
  intros e t x y L R V X Y1 Y2. apply eq_true_iff_eq. rewrite passes_iff by assumption. rewrite under_iff.
  destruct R as [[E1 E2]|A].
  { split; [intros (H1 & H2 & _)|intros [[H1 H2] _]]; exfalso; rewrite E1 in H1; rewrite E2 in H2; rewrite V in *; lra. }
  split.
  - intros (H1 & H2 & H3). rewrite X in H1, H2, H3. split; [split; assumption|].
    destruct (Qlt_le_dec (yat e (xl t)) (yl t)) as [G|G]; [now left|right].
    pose proof (lr_sloped e _ L H1 H2) as S.
    destruct (apart_end e t (xl t) (yat e (xl t)) A) as (v & W1 & W2 & X' & Y').
    + apply on_sloped; auto. lra.
    + apply on_upright; auto; try lra. rewrite Zlt_Qlt. lra.
    + assert (HV : v = e_left e) by (destruct W1 as [W|W]; [exact W|]; rewrite W in X'; lra).
      assert (HV' : v = e_left t) by (destruct W2 as [W|W]; [exact W|]; rewrite W in Y'; lra).
      assert (EL : e_left e = e_left t) by congruence. split; [exact EL|].
      unfold orient. rewrite EL. rewrite <- V. assert (fst (e_left t) < fst (e_right e))%Z by (rewrite Zlt_Qlt; exact H2).
      assert (snd (e_left t) < snd (e_right t))%Z by (rewrite Zlt_Qlt; lra). nia.
  - intros [[H1 H2] H]. rewrite X. split; [exact H1|]. split; [exact H2|].
    destruct H as [H|[H _]]; [lra|]. rewrite <- H, yat_left, H. exact Y1.
Qed.

Lemma crossings_parity : forall zs i t x y, lr t -> (forall e, In e (edges zs) -> related e t) -> inside_edge t x y ->
  Nat.odd (crossings zs i x y) = parity (fun e => of_poly i e && under e t) (edges zs).
Proof.
  intros zs i t x y L R (u & U0 & U1 & X & Y). unfold crossings. rewrite parity_odd. rewrite !inject_sub in X, Y.
  destruct (Z_lt_le_dec (fst (e_left t)) (fst (e_right t))) as [S|V].
  - assert (S' : sloped t) by exact S. pose proof (sloped_q t S') as Q.
    rewrite (along_parity zs i t x S' R) by nra. apply parity_ext. intros e He. f_equal. apply eq_true_iff_eq.
    rewrite !passes_iff by (eapply edges_lr; eassumption).
    assert (E : (y == yat t x)%Q). { unfold yat. rewrite X, Y, <- (slope_eq t S'). ring. }
    rewrite E. tauto.
  - unfold lr in L. apply lex_lt in L. assert (V' : fst (e_left t) = fst (e_right t)) by lia.
    assert (Q : (yl t < yr t)%Q) by (rewrite <- Zlt_Qlt; lia).
    apply parity_ext. intros e He. f_equal. apply upright_passes; auto.
    + eapply edges_lr; eassumption.
    + rewrite X, <- V'. ring.
    + nra.
    + nra.
Qed.

(** *** From an edge to the next one above it *)

Definition same_ends (e f : edge) : bool :=
  match lex_z (e_left e) (e_left f), lex_z (e_right e) (e_right f) with Eq, Eq => true | _, _ => false end.
Lemma same_ends_iff : forall e f, same_ends e f = true <-> e_left e = e_left f /\ e_right e = e_right f.
Proof.
  intros e f. unfold same_ends. rewrite <- !lex_eq. destruct (lex_z (e_left e) _), (lex_z (e_right e) _); split; intuition congruence.
Qed.

(** Just right of the beginning of [s], [e] is below [b]. *)
Definition lower_at (s e b : edge) : Prop :=
  (yat e (xl s) < yat b (xl s))%Q \/ (e_left e = e_left b /\ (xl b == xl s)%Q /\ (slope e < slope b)%Q).

Lemma under_same : forall e f t, e_left e = e_left f -> e_right e = e_right f -> under e t = under f t.
Proof. intros e f t H1 H2. unfold under. now rewrite H1, H2. Qed.

(** [b] is the edge right below the beginning of [s]. *)
Definition next_below (zs : list corners) (b s : edge) : Prop :=
  under b s = true /\ forall e, In e (edges zs) -> under e s = true -> same_ends e b = true \/ lower_at s e b.

Lemma next_parity : forall zs i s b, lr s -> lr b -> under b s = true ->
  (forall e, In e (edges zs) -> related e b) ->
  (forall e, In e (edges zs) -> under e s = true -> same_ends e b = true \/ lower_at s e b) ->
  parity (fun e => of_poly i e && under e s) (edges zs)
  = xorb (parity (fun e => of_poly i e && under e b) (edges zs)) (parity (fun e => of_poly i e && same_ends e b) (edges zs)).
Proof.
  intros zs i s b Ls Lb US R HM. pose proof US as US'. apply under_iff in US'. destruct US' as [[B1 B2] B3].
  pose proof (lr_sloped b _ Lb B1 B2) as Sb. pose proof (sloped_q b Sb) as Qb.
  assert (LE : (yat b (xl s) <= yl s)%Q) by (destruct B3 as [H|[H _]]; [lra|]; rewrite <- H, yat_left, H; lra).
  destruct (Qlt_le_dec (xl b) (xl s)) as [C|C].
  - rewrite (along_parity zs i b (xl s) Sb R C B2). rewrite <- parity_and_xor. apply parity_and_ext.
    intros e He. pose proof (edges_lr zs 0 e He) as Le.
    destruct (same_ends e b) eqn:SE.
    + pose proof SE as SE'. apply same_ends_iff in SE'. destruct SE' as [SE1 SE2].
      rewrite (under_same e b s SE1 SE2), US. rewrite (bool_iff _ _ (passes_iff e _ _ Le)); [reflexivity|].
      intros (_ & _ & H). unfold yat, slope in H. rewrite SE1, SE2 in H. lra.
    + rewrite xorb_false_r. apply eq_true_iff_eq. rewrite passes_iff by assumption. split.
      * intros U. destruct (HM e He U) as [H|H]; [congruence|]. apply under_iff in U. destruct U as [[U1 U2] _].
        split; [exact U1|]. split; [exact U2|]. destruct H as [H|(_ & H & _)]; [exact H|lra].
      * intros (H1 & H2 & H3). apply under_iff. split; [split; assumption|]. left. lra.
  - assert (CE : (xl b == xl s)%Q) by lra.
    rewrite <- parity_and_xor. apply parity_and_ext. intros e He. pose proof (edges_lr zs 0 e He) as Le.
    destruct (same_ends e b) eqn:SE.
    + pose proof SE as SE'. apply same_ends_iff in SE'. destruct SE' as [SE1 SE2].
      rewrite (under_same e b s SE1 SE2), US, (under_same e b b SE1 SE2). rewrite (bool_iff _ _ (under_iff b b)); [reflexivity|].
      intros (_ & [H|[_ H]]); [rewrite yat_left in H; lra|]. unfold orient in H. lia.
    + rewrite xorb_false_r. apply eq_true_iff_eq. split.
      * intros U. destruct (HM e He U) as [H|H]; [congruence|]. apply under_iff in U. destruct U as [[U1 U2] _].
        apply under_iff. rewrite CE. split; [split; assumption|].
        destruct H as [H|(H & _ & H')]; [left; rewrite <- CE in H; rewrite <- CE; now rewrite yat_left in H|right]. split; [exact H|].
        apply orient_slope; auto. apply (lr_sloped e _ Le U1 U2).
      * intros U. apply under_iff in U. rewrite CE in U. destruct U as [[U1 U2] U3]. apply under_iff. split; [split; assumption|].
        pose proof (lr_sloped e _ Le U1 U2) as Se.
        destruct U3 as [U3|[U3 U4]].
        -- left. rewrite <- CE, yat_left in LE. lra.
        -- destruct B3 as [B3|[B3 B4]].
           ++ left. rewrite <- CE in B3 |- *. rewrite yat_left in B3. rewrite <- U3 in B3 |- *. now rewrite yat_left.
           ++ right. split; [congruence|]. rewrite orient_cross in U4, B4 |- *. rewrite <- U3 in B4.
              assert (D1 : rightward (dir (e_left e) (e_right e))) by (now apply dir_rightward).
              assert (D2 : rightward (dir (e_left e) (e_right b))) by (rewrite U3; now apply dir_rightward).
              assert (D3 : rightward (dir (e_left e) (e_right s))) by (rewrite U3, B3; now apply dir_rightward).
              now apply (cross_trans_strict _ (dir (e_left e) (e_right b))).
Qed.
