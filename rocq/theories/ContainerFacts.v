(** The sorted vector and the heap of the sweep (C48, C58). *)

From Coq Require Import List ZArith Bool Lia Arith Sorting.Permutation.
From Verif Require Import Base BaseFacts Sweep SpecContainers.
Import ListNotations.

Lemma index_nat_some : forall {A} (l : list A) i a, nth_error l i = Some a -> index_nat l i = Ok a.
Proof. intros A l i a H. unfold index_nat. now rewrite H. Qed.

Lemma nth_error_lt : forall {A} (l : list A) i, (i < length l)%nat -> exists a, nth_error l i = Some a.
Proof. intros A l i H. destruct (nth_error l i) eqn:E; eauto. apply nth_error_None in E. lia. Qed.

(** ** Lists *)

Lemma set_nth_length : forall {A} i (x : A) l, (i < length l)%nat -> length (set_nth i x l) = length l.
Proof.
  intros A i x l H. unfold set_nth. rewrite app_length, firstn_length. cbn [length]. rewrite skipn_length. lia.
Qed.

Lemma nth_set_same : forall {A} i (x : A) l, (i < length l)%nat -> nth_error (set_nth i x l) i = Some x.
Proof.
  intros A i x l H. unfold set_nth. rewrite nth_error_app2; rewrite firstn_length; [|lia].
  replace (i - Nat.min i (length l))%nat with 0%nat by lia. reflexivity.
Qed.

Lemma nth_set_other : forall {A} i j (x : A) l, (i < length l)%nat -> i <> j ->
  nth_error (set_nth i x l) j = nth_error l j.
Proof.
  intros A i. induction i as [|i IH]; intros j x l H N; destruct l as [|a l]; cbn in H; try lia.
  - destruct j; [lia|]. reflexivity.
  - change (set_nth (S i) x (a :: l)) with (a :: set_nth i x l). destruct j; [reflexivity|].
    cbn. apply IH; lia.
Qed.

Lemma set_nth_id : forall {A} i (x : A) l, nth_error l i = Some x -> set_nth i x l = l.
Proof.
  intros A i. induction i as [|i IH]; intros x [|a l] H; try discriminate.
  - inversion H; subst. reflexivity.
  - change (set_nth (S i) x (a :: l)) with (a :: set_nth i x l). rewrite IH; auto.
Qed.

Lemma set_nth_perm : forall {A} i (x a : A) l, nth_error l i = Some a ->
  Permutation (x :: l) (a :: set_nth i x l).
Proof.
  intros A i. induction i as [|i IH]; intros x a [|b l] H; try discriminate.
  - inversion H; subst. cbn. apply perm_swap.
  - change (set_nth (S i) x (b :: l)) with (b :: set_nth i x l).
    transitivity (b :: x :: l); [apply perm_swap|]. transitivity (b :: a :: set_nth i x l); [|apply perm_swap].
    constructor. apply IH, H.
Qed.

Lemma set_nth_swap_perm : forall {A} i j (x y : A) l, (j < length l)%nat -> i <> j -> nth_error l i = Some y ->
  Permutation (set_nth i x (set_nth j y l)) (set_nth j x l).
Proof.
  intros A i j x y l Hj N H. destruct (nth_error_lt l j Hj) as [b Hb].
  pose proof (set_nth_perm j y b l Hb) as P1. pose proof (set_nth_perm j x b l Hb) as P2.
  assert (H' : nth_error (set_nth j y l) i = Some y) by (rewrite nth_set_other; auto).
  pose proof (set_nth_perm i x y (set_nth j y l) H') as P3.
  apply (Permutation_cons_inv (a := y)). apply (Permutation_cons_inv (a := b)).
  transitivity (b :: x :: set_nth j y l); [constructor; symmetry; exact P3|].
  transitivity (x :: b :: set_nth j y l); [apply perm_swap|].
  transitivity (x :: y :: l); [constructor; symmetry; exact P1|].
  transitivity (y :: x :: l); [apply perm_swap|]. transitivity (y :: b :: set_nth j x l); [constructor; exact P2|].
  apply perm_swap.
Qed.

Lemma nth_error_firstn : forall {A} k (l : list A) i, (i < k)%nat -> nth_error (firstn k l) i = nth_error l i.
Proof. induction k as [|k IH]; intros [|a l] [|i] H; cbn; auto; try lia. apply IH. lia. Qed.

Lemma nth_error_skipn : forall {A} k (l : list A) i, nth_error (skipn k l) i = nth_error l (k + i).
Proof. induction k as [|k IH]; intros [|a l] i; cbn; auto. destruct i; reflexivity. Qed.

Lemma insert_at_perm : forall {A} i (x : A) l, Permutation (insert_at i x l) (x :: l).
Proof.
  intros. unfold insert_at. transitivity (x :: firstn i l ++ skipn i l).
  - symmetry. apply Permutation_middle.
  - now rewrite firstn_skipn.
Qed.

Lemma in_insert_at : forall {A} i (x y : A) l, In y (insert_at i x l) <-> y = x \/ In y l.
Proof.
  intros. split; intros H.
  - apply (Permutation_in _ (insert_at_perm i x l)) in H. destruct H; auto.
  - apply (Permutation_in _ (Permutation_sym (insert_at_perm i x l))). destruct H; subst; cbn; auto.
Qed.

Section Lawful.
  Context {A : Type} (P : A -> Prop) (cmp : A -> A -> outcome comparison) (c : A -> A -> comparison).
  Hypothesis Hcmp : forall a b, P a -> P b -> cmp a b = Ok (c a b).
  Hypothesis Hanti : forall a b, P a -> P b -> c b a = CompOpp (c a b).
  Hypothesis Htrans : forall a b d, P a -> P b -> P d -> c a b <> Gt -> c b d <> Gt -> c a d <> Gt.

  Lemma c_refl : forall a, P a -> c a a = Eq.
  Proof using Hcmp Hanti Htrans. intros a H. pose proof (Hanti a a H H) as E. destruct (c a a); auto; discriminate. Qed.

  Lemma c_lt_le_trans : forall a b d, P a -> P b -> P d -> c a b = Lt -> c b d <> Gt -> c a d = Lt.
  Proof using Hcmp Hanti Htrans.
    intros a b d Ha Hb Hd H1 H2. assert (H3 : c a d <> Gt) by (apply (Htrans a b d); auto; congruence).
    destruct (c a d) eqn:E; auto; [|congruence].
    (* a ~ d, so d <= a < b <= d *)
    exfalso. assert (c b a <> Gt) as X.
    { apply (Htrans b d a); auto. rewrite Hanti by auto. rewrite E. discriminate. }
    rewrite (Hanti a b) in X by auto. rewrite H1 in X. apply X. reflexivity.
  Qed.
  Lemma c_le_lt_trans : forall a b d, P a -> P b -> P d -> c a b <> Gt -> c b d = Lt -> c a d = Lt.
  Proof using Hcmp Hanti Htrans.
    intros a b d Ha Hb Hd H1 H2. assert (H3 : c a d <> Gt) by (apply (Htrans a b d); auto; congruence).
    destruct (c a d) eqn:E; auto; [|congruence].
    exfalso. assert (c d b <> Gt) as X.
    { apply (Htrans d a b); auto. rewrite Hanti by auto. rewrite E. discriminate. }
    rewrite (Hanti b d) in X by auto. rewrite H2 in X. apply X. reflexivity.
  Qed.

  (** ** Binary search *)

  Lemma sorted_nth : forall l i j a b, strictly_sorted c l -> (i < j)%nat ->
    nth_error l i = Some a -> nth_error l j = Some b -> c a b = Lt.
  Proof using Hcmp Hanti Htrans.
    induction l as [|x l IH]; intros i j a b HS H H1 H2; [destruct i; discriminate|].
    destruct HS as [S1 S2]. destruct j as [|j]; [lia|]. destruct i as [|i]; cbn in *.
    - inversion H1; subst. rewrite Forall_forall in S1. apply S1. eapply nth_error_In; eauto.
    - apply (IH i j); auto; lia.
  Qed.

  Lemma bs_loop_spec : forall fuel l x base size, Forall P l -> P x -> strictly_sorted c l ->
    (1 <= size)%nat -> (base + size <= length l)%nat -> (size <= fuel)%nat ->
    (base = 0%nat \/ exists a, nth_error l base = Some a /\ c a x <> Gt) ->
    (forall i a, (base + size <= i)%nat -> nth_error l i = Some a -> c a x = Gt) ->
    exists b, bs_loop cmp fuel l x base size = Ok b /\ (b < length l)%nat
      /\ (b = 0%nat \/ exists a, nth_error l b = Some a /\ c a x <> Gt)
      /\ (forall i a, (b < i)%nat -> nth_error l i = Some a -> c a x = Gt).
  Proof using Hcmp Hanti Htrans.
    induction fuel as [|fuel IH]; intros l x base size HP Hx HS H1 H2 Hf HB HT; [lia|].
    cbn [bs_loop]. destruct (Nat.leb_spec size 1).
    { exists base. split; [reflexivity|]. split; [lia|]. split; [auto|]. intros i a Hi. apply HT. lia. }
    set (half := (size / 2)%nat).
    assert (Hh : (1 <= half /\ 2 * half <= size /\ size <= 2 * half + 1)%nat).
    { subst half. pose proof (Nat.div_mod size 2 ltac:(lia)). pose proof (Nat.mod_upper_bound size 2 ltac:(lia)). lia. }
    destruct (nth_error_lt l (base + half) ltac:(lia)) as [e He].
    rewrite (index_nat_some _ _ _ He). cbn [obind].
    assert (Pe : P e) by (rewrite Forall_forall in HP; apply HP; eapply nth_error_In; eauto).
    rewrite Hcmp by auto. cbn [obind].
    destruct (c e x) eqn:E.
    - apply IH; auto; try lia.
      + right. exists e. split; auto. congruence.
      + intros i a Hi. apply HT. lia.
    - apply IH; auto; try lia.
      + right. exists e. split; auto. congruence.
      + intros i a Hi. apply HT. lia.
    - apply IH; auto; try lia.
      intros i a Hi Ha. assert (Pa : P a) by (rewrite Forall_forall in HP; apply HP; eapply nth_error_In; eauto).
      destruct (Nat.eq_dec i (base + half)) as [->|N]; [congruence|].
      assert (L : c e a = Lt) by (apply (sorted_nth l (base + half) i); auto; lia).
      rewrite (Hanti x a) by auto. rewrite (c_lt_le_trans x e a); auto.
      + rewrite (Hanti e x) by auto. now rewrite E.
      + congruence.
  Qed.

  (** Position [ix] separates the elements before [x] from those after it. *)
  Definition separates (l : list A) (x : A) (found : bool) (ix : nat) : Prop :=
    (ix <= length l)%nat
    /\ (forall i a, (i < ix)%nat -> nth_error l i = Some a -> c a x = Lt)
    /\ (if found then exists a, nth_error l ix = Some a /\ c a x = Eq
        else forall a, nth_error l ix = Some a -> c a x = Gt)
    /\ (forall i a, (ix < i)%nat -> nth_error l i = Some a -> c a x = Gt).

  Lemma binary_search_spec : forall l x, Forall P l -> P x -> strictly_sorted c l ->
    exists found ix, binary_search cmp l x = Ok (found, ix) /\ separates l x found ix.
  Proof using Hcmp Hanti Htrans.
    intros l x HP Hx HS. unfold binary_search. destruct l as [|e0 l0].
    { exists false, 0%nat. split; [reflexivity|]. unfold separates. split; [apply Nat.le_0_l|].
      split; [intros i a Hi; lia|]. split; [intros a Ha; discriminate|]. intros [|i] a Hi Ha; discriminate. }
    set (l := e0 :: l0) in *.
    destruct (bs_loop_spec (length l) l x 0 (length l)) as (b & Eb & Hb & HB & HT); auto.
    { cbn. lia. }
    { intros i a Hi Ha. assert (nth_error l i <> None) as N by congruence. apply nth_error_Some in N. lia. }
    rewrite Eb. cbn [obind]. destruct (nth_error_lt l b Hb) as [e He].
    rewrite (index_nat_some _ _ _ He). cbn [obind].
    assert (HPn : forall i a, nth_error l i = Some a -> P a).
    { intros i a Ha. rewrite Forall_forall in HP. apply HP. eapply nth_error_In; eauto. }
    rewrite Hcmp by eauto. cbn [obind].
    assert (Hlow : forall i a, (i < b)%nat -> c e x <> Gt -> nth_error l i = Some a -> c a x = Lt).
    { intros i a Hi Hle Ha. apply (c_lt_le_trans a e x); eauto. apply (sorted_nth l i b); auto. }
    destruct (c e x) eqn:E.
    - exists true, b. split; [reflexivity|]. split; [lia|]. split; [|split; auto].
      + intros i a Hi Ha. apply (Hlow i a); auto; congruence.
      + exists e. auto.
    - exists false, (S b). split; [reflexivity|]. split; [lia|]. split; [|split].
      + intros i a Hi Ha. destruct (Nat.eq_dec i b) as [->|]; [congruence|]. apply (Hlow i a); auto; try congruence; lia.
      + intros a Ha. apply (HT (S b)); auto.
      + intros i a Hi. apply HT. lia.
    - destruct HB as [->|(a0 & Ha0 & Hle)]; [|congruence].
      exists false, 0%nat. split; [reflexivity|]. split; [lia|]. split; [intros; lia|]. split; auto.
      intros a Ha. congruence.
  Qed.

  (** ** The set operations *)

  Lemma separates_has : forall l x found ix, separates l x found ix -> Forall P l -> P x ->
    (found = true <-> has c l x).
  Proof using Hcmp Hanti Htrans.
    intros l x found ix (H1 & H2 & H3 & H4) HP Hx. split.
    - intros ->. destruct H3 as (a & Ha & E). exists a. split; auto. eapply nth_error_In; eauto.
    - intros (y & Hy & E). destruct found; auto. exfalso. apply In_nth_error in Hy. destruct Hy as [i Hi].
      destruct (lt_eq_lt_dec i ix) as [[L|L]|L].
      + rewrite (H2 i y) in E; auto; discriminate.
      + subst. rewrite (H3 y) in E; auto; discriminate.
      + rewrite (H4 i y) in E; auto; discriminate.
  Qed.

  Lemma separates_in : forall l x found ix y, separates l x found ix -> In y l ->
    (c y x = Lt -> exists i, (i < ix)%nat /\ nth_error l i = Some y)
    /\ (c y x = Gt -> exists i, (ix <= i)%nat /\ nth_error l i = Some y)
    /\ (c y x = Eq -> found = true /\ nth_error l ix = Some y).
  Proof using Hcmp Hanti Htrans.
    intros l x found ix y (H1 & H2 & H3 & H4) Hy. apply In_nth_error in Hy. destruct Hy as [i Hi].
    destruct (lt_eq_lt_dec i ix) as [[L|L]|L].
    - pose proof (H2 i y L Hi) as E. repeat split; intros; try congruence. eauto.
    - subst. destruct found.
      + destruct H3 as (a & Ha & E). assert (a = y) by congruence. subst. repeat split; intros; congruence.
      + pose proof (H3 y Hi) as E. repeat split; intros; try congruence. exists ix. auto.
    - pose proof (H4 i y L Hi) as E. repeat split; intros; try congruence. exists i. split; auto. lia.
  Qed.

  Lemma sorted_app : forall l1 l2, strictly_sorted c (l1 ++ l2) <->
    strictly_sorted c l1 /\ strictly_sorted c l2 /\ forall a b, In a l1 -> In b l2 -> c a b = Lt.
  Proof using Hcmp Hanti Htrans.
    induction l1 as [|x l1 IH]; intros l2; cbn.
    - split; [intros H; repeat split; auto; contradiction|tauto].
    - rewrite IH, Forall_app. split.
      + intros [[F1 F2] (S1 & S2 & H)]. repeat split; auto. intros a b [->|Ha] Hb; auto.
        rewrite Forall_forall in F2. auto.
      + intros [[F1 S1] [S2 H]]. repeat split; auto. apply Forall_forall. intros; auto.
  Qed.

  Lemma sorted_insert : forall l x ix, Forall P l -> P x -> strictly_sorted c l -> separates l x false ix ->
    strictly_sorted c (insert_at ix x l).
  Proof using Hcmp Hanti Htrans.
    intros l x ix HP Hx HS (H1 & H2 & H3 & H4). unfold insert_at.
    rewrite <- (firstn_skipn ix l) in HS. apply sorted_app in HS. destruct HS as (S1 & S2 & HC).
    assert (HB : forall a, In a (firstn ix l) -> c a x = Lt).
    { intros a Ha. apply In_nth_error in Ha. destruct Ha as [i Hi].
      assert (nth_error (firstn ix l) i <> None) as N by congruence. apply nth_error_Some in N.
      rewrite firstn_length in N. rewrite nth_error_firstn in Hi by lia. apply (H2 i a); auto. lia. }
    assert (HA : forall a, In a (skipn ix l) -> c x a = Lt).
    { intros a Ha. pose proof Ha as Ha'. apply In_nth_error in Ha. destruct Ha as [i Hi].
      rewrite nth_error_skipn in Hi. assert (Pa : P a).
      { rewrite Forall_forall in HP. apply HP. eapply nth_error_In; eauto. }
      rewrite (Hanti a x) by auto.
      assert (E : c a x = Gt).
      { destruct i; [rewrite Nat.add_0_r in Hi; apply H3; auto|apply (H4 (ix + S i)%nat); auto; lia]. }
      now rewrite E. }
    apply sorted_app. repeat split; auto.
    - apply Forall_forall. auto.
    - intros a b Ha [<-|Hb]; auto.
  Qed.

  Lemma sorted_remove : forall l ix, strictly_sorted c l -> strictly_sorted c (remove_at ix l).
  Proof using Hcmp Hanti Htrans.
    intros l ix HS. unfold remove_at. destruct (le_lt_dec (length l) ix) as [L|L].
    { rewrite firstn_all2, skipn_all2 by lia. now rewrite app_nil_r. }
    rewrite <- (firstn_skipn ix l) in HS. apply sorted_app in HS. destruct HS as (S1 & S2 & HC).
    replace (skipn (S ix) l) with (tl (skipn ix l)).
    2:{ clear. revert ix. induction l as [|y l IHl]; intros [|ix]; auto. change (skipn (S ix) (y :: l)) with (skipn ix l).
        change (skipn (S (S ix)) (y :: l)) with (skipn (S ix) l). apply IHl. }
    destruct (skipn ix l) as [|y r]; cbn [tl]; [now rewrite app_nil_r|].
    destruct S2 as [_ S2]. apply sorted_app. repeat split; auto. intros a b Ha Hb. apply HC; cbn; auto.
  Qed.

  Lemma in_remove_at : forall (l : list A) ix y, In y (remove_at ix l) <-> exists i, i <> ix /\ nth_error l i = Some y.
  Proof using Hcmp Hanti Htrans.
    intros l. induction l as [|x l IH]; intros ix y.
    - unfold remove_at. rewrite firstn_nil, skipn_nil. cbn. split; [tauto|]. intros (i & _ & H). destruct i; discriminate.
    - destruct ix as [|ix].
      + unfold remove_at. cbn. split.
        * intros H. apply In_nth_error in H. destruct H as [i Hi]. exists (S i). split; auto.
        * intros ([|i] & N & H); [congruence|]. eapply nth_error_In; eauto.
      + change (remove_at (S ix) (x :: l)) with (x :: remove_at ix l). cbn [In]. rewrite IH. split.
        * intros [->|(i & N & H)]; [exists 0%nat; split; auto|exists (S i); split; auto].
        * intros ([|i] & N & H); [inversion H; auto|]. right. exists i. split; auto.
  Qed.

  Lemma in_remove_found : forall l x ix y, separates l x true ix -> Forall P l -> P x -> strictly_sorted c l ->
    (In y (remove_at ix l) <-> In y l /\ c y x <> Eq).
  Proof using Hcmp Hanti Htrans.
    intros l x ix y HS HP Hx HSt. rewrite in_remove_at. pose proof HS as (H1 & H2 & H3 & H4). split.
    - intros (i & N & H). split; [eapply nth_error_In; eauto|].
      destruct (lt_eq_lt_dec i ix) as [[L|L]|L]; [rewrite (H2 i y); auto; discriminate|congruence|rewrite (H4 i y); auto; discriminate].
    - intros [Hy N]. destruct (separates_in _ _ _ _ _ HS Hy) as (A1 & A2 & A3).
      destruct (c y x) eqn:E; [congruence| |].
      + destruct (A1 eq_refl) as (i & L & Hi). exists i. split; auto. lia.
      + destruct (A2 eq_refl) as (i & L & Hi). exists i. split; auto.
        intros ->. destruct H3 as (a & Ha & E'). congruence.
  Qed.

  Definition fine (l : list A) : Prop := Forall P l /\ strictly_sorted c l.

  Lemma insert_spec : forall l x, fine l -> P x ->
    exists l', sl_insert cmp l x = Ok l' /\ fine l'
      /\ forall y, In y l' <-> In y l \/ (y = x /\ ~ has c l x).
  Proof using Hcmp Hanti Htrans.
    intros l x [HP HS] Hx. destruct (binary_search_spec l x HP Hx HS) as (f & ix & E & Sp).
    pose proof (separates_has _ _ _ _ Sp HP Hx) as HH.
    unfold sl_insert. rewrite E. cbn [obind]. eexists. split; [reflexivity|]. destruct f.
    - split; [split; auto|]. intros y. tauto.
    - split.
      + split; [|apply sorted_insert; auto]. apply Forall_forall. intros y Hy. apply in_insert_at in Hy.
        rewrite Forall_forall in HP. destruct Hy as [->|Hy]; auto.
      + intros y. rewrite in_insert_at. assert (~ has c l x) by (intros X; apply HH in X; discriminate). tauto.
  Qed.

  Lemma remove_spec : forall l x, fine l -> P x ->
    exists found l', sl_remove cmp l x = Ok (found, l') /\ fine l'
      /\ (found = true <-> has c l x) /\ forall y, In y l' <-> In y l /\ c y x <> Eq.
  Proof using Hcmp Hanti Htrans.
    intros l x [HP HS] Hx. destruct (binary_search_spec l x HP Hx HS) as (f & ix & E & Sp).
    pose proof (separates_has _ _ _ _ Sp HP Hx) as HH.
    unfold sl_remove. rewrite E. cbn [obind]. destruct f.
    - eexists true, _. split; [reflexivity|]. split; [split|].
      + apply Forall_forall. intros y Hy. apply (in_remove_found l x ix y Sp HP Hx HS) in Hy.
        rewrite Forall_forall in HP. apply HP. tauto.
      + apply sorted_remove, HS.
      + split; auto. intros y. apply (in_remove_found l x ix y Sp HP Hx HS).
    - eexists false, _. split; [reflexivity|]. split; [split; auto|]. split; auto.
      intros y. split; [|tauto]. intros Hy. split; auto. intros X. assert (has c l x) by (exists y; auto).
      apply HH in H. discriminate.
  Qed.

  Lemma before_spec : forall l x f ix, fine l -> P x -> separates l x f ix ->
    exists r, before l ix = Ok r /\ predecessor c l x r.
  Proof using Hcmp Hanti Htrans.
    intros l x f ix [HP HS] Hx Sp. pose proof Sp as (H1 & H2 & H3 & H4). unfold before. destruct ix as [|i].
    - exists None. split; auto. cbn. intros y Hy E.
      destruct (separates_in _ _ _ _ _ Sp Hy) as (A1 & _ & _). destruct (A1 E) as (i & L & _). lia.
    - destruct (nth_error_lt l i ltac:(lia)) as [p Hp]. rewrite (index_nat_some _ _ _ Hp). cbn [obind].
      exists (Some p). split; auto. cbn. split; [eapply nth_error_In; eauto|]. split; [apply (H2 i); auto|].
      intros y Hy E. destruct (separates_in _ _ _ _ _ Sp Hy) as (A1 & _ & _). destruct (A1 E) as (j & L & Hj).
      assert (Pp : P p) by (rewrite Forall_forall in HP; apply HP; eapply nth_error_In; eauto).
      destruct (Nat.eq_dec j i) as [->|N].
      + assert (y = p) by congruence. subst. rewrite c_refl; auto. discriminate.
      + rewrite (sorted_nth l j i y p); auto; [discriminate|lia].
  Qed.

  Lemma previous_spec : forall l x, fine l -> P x ->
    exists r, sl_previous cmp l x = Ok r
      /\ (has c l x -> predecessor c l x r) /\ (~ has c l x -> r = None).
  Proof using Hcmp Hanti Htrans.
    intros l x HF Hx. pose proof HF as [HP HS]. destruct (binary_search_spec l x HP Hx HS) as (f & ix & E & Sp).
    pose proof (separates_has _ _ _ _ Sp HP Hx) as HH.
    unfold sl_previous. rewrite E. cbn [obind]. destruct f.
    - destruct (before_spec l x true ix HF Hx Sp) as (r & Er & Hr). exists r. split; auto. split; auto.
      intros N. exfalso. apply N, HH. reflexivity.
    - exists None. split; auto. split; auto. intros X. apply HH in X. discriminate.
  Qed.

  (** After removing, the position still separates. *)
  Lemma separates_removed : forall l x ix, fine l -> separates l x true ix ->
    separates (remove_at ix l) x false ix.
  Proof using Hcmp Hanti Htrans.
    intros l x ix [HP HS] (H1 & H2 & H3 & H4). destruct H3 as (a & Ha & Ea).
    assert (Hlt : (ix < length l)%nat) by (apply nth_error_Some; congruence).
    assert (G1 : forall i, (i < ix)%nat -> nth_error (remove_at ix l) i = nth_error l i).
    { intros i Hi. unfold remove_at. rewrite nth_error_app1; [|rewrite firstn_length; lia].
      apply nth_error_firstn; auto. }
    assert (G2 : forall i, (ix <= i)%nat -> nth_error (remove_at ix l) i = nth_error l (S i)).
    { intros i Hi. unfold remove_at. rewrite nth_error_app2; rewrite firstn_length; [|lia].
      rewrite nth_error_skipn. f_equal. lia. }
    unfold separates. repeat split.
    - unfold remove_at. rewrite app_length, firstn_length, skipn_length. lia.
    - intros i b Hi. rewrite G1 by auto. apply H2; auto.
    - intros b. rewrite G2 by auto. apply H4. lia.
    - intros i b Hi. rewrite G2 by lia. apply H4. lia.
  Qed.

  Lemma next_spec : forall l x f ix, fine l -> P x -> separates l x f ix ->
    successor c l x (nth_error l (if f then S ix else ix)).
  Proof using Hcmp Hanti Htrans.
    intros l x f ix [HP HS] Hx Sp. pose proof Sp as (H1 & H2 & H3 & H4).
    set (k := if f then S ix else ix).
    assert (Hk : forall i a, (k <= i)%nat -> nth_error l i = Some a -> c a x = Gt).
    { intros i a Hi Ha. destruct f; subst k; [apply (H4 i); auto; lia|].
      destruct (Nat.eq_dec i ix) as [->|]; [apply H3; auto|apply (H4 i); auto; lia]. }
    assert (Hg : forall y, In y l -> c y x = Gt -> exists i, (k <= i)%nat /\ nth_error l i = Some y).
    { intros y Hy E. destruct (separates_in _ _ _ _ _ Sp Hy) as (_ & A2 & _). destruct (A2 E) as (i & L & Hi).
      exists i. split; auto. destruct f; subst k; auto.
      destruct (Nat.eq_dec i ix) as [->|]; [|lia]. destruct H3 as (a & Ha & E'). congruence. }
    destruct (nth_error l k) as [p|] eqn:E; cbn.
    - split; [eapply nth_error_In; eauto|]. split; [apply (Hk k); auto|].
      intros y Hy Ey. destruct (Hg y Hy Ey) as (i & L & Hi).
      assert (Pp : P p /\ P y) by (rewrite Forall_forall in HP; split; apply HP; eapply nth_error_In; eauto).
      destruct (Nat.eq_dec i k) as [->|N]; [assert (y = p) by congruence; subst; rewrite c_refl; [discriminate|tauto]|].
      assert (L2 : c p y = Lt) by (apply (sorted_nth l k i); auto; lia).
      rewrite (Hanti p y) by tauto. rewrite L2. discriminate.
    - intros y Hy Ey. destruct (Hg y Hy Ey) as (i & L & Hi). apply nth_error_None in E.
      assert (nth_error l i <> None) as N by congruence. apply nth_error_Some in N. lia.
  Qed.

  Lemma remove_neighbors_spec : forall l x, fine l -> P x ->
    exists found prev next l', sl_remove_neighbors cmp l x = Ok (found, prev, next, l') /\ fine l'
      /\ (found = true <-> has c l x) /\ (forall y, In y l' <-> In y l /\ c y x <> Eq)
      /\ predecessor c l x prev /\ successor c l x next.
  Proof using Hcmp Hanti Htrans.
    intros l x HF Hx. pose proof HF as [HP HS]. destruct (binary_search_spec l x HP Hx HS) as (f & ix & E & Sp).
    pose proof (separates_has _ _ _ _ Sp HP Hx) as HH.
    unfold sl_remove_neighbors. rewrite E. cbn [obind]. destruct f.
    - pose proof (separates_removed l x ix HF Sp) as Sp'.
      assert (HI : forall y, In y (remove_at ix l) <-> In y l /\ c y x <> Eq).
      { intros y. apply (in_remove_found l x ix y Sp HP Hx HS). }
      assert (HF' : fine (remove_at ix l)).
      { split; [|apply sorted_remove, HS]. apply Forall_forall. intros y Hy. apply HI in Hy.
        rewrite Forall_forall in HP. apply HP. tauto. }
      destruct (before_spec _ x false ix HF' Hx Sp') as (r & Er & Hr). rewrite Er. cbn [obind].
      eexists true, r, _, _. split; [reflexivity|]. split; auto. split; auto. split; auto. split.
      + destruct r as [p|]; cbn in *.
        * destruct Hr as (R1 & R2 & R3). apply HI in R1. repeat split; try tauto.
          intros y Hy Ey. apply R3; auto. apply HI. split; auto. congruence.
        * intros y Hy Ey. apply (Hr y); auto. apply HI. split; auto. congruence.
      + pose proof (next_spec _ x false ix HF' Hx Sp') as Hn. cbn in Hn.
        destruct (nth_error (remove_at ix l) ix) as [p|]; cbn in *.
        * destruct Hn as (R1 & R2 & R3). apply HI in R1. repeat split; try tauto.
          intros y Hy Ey. apply R3; auto. apply HI. split; auto. congruence.
        * intros y Hy Ey. apply (Hn y); auto. apply HI. split; auto. congruence.
    - destruct (before_spec l x false ix HF Hx Sp) as (r & Er & Hr). rewrite Er. cbn [obind].
      eexists false, r, _, _. split; [reflexivity|]. split; auto. split; auto. split; [|split; auto].
      + intros y. split; [|tauto]. intros Hy. split; auto. intros X. assert (has c l x) by (exists y; auto).
        apply HH in H. discriminate.
      + apply (next_spec l x false ix HF Hx Sp).
  Qed.

  Lemma insert_neighbors_spec : forall l x, fine l -> P x ->
    exists prev next l', sl_insert_neighbors cmp l x = Ok (prev, next, l') /\ fine l'
      /\ (forall y, In y l' <-> In y l \/ (y = x /\ ~ has c l x))
      /\ predecessor c l x prev /\ successor c l x next.
  Proof using Hcmp Hanti Htrans.
    intros l x HF Hx. pose proof HF as [HP HS]. destruct (binary_search_spec l x HP Hx HS) as (f & ix & E & Sp).
    pose proof (separates_has _ _ _ _ Sp HP Hx) as HH.
    unfold sl_insert_neighbors. rewrite E. cbn [obind]. destruct f.
    - destruct (before_spec l x true ix HF Hx Sp) as (r & Er & Hr). rewrite Er. cbn [obind].
      eexists r, _, _. split; [reflexivity|]. split; auto. split; [tauto|]. split; auto.
      apply (next_spec l x true ix HF Hx Sp).
    - assert (HN : ~ has c l x) by (intros X; apply HH in X; discriminate).
      pose proof Sp as (H1 & H2 & H3 & H4).
      assert (G1 : forall i, (i < ix)%nat -> nth_error (insert_at ix x l) i = nth_error l i).
      { intros i Hi. unfold insert_at. rewrite nth_error_app1; [|rewrite firstn_length; lia].
        apply nth_error_firstn; auto. }
      assert (G2 : forall i, (ix < i)%nat -> nth_error (insert_at ix x l) i = nth_error l (i - 1)).
      { intros i Hi. unfold insert_at. rewrite nth_error_app2; rewrite firstn_length; [|lia].
        rewrite Nat.min_l by lia. destruct (i - ix)%nat as [|k] eqn:Ek; [lia|]. cbn [nth_error].
        rewrite nth_error_skipn. f_equal. lia. }
      assert (HF' : fine (insert_at ix x l)).
      { split; [|apply sorted_insert; auto]. apply Forall_forall. intros y Hy. apply in_insert_at in Hy.
        rewrite Forall_forall in HP. destruct Hy as [->|Hy]; auto. }
      assert (B : before (insert_at ix x l) ix = before l ix).
      { unfold before. destruct ix; auto. unfold index_nat. rewrite G1 by lia. reflexivity. }
      destruct (before_spec l x false ix HF Hx Sp) as (r & Er & Hr). rewrite B, Er. cbn [obind].
      eexists r, _, _. split; [reflexivity|]. split; auto. split; [|split; auto].
      + intros y. rewrite in_insert_at. tauto.
      + rewrite G2 by lia. replace (S ix - 1)%nat with ix by lia. apply (next_spec l x false ix HF Hx Sp).
  Qed.

  (** ** The heap *)

  Definition parent (i : nat) : nat := ((i - 1) / 2)%nat.

  Lemma parent_lt : forall i, (0 < i)%nat -> (parent i < i)%nat.
  Proof using Hcmp Hanti Htrans. intros i H. unfold parent. apply (Nat.le_lt_trans _ (i - 1)); [apply Nat.div_le_upper_bound; lia|lia]. Qed.

  Lemma parent_child : forall i p, (0 < i)%nat -> parent i = p -> i = (2 * p + 1)%nat \/ i = (2 * p + 2)%nat.
  Proof using Hcmp Hanti Htrans.
    intros i p H E. unfold parent in E. pose proof (Nat.div_mod (i - 1) 2 ltac:(lia)).
    pose proof (Nat.mod_upper_bound (i - 1) 2 ltac:(lia)). lia.
  Qed.
  Lemma child_parent1 : forall p, parent (2 * p + 1) = p.
  Proof using Hcmp Hanti Htrans. intros p. unfold parent. replace (2 * p + 1 - 1)%nat with (p * 2)%nat by lia. apply Nat.div_mul. lia. Qed.
  Lemma child_parent2 : forall p, parent (S (2 * p + 1)) = p.
  Proof using Hcmp Hanti Htrans.
    intros p. unfold parent. replace (S (2 * p + 1) - 1)%nat with (1 + p * 2)%nat by lia. rewrite Nat.div_add by lia. reflexivity.
  Qed.

  Definition le_at (l : list A) (i j : nat) : Prop :=
    forall a b, nth_error l i = Some a -> nth_error l j = Some b -> c a b <> Gt.
  Definition heap (l : list A) : Prop := forall i, (0 < i)%nat -> le_at l (parent i) i.

  (** A heap with a hole at [pos]. *)
  Definition holey (l : list A) (pos : nat) : Prop :=
    (forall i, (0 < i)%nat -> i <> pos -> parent i <> pos -> le_at l (parent i) i)
    /\ (forall i, (0 < i)%nat -> (0 < pos)%nat -> parent i = pos -> le_at l (parent pos) i).

  Lemma sift_up_spec : forall fuel l pos x, (pos < length l)%nat -> (pos < fuel)%nat -> Forall P l -> P x ->
    holey l pos ->
    (forall i b, (0 < i)%nat -> parent i = pos -> nth_error l i = Some b -> c x b <> Gt) ->
    exists l', sift_up cmp fuel l pos x = Ok l' /\ heap l' /\ Permutation l' (set_nth pos x l).
  Proof using Hcmp Hanti Htrans.
    induction fuel as [|fuel IH]; intros l pos x Hpos Hfuel HP Hx [Ho1 Ho2] Hc; [lia|].
    assert (Done : (pos = 0%nat \/ exists y, nth_error l (parent pos) = Some y /\ c y x <> Gt) ->
      heap (set_nth pos x l)).
    { intros D i Hi a b Ha Hb.
      destruct (Nat.eq_dec (parent i) pos) as [E|N].
      - rewrite E, nth_set_same in Ha by auto. inversion Ha; subst a.
        pose proof (parent_lt i Hi). rewrite nth_set_other in Hb by lia. apply (Hc i b); auto.
      - rewrite nth_set_other in Ha by auto. destruct (Nat.eq_dec i pos) as [->|N2].
        + rewrite nth_set_same in Hb by auto. inversion Hb; subst b.
          destruct D as [->|(y & Hy & Hle)]; [lia|]. congruence.
        + rewrite nth_set_other in Hb by auto. apply (Ho1 i); auto. }
    cbn [sift_up]. destruct pos as [|p].
    { eexists. split; [reflexivity|]. split; [apply Done; auto|apply Permutation_refl]. }
    assert (Epar : parent (S p) = (p / 2)%nat) by (unfold parent; f_equal; lia).
    rewrite <- Epar. pose proof (parent_lt (S p) ltac:(lia)) as Hpl.
    destruct (nth_error_lt l (parent (S p)) ltac:(lia)) as [y Hy].
    rewrite (index_nat_some _ _ _ Hy). cbn [obind].
    assert (HPn : forall i a, nth_error l i = Some a -> P a).
    { intros i a Ha. rewrite Forall_forall in HP. apply HP. eapply nth_error_In; eauto. }
    pose proof (HPn _ _ Hy) as Py.
    rewrite Hcmp by auto. cbn [obind].
    destruct (c y x) eqn:E.
    1,2: (eexists; split; [reflexivity|]; split; [apply Done; right; exists y; split; auto; congruence|apply Permutation_refl]).
    set (pos := S p) in *. set (q := parent pos) in *.
    assert (Lx : c x y = Lt) by (rewrite (Hanti y x) by auto; now rewrite E).
    assert (HP' : Forall P (set_nth pos y l)).
    { apply Forall_forall. intros z Hz. apply In_nth_error in Hz. destruct Hz as [i Hi].
      destruct (Nat.eq_dec i pos) as [->|N]; [rewrite nth_set_same in Hi by auto; congruence|].
      rewrite nth_set_other in Hi by auto. eauto. }
    destruct (IH (set_nth pos y l) q x) as (l' & E' & Hh & Pm); auto.
    - rewrite set_nth_length; lia.
    - lia.
    - split.
      + intros i Hi N1 N2 a b Ha Hb. rewrite nth_set_other in Hb.
        2: lia.
        2:{ intros <-. apply N2. reflexivity. }
        destruct (Nat.eq_dec (parent i) pos) as [E1|N3].
        * rewrite E1, nth_set_same in Ha by auto. inversion Ha; subst a.
          apply (Ho2 i); auto; lia.
        * rewrite nth_set_other in Ha by auto. apply (Ho1 i); auto. intros ->. apply N2. reflexivity.
      + intros i Hi Hq Hpi a b Ha Hb. pose proof (parent_lt q Hq).
        rewrite nth_set_other in Ha by lia.
        assert (L1 : c a y <> Gt).
        { apply (Ho1 q Hq); auto; [lia|]. intros Eq0. lia. }
        destruct (Nat.eq_dec i pos) as [->|N].
        * rewrite nth_set_same in Hb by auto. inversion Hb; subst b. auto.
        * rewrite nth_set_other in Hb by auto.
          assert (L2 : c y b <> Gt) by (apply (Ho1 i Hi); auto; [lia|rewrite Hpi; auto]).
          apply (Htrans a y b); eauto.
    - intros i b Hi Hpi Hb. destruct (Nat.eq_dec i pos) as [->|N].
      + rewrite nth_set_same in Hb by auto. inversion Hb; subst b. congruence.
      + rewrite nth_set_other in Hb by auto.
        assert (L2 : c y b <> Gt) by (apply (Ho1 i Hi); auto; [lia|rewrite Hpi; auto]).
        rewrite (c_lt_le_trans x y b); eauto. discriminate.
    - exists l'. split; [exact E'|]. split; auto.
      transitivity (set_nth q x (set_nth pos y l)); auto.
      apply set_nth_swap_perm; auto. lia.
  Qed.

  Lemma push_spec : forall l x, Forall P l -> P x -> heap l ->
    exists l', heap_push cmp l x = Ok l' /\ heap l' /\ Permutation l' (x :: l).
  Proof using Hcmp Hanti Htrans.
    intros l x HP Hx HH. unfold heap_push.
    destruct (sift_up_spec (S (length l)) (l ++ [x]) (length l) x) as (l' & E & Hh & Pm).
    - rewrite app_length. cbn. lia.
    - lia.
    - apply Forall_app. auto.
    - auto.
    - split.
      + intros i Hi N1 N2 a b Ha Hb.
        assert (Li : (i < length (l ++ [x]))%nat) by (apply nth_error_Some; congruence).
        rewrite app_length in Li. cbn in Li. pose proof (parent_lt i Hi).
        rewrite nth_error_app1 in Ha, Hb by lia. apply (HH i Hi); auto.
      + intros i Hi _ Hpi a b _ Hb.
        assert (Li : (i < length (l ++ [x]))%nat) by (apply nth_error_Some; congruence).
        rewrite app_length in Li. cbn in Li. pose proof (parent_lt i Hi). lia.
    - intros i b Hi Hpi Hb.
      assert (Li : (i < length (l ++ [x]))%nat) by (apply nth_error_Some; congruence).
      rewrite app_length in Li. cbn in Li. pose proof (parent_lt i Hi). lia.
    - exists l'. split; [exact E|]. split; auto. transitivity (l ++ [x]).
      + rewrite Pm. rewrite set_nth_id; [apply Permutation_refl|].
        rewrite nth_error_app2 by lia. now rewrite Nat.sub_diag.
      + symmetry. apply Permutation_cons_append.
  Qed.

  Lemma sift_down_spec : forall fuel l pos x, (pos < length l)%nat -> (length l - pos <= fuel)%nat -> Forall P l ->
    holey l pos ->
    exists l' pos', sift_down cmp fuel l pos = Ok (l', pos') /\ (pos' < length l')%nat /\ length l' = length l
      /\ Forall P l' /\ holey l' pos' /\ (length l' <= 2 * pos' + 1)%nat
      /\ Permutation (set_nth pos' x l') (set_nth pos x l).
  Proof using Hcmp Hanti Htrans.
    induction fuel as [|fuel IH]; intros l pos x Hpos Hfuel HP [Ho1 Ho2]; [lia|].
    cbn [sift_down]. destruct (Nat.leb_spec (length l) (2 * pos + 1)) as [Hle|Hlt].
    { exists l, pos. split; [reflexivity|]. repeat split; auto. }
    cbv zeta. set (child := (2 * pos + 1)%nat) in *.
    destruct (nth_error_lt l child Hlt) as [y Hy]. rewrite (index_nat_some _ _ _ Hy). cbn [obind].
    assert (HPn : forall i a, nth_error l i = Some a -> P a).
    { intros i a Ha. rewrite Forall_forall in HP. apply HP. eapply nth_error_In; eauto. }
    (* going to a child [k] with value [v] that is least among the children *)
    assert (Go : forall k v, nth_error l k = Some v -> parent k = pos -> (0 < k)%nat ->
      (forall i b, (0 < i)%nat -> parent i = pos -> nth_error l i = Some b -> c v b <> Gt) ->
      exists l' pos', sift_down cmp fuel (set_nth pos v l) k = Ok (l', pos') /\ (pos' < length l')%nat /\ length l' = length l
        /\ Forall P l' /\ holey l' pos' /\ (length l' <= 2 * pos' + 1)%nat
        /\ Permutation (set_nth pos' x l') (set_nth pos x l)).
    { intros k v Hk Hpk Hk0 Hmin. pose proof (parent_lt k Hk0) as Hlk.
      assert (Lk : (k < length l)%nat) by (apply nth_error_Some; congruence).
      destruct (IH (set_nth pos v l) k x) as (l' & pos' & E & Hp' & Hl' & HP' & Hho & Hend & Pm).
      - rewrite set_nth_length; auto.
      - rewrite set_nth_length; lia.
      - apply Forall_forall. intros z Hz. apply In_nth_error in Hz. destruct Hz as [i Hi].
        destruct (Nat.eq_dec i pos) as [->|N]; [rewrite nth_set_same in Hi by auto; inversion Hi; subst; eauto|].
        rewrite nth_set_other in Hi by auto. eauto.
      - split.
        + intros i Hi N1 N2 a b Ha Hb.
          destruct (Nat.eq_dec i pos) as [->|N3].
          * rewrite nth_set_same in Hb by auto. inversion Hb; subst b.
            pose proof (parent_lt pos Hi). rewrite nth_set_other in Ha by lia. apply (Ho2 k Hk0); auto.
          * rewrite nth_set_other in Hb by auto.
            destruct (Nat.eq_dec (parent i) pos) as [E1|N4].
            -- rewrite E1, nth_set_same in Ha by auto. inversion Ha; subst a. apply (Hmin i); auto.
            -- rewrite nth_set_other in Ha by auto. apply (Ho1 i); auto.
        + intros i Hi _ Hpi a b Ha Hb. rewrite Hpk, nth_set_same in Ha by auto. inversion Ha; subst a.
          pose proof (parent_lt i Hi). rewrite nth_set_other in Hb by lia.
          apply (Ho1 i Hi); auto; [lia|lia|]. rewrite Hpi. exact Hk.
      - rewrite set_nth_length in Hl' by auto.
        exists l', pos'. split; [exact E|]. repeat split; auto.
        + apply Hho.
        + apply Hho.
        + rewrite Pm. apply set_nth_swap_perm; auto; lia. }
    destruct (nth_error l (S child)) as [z|] eqn:Hz.
    - rewrite Hcmp by eauto. cbn [obind]. destruct (c z y) eqn:E.
      + apply Go; auto; [apply child_parent2|lia|]. intros i b Hi Hpi Hb.
        destruct (parent_child i pos Hi Hpi) as [->|Ei].
        * fold child in Hb. assert (b = y) by congruence. subst. congruence.
        * replace i with (S child) in Hb by lia. assert (b = z) by congruence. subst. rewrite c_refl; eauto. discriminate.
      + apply Go; auto; [apply child_parent2|lia|]. intros i b Hi Hpi Hb.
        destruct (parent_child i pos Hi Hpi) as [->|Ei].
        * fold child in Hb. assert (b = y) by congruence. subst. congruence.
        * replace i with (S child) in Hb by lia. assert (b = z) by congruence. subst. rewrite c_refl; eauto. discriminate.
      + apply Go; auto; [apply child_parent1|lia|]. intros i b Hi Hpi Hb.
        destruct (parent_child i pos Hi Hpi) as [->|Ei].
        * fold child in Hb. assert (b = y) by congruence. subst. rewrite c_refl; eauto. discriminate.
        * replace i with (S child) in Hb by lia. assert (b = z) by congruence. subst.
          rewrite (Hanti z y) by eauto. rewrite E. discriminate.
    - apply Go; auto; [apply child_parent1|lia|]. intros i b Hi Hpi Hb.
      destruct (parent_child i pos Hi Hpi) as [->|Ei].
      + fold child in Hb. assert (b = y) by congruence. subst. rewrite c_refl; eauto. discriminate.
      + replace i with (S child) in Hb by lia. congruence.
  Qed.

  Lemma heap_top : forall l top, Forall P l -> heap l -> nth_error l 0 = Some top ->
    forall i b, nth_error l i = Some b -> c top b <> Gt.
  Proof using Hcmp Hanti Htrans.
    intros l top HP HH Ht i. induction i as [i IH] using lt_wf_ind. intros b Hb.
    assert (HPn : forall j a, nth_error l j = Some a -> P a).
    { intros j a Ha. rewrite Forall_forall in HP. apply HP. eapply nth_error_In; eauto. }
    destruct (Nat.eq_dec i 0) as [->|N].
    - assert (b = top) by congruence. subst. rewrite c_refl; eauto. discriminate.
    - pose proof (parent_lt i ltac:(lia)) as Hl.
      assert (Li : (i < length l)%nat) by (apply nth_error_Some; congruence).
      destruct (nth_error_lt l (parent i) ltac:(lia)) as [a Ha].
      apply (Htrans top a b); eauto. apply (HH i); auto. lia.
  Qed.

  Lemma pop_spec : forall l, Forall P l -> heap l ->
    match l with
    | [] => heap_pop cmp l = Ok None
    | _ => exists top l', heap_pop cmp l = Ok (Some (top, l')) /\ heap l' /\ Permutation l (top :: l')
             /\ forall b, In b l -> c top b <> Gt
    end.
  Proof using Hcmp Hanti Htrans.
    intros l HP HH. destruct l as [|top rest0]; [reflexivity|].
    assert (Hmin : forall b, In b (top :: rest0) -> c top b <> Gt).
    { intros b Hb. apply In_nth_error in Hb. destruct Hb as [i Hi].
      apply (heap_top (top :: rest0) top HP HH eq_refl i b Hi). }
    unfold heap_pop. destruct (rev (top :: rest0)) as [|x r] eqn:Er.
    { apply (f_equal (@length _)) in Er. rewrite rev_length in Er. discriminate. }
    assert (El : top :: rest0 = rev r ++ [x]).
    { rewrite <- (rev_involutive (top :: rest0)), Er. reflexivity. }
    destruct (rev r) as [|top' rest] eqn:Err.
    - cbn in El. inversion El; subst. exists x, []. split; [reflexivity|]. repeat split; auto.
      intros i _ a b Ha. destruct (parent i); discriminate.
    - cbn [app] in El. inversion El; subst top' rest0. clear El Er Err r.
      set (l := top :: rest ++ [x]) in *.
      assert (Px : P x /\ Forall P rest).
      { subst l. inversion HP as [|? ? P1 P2]; subst. apply Forall_app in P2. destruct P2 as [P2 P3]. inversion P3; auto. }
      assert (Ll : length l = S (length (x :: rest))) by (subst l; cbn; rewrite app_length; cbn; lia).
      destruct (sift_down_spec (length l) (x :: rest) 0 x) as (l1 & pos & E1 & Hp & Hl1 & HP1 & Hho & Hend & Pm).
      + cbn. lia.
      + lia.
      + constructor; tauto.
      + split; [|intros; lia]. intros i Hi N1 N2 a b Ha Hb.
        assert (Li : (i < length (x :: rest))%nat) by (apply nth_error_Some; congruence).
        pose proof (parent_lt i Hi). cbn [length] in Li.
        apply (HH i Hi).
        * subst l. destruct (parent i) as [|k]; [lia|]. cbn [nth_error] in *. rewrite nth_error_app1; auto. lia.
        * subst l. destruct i as [|k]; [lia|]. cbn [nth_error] in *. rewrite nth_error_app1; auto. lia.
      + rewrite E1. cbn [obind].
        destruct (sift_up_spec (S (length l)) l1 pos x) as (l2 & E2 & Hh & Pm2); auto.
        * lia.
        * tauto.
        * intros i b Hi Hpi Hb. assert (Li : (i < length l1)%nat) by (apply nth_error_Some; congruence).
          destruct (parent_child i pos Hi Hpi); lia.
        * rewrite E2. cbn [obind]. exists top, l2. split; [reflexivity|]. split; auto. split; auto.
          subst l. constructor. rewrite Pm2, Pm. change (set_nth 0 x (x :: rest)) with (x :: rest).
          symmetry. apply Permutation_cons_append.
  Qed.
End Lawful.

(** ** The statements *)

Lemma lawful_remove : forall {A} (P : A -> Prop) cmp c (l : list A) x, lawful P cmp c ->
  Forall P l -> strictly_sorted c l -> P x ->
  exists found l', sl_remove cmp l x = Ok (found, l') /\ Forall P l' /\ strictly_sorted c l'
    /\ (found = true <-> has c l x) /\ forall y, In y l' <-> In y l /\ c y x <> Eq.
Proof.
  intros A P cmp c l x (H1 & H2 & H3) HP HS Hx.
  destruct (remove_spec P cmp c H1 H2 H3 l x (conj HP HS) Hx) as (f & l' & E & [F1 F2] & R). exists f, l'. tauto.
Qed.
Lemma lawful_insert : forall {A} (P : A -> Prop) cmp c (l : list A) x, lawful P cmp c ->
  Forall P l -> strictly_sorted c l -> P x ->
  exists l', sl_insert cmp l x = Ok l' /\ Forall P l' /\ strictly_sorted c l'
    /\ forall y, In y l' <-> In y l \/ (y = x /\ ~ has c l x).
Proof.
  intros A P cmp c l x (H1 & H2 & H3) HP HS Hx.
  destruct (insert_spec P cmp c H1 H2 H3 l x (conj HP HS) Hx) as (l' & E & [F1 F2] & R). exists l'. tauto.
Qed.
Lemma lawful_remove_neighbors : forall {A} (P : A -> Prop) cmp c (l : list A) x, lawful P cmp c ->
  Forall P l -> strictly_sorted c l -> P x ->
  exists found prev next l', sl_remove_neighbors cmp l x = Ok (found, prev, next, l') /\ Forall P l' /\ strictly_sorted c l'
    /\ (found = true <-> has c l x) /\ (forall y, In y l' <-> In y l /\ c y x <> Eq)
    /\ predecessor c l x prev /\ successor c l x next.
Proof.
  intros A P cmp c l x (H1 & H2 & H3) HP HS Hx.
  destruct (remove_neighbors_spec P cmp c H1 H2 H3 l x (conj HP HS) Hx) as (f & p & n & l' & E & [F1 F2] & R). exists f, p, n, l'. tauto.
Qed.
Lemma lawful_insert_neighbors : forall {A} (P : A -> Prop) cmp c (l : list A) x, lawful P cmp c ->
  Forall P l -> strictly_sorted c l -> P x ->
  exists prev next l', sl_insert_neighbors cmp l x = Ok (prev, next, l') /\ Forall P l' /\ strictly_sorted c l'
    /\ (forall y, In y l' <-> In y l \/ (y = x /\ ~ has c l x))
    /\ predecessor c l x prev /\ successor c l x next.
Proof.
  intros A P cmp c l x (H1 & H2 & H3) HP HS Hx.
  destruct (insert_neighbors_spec P cmp c H1 H2 H3 l x (conj HP HS) Hx) as (p & n & l' & E & [F1 F2] & R). exists p, n, l'. tauto.
Qed.
Lemma lawful_previous : forall {A} (P : A -> Prop) cmp c (l : list A) x, lawful P cmp c ->
  Forall P l -> strictly_sorted c l -> P x ->
  exists r, sl_previous cmp l x = Ok r /\ (has c l x -> predecessor c l x r) /\ (~ has c l x -> r = None).
Proof.
  intros A P cmp c l x (H1 & H2 & H3) HP HS Hx.
  exact (previous_spec P cmp c H1 H2 H3 l x (conj HP HS) Hx).
Qed.

Lemma set_after_ext : forall {A} (c : A -> A -> comparison) s s' o, (forall y, s y <-> s' y) ->
  forall y, set_after c s o y <-> set_after c s' o y.
Proof.
  intros A c s s' o H y. destruct o; cbn; rewrite ?H; try tauto.
  - assert ((exists z, s z /\ c z x = Eq) <-> (exists z, s' z /\ c z x = Eq)) as ->; [|tauto].
    split; intros (z & Hz & E); exists z; split; auto; now apply H.
  - assert ((exists z, s z /\ c z x = Eq) <-> (exists z, s' z /\ c z x = Eq)) as ->; [|tauto].
    split; intros (z & Hz & E); exists z; split; auto; now apply H.
Qed.

Lemma set_history : forall {A} (P : A -> Prop) cmp c (ops : list (set_op A)), lawful P cmp c ->
  Forall (fun o => P (set_arg o)) ops ->
  exists l, ofold (run_set_op cmp) ops [] = Ok l /\ strictly_sorted c l
    /\ forall y, In y l <-> fold_left (set_after c) ops (fun _ => False) y.
Proof.
  intros A P cmp c ops HL HO.
  enough (G : forall l s, Forall P l -> strictly_sorted c l -> (forall y, In y l <-> s y) ->
    exists l', ofold (run_set_op cmp) ops l = Ok l' /\ strictly_sorted c l'
      /\ forall y, In y l' <-> fold_left (set_after c) ops s y).
  { apply G; auto; [exact I|]. intros y. cbn. tauto. }
  induction ops as [|o ops IH]; intros l s HP HS E.
  { exists l. cbn. auto. }
  inversion HO as [|? ? Ho HO']; subst. cbn [ofold fold_left].
  assert (St : exists l1, run_set_op cmp l o = Ok l1 /\ Forall P l1 /\ strictly_sorted c l1
    /\ forall y, In y l1 <-> set_after c (fun y => In y l) o y).
  { destruct o as [x|x|x|x|x]; cbn [set_arg run_set_op set_after] in *.
    - destruct (lawful_insert P cmp c l x HL HP HS Ho) as (l' & -> & F1 & F2 & R). exists l'. auto.
    - destruct (lawful_remove P cmp c l x HL HP HS Ho) as (f & l' & -> & F1 & F2 & _ & R). exists l'. auto.
    - destruct (lawful_insert_neighbors P cmp c l x HL HP HS Ho) as (p & n & l' & -> & F1 & F2 & R & _). exists l'. auto.
    - destruct (lawful_remove_neighbors P cmp c l x HL HP HS Ho) as (f & p & n & l' & -> & F1 & F2 & _ & R & _). exists l'. auto.
    - destruct (lawful_previous P cmp c l x HL HP HS Ho) as (r & -> & _). exists l. repeat split; auto. }
  destruct St as (l1 & -> & F1 & F2 & R). cbn [obind].
  apply (IH HO'); auto. intros y. rewrite R. apply set_after_ext, E.
Qed.

Lemma queue_trace_perm : forall {A} (c : A -> A -> comparison) b ops outs b', queue_trace c b ops outs b' ->
  forall b0, Permutation b0 b -> queue_trace c b0 ops outs b'.
Proof.
  intros A c b ops outs b' H. induction H; intros b0 Hp.
  - constructor. now transitivity bag.
  - constructor. apply IHqueue_trace. now constructor.
  - apply Permutation_sym, Permutation_nil in Hp. subst. now constructor.
  - apply (qt_pop c b0 top rest); auto.
    + now transitivity bag.
    + intros b Hb. apply H0. eapply Permutation_in; eauto.
Qed.

Lemma queue_history : forall {A} (P : A -> Prop) cmp c (ops : list (queue_op A)), lawful P cmp c ->
  (forall x, In (QPush x) ops -> P x) ->
  exists outs h, run_queue cmp [] ops = Ok (outs, h) /\ queue_trace c [] ops outs h.
Proof.
  intros A P cmp c ops (H1 & H2 & H3) HO.
  enough (G : forall h, Forall P h -> heap c h ->
    exists outs h', run_queue cmp h ops = Ok (outs, h') /\ queue_trace c h ops outs h').
  { apply G; auto. intros i _ a b Ha. destruct (parent i); discriminate. }
  induction ops as [|[x|] ops IH]; intros h HP HH.
  - exists [], h. split; [reflexivity|]. constructor. reflexivity.
  - cbn [run_queue]. assert (Px : P x) by (apply HO; cbn; auto).
    destruct (push_spec P cmp c H1 H2 H3 h x HP Px HH) as (h1 & -> & HH1 & Pm). cbn [obind].
    destruct (IH ltac:(intros y Hy; apply HO; cbn; auto) h1) as (outs & h' & E & Tr); auto.
    { apply Forall_forall. intros y Hy. apply (Permutation_in _ Pm) in Hy. rewrite Forall_forall in HP. destruct Hy as [<-|Hy]; auto. }
    exists outs, h'. split; auto. constructor. apply (queue_trace_perm c h1); auto. now symmetry.
  - cbn [run_queue]. pose proof (pop_spec P cmp c H1 H2 H3 h HP HH) as Po.
    specialize (fun H => IH H). destruct h as [|a h].
    + rewrite Po. cbn [obind]. destruct (IH ltac:(intros y Hy; apply HO; cbn; auto) [] HP HH) as (outs & h' & E & Tr).
      rewrite E. cbn [obind]. exists (None :: outs), h'. split; auto. now constructor.
    + destruct Po as (top & h1 & -> & HH1 & Pm & Hmin). cbn [obind].
      destruct (IH ltac:(intros y Hy; apply HO; cbn; auto) h1) as (outs & h' & E & Tr); auto.
      { apply Forall_forall. intros y Hy. rewrite Forall_forall in HP. apply HP.
        apply (Permutation_in _ (Permutation_sym Pm)). now right. }
      rewrite E. cbn [obind]. exists (Some top :: outs), h'. split; auto. apply (qt_pop c _ top h1); auto.
Qed.

Lemma nth_ext_error : forall {A} (l m : list A), (forall i, nth_error l i = nth_error m i) -> l = m.
Proof.
  intros A l. induction l as [|x l IH]; intros [|y m] H; auto.
  - specialize (H 0%nat). discriminate.
  - specialize (H 0%nat). discriminate.
  - f_equal; [specialize (H 0%nat); cbn in H; congruence|]. apply IH. intros i. exact (H (S i)).
Qed.

Lemma nth_Forall2 : forall {A B} (R : A -> B -> Prop) l m, length l = length m ->
  (forall i a b, nth_error l i = Some a -> nth_error m i = Some b -> R a b) -> Forall2 R l m.
Proof.
  intros A B R l. induction l as [|x l IH]; intros [|y m] L H; try discriminate; constructor.
  - apply (H 0%nat); reflexivity.
  - apply IH; [cbn in L; lia|]. intros i. exact (H (S i)).
Qed.
