(** Comparison of doubles is a total preorder away from NaN. *)

From Coq Require Import List ZArith Bool Lia.
From Coq Require Import Floats.SpecFloat.
From Verif Require Import Base Float.
Import ListNotations.
Local Open Scope Z_scope.

Definition key (f : f64) : Z * Z * Z :=
  match f with
  | S754_zero _ | S754_nan => (0, 0, 0)
  | S754_infinity s => (if s then -2 else 2, 0, 0)
  | S754_finite s m e => if s then (-1, -e, - Z.pos m) else (1, e, Z.pos m)
  end.

Definition kcmp (a b : Z * Z * Z) : comparison :=
  let '(a1, a2, a3) := a in
  let '(b1, b2, b3) := b in
  match Z.compare a1 b1 with
  | Eq => match Z.compare a2 b2 with Eq => Z.compare a3 b3 | c => c end
  | c => c
  end.

Lemma cmp_key : forall f g, f64_is_nan f = false -> f64_is_nan g = false ->
  f64_cmp f g = Some (kcmp (key f) (key g)).
Proof.
  intros f g Hf Hg.
  destruct f as [s|s| |s m e], g as [t|t| |t n d]; try discriminate;
    try (destruct s; reflexivity); try (destruct t; reflexivity);
    try (destruct s, t; reflexivity).
  destruct s, t; cbn; try reflexivity.
  rewrite Z.compare_opp. destruct (Z.compare_spec e d).
  + subst. rewrite Z.compare_refl. reflexivity.
  + destruct (Z.compare_spec d e); try lia; reflexivity.
  + destruct (Z.compare_spec d e); try lia; reflexivity.
Qed.

Lemma kcmp_refl : forall a, kcmp a a = Eq.
Proof. intros [[a b] c]. cbn. now rewrite !Z.compare_refl. Qed.

Lemma kcmp_antisym : forall a b, kcmp b a = CompOpp (kcmp a b).
Proof.
  intros [[a1 a2] a3] [[b1 b2] b3]. cbn.
  destruct (Z.compare_spec a1 b1), (Z.compare_spec b1 a1); try lia; cbn; auto.
  destruct (Z.compare_spec a2 b2), (Z.compare_spec b2 a2); try lia; cbn; auto.
  destruct (Z.compare_spec a3 b3), (Z.compare_spec b3 a3); try lia; cbn; auto.
Qed.

Lemma kcmp_le_trans : forall a b c, kcmp a b <> Gt -> kcmp b c <> Gt -> kcmp a c <> Gt.
Proof.
  intros [[a1 a2] a3] [[b1 b2] b3] [[c1 c2] c3]. cbn.
  destruct (Z.compare_spec a1 b1), (Z.compare_spec b1 c1), (Z.compare_spec a1 c1); try lia; cbn; try congruence;
  destruct (Z.compare_spec a2 b2), (Z.compare_spec b2 c2), (Z.compare_spec a2 c2); try lia; cbn; try congruence;
  destruct (Z.compare_spec a3 b3), (Z.compare_spec b3 c3), (Z.compare_spec a3 c3); try lia; cbn; try congruence.
Qed.

Lemma kcmp_eq : forall a b, kcmp a b = Eq -> a = b.
Proof.
  intros [[a1 a2] a3] [[b1 b2] b3]. cbn.
  destruct (Z.compare_spec a1 b1); try discriminate.
  destruct (Z.compare_spec a2 b2); try discriminate.
  destruct (Z.compare_spec a3 b3); try discriminate. congruence.
Qed.

Section NoNaN.
  Variables f g : f64.
  Hypothesis Hf : f64_is_nan f = false.
  Hypothesis Hg : f64_is_nan g = false.

  Lemma lt_key : f64_lt f g = match kcmp (key f) (key g) with Lt => true | _ => false end.
  Proof. unfold f64_lt, SFltb. pose proof (cmp_key f g Hf Hg) as E. unfold f64_cmp in E. now rewrite E. Qed.
  Lemma gt_key : f64_gt f g = match kcmp (key f) (key g) with Gt => true | _ => false end.
  Proof.
    unfold f64_gt, SFltb. pose proof (cmp_key g f Hg Hf) as E. unfold f64_cmp in E. rewrite E, (kcmp_antisym (key f) (key g)).
    destruct (kcmp (key f) (key g)); reflexivity.
  Qed.
  Lemma le_key : f64_le f g = match kcmp (key f) (key g) with Gt => false | _ => true end.
  Proof.
    unfold f64_le, SFleb. pose proof (cmp_key f g Hf Hg) as E. unfold f64_cmp in E. rewrite E.
    destruct (kcmp (key f) (key g)); reflexivity.
  Qed.
  Lemma eq_key : f64_eq f g = match kcmp (key f) (key g) with Eq => true | _ => false end.
  Proof.
    unfold f64_eq, SFeqb. pose proof (cmp_key f g Hf Hg) as E. unfold f64_cmp in E. rewrite E.
    destruct (kcmp (key f) (key g)); reflexivity.
  Qed.
  Lemma lt_nle : f64_lt f g = negb (f64_le g f).
  Proof.
    rewrite lt_key. unfold f64_le, SFleb. pose proof (cmp_key g f Hg Hf) as E. unfold f64_cmp in E.
    rewrite E, (kcmp_antisym (key f) (key g)). destruct (kcmp (key f) (key g)); reflexivity.
  Qed.
  Lemma le_total : f64_le f g = true \/ f64_le g f = true.
  Proof.
    rewrite le_key. unfold f64_le, SFleb. pose proof (cmp_key g f Hg Hf) as E. unfold f64_cmp in E.
    rewrite E, (kcmp_antisym (key f) (key g)). destruct (kcmp (key f) (key g)); auto.
  Qed.
  Lemma eq_le : f64_eq f g = f64_le f g && f64_le g f.
  Proof.
    rewrite le_key, eq_key. unfold f64_le, SFleb. pose proof (cmp_key g f Hg Hf) as E. unfold f64_cmp in E.
    rewrite E, (kcmp_antisym (key f) (key g)). destruct (kcmp (key f) (key g)); reflexivity.
  Qed.
End NoNaN.

Lemma gt_lt : forall f g, f64_gt f g = f64_lt g f.
Proof. reflexivity. Qed.

Lemma le_refl : forall f, f64_is_nan f = false -> f64_le f f = true.
Proof. intros f H. now rewrite le_key, kcmp_refl. Qed.

Lemma le_no_nan : forall f g, f64_le f g = true -> f64_is_nan f = false /\ f64_is_nan g = false.
Proof. intros [s|s| |s m e] [t|t| |t n d]; cbn; auto; discriminate. Qed.

Lemma lt_no_nan : forall f g, f64_lt f g = true -> f64_is_nan f = false /\ f64_is_nan g = false.
Proof. intros [s|s| |s m e] [t|t| |t n d]; cbn; auto; discriminate. Qed.

Lemma eq_no_nan : forall f g, f64_eq f g = true -> f64_is_nan f = false /\ f64_is_nan g = false.
Proof. intros [s|s| |s m e] [t|t| |t n d]; cbn; auto; discriminate. Qed.

Lemma le_trans : forall f g h, f64_le f g = true -> f64_le g h = true -> f64_le f h = true.
Proof.
  intros f g h H1 H2. destruct (le_no_nan _ _ H1) as [Hf Hg], (le_no_nan _ _ H2) as [_ Hh].
  rewrite le_key in * by auto.
  pose proof (kcmp_le_trans (key f) (key g) (key h)) as T.
  destruct (kcmp (key f) (key g)) eqn:E1; try discriminate;
    destruct (kcmp (key g) (key h)) eqn:E2; try discriminate;
    destruct (kcmp (key f) (key h)) eqn:E3; auto; exfalso; apply T; congruence.
Qed.

Lemma lt_le : forall f g, f64_lt f g = true -> f64_le f g = true.
Proof.
  intros f g H. destruct (lt_no_nan _ _ H). rewrite lt_key in H by auto. rewrite le_key by auto.
  destruct (kcmp (key f) (key g)); congruence.
Qed.

Lemma lt_le_trans : forall f g h, f64_lt f g = true -> f64_le g h = true -> f64_lt f h = true.
Proof.
  intros f g h H1 H2. destruct (lt_no_nan _ _ H1) as [Hf Hg], (le_no_nan _ _ H2) as [_ Hh].
  rewrite lt_nle in * by auto. apply negb_true_iff. apply negb_true_iff in H1.
  destruct (f64_le h f) eqn:E; auto. rewrite (le_trans g h f) in H1; auto.
Qed.

Lemma le_lt_trans : forall f g h, f64_le f g = true -> f64_lt g h = true -> f64_lt f h = true.
Proof.
  intros f g h H1 H2. destruct (le_no_nan _ _ H1) as [Hf Hg], (lt_no_nan _ _ H2) as [_ Hh].
  rewrite lt_nle in * by auto. apply negb_true_iff. apply negb_true_iff in H2.
  destruct (f64_le h f) eqn:E; auto. rewrite (le_trans h f g) in H2; auto.
Qed.

Lemma lt_irrefl : forall f, f64_lt f f = false.
Proof. intros f. destruct (f64_is_nan f) eqn:E; [destruct f; try discriminate; reflexivity|]. now rewrite lt_nle, le_refl by auto. Qed.

Lemma not_lt : forall f g, f64_is_nan f = false -> f64_is_nan g = false -> f64_lt f g = false -> f64_le g f = true.
Proof. intros f g Hf Hg H. rewrite lt_nle in H by auto. now apply negb_false_iff in H. Qed.

(** [f64::max] and [f64::min]. *)
Lemma max_cases : forall f g, f64_is_nan f = false -> f64_is_nan g = false ->
  f64_is_nan (f64_max f g) = false /\ (f64_max f g = f \/ f64_max f g = g)
  /\ f64_le f (f64_max f g) = true /\ f64_le g (f64_max f g) = true.
Proof.
  intros f g Hf Hg. unfold f64_max. rewrite Hf. cbn [orb].
  destruct (f64_lt f g) eqn:E; repeat split; auto using le_refl, lt_le, not_lt.
Qed.
Lemma min_cases : forall f g, f64_is_nan f = false -> f64_is_nan g = false ->
  f64_is_nan (f64_min f g) = false /\ (f64_min f g = f \/ f64_min f g = g)
  /\ f64_le (f64_min f g) f = true /\ f64_le (f64_min f g) g = true.
Proof.
  intros f g Hf Hg. unfold f64_min. rewrite Hg. cbn [orb].
  destruct (f64_lt f g) eqn:E; repeat split; auto using le_refl, lt_le, not_lt.
Qed.
