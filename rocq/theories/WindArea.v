(** Closed lines that go round every place equally often enclose the same area. *)

From Coq Require Import List ZArith QArith Bool Arith Lia.
From Verif Require Import Base SpecShape SpecOrder SpecTidy SpecOverlay CrossCover.
From Coq Require Import Lqa.
Import ListNotations.
Local Open Scope Z_scope.

Definition zs (l : list Z) : Z := fold_right Z.add 0 l.
Definition qs (l : list Q) : Q := fold_right Qplus 0%Q l.

Lemma zs_app : forall l m, zs (l ++ m) = zs l + zs m.
Proof. induction l as [|a l IH]; intros m; [reflexivity|]. cbn [app zs fold_right]. fold (zs (l ++ m)) (zs l). rewrite IH. lia. Qed.
Lemma qs_app : forall l m, (qs (l ++ m) == qs l + qs m)%Q.
Proof. induction l as [|a l IH]; intros m; cbn [app qs fold_right]; [unfold qs; cbn [fold_right]; lra|]. fold (qs (l ++ m)) (qs l). rewrite IH. ring. Qed.
Lemma zs_flat : forall {A} (f : A -> list Z) l, zs (flat_map f l) = zs (map (fun a => zs (f a)) l).
Proof. intros A f. induction l as [|a l IH]; [reflexivity|]. cbn [flat_map map]. rewrite zs_app, IH. reflexivity. Qed.
Lemma qs_ext : forall {A} (f g : A -> Q) l, (forall a, In a l -> f a == g a)%Q -> (qs (map f l) == qs (map g l))%Q.
Proof.
  intros A f g. induction l as [|a l IH]; intros H; [reflexivity|]. cbn [map qs fold_right]. fold (qs (map f l)) (qs (map g l)). rewrite (H a) by now left. rewrite IH; [reflexivity|]. intros. apply H. now right.
Qed.
Lemma qs_inject : forall {A} (f : A -> Z) l, (qs (map (fun a => inject_Z (f a)) l) == inject_Z (zs (map f l)))%Q.
Proof. intros A f. induction l as [|a l IH]; [reflexivity|]. cbn [map qs zs fold_right]. fold (qs (map (fun a => inject_Z (f a)) l)) (zs (map f l)). rewrite inject_Z_plus, IH. reflexivity. Qed.
Lemma qs_scale : forall {A} (c : Q) (f : A -> Q) l, (qs (map (fun a => c * f a) l) == c * qs (map f l))%Q.
Proof. intros A c f. induction l as [|a l IH]; cbn [map qs fold_right]; [ring|]. fold (qs (map (fun a => c * f a)%Q l)) (qs (map f l)). rewrite IH. ring. Qed.
Lemma qs_add : forall {A} (f g : A -> Q) l, (qs (map (fun a => f a + g a) l) == qs (map f l) + qs (map g l))%Q.
Proof. intros A f g. induction l as [|a l IH]; cbn [map qs fold_right]; [ring|]. fold (qs (map (fun a => f a + g a)%Q l)) (qs (map f l)) (qs (map g l)). rewrite IH. ring. Qed.
Lemma qs_swap : forall {A B} (f : A -> B -> Q) l m, (qs (map (fun a => qs (map (f a) m)) l) == qs (map (fun b => qs (map (fun a => f a b) l)) m))%Q.
Proof.
  intros A B f. induction l as [|a l IH]; intros m.
  - cbn [map]. change (qs []) with 0%Q. induction m as [|b m IH]; [reflexivity|]. cbn [map]. change (qs (0%Q :: map (fun _ : B => 0%Q) m)) with (0 + qs (map (fun _ : B => 0%Q) m))%Q. rewrite <- IH. reflexivity.
  - cbn [map qs fold_right]. fold (qs (map (fun a => qs (map (f a) m)) l)) (qs (map (f a) m)). rewrite IH, <- qs_add. apply qs_ext. intros b _. reflexivity.
Qed.

(** *** Steps *)

(** The height of a step, and how far it goes up. *)
Local Notation step := (Z * Q)%type.
Definition step_at (y : Q) (t : step) : Z := if qlt (snd t) y then fst t else 0.

Lemma gap : forall (l : list step) h, exists y, (h < y)%Q /\ forall t, In t l -> (h < snd t)%Q -> (y <= snd t)%Q.
Proof.
  induction l as [|a l IH]; intros h; [exists (h + 1)%Q; split; [lra|intros t []]|]. destruct (IH h) as (y & Y & H). destruct (Qlt_le_dec h (snd a)) as [C|C].
  - destruct (Qlt_le_dec (snd a) y) as [E|E]; [exists (snd a)|exists y]; (split; [assumption|]); intros t [<-|T] Q; try assumption; try lra; specialize (H t T Q); lra.
  - exists y. split; [exact Y|]. intros t [<-|T] Q; [lra|now apply H].
Qed.

Lemma split_sum : forall (f : step -> Z) p l, zs (map f l) = zs (map f (filter p l)) + zs (map f (filter (fun t => negb (p t)) l)).
Proof.
  intros f p. induction l as [|a l IH]; [reflexivity|]. cbn [map filter zs fold_right]. fold (zs (map f l)). rewrite IH. destruct (p a); cbn [negb map zs fold_right]; unfold zs; lia.
Qed.
Lemma split_sumq : forall (f : step -> Q) p l, (qs (map f l) == qs (map f (filter p l)) + qs (map f (filter (fun t => negb (p t)) l)))%Q.
Proof.
  intros f p. induction l as [|a l IH]; [reflexivity|]. cbn [map filter qs fold_right]. fold (qs (map f l)). rewrite IH. destruct (p a); cbn [negb map qs fold_right]; unfold qs; lra.
Qed.

Lemma qlt_false : forall a b, qlt a b = false <-> (b <= a)%Q.
Proof.
  intros a b. destruct (qlt a b) eqn:E; split; intros H; try congruence.
  - apply qlt_lt in E. lra.
  - destruct (Qlt_le_dec a b) as [L|L]; [|exact L]. apply qlt_lt in L. congruence.
Qed.

Lemma steps_flat : forall n (l : list step), (length l <= n)%nat -> (forall y, zs (map (step_at y) l) = 0) -> (qs (map (fun t => inject_Z (fst t) * snd t) l) == 0)%Q.
Proof.
  induction n as [|n IH]; intros l L H; [destruct l; [reflexivity|cbn in L; lia]|]. destruct l as [|a l]; [reflexivity|].
  set (h := snd a) in *. set (p := fun t : step => Qeq_bool (snd t) h). set (l0 := a :: l) in *.
  assert (S : zs (map fst (filter p l0)) = 0).
  { destruct (gap l0 h) as (y & Y & G). assert (D : forall l', incl l' l0 -> zs (map (step_at y) l') - zs (map (step_at h) l') = zs (map fst (filter p l'))).
    { induction l' as [|t l' IHl]; intros I; [reflexivity|]. cbn [map filter]. assert (I' : incl l' l0) by (intros u U; apply I; now right). specialize (IHl I').
      assert (T : step_at y t - step_at h t = if p t then fst t else 0).
      { unfold step_at, p. destruct (Qeq_bool (snd t) h) eqn:E.
        - apply Qeq_bool_iff in E. assert (E1 : qlt (snd t) y = true) by (apply qlt_lt; lra). assert (E2 : qlt (snd t) h = false) by (apply qlt_false; lra). rewrite E1, E2. lia.
        - apply Qeq_bool_neq in E. destruct (Qlt_le_dec (snd t) h) as [C|C].
          + assert (E1 : qlt (snd t) y = true) by (apply qlt_lt; lra). assert (E2 : qlt (snd t) h = true) by (apply qlt_lt; lra). rewrite E1, E2. lia.
          + assert (C' : (h < snd t)%Q) by lra. pose proof (G t (I t (or_introl eq_refl)) C').
            assert (E1 : qlt (snd t) y = false) by (apply qlt_false; lra). assert (E2 : qlt (snd t) h = false) by (apply qlt_false; lra). rewrite E1, E2. lia. }
      destruct (p t); cbn [map zs fold_right] in *; unfold zs in *; lia. }
    rewrite <- (D l0 (fun _ x => x)), !H. reflexivity. }
  rewrite (split_sumq _ p). assert (A : (qs (map (fun t => inject_Z (fst t) * snd t) (filter p l0)) == 0)%Q).
  { rewrite (qs_ext _ (fun t => h * inject_Z (fst t))%Q); [rewrite qs_scale, (qs_inject fst), S; ring|]. intros t T. apply filter_In in T. destruct T as [_ T]. unfold p in T. apply Qeq_bool_iff in T. rewrite T. ring. }
  rewrite A. rewrite IH; [ring| |].
  - apply Nat.lt_succ_r. eapply Nat.lt_le_trans; [|exact L]. unfold l0. cbn [filter]. unfold p at 1. fold h. rewrite (proj2 (Qeq_bool_iff h h)) by reflexivity. cbn [negb length].
    apply Nat.lt_succ_r. clear. induction l as [|b l IH]; cbn [filter length]; [lia|]. destruct (negb (p b)); cbn [length]; lia.
  - intros y. specialize (H y). rewrite (split_sum _ p) in H. assert (B : zs (map (step_at y) (filter p l0)) = if qlt h y then zs (map fst (filter p l0)) else 0).
    { generalize l0. clear. induction l0 as [|t l0 IH]; [cbn; now destruct (qlt h y)|]. cbn [filter]. destruct (p t) eqn:E; [|exact IH]. unfold p in E. apply Qeq_bool_iff in E. cbn [map zs fold_right]. fold (zs (map (step_at y) (filter p l0))) (zs (map fst (filter p l0))). rewrite IH. unfold step_at.
      rewrite (qlt_iff (snd t) y h y) by (rewrite E; reflexivity). destruct (qlt h y); lia. }
    rewrite B, S in H. destruct (qlt h y); lia.
Qed.

(** *** Sides, in strips one unit wide *)

Local Notation side := ((Z * Z) * (Z * Z))%type.
(** Which way the side crosses the strip from [k] to [k + 1], and how high in its middle. *)
Definition covers (k : Z) (s : side) : Z :=
  if (fst (fst s) <=? k) && (k <? fst (snd s)) then 1 else if (fst (snd s) <=? k) && (k <? fst (fst s)) then -1 else 0.
Definition middle (k : Z) : Q := inject_Z k + (1 # 2).
Definition height (k : Z) (s : side) : Q :=
  inject_Z (snd (fst s)) + inject_Z (snd (snd s) - snd (fst s)) * (middle k - inject_Z (fst (fst s))) / inject_Z (fst (snd s) - fst (fst s)).

Lemma middle_lt : forall k z, (middle k < inject_Z z)%Q <-> k < z.
Proof.
  intros k z. unfold middle. split; intros H.
  - destruct (Z_lt_le_dec k z) as [L|L]; [exact L|]. rewrite Zle_Qle in L. lra.
  - assert (L : k + 1 <= z) by lia. rewrite Zle_Qle, inject_Z_plus in L. change (inject_Z 1) with 1%Q in L. lra.
Qed.
Lemma middle_ge : forall k z, qlt (middle k) (inject_Z z) = (k <? z).
Proof. intros k z. apply eq_true_iff_eq. rewrite qlt_lt, Z.ltb_lt. apply middle_lt. Qed.

Lemma below_height : forall i a b k y, fst a < fst b -> passes_below (mk_edge i a b) (middle k) y = (fst a <=? k) && (k <? fst b) && qlt (height k (a, b)) y.
Proof.
  intros i [xa ya] [xb yb] k y L. unfold passes_below. cbn [e_left e_right fst snd] in *. rewrite !middle_ge. rewrite Z.ltb_antisym, negb_involutive. f_equal.
  apply qlt_iff. unfold height. cbn [fst snd].
  assert (P : (0 < inject_Z (xb - xa))%Q) by (change 0%Q with (inject_Z 0); rewrite <- Zlt_Qlt; lia). set (n := inject_Z (xb - xa)) in *. set (u := (inject_Z (yb - ya) * (middle k - inject_Z xa))%Q).
  split; intros H.
  - assert (X : (u / n < y - inject_Z ya)%Q) by (apply Qlt_shift_div_r; [exact P|exact H]). lra.
  - assert (X : (u / n < y - inject_Z ya)%Q) by lra. apply (Qmult_lt_compat_r _ _ n P) in X. assert (E : (u / n * n == u)%Q) by (field; lra). lra.
Qed.

Lemma sign_step : forall k y s, side_sign (middle k) y s = step_at y (covers k s, height k s).
Proof.
  intros k y [a b]. unfold side_sign, step_at, covers. cbn [fst snd]. destruct (Z.compare_spec (fst a) (fst b)) as [E|E|E].
  - assert (N : forall i u v, fst u = fst v -> passes_below (mk_edge i u v) (middle k) y = false).
    { intros i [u1 u2] [v1 v2] Q. cbn [fst] in Q. subst. unfold passes_below. cbn [e_left e_right]. destruct (qlt (middle k) (inject_Z v1)); reflexivity. }
    rewrite !N by congruence. replace ((fst a <=? k) && (k <? fst b)) with false by lia. replace ((fst b <=? k) && (k <? fst a)) with false by lia. destruct (lex_z a b), (qlt _ y); reflexivity.
  - assert (Lx : lex_z a b = Lt) by (unfold lex_z; destruct a, b; cbn [fst snd] in *; apply Z.compare_lt_iff in E; now rewrite E). rewrite Lx, below_height by exact E.
    replace ((fst b <=? k) && (k <? fst a)) with false by lia. destruct (_ && (k <? fst b)), (qlt _ y); reflexivity.
  - assert (Lx : lex_z a b = Gt) by (unfold lex_z; destruct a, b; cbn [fst snd] in *; apply Z.compare_gt_iff in E; now rewrite E). rewrite Lx, below_height by exact E.
    replace ((fst a <=? k) && (k <? fst b)) with false by lia. assert (Hh : (height k (b, a) == height k (a, b))%Q).
    { destruct a as [xa ya], b as [xb yb]. unfold height. cbn [fst snd] in *. assert (P : (0 < inject_Z xa - inject_Z xb)%Q) by (rewrite Zlt_Qlt in E; lra).
      assert (M : forall u v, (inject_Z (u - v) == inject_Z u - inject_Z v)%Q) by (intros; unfold Zminus; rewrite inject_Z_plus, inject_Z_opp; reflexivity). rewrite !M. field. split; lra. }
    rewrite (qlt_iff (height k (b, a)) y (height k (a, b)) y) by (rewrite Hh; reflexivity). destruct (_ && (k <? fst a)), (qlt _ y); reflexivity.
Qed.

(** The area below a side, put together from the strips. *)
Definition strips (lo : Z) (n : nat) : list Z := map (fun i => lo + Z.of_nat i) (seq 0 n).
Definition upto_area (s : side) (k : Z) : Q :=
  let c := Z.max (Z.min (fst (fst s)) (fst (snd s))) (Z.min k (Z.max (fst (fst s)) (fst (snd s)))) - fst (fst s) in
  (inject_Z (Z.sgn (fst (snd s) - fst (fst s))) * inject_Z c * (2 * inject_Z (snd (fst s)) + inject_Z (snd (snd s) - snd (fst s)) * inject_Z c / inject_Z (fst (snd s) - fst (fst s)))).

Lemma strip_area : forall k s, (2 * (inject_Z (covers k s) * height k s) == upto_area s (k + 1) - upto_area s k)%Q.
Proof.
  intros k [[xa ya] [xb yb]]. unfold covers, height, upto_area, middle. cbn [fst snd].
  assert (M : forall u v, (inject_Z (u - v) == inject_Z u - inject_Z v)%Q) by (intros; unfold Zminus; rewrite inject_Z_plus, inject_Z_opp; reflexivity).
  destruct ((xa <=? k) && (k <? xb)) eqn:C1; [|destruct ((xb <=? k) && (k <? xa)) eqn:C2].
  - replace (Z.max (Z.min xa xb) (Z.min (k + 1) (Z.max xa xb)) - xa) with (k + 1 - xa) by lia. replace (Z.max (Z.min xa xb) (Z.min k (Z.max xa xb)) - xa) with (k - xa) by lia. rewrite (Z.sgn_pos (xb - xa)) by lia.
    assert (P : (0 < inject_Z xb - inject_Z xa)%Q) by (assert (L : xa < xb) by lia; rewrite Zlt_Qlt in L; lra). rewrite !M, inject_Z_plus. change (inject_Z 1) with 1%Q. field. lra.
  - replace (Z.max (Z.min xa xb) (Z.min (k + 1) (Z.max xa xb)) - xa) with (k + 1 - xa) by lia. replace (Z.max (Z.min xa xb) (Z.min k (Z.max xa xb)) - xa) with (k - xa) by lia. rewrite (Z.sgn_neg (xb - xa)) by lia.
    assert (P : (inject_Z xb - inject_Z xa < 0)%Q) by (assert (L : xb < xa) by lia; rewrite Zlt_Qlt in L; lra). rewrite !M, inject_Z_plus. change (inject_Z 1) with 1%Q. change (inject_Z (-1)) with (-(1))%Q. field. lra.
  - destruct (Z.eq_dec xa xb) as [->|N]; [replace (xb - xb) with 0 by lia; cbn [Z.sgn]; change (inject_Z 0) with 0%Q; ring|].
    replace (Z.max (Z.min xa xb) (Z.min (k + 1) (Z.max xa xb))) with (Z.max (Z.min xa xb) (Z.min k (Z.max xa xb))) by lia. change (inject_Z 0) with 0%Q. ring.
Qed.

Lemma strips_cons : forall lo n, strips lo (S n) = lo :: strips (lo + 1) n.
Proof. intros lo n. unfold strips. cbn [seq map]. f_equal; [lia|]. rewrite <- seq_shift, map_map. apply map_ext. intros i. lia. Qed.

Lemma strips_area : forall s n lo, (qs (map (fun k => 2 * (inject_Z (covers k s) * height k s)) (strips lo n)) == upto_area s (lo + Z.of_nat n) - upto_area s lo)%Q.
Proof.
  intros s. induction n as [|n IH]; intros lo; [replace (lo + Z.of_nat 0) with lo by lia; cbn [strips seq map qs fold_right]; ring|].
  rewrite strips_cons. cbn [map qs fold_right]. fold (qs (map (fun k => 2 * (inject_Z (covers k s) * height k s))%Q (strips (lo + 1) n))). rewrite IH, strip_area. replace (lo + 1 + Z.of_nat n) with (lo + Z.of_nat (S n)) by lia. ring.
Qed.

Definition under (s : side) : Z := (fst (snd s) - fst (fst s)) * (snd (fst s) + snd (snd s)).
Definition reaches (lo hi : Z) (s : side) : Prop := lo <= fst (fst s) <= hi /\ lo <= fst (snd s) <= hi.

Lemma side_area : forall s lo n, reaches lo (lo + Z.of_nat n) s -> (qs (map (fun k => 2 * (inject_Z (covers k s) * height k s)) (strips lo n)) == inject_Z (under s))%Q.
Proof.
  intros [[xa ya] [xb yb]] lo n [H1 H2]. rewrite strips_area. unfold upto_area, under. cbn [fst snd] in *.
  assert (M : forall u v, (inject_Z (u - v) == inject_Z u - inject_Z v)%Q) by (intros; unfold Zminus; rewrite inject_Z_plus, inject_Z_opp; reflexivity).
  rewrite inject_Z_mult, inject_Z_plus. destruct (Z.lt_trichotomy xa xb) as [L|[L|L]].
  - replace (Z.max (Z.min xa xb) (Z.min (lo + Z.of_nat n) (Z.max xa xb)) - xa) with (xb - xa) by lia. replace (Z.max (Z.min xa xb) (Z.min lo (Z.max xa xb)) - xa) with 0 by lia.
    rewrite (Z.sgn_pos (xb - xa)) by lia. assert (P : (0 < inject_Z xb - inject_Z xa)%Q) by (rewrite Zlt_Qlt in L; lra). rewrite !M. change (inject_Z 1) with 1%Q. change (inject_Z 0) with 0%Q. field. lra.
  - subst xb. replace (xa - xa) with 0 by lia. cbn [Z.sgn]. change (inject_Z 0) with 0%Q. ring.
  - replace (Z.max (Z.min xa xb) (Z.min (lo + Z.of_nat n) (Z.max xa xb)) - xa) with 0 by lia. replace (Z.max (Z.min xa xb) (Z.min lo (Z.max xa xb)) - xa) with (xb - xa) by lia.
    rewrite (Z.sgn_neg (xb - xa)) by lia. assert (P : (inject_Z xb - inject_Z xa < 0)%Q) by (rewrite Zlt_Qlt in L; lra). rewrite !M. change (inject_Z (-1)) with (-(1))%Q. change (inject_Z 0) with 0%Q. field. lra.
Qed.

(** Sides that come in steps adding up to nothing have no area below them. *)
Definition flip (s : side) : side := (snd s, fst s).

Lemma reach_all : forall (l : list side), exists lo n, forall s, In s l -> reaches lo (lo + Z.of_nat n) s.
Proof.
  induction l as [|[[xa ya] [xb yb]] l (lo & n & H)]; [exists 0, 0%nat; intros s []|].
  exists (Z.min lo (Z.min xa xb)), (Z.to_nat (Z.max (lo + Z.of_nat n) (Z.max xa xb) - Z.min lo (Z.min xa xb))).
  intros s [<-|I]; [unfold reaches; cbn [fst snd]; lia|]. specialize (H s I). unfold reaches in *. lia.
Qed.

Lemma flat_area : forall (l : list side), (forall x y, zs (map (side_sign x y) l) = 0) -> zs (map under l) = 0.
Proof.
  intros l H. destruct (reach_all l) as (lo & n & R). assert (E : (inject_Z (zs (map under l)) == 0)%Q).
  { rewrite <- qs_inject. rewrite <- (qs_ext (fun s => qs (map (fun k => 2 * (inject_Z (covers k s) * height k s)) (strips lo n)))%Q (fun s => inject_Z (under s)) l) by (intros s I; apply side_area, R, I).
    rewrite (qs_swap (fun s k => 2 * (inject_Z (covers k s) * height k s))%Q).
    rewrite (qs_ext _ (fun _ => 0 * 0)%Q); [rewrite (qs_scale 0 (fun _ => 0)%Q); ring|]. intros k _. rewrite (qs_scale 2). 
    pose proof (steps_flat _ (map (fun s => (covers k s, height k s)) l) (Nat.le_refl _)) as S. rewrite map_map in S. cbn [fst snd] in S. rewrite S; [ring|].
    intros y. rewrite map_map, <- (H (middle k) y). f_equal. apply map_ext. intros s. symmetry. apply sign_step. }
  unfold Qeq, inject_Z in E. cbn [Qnum Qden] in E. lia.
Qed.

(** *** Closed lines *)

Lemma sum_sub : forall {A} (f g : A -> Z) l, zs (map (fun a => f a - g a) l) = zs (map f l) - zs (map g l).
Proof. intros A f g. induction l as [|a l IH]; [reflexivity|]. cbn [map zs fold_right]. unfold zs in IH. lia. Qed.
Lemma combine_fst : forall {A B} (l : list A) (m : list B), length l = length m -> map fst (combine l m) = l /\ map snd (combine l m) = m.
Proof. intros A B. induction l as [|a l IH]; intros [|b m] H; try discriminate; [now split|]. cbn [combine map]. destruct (IH m) as [E1 E2]; [now injection H|]. cbn [fst snd]. now rewrite E1, E2. Qed.

Lemma under_shoelace : forall l, zs (map under (sides l)) = - shoelace l.
Proof.
  intros [|a t]; [reflexivity|]. unfold sides, shoelace. cbn [tl]. fold (zs (map (fun ab : side => cross_z (fst ab) (snd ab)) (combine (a :: t) (t ++ [a])))). set (m := combine (a :: t) (t ++ [a])).
  set (f := fun p : Z * Z => fst p * snd p).
  rewrite (map_ext under (fun s : side => (f (snd s) - f (fst s)) - cross_z (fst s) (snd s))) by (intros [[xa ya] [xb yb]]; unfold under, f, cross_z; cbn [fst snd]; ring).
  rewrite sum_sub, sum_sub. destruct (combine_fst (a :: t) (t ++ [a])) as [E1 E2]; [rewrite app_length; cbn [length]; lia|]. fold m in E1, E2.
  assert (F1 : map (fun s : side => f (fst s)) m = map f (a :: t)) by (rewrite <- E1; symmetry; apply map_map). assert (F2 : map (fun s : side => f (snd s)) m = map f (t ++ [a])) by (rewrite <- E2; symmetry; apply map_map).
  rewrite F1, F2, map_app, zs_app. cbn [map]. change (zs (f a :: map f t)) with (f a + zs (map f t)). change (zs [f a]) with (f a + 0). match goal with |- _ - zs ?u = - ?v => change v with (zs u) end. lia.
Qed.

Lemma sum_neg : forall {A} (f : A -> Z) l, zs (map (fun a => - f a) l) = - zs (map f l).
Proof. intros A f. induction l as [|a l IH]; [reflexivity|]. cbn [map zs fold_right]. unfold zs in IH. lia. Qed.

Lemma flip_sign : forall x y s, side_sign x y (flip s) = - side_sign x y s.
Proof.
  intros x y [[xa ya] [xb yb]]. unfold side_sign, flip. cbn [fst snd]. unfold lex_z. cbn [fst snd]. rewrite (Z.compare_antisym xa xb), (Z.compare_antisym ya yb).
  destruct (xa ?= xb); cbn [CompOpp]; [destruct (ya ?= yb); cbn [CompOpp]| |]; try reflexivity; destruct (passes_below _ x y); reflexivity.
Qed.
Lemma flip_under : forall s, under (flip s) = - under s.
Proof. intros [[xa ya] [xb yb]]. unfold under, flip. cbn [fst snd]. ring. Qed.

Lemma windings_sides : forall x y ls, windings x y ls = zs (map (side_sign x y) (flat_map sides ls)).
Proof. intros x y. induction ls as [|l ls IH]; [reflexivity|]. cbn [flat_map]. rewrite map_app, zs_app, <- IH. reflexivity. Qed.
Lemma areas_sides : forall ls, zs (map shoelace ls) = - zs (map under (flat_map sides ls)).
Proof. induction ls as [|l ls IH]; [reflexivity|]. cbn [flat_map]. rewrite map_app, zs_app, under_shoelace. change (zs (map shoelace (l :: ls))) with (shoelace l + zs (map shoelace ls)). rewrite IH. lia. Qed.

(** How often the lines go round each place settles the area. *)
Lemma windings_area : forall L M, (forall x y, windings x y L = windings x y M) -> zs (map shoelace L) = zs (map shoelace M).
Proof.
  intros L M H. pose proof (flat_area (flat_map sides L ++ map flip (flat_map sides M))) as F.
  rewrite !areas_sides. enough (zs (map under (flat_map sides L ++ map flip (flat_map sides M))) = 0) as E.
  { rewrite map_app, zs_app, map_map, (map_ext (fun s => under (flip s)) (fun s => - under s) flip_under), sum_neg in E. lia. }
  apply F. intros x y. rewrite map_app, zs_app, map_map, (map_ext (fun s => side_sign x y (flip s)) (fun s => - side_sign x y s)) by (intros; apply flip_sign). rewrite sum_neg, <- !windings_sides, H. lia.
Qed.
