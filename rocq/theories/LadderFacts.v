(** Adding up the directions of edges below a point, when each has the inside on the same hand. *)

From Coq Require Import List ZArith QArith Bool Lia Lqa.
From Coq Require Import ZifyBool ZifyNat.
From Verif Require Import Base Float SpecShape SpecOrder SpecIntersect SpecHandle SpecTidy SpecOverlay OrderFacts TidyGeo TidyParity TidyWinding TidyCover NestGeo.
Import ListNotations.
Local Open Scope Z_scope.

Section Ladder.
Variables (A : Type) (ed : A -> edge) (sg : A -> Z) (g : Z) (l : list A).

Definition rungs (x y : Q) (l : list A) : Z := zsum (map (fun a => if passes_below (ed a) x y then sg a else 0) l).
Definition odd_below (x y : Q) (l : list A) : bool := parity (fun a => passes_below (ed a) x y) l.

Lemma rungs_app : forall x y k k', rungs x y (k ++ k') = rungs x y k + rungs x y k'.
Proof using. intros. unfold rungs. rewrite map_app, zsum_app. reflexivity. Qed.
Lemma rungs_ext : forall x y x' y' k, (forall a, In a k -> passes_below (ed a) x y = passes_below (ed a) x' y') -> rungs x y k = rungs x' y' k.
Proof using.
  intros x y x' y' k H. unfold rungs. f_equal. apply map_ext_in. intros a I. now rewrite (H a I).
Qed.
Lemma odd_ext : forall x y x' y' k, (forall a, In a k -> passes_below (ed a) x y = passes_below (ed a) x' y') -> odd_below x y k = odd_below x' y' k.
Proof using. intros x y x' y' k H. unfold odd_below. now apply parity_ext. Qed.

Hypothesis (LR : forall a, In a l -> lr (ed a)).
Hypothesis (AP : ForallOrdPairs (fun a b => apart (ed a) (ed b)) l).
Hypothesis (SIDE : forall a x, In a l -> spans (ed a) x -> sg a = if odd_below x (yat (ed a) x) l then - g else g).

Lemma others_apart : forall k a k', l = k ++ a :: k' -> forall b, In b (k ++ k') -> apart (ed b) (ed a).
Proof using LR AP.
  intros k a k' E b I.
  assert (G : forall k (P : A -> A -> Prop), ForallOrdPairs P (k ++ a :: k') -> (In b k -> P b a) /\ (In b k' -> P a b)).
  { clear. intros k P. induction k as [|c k IH]; intros F; cbn [app] in F; inversion F as [|? ? F1 F2]; subst.
    - split; [intros []|]. intros I. rewrite Forall_forall in F1. auto.
    - destruct (IH F2) as (G1 & G2). split; [|exact G2]. intros [<-|I]; [|auto]. rewrite Forall_forall in F1. apply F1. apply in_or_app. right. left. reflexivity. }
  rewrite E in AP. destruct (G k _ AP) as (G1 & G2). apply in_app_or in I. destruct I as [I|I]; [auto|].
  apply apart_sym; [apply LR; rewrite E; apply in_or_app; right; left; reflexivity|apply LR; rewrite E; apply in_or_app; right; right; exact I|auto].
Qed.

Lemma top_rung : forall x y k, (forall a, In a k -> lr (ed a)) -> between x -> (forall a, In a k -> passes_below (ed a) x y = false)
  \/ exists a, In a k /\ passes_below (ed a) x y = true /\ forall b, In b k -> passes_below (ed b) x y = true -> (yat (ed b) x <= yat (ed a) x)%Q.
Proof using.
  intros x y k L B. induction k as [|a k IH]; [left; intros ? []|]. specialize (IH (fun b I => L b (or_intror I))).
  destruct (passes_below (ed a) x y) eqn:P.
  - right. destruct IH as [N|(b & I & Pb & M)].
    + exists a. split; [now left|]. split; [exact P|]. intros c [<-|I] Pc; [lra|]. rewrite (N c I) in Pc. discriminate.
    + destruct (Qlt_le_dec (yat (ed b) x) (yat (ed a) x)).
      * exists a. split; [now left|]. split; [exact P|]. intros c [<-|J] Pc; [lra|]. specialize (M c J Pc). lra.
      * exists b. split; [now right|]. split; [exact Pb|]. intros c [<-|J] Pc; [lra|auto].
  - destruct IH as [N|(b & I & Pb & M)]; [left; intros c [<-|J]; auto|right]. exists b. split; [now right|]. split; [exact Pb|].
    intros c [<-|J] Pc; [congruence|auto].
Qed.

Lemma below_top : forall x y k a k', l = k ++ a :: k' -> between x -> passes_below (ed a) x y = true ->
  (forall b, In b l -> passes_below (ed b) x y = true -> (yat (ed b) x <= yat (ed a) x)%Q) ->
  spans (ed a) x /\ passes_below (ed a) x (yat (ed a) x) = false
  /\ forall b, In b (k ++ k') -> passes_below (ed b) x y = passes_below (ed b) x (yat (ed a) x).
Proof using LR AP.
  intros x y k a k' E B P M.
  assert (Ia : In a l) by (rewrite E; apply in_or_app; right; left; reflexivity).
  apply passes_between in P; [|auto|exact B]. destruct P as (Sa & Ya). split; [exact Sa|]. split.
  - apply not_true_iff_false. intros C. apply passes_between in C; [|auto|exact B]. lra.
  - intros b Ib. assert (Ib' : In b l) by (rewrite E; apply in_app_or in Ib; apply in_or_app; cbn; tauto).
    apply eq_true_iff_eq. split; intros C.
    + pose proof (M b Ib' C) as Q. apply passes_between in C; [|auto|exact B]. destruct C as (Sb & Yb). apply passes_between; [auto|exact B|]. split; [exact Sb|].
      destruct (Qlt_le_dec (yat (ed b) x) (yat (ed a) x)) as [|G]; [assumption|exfalso].
      pose proof (others_apart k a k' E b Ib) as AA. destruct Sa as (A1 & A2). destruct Sb as (B1 & B2).
      destruct (level (ed b) (ed a) x AA) as (v & _ & _ & X & _); try (unfold sloped; rewrite Zlt_Qlt); try lra. exact (B _ X).
    + apply passes_between in C; [|auto|exact B]. destruct C as (Sb & Yb). apply passes_between; [auto|exact B|]. split; [exact Sb|]. lra.
Qed.

Lemma ladder_between : forall x, between x -> forall n y, (length (filter (fun a => passes_below (ed a) x y) l) <= n)%nat ->
  rungs x y l = if odd_below x y l then g else 0.
Proof using LR AP SIDE.
  intros x B n. induction n as [|n IH]; intros y LE.
  - assert (N : forall a, In a l -> passes_below (ed a) x y = false).
    { intros a I. apply not_true_iff_false. intros P. assert (J : In a (filter (fun a => passes_below (ed a) x y) l)) by (apply filter_In; auto).
      destruct (filter _ l); [destruct J|cbn in LE; lia]. }
    unfold rungs, odd_below. rewrite parity_false by exact N. clear - N. induction l as [|a k IH]; [reflexivity|]. cbn [map].
    change (zsum (?u :: ?v)) with (u + zsum v). rewrite (N a (or_introl eq_refl)), IH; [reflexivity|]. intros b I. apply N. right. exact I.
  - destruct (top_rung x y l LR B) as [N|(a & I & P & M)].
    + apply IH. replace (filter (fun a => passes_below (ed a) x y) l) with (@nil A); [cbn; lia|]. symmetry. clear - N.
      induction l as [|a k IH]; [reflexivity|]. cbn [filter]. rewrite (N a (or_introl eq_refl)). apply IH. intros b I. apply N. right. exact I.
    + destruct (in_split a l I) as (k & k' & E). destruct (below_top x y k a k' E B P M) as (S & F & O). set (y' := yat (ed a) x) in *.
      assert (R : rungs x y l = sg a + rungs x y' l).
      { rewrite E, !rungs_app. unfold rungs at 2 4. cbn [map]. change (zsum (?u :: ?v)) with (u + zsum v). rewrite P, F.
        rewrite (rungs_ext x y x y' k) by (intros b J; apply O, in_or_app; auto). fold (rungs x y k') (rungs x y' k').
        rewrite (rungs_ext x y x y' k') by (intros b J; apply O, in_or_app; auto). lia. }
      assert (D : odd_below x y l = negb (odd_below x y' l)).
      { rewrite E. unfold odd_below. rewrite !parity_app, !parity_cons, P, F. fold (odd_below x y k) (odd_below x y' k) (odd_below x y k') (odd_below x y' k').
        rewrite (odd_ext x y x y' k) by (intros b J; apply O, in_or_app; auto). rewrite (odd_ext x y x y' k') by (intros b J; apply O, in_or_app; auto).
        destruct (odd_below x y' k), (odd_below x y' k'); reflexivity. }
      assert (C : (length (filter (fun a => passes_below (ed a) x y') l) <= n)%nat).
      { revert LE. rewrite E, !filter_app, !app_length. cbn [filter]. rewrite P, F. cbn [length].
        rewrite (filter_ext_in (fun a => passes_below (ed a) x y) (fun a => passes_below (ed a) x y') k) by (intros b J; apply O, in_or_app; auto).
        rewrite (filter_ext_in (fun a => passes_below (ed a) x y) (fun a => passes_below (ed a) x y') k') by (intros b J; apply O, in_or_app; auto). lia. }
      rewrite R, (IH y' C), D. rewrite (SIDE a x I S). fold y'. destruct (odd_below x y' l); cbn [negb]; lia.
Qed.

Lemma ladder : forall x y, rungs x y l = if odd_below x y l then g else 0.
Proof using LR AP SIDE.
  intros x y. destruct (nudge (map ed l) x y) as (x' & y' & B & H).
  { intros e I. apply in_map_iff in I. destruct I as (a & <- & I). auto. }
  assert (Q : forall a, In a l -> passes_below (ed a) x y = passes_below (ed a) x' y') by (intros a I; symmetry; apply H, in_map, I).
  rewrite (rungs_ext x y x' y' l Q), (odd_ext x y x' y' l Q). eapply ladder_between; [exact B|apply Nat.le_refl].
Qed.
End Ladder.
