(** The reference implementation of the standard library meets the laws. *)

From Coq Require Import List ZArith Bool Arith Lia Sorting.Permutation.
From Verif Require Import Base BaseFacts Float Geometry Sweep Contours StdRef Compute SpecCompute SweepFacts.
Import ListNotations.

Section Ref.
  Context {A : Type} (cmp : A -> A -> outcome comparison).

  Lemma ins_perm : forall x l l', ins cmp x l = Ok l' -> Permutation (x :: l) l'.
  Proof.
    intros x l. induction l as [|y l IH]; intros l' H; cbn [ins] in H.
    - inv H. apply Permutation_refl.
    - bind H c Ec. destruct c; [inv H; apply Permutation_refl| |inv H; apply Permutation_refl].
      bind H r Er. inv H. apply IH in Er. etransitivity; [apply perm_swap|]. now constructor.
  Qed.
  Lemma isort_perm : forall l l', isort cmp l = Ok l' -> Permutation l l'.
  Proof.
    induction l as [|x l IH]; intros l' H; cbn [isort] in H.
    - inv H. constructor.
    - bind H r Er. apply IH in Er. apply ins_perm in H. etransitivity; [|exact H]. now constructor.
  Qed.
  Lemma ins_total : forall x l, (forall a b, In a (x :: l) -> In b (x :: l) -> exists c, cmp a b = Ok c) -> exists l', ins cmp x l = Ok l'.
  Proof.
    intros x l. induction l as [|y l IH]; intros H; cbn [ins]; [eauto|].
    destruct (H y x) as [c Hc]; [cbn; auto..|]. rewrite Hc. cbn [obind].
    destruct c; [eauto| |eauto].
    destruct IH as [l' Hl']; [intros a b Ha Hb; apply H; cbn in *; tauto|]. rewrite Hl'. cbn. eauto.
  Qed.
  Lemma isort_total : forall l, (forall a b, In a l -> In b l -> exists c, cmp a b = Ok c) -> exists l', isort cmp l = Ok l'.
  Proof.
    induction l as [|x l IH]; intros H; cbn [isort]; [eauto|].
    destruct IH as [r Hr]; [intros; apply H; cbn; auto|]. rewrite Hr. cbn [obind]. apply ins_total.
    apply isort_perm in Hr. intros a b Ha Hb.
    apply H; eapply Permutation_in; try (apply Permutation_sym, perm_skip, Hr); assumption.
  Qed.
  Lemma ins_panic : forall x l p, ins cmp x l = Panic p -> exists a b, In a (x :: l) /\ In b (x :: l) /\ cmp a b = Panic p.
  Proof.
    intros x l p. induction l as [|y l IH]; cbn [ins]; intros H; [discriminate|].
    destruct (cmp y x) as [c|e|q] eqn:E; cbn [obind] in H; [|discriminate|].
    - destruct c; [discriminate| |discriminate]. destruct (ins cmp x l); cbn [obind] in H; try discriminate. inv H.
      destruct IH as (a & b & Ha & Hb & Hc); [reflexivity|]. exists a, b. cbn in *. tauto.
    - inv H. exists y, x. cbn. auto.
  Qed.
  Lemma isort_panic : forall l p, isort cmp l = Panic p -> exists a b, In a l /\ In b l /\ cmp a b = Panic p.
  Proof.
    induction l as [|x l IH]; cbn [isort]; intros p H; [discriminate|].
    destruct (isort cmp l) as [r|e|q] eqn:E; cbn [obind] in H; [|discriminate|].
    - apply ins_panic in H. destruct H as (a & b & Ha & Hb & Hc). apply isort_perm in E. exists a, b.
      split; [|split; [|exact Hc]]; eapply Permutation_in; try (apply Permutation_sym, perm_skip, E); assumption.
    - inv H. destruct (IH p eq_refl) as (a & b & Ha & Hb & Hc). exists a, b. cbn. auto.
  Qed.

  Lemma node_insert_incl : forall l x l', node_insert cmp l x = Ok l' -> incl l' (x :: l).
  Proof.
    induction l as [|y l IH]; intros x l' H; cbn [node_insert] in H.
    - inv H. apply incl_refl.
    - bind H c Ec. destruct c.
      + inv H. intros z Hz. cbn in *. tauto.
      + inv H. apply incl_refl.
      + bind H r Er. inv H. apply IH in Er. intros z [<-|Hz]; cbn; auto. apply Er in Hz. cbn in Hz. tauto.
  Qed.
  Lemma node_remove_incl : forall l x l', node_remove cmp l x = Ok l' -> incl l' l.
  Proof.
    induction l as [|y l IH]; intros x l' H; cbn [node_remove] in H.
    - inv H. apply incl_refl.
    - bind H c Ec. destruct c.
      + inv H. intros z Hz. cbn. auto.
      + inv H. apply incl_refl.
      + bind H r Er. inv H. apply IH in Er. intros z [<-|Hz]; cbn; auto.
  Qed.
  Lemma node_last_member : forall l x acc y, node_last_before cmp l x acc = Ok (Some y) ->
    acc = Some y \/ (In y l /\ cmp x y = Ok Gt).
  Proof.
    induction l as [|z l IH]; intros x acc y H; cbn [node_last_before] in H.
    - inv H. auto.
    - bind H c Ec. destruct c; [inv H; auto..|]. apply IH in H. destruct H as [H|[H1 H2]].
      + inv H. right. cbn. auto.
      + right. cbn. auto.
  Qed.
End Ref.

Lemma std_ref_laws : std_laws std_ref.
Proof.
  constructor; cbn; intros A cmp.
  - apply isort_perm.
  - apply isort_total.
  - apply isort_panic.
  - intros l l' x. apply node_insert_incl.
  - intros l l' x. apply node_remove_incl.
  - intros l x y H. apply node_last_member in H. destruct H as [H|H]; [discriminate|exact H].
Qed.
