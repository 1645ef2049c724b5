(** The lists of holes are in ascending order. *)

From Coq Require Import List ZArith Bool Lia Arith Sorted.
From Verif Require Import Base Float Contours Sweep Compute ContainerFacts SweepFacts TraceFacts.
Import ListNotations.

Definition ascends (m : nat) (c : contour) : Prop := StronglySorted lt (c_holes c) /\ Forall (fun h => (h < m)%nat) (c_holes c).

Lemma trace_loop_holes : forall fuel included cid start cur c ks c' ks' cur',
  trace_loop fuel included cid start cur c ks = Ok (c', ks', cur') -> c_holes c' = c_holes c.
Proof.
  induction fuel as [|fuel IH]; intros included cid start cur c ks c' ks' cur' H; cbn [trace_loop] in H; [discriminate|].
  bind H k Ek. bind H fr Ef. destruct (point_eqb _ _); [now inv H|]. bind H nx En. apply IH in H. exact H.
Qed.
Lemma clockwise_holes : forall c b c', clockwise c = Ok (b, c') -> c_holes c' = c_holes c.
Proof.
  intros c b c' H. unfold clockwise in H. destruct (c_cache c) as [x|]; [now inv H|]. destruct (c_points c) as [|p ps]; inv H. reflexivity.
Qed.

Lemma sorted_last : forall l m, StronglySorted lt l -> Forall (fun h => (h < m)%nat) l -> StronglySorted lt (l ++ [m]).
Proof.
  intros l m H. induction H as [|a l H IH Ha]; intros F; cbn [app]; [constructor; constructor|]. inversion F as [|? ? F1 F2]; subst.
  constructor; [now apply IH|]. apply Forall_app. split; [exact Ha|]. constructor; [exact F1|constructor].
Qed.
Lemma below_more : forall m m' l, (m <= m')%nat -> Forall (fun h => (h < m)%nat) l -> Forall (fun h => (h < m')%nat) l.
Proof. intros m m' l L. apply Forall_impl. intros. lia. Qed.

Lemma set_nth_all : forall {A} (P : A -> Prop) l i x y, Forall P l -> nth_error l i = Some x -> P y -> Forall P (set_nth i y l).
Proof.
  intros A P l i x y F N Y. apply Forall_forall. intros z Hz. apply In_nth_error in Hz. destruct Hz as (j & Hj).
  destruct (set_nth_nth _ _ _ _ _ _ N Hj) as [(-> & ->)|(_ & H)]; [exact Y|]. rewrite Forall_forall in F. apply F. now apply nth_error_In in H.
Qed.

Lemma trace_one_ascends : forall segs included st e st', Forall (ascends (length (snd st))) (snd st) -> trace_one segs included st e = Ok st' ->
  Forall (ascends (length (snd st'))) (snd st').
Proof.
  intros segs included [ks final] e st' F H. cbn [snd] in F. unfold trace_one in H. bind H dn Ed. destruct dn; [inv H; exact F|].
  destruct e as [s x]. bind H k Ek. bind H cur Ec. bind H q Eqq. destruct q as [[c ks1] cur1]. apply trace_loop_holes in Eqq.
  bind H cw Ecw. destruct cw as [cw c2]. apply clockwise_holes in Ecw.
  assert (C2 : c_holes c2 = []) by (rewrite Ecw, Eqq; reflexivity).
  assert (G : Forall (ascends (length final)) (final ++ [c2])).
  { apply Forall_app. split; [exact F|]. constructor; [|constructor]. unfold ascends. rewrite C2. split; constructor. }
  assert (More : forall l, Forall (ascends (length final)) l -> (length final <= length l)%nat -> Forall (ascends (length l)) l).
  { intros l Fl L. eapply Forall_impl; [|exact Fl]. intros a (A1 & A2). split; [exact A1|]. eapply below_more; eauto. }
  assert (G' : Forall (ascends (length (final ++ [c2]))) (final ++ [c2])).
  { apply More; [exact G|]. rewrite app_length. lia. }
  destruct cw; [|inv H; exact G'].
  bind H kl Ekl. destruct (k_below kl) as [bid|]; [|inv H; exact G'].
  bind H bsg Ebs. bind H bk Ebk. bind H pid Epar. bind H f1 Ef1. bind H f2 Ef2. inv H. cbn [snd].
  apply update_nat_ok in Ef1. destruct Ef1 as (cp & cp' & N1 & N2 & ->). inv N2.
  apply update_nat_ok in Ef2. destruct Ef2 as (ch & ch' & N3 & N4 & ->). inv N4.
  pose proof (nth_lt _ _ _ N1) as L1. pose proof (nth_lt _ _ _ N3) as L3.
  assert (Len : length (set_nth pid (add_hole cp (length final)) (final ++ [c2])) = S (length final)).
  { rewrite set_nth_length by exact L1. rewrite app_length. cbn. lia. }
  rewrite set_nth_length by exact L3. rewrite Len.
  assert (G1 : Forall (ascends (S (length final))) (set_nth pid (add_hole cp (length final)) (final ++ [c2]))).
  { eapply set_nth_all; [|exact N1|].
    - rewrite app_length in G'. cbn in G'. rewrite Nat.add_1_r in G'. exact G'.
    - rewrite Forall_forall in G. destruct (G cp (nth_error_In _ _ N1)) as (A1 & A2). split; cbn [add_hole c_holes].
      + now apply sorted_last.
      + apply Forall_app. split; [eapply below_more; [|exact A2]; lia|]. constructor; [lia|constructor]. }
  eapply set_nth_all; [exact G1|exact N3|]. rewrite Forall_forall in G1. exact (G1 ch (nth_error_In _ _ N3)).
Qed.

Lemma assign_holes : forall ks r e r', Forall (fun c => StronglySorted lt (c_holes c)) r -> assign_neighbors ks r e = Ok r' ->
  Forall (fun c => StronglySorted lt (c_holes c)) r'.
Proof.
  intros ks r e r' F H. unfold assign_neighbors in H. bind H k Ek. destruct (k_right_contour k) as [a|]; [|now inv H]. destruct (k_left_contour k) as [b|]; [|now inv H].
  assert (Step : forall l i j l', Forall (fun c => StronglySorted lt (c_holes c)) l ->
    update_nat l i (fun c => let* b := bits_set (c_neighbors c) j true in Ok (set_neighbors c b)) = Ok l' -> Forall (fun c => StronglySorted lt (c_holes c)) l').
  { intros l i j l' Fl Q. apply update_nat_ok in Q. destruct Q as (x & y & N & E & ->). bind E nbs Eb. inv E. eapply set_nth_all; [exact Fl|exact N|].
    rewrite Forall_forall in Fl. exact (Fl x (nth_error_In _ _ N)). }
  bind H f1 E1. eapply Step; [|exact H]. eapply Step; [exact F|exact E1].
Qed.

Lemma holes_ascend : forall std fuel polys op r c, compute std fuel polys op = Ok r -> In c r -> StronglySorted lt (c_holes c).
Proof.
  intros std fuel polys op r c H Hc. unfold compute in H. bind H w0 E0. bind H w E1. bind H se E2. destruct se as [ss es]. bind H u E3. bind H included E4. bind H ks E5.
  bind H kf E6. destruct kf as [ks' final].
  assert (F : Forall (ascends (length final)) final).
  { apply (ofold_inv (trace_one (w_segs w) included) (fun st => Forall (ascends (length (snd st))) (snd st)) included (ks, []) (ks', final)); [constructor| |exact E6].
    intros x s s' _. apply trace_one_ascends. }
  assert (G : Forall (fun c => StronglySorted lt (c_holes c)) r).
  { revert H. apply ofold_inv.
    - apply Forall_forall. intros x Hx. apply in_map_iff in Hx. destruct Hx as (y & <- & Hy). cbn. rewrite Forall_forall in F. now apply F.
    - intros x s s' _. apply assign_holes. }
  rewrite Forall_forall in G. now apply G.
Qed.
