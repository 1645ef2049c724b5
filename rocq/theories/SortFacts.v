(** The overlay does not depend on how the standard library sorts (C94). *)

From Coq Require Import List ZArith Bool Arith Lia Sorting.Permutation Sorting.Sorted.
From Verif Require Import Base BaseFacts Float Geometry Sweep Contours StdRef Compute SpecCompute SweepFacts StdFacts MapModel Route RouteDraw.
Import ListNotations.

Section Ref.
  Context {A : Type} (cmp : A -> A -> outcome comparison).
  Notation R := (fun a b => cmp a b = Ok Lt /\ cmp b a = Ok Gt).

  Lemma strict_unique : forall l l', Permutation l l' -> StronglySorted R l -> StronglySorted R l' -> l = l'.
  Proof.
    induction l as [|x l IH]; intros l' P S S'.
    - apply Permutation_nil in P. congruence.
    - destruct l' as [|x' l']; [apply Permutation_sym, Permutation_nil in P; discriminate|].
      inversion S as [|? ? S1 F1]; inversion S' as [|? ? S2 F2]; subst. rewrite Forall_forall in F1, F2.
      assert (x = x').
      { assert (I : In x (x' :: l')) by (eapply Permutation_in; [exact P|left; auto]).
        assert (I' : In x' (x :: l)) by (eapply Permutation_in; [apply Permutation_sym, P|left; auto]).
        destruct I as [I|I]; auto. destruct I' as [I'|I']; auto.
        destruct (F1 _ I') as [C _]. destruct (F2 _ I) as [_ C']. congruence. }
      subst x'. f_equal. apply IH; auto. eapply Permutation_cons_inv; eauto.
  Qed.

  Lemma ins_strict : forall x l l1 l2, l = l1 ++ l2 -> StronglySorted R (l1 ++ x :: l2) -> ins cmp x l = Ok (l1 ++ x :: l2).
  Proof.
    intros x l l1. revert l. induction l1 as [|y l1 IH]; intros l l2 -> S; cbn [app ins] in *.
    - destruct l2 as [|y l2]; [reflexivity|]. inversion S as [|? ? _ F]; subst. cbn [ins].
      destruct (proj1 (Forall_forall _ _) F y (or_introl eq_refl)) as [_ C]. rewrite C. reflexivity.
    - inversion S as [|? ? S1 F]; subst.
      destruct (proj1 (Forall_forall _ _) F x) as [C _]; [apply in_elt|]. rewrite C. cbn [obind]. rewrite (IH _ l2 eq_refl S1). reflexivity.
  Qed.

  Lemma sorted_without : forall l1 x l2, StronglySorted R (l1 ++ x :: l2) -> StronglySorted R (l1 ++ l2).
  Proof.
    induction l1 as [|y l1 IH]; intros x l2 S; cbn [app] in *; inversion S as [|? ? S1 F]; subst; [exact S1|].
    constructor; [eapply IH; eauto|]. rewrite Forall_forall in *. intros z Hz. apply F. rewrite in_app_iff in *. cbn. tauto.
  Qed.

  Lemma isort_strict : forall l l', Permutation l l' -> StronglySorted R l' -> isort cmp l = Ok l'.
  Proof.
    induction l as [|x l IH]; intros l' P S; cbn [isort].
    - apply Permutation_nil in P. now subst.
    - assert (I : In x l') by (eapply Permutation_in; [exact P|left; auto]). apply in_split in I. destruct I as (l1 & l2 & ->).
      rewrite (IH (l1 ++ l2)); [|eapply Permutation_cons_app_inv; exact P|eapply sorted_without; exact S]. cbn [obind]. apply ins_strict; auto.
  Qed.

  (** Checking it by computation. *)
  Definition okb (o : outcome comparison) (c : comparison) : bool :=
    match o, c with Ok Lt, Lt | Ok Eq, Eq | Ok Gt, Gt => true | _, _ => false end.
  Lemma okb_iff : forall o c, okb o c = true -> o = Ok c.
  Proof. intros [[]|e|p] []; cbn; congruence. Qed.
  Fixpoint increasingb (l : list A) : bool :=
    match l with [] => true | x :: l' => forallb (fun y => okb (cmp x y) Lt && okb (cmp y x) Gt) l' && increasingb l' end.
  Lemma increasingb_iff : forall l, increasingb l = true -> increasing cmp l.
  Proof.
    induction l as [|x l IH]; intros H; constructor; cbn in H; apply andb_prop in H; destruct H as [H1 H2]; [apply IH, H2|].
    apply Forall_forall. intros y Hy. rewrite forallb_forall in H1. specialize (H1 _ Hy). apply andb_prop in H1.
    split; apply okb_iff; apply H1.
  Qed.
End Ref.

Lemma std_ref_sorts : sorts std_ref.
Proof. intros A cmp l l' P _ S. exact (isort_strict cmp l l' P S). Qed.

(** C94. *)
Lemma compute_same : forall std std' fuel polys op, std_laws std -> std_laws std' -> sorts std -> sorts std' -> pieces_ordered fuel polys ->
  compute std fuel polys op = compute std' fuel polys op.
Proof.
  intros std std' fuel polys op L L' S S' O. unfold compute.
  destruct (add_polygons (length polys) 0 polys (mk_sweep [] [] [] [] [])) as [w0|e|p] eqn:E0; cbn [obind]; [|reflexivity|reflexivity].
  destruct (sweep_loop fuel (length polys) w0) as [w|e|p] eqn:E1; cbn [obind]; [|reflexivity|reflexivity].
  destruct (include_all (map snd polys) (w_packets w) (w_swept w)) as [[segments endpoints]|e|p] eqn:E2; cbn [obind]; [|reflexivity|reflexivity].
  destruct (O _ _ _ _ E0 E1 E2) as (T & I & l & P & G).
  destruct (sort_total std L _ segment_cmp segments T) as [a ->]. destruct (sort_total std' L' _ segment_cmp segments T) as [a' ->].
  cbn [obind].
  match goal with |- obind ?x _ = obind ?y _ => replace x with (Ok l : outcome (list bend)) by (symmetry; exact (S _ _ _ _ P I G));
    replace y with (Ok l : outcome (list bend)) by (symmetry; exact (S' _ _ _ _ P I G)) end. reflexivity.
Qed.

Definition pieces_orderedb (fuel : nat) (polys : input) : bool :=
  match add_polygons (length polys) 0 polys (mk_sweep [] [] [] [] []) with
  | Ok w0 =>
      match sweep_loop fuel (length polys) w0 with
      | Ok w =>
          match include_all (map snd polys) (w_packets w) (w_swept w) with
          | Ok (segments, endpoints) =>
              forallb (fun a => forallb (fun b => match segment_cmp a b with Ok _ => true | _ => false end) segments) segments
              && forallb (fun a => okb (endpoint_cmp a a) Eq) endpoints
              && match isort endpoint_cmp endpoints with Ok l => increasingb endpoint_cmp l | _ => false end
          | _ => true
          end
      | _ => true
      end
  | _ => true
  end.

Lemma pieces_orderedb_iff : forall fuel polys, pieces_orderedb fuel polys = true -> pieces_ordered fuel polys.
Proof.
  intros fuel polys H w0 w segments endpoints E0 E1 E2. unfold pieces_orderedb in H. rewrite E0, E1, E2 in H.
  apply andb_prop in H. destruct H as [H H3]. apply andb_prop in H. destruct H as [H1 H2].
  rewrite forallb_forall in H1, H2. split; [|split].
  - intros a b Ha Hb. specialize (H1 _ Ha). rewrite forallb_forall in H1. specialize (H1 _ Hb). destruct (segment_cmp a b); [eauto|discriminate..].
  - intros a Ha. apply okb_iff, H2, Ha.
  - destruct (isort endpoint_cmp endpoints) as [l|e|p] eqn:E; try discriminate. exists l. split; [eapply isort_perm; exact E|apply increasingb_iff, H3].
Qed.

Lemma compute_ref : forall std fuel polys op, std_laws std -> sorts std -> pieces_orderedb fuel polys = true ->
  compute std fuel polys op = compute std_ref fuel polys op.
Proof. intros. apply compute_same; auto using std_ref_laws, std_ref_sorts, pieces_orderedb_iff. Qed.

Lemma route_ref : forall std fuel mode m polys refs, std_laws std -> sorts std -> route_input m = Ok (polys, refs) ->
  pieces_orderedb fuel polys = true -> route std fuel mode m = route std_ref fuel mode m.
Proof. intros std fuel mode m polys refs L S E O. unfold route. rewrite E. cbn [obind]. rewrite (compute_ref std fuel polys Union L S O). reflexivity. Qed.
