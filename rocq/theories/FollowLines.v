(** Lines that follow given sides by turning left are determined by the sides. *)

From Coq Require Import List ZArith QArith Bool Lia Arith Permutation.
From Verif Require Import Base Float SpecShape SpecOrder SpecIntersect SpecTurn SpecTidy SpecOverlay.
From Verif Require Import SpecFollow.
Import ListNotations.
Local Open Scope Z_scope.

Lemma as_left_total : forall u v w, as_left u v w \/ as_left u w v.
Proof.
  intros [ux uy] [vx vy] [wx wy]. unfold as_left. set (X := vcross (ux, uy) (vx, vy)). set (Y := vcross (ux, uy) (wx, wy)).
  set (C := vcross (wx, wy) (vx, vy)). assert (HC : vcross (vx, vy) (wx, wy) = - C) by (subst C; unfold vcross; cbn; ring). rewrite HC.
  set (P := vdot (ux, uy) (vx, vy)). set (R := vdot (ux, uy) (wx, wy)).
  assert (Z1 : X = 0 -> Y = 0 -> C <> 0 -> P = 0 /\ R = 0).
  { subst X Y C P R. unfold vcross, vdot. cbn [fst snd]. intros H1 H2 H3.
    assert (Hx : ux * (wx * vy - wy * vx) = 0) by (transitivity (wx * (ux * vy - uy * vx) - vx * (ux * wy - uy * wx)); [ring|rewrite H1, H2; ring]).
    assert (Hy : uy * (wx * vy - wy * vx) = 0) by (transitivity (wy * (ux * vy - uy * vx) - vy * (ux * wy - uy * wx)); [ring|rewrite H1, H2; ring]).
    apply Z.mul_eq_0 in Hx, Hy. destruct Hx as [->|]; [|contradiction]. destruct Hy as [->|]; [|contradiction]. split; ring. }
  destruct (0 <? X) eqn:EX; destruct (0 <? Y) eqn:EY; rewrite ?Z.ltb_lt, ?Z.ltb_ge in *.
  - destruct (Z.le_gt_cases 0 C); [left|right]; lia.
  - left. lia.
  - right. lia.
  - destruct (Z.eq_dec C 0) as [HC0|HC0]; [|destruct (Z.le_gt_cases 0 C); [left|right]; (split; [lia|]); (split; [lia|]); intros; destruct Z1; lia].
    rewrite HC0. destruct (Z.le_gt_cases P 0); [right|left]; (split; [lia|]); (split; [lia|]); lia.
Qed.

Lemma furthest_once : forall S S' a b c c', (forall s, In s S <-> In s S') -> furthest_left S a b c -> furthest_left S' a b c' ->
  In (b, c) S -> In (b, c') S' -> c = c'.
Proof.
  intros S S' a b c c' HS (H1 & H2) (H1' & H2') I1 I2.
  assert (D : {c = c'} + {c <> c'}) by (decide equality; apply Z.eq_dec). destruct D as [|D]; [assumption|]. exfalso.
  apply HS in I1, I2. destruct (as_left_total (vsub b a) (vsub c b) (vsub c' b)) as [L|L].
  - apply (H2' c); auto.
  - apply (H2 c'); auto.
Qed.

Lemma combine_adj : forall A (l : list A) x y a, In (x, y) (combine l (tl l ++ [a])) <-> l <> [] /\ exists u v, l ++ [a] = u ++ x :: y :: v.
Proof.
  intros A l. induction l as [|b l IH]; intros x y a; [cbn; split; [contradiction|intros (X & _); now destruct X]|].
  destruct l as [|c l].
  - cbn. split.
    + intros [H|[]]. injection H as -> ->. split; [discriminate|]. now exists [], [].
    + intros (_ & u & v & Q). left. destruct u as [|? u]; [injection Q as <- <- _; reflexivity|].
      injection Q as _ Q. destruct u as [|? u]; [discriminate|]. injection Q as _ Q. now destruct u.
  - change (tl (b :: c :: l)) with (c :: l). cbn [app combine]. change (In (x, y) ((b, c) :: combine (c :: l) (tl (c :: l) ++ [a])) <->
      b :: c :: l <> [] /\ exists u v, b :: (c :: l) ++ [a] = u ++ x :: y :: v). cbn [In]. rewrite IH. split.
    + intros [H|(_ & u & v & Q)]; (split; [discriminate|]).
      * injection H as -> ->. exists [], (l ++ [a]). reflexivity.
      * exists (b :: u), v. now rewrite Q.
    + intros (_ & u & v & Q). destruct u as [|u0 u].
      * injection Q as <- <- _. now left.
      * injection Q as <- Q. right. split; [discriminate|]. now exists u, v.
Qed.
Lemma sides_adj : forall l x y, In (x, y) (sides l) <-> exists u v, closed l = u ++ x :: y :: v.
Proof.
  intros [|a t] x y; cbn [sides closed].
  - split; [contradiction|]. intros (u & v & Q). now destruct u.
  - change t with (tl (a :: t)) at 1. rewrite combine_adj. split; [intros (_ & H); exact H|intros H; split; [discriminate|exact H]].
Qed.

Lemma sides_from_corner : forall l s, In s (sides l) -> In (fst s) l.
Proof. intros [|a t] [x y] H; [destruct H|]. cbn [sides] in H. apply in_combine_l in H. exact H. Qed.
Lemma corner_side : forall l x, In x l -> exists y, In (x, y) (sides l).
Proof.
  intros [|a t] x H; [destruct H|]. cbn [sides]. apply (In_nth_error) in H. destruct H as (i & H).
  assert (exists y, nth_error (t ++ [a]) i = Some y) as (y & Hy).
  { destruct (nth_error (t ++ [a]) i) eqn:E; [eauto|]. apply nth_error_None in E. rewrite app_length in E. cbn in E.
    assert (X : nth_error (a :: t) i <> None) by congruence. apply nth_error_Some in X. cbn in X. lia. }
  exists y. clear - H Hy. revert H Hy. generalize (a :: t) (t ++ [a]). induction i as [|i IH]; intros [|x0 l] [|y0 m]; cbn; try discriminate.
  - intros [= ->] [= ->]. now left.
  - intros H1 H2. right. now apply IH.
Qed.

Lemma lex_irrefl : forall p, lex_z p p <> Lt.
Proof. intros [x y]. unfold lex_z. cbn. now rewrite !Z.compare_refl. Qed.

(** The first corner is not passed in between. *)
Lemma first_once : forall a t u x y v, starts_leftmost (a :: t) -> closed (a :: t) = u ++ x :: y :: v -> v <> [] -> y <> a.
Proof.
  intros a t u x y v H Q N Y. subst y. cbn [closed app] in Q.
  destruct (exists_last N) as (v' & z & ->).
  assert (In a t).
  { destruct u as [|u0 u].
    - injection Q as <- Q. change (a :: v' ++ [z]) with ((a :: v') ++ [z]) in Q. apply app_inj_tail in Q. destruct Q as [-> _]. now left.
    - injection Q as <- Q. change (u ++ x :: a :: v' ++ [z]) with (u ++ (x :: a :: v') ++ [z]) in Q. rewrite app_assoc in Q.
      apply app_inj_tail in Q. destruct Q as [-> _]. apply in_or_app. right. right. now left. }
  cbn in H. rewrite Forall_forall in H. now apply (lex_irrefl a), H.
Qed.
Lemma ends_first : forall a t u x y, closed (a :: t) = u ++ [x; y] -> y = a.
Proof.
  intros a t u x y Q. cbn [closed] in Q. change (u ++ [x; y]) with (u ++ [x] ++ [y]) in Q. rewrite app_assoc in Q. now apply app_inj_tail in Q.
Qed.

Lemma in_flat : forall (ls : list (list (Z * Z))) l s, In l ls -> In s (sides l) -> In s (flat_map sides ls).
Proof. intros. apply in_flat_map. eauto. Qed.

(** Two lines with the same first side are the same. *)
Lemma follow_same : forall ls ls' a t t', well_followed ls -> well_followed ls' -> (forall s, In s (flat_map sides ls) <-> In s (flat_map sides ls')) ->
  In (a :: t) ls -> In (a :: t') ls' -> forall s s' u x y, closed (a :: t) = u ++ x :: y :: s -> closed (a :: t') = u ++ x :: y :: s' -> s = s'.
Proof.
  intros ls ls' a t t' (_ & _ & W) (_ & _ & W') HS I I' s. destruct (W _ I) as (F & T). destruct (W' _ I') as (F' & T').
  induction s as [|c s IH]; intros s' u x y Q Q'.
  - destruct s' as [|c' s']; [reflexivity|]. exfalso. apply (first_once a t' u x y (c' :: s') F' Q'); [discriminate|]. now apply (ends_first a t u x y).
  - destruct s' as [|c' s'].
    + exfalso. apply (first_once a t u x y (c :: s) F Q); [discriminate|]. now apply (ends_first a t' u x y).
    + assert (c = c').
      { apply (furthest_once _ _ x y c c' HS (T _ _ _ _ _ Q) (T' _ _ _ _ _ Q')).
        - apply (in_flat _ _ _ I), sides_adj. exists (u ++ [x]), s. now rewrite <- app_assoc.
        - apply (in_flat _ _ _ I'), sides_adj. exists (u ++ [x]), s'. now rewrite <- app_assoc. }
      subst c'. f_equal. apply (IH s' (u ++ [x]) y c); rewrite <- app_assoc; assumption.
Qed.

Lemma closed_inj : forall l l', l <> [] -> l' <> [] -> closed l = closed l' -> l = l'.
Proof. intros [|a t] [|b s] N N' H; [now destruct N|now destruct N|now destruct N'|]. cbn [closed] in H. now apply app_inj_tail in H. Qed.

Lemma nodup_line : forall (ls : list (list (Z * Z))) l l' s, NoDup (flat_map sides ls) -> In l ls -> In l' ls -> In s (sides l) -> In s (sides l') -> l = l'.
Proof.
  induction ls as [|m ls IH]; intros l l' s N Hl Hl' Hs Hs'; [destruct Hl|]. cbn [flat_map] in N.
  assert (D : forall x, In x (sides m) -> In x (flat_map sides ls) -> False).
  { clear - N. induction (sides m) as [|y k IH]; intros x H1 H2; [destruct H1|]. cbn [app] in N. inversion N as [|? ? N1 N2]; subst.
    destruct H1 as [->|H1]; [apply N1, in_or_app; now right|now apply (IH N2 x)]. }
  assert (N' : NoDup (flat_map sides ls)) by (clear - N; induction (sides m) as [|y k IH]; [exact N|inversion N; auto]).
  destruct Hl as [->|Hl], Hl' as [->|Hl']; [reflexivity| | |].
  - exfalso. apply (D s Hs). now apply (in_flat _ l').
  - exfalso. apply (D s Hs'). now apply (in_flat _ l).
  - now apply (IH l l' s).
Qed.

Definition ltb (a b : Z * Z) : bool := match lex_z a b with Lt => true | _ => false end.
Definition rank (L : list (Z * Z)) (a : Z * Z) : nat := length (filter (fun v => ltb v a) L).
Lemma lex_lt : forall p q, lex_z p q = Lt <-> fst p < fst q \/ fst p = fst q /\ snd p < snd q.
Proof.
  intros [px py] [qx qy]. unfold lex_z. cbn [fst snd]. destruct (Z.compare_spec px qx) as [H|H|H].
  - rewrite Z.compare_lt_iff. lia.
  - split; auto.
  - split; [discriminate|lia].
Qed.
Lemma filter_le : forall A (p q : A -> bool) l, (forall x, p x = true -> q x = true) -> (length (filter p l) <= length (filter q l))%nat.
Proof. intros A p q l H. induction l as [|x l IH]; [cbn; constructor|]. cbn. destruct (p x) eqn:E; [rewrite (H x E); cbn; lia|]. destruct (q x); cbn; lia. Qed.
Lemma rank_lt : forall L a b, lex_z a b = Lt -> In a L -> (rank L a < rank L b)%nat.
Proof.
  intros L a b H Ha. unfold rank. apply in_split in Ha. destruct Ha as (l1 & l2 & ->). rewrite !filter_app, !app_length. cbn [filter].
  assert (Hab : ltb a b = true) by (unfold ltb; now rewrite H). assert (Haa : ltb a a = false).
  { unfold ltb. pose proof (lex_irrefl a). destruct (lex_z a a); congruence. }
  rewrite Hab, Haa. cbn [length].
  assert (M : forall x, ltb x a = true -> ltb x b = true).
  { intros x. unfold ltb. destruct (lex_z x a) eqn:E; try discriminate. intros _. apply lex_lt in H. apply lex_lt in E. assert (K : lex_z x b = Lt) by (apply lex_lt; lia). now rewrite K. }
  pose proof (filter_le _ _ _ l1 M). pose proof (filter_le _ _ _ l2 M). lia.
Qed.

Lemma leftmost_least : forall a t x, starts_leftmost (a :: t) -> In x (a :: t) -> a = x \/ lex_z a x = Lt.
Proof. intros a t x H [->|Hx]; [now left|]. right. cbn in H. rewrite Forall_forall in H. now apply H. Qed.

Lemma closed_second : forall a t, exists y s, closed (a :: t) = a :: y :: s.
Proof. intros a [|b t]; cbn [closed app]; eauto. Qed.

Lemma follow_in : forall k L ls ls', well_followed ls -> well_followed ls' -> (forall s, In s (flat_map sides ls) <-> In s (flat_map sides ls')) ->
  (forall x l, In l ls \/ In l ls' -> In x l -> In x L) ->
  forall a t, In (a :: t) ls -> (rank L a < k)%nat -> In (a :: t) ls'.
Proof.
  induction k as [|k IH]; intros L ls ls' W W' HS HL a t I K; [lia|].
  destruct (closed_second a t) as (y & s & Q).
  assert (Hs : In (a, y) (sides (a :: t))) by (apply sides_adj; exists [], s; exact Q).
  pose proof (proj1 (HS _) (in_flat _ _ _ I Hs)) as X. apply in_flat_map in X. destruct X as (l' & I' & Hs').
  pose proof (proj2 (proj2 W') _ I') as (F' & _). destruct l' as [|a' t']; [destruct F'|].
  destruct (leftmost_least _ _ a F' (sides_from_corner _ _ Hs')) as [->|Lt].
  - assert (exists s', closed (a :: t') = a :: y :: s') as (s' & Q').
    { apply sides_adj in Hs'. destruct Hs' as (u & v & Q'). destruct u as [|u0 u]; [now exists v|]. exfalso.
      destruct (exists_last (l := u0 :: u) ltac:(discriminate)) as (u' & z & Eu). rewrite Eu, <- app_assoc in Q'. cbn [app] in Q'.
      now apply (first_once a t' u' z a (y :: v) F' Q'). }
    pose proof (follow_same ls ls' a t t' W W' HS I I' s s' [] a y Q Q') as ->. rewrite <- Q' in Q.
    apply closed_inj in Q; [|discriminate|discriminate]. now rewrite Q.
  - exfalso. assert (J : In (a' :: t') ls).
    { apply (IH L ls' ls W' W); [intros; symmetry; apply HS| |exact I'|].
      - intros x l H. apply HL. tauto.
      - pose proof (rank_lt L a' a Lt (HL a' _ (or_intror I') (or_introl eq_refl))). lia. }
    pose proof (nodup_line ls _ _ _ (proj1 (proj2 W)) I J Hs Hs') as E. injection E as <- _. now apply (lex_irrefl a).
Qed.

Lemma well_nodup : forall ls, well_followed ls -> NoDup ls.
Proof.
  intros ls (_ & N & W). assert (H : forall l, In l ls -> sides l <> []).
  { intros l Hl. destruct (W l Hl) as (F & _). destruct l as [|a [|b t]]; [destruct F|discriminate|discriminate]. }
  clear W. induction ls as [|l ls IH]; [constructor|]. cbn [flat_map] in N. constructor.
  - intros I. destruct (sides l) as [|s k] eqn:E; [now apply (H l (or_introl eq_refl))|]. cbn [app] in N. inversion N as [|? ? N1 N2]; subst.
    apply N1, in_or_app. right. apply in_flat_map. exists l. split; [exact I|]. rewrite E. now left.
  - apply IH; [|intros; apply H; now right]. clear - N. induction (sides l) as [|y k IH]; [exact N|inversion N; auto].
Qed.

Lemma follow_perm : forall ls ls', well_followed ls -> well_followed ls' -> (forall s, In s (flat_map sides ls) <-> In s (flat_map sides ls')) -> Permutation ls ls'.
Proof.
  intros ls ls' W W' HS. set (L := concat ls ++ concat ls').
  assert (HL : forall x l, In l ls \/ In l ls' -> In x l -> In x L).
  { intros x l [H|H] Hx; apply in_or_app; [left|right]; apply in_concat; eauto. }
  apply NoDup_Permutation; [now apply well_nodup|now apply well_nodup|]. intros l. split; intros H.
  - destruct (proj2 (proj2 W) l H) as (F & _). destruct l as [|a t]; [destruct F|]. eapply (follow_in (Datatypes.S (rank L a)) L ls ls'); eauto.
  - destruct (proj2 (proj2 W') l H) as (F & _). destruct l as [|a t]; [destruct F|]. eapply (follow_in (Datatypes.S (rank L a)) L ls' ls); eauto.
    + intros; symmetry; apply HS.
    + intros x l [X|X]; apply HL; tauto.
Qed.

Lemma sorted_once : forall A (R : A -> A -> Prop) l l', (forall x y, R x y -> R y x -> False) -> ForallOrdPairs R l -> ForallOrdPairs R l' ->
  Permutation l l' -> l = l'.
Proof.
  intros A R l l' As H. revert l'. induction H as [|x l Hx H IH]; intros l' H' P; [now apply Permutation_nil in P|].
  destruct l' as [|y l']; [now apply Permutation_sym, Permutation_nil in P|]. inversion H' as [|? ? Hy H2]; subst. rewrite Forall_forall in Hx, Hy.
  assert (x = y).
  { assert (X : In x (y :: l')) by (apply (Permutation_in _ P); now left). destruct X as [X|X]; [now symmetry|].
    assert (Y : In y (x :: l)) by (apply (Permutation_in _ (Permutation_sym P)); now left). destruct Y as [Y|Y]; [exact Y|].
    destruct (As x y (Hx _ Y) (Hy _ X)). }
  subst y. f_equal. apply IH; [exact H2|]. now apply Permutation_cons_inv in P.
Qed.
Lemma before_asym : forall l l', starts_before l l' -> starts_before l' l -> False.
Proof.
  intros [|a [|b t]] [|a' [|b' t']]; cbn; try contradiction. intros [H|(-> & H)] [H'|(Q & H')].
  - apply lex_lt in H, H'. lia.
  - subst. now apply (lex_irrefl a).
  - now apply (lex_irrefl a').
  - unfold orient in *. lia.
Qed.
Lemma follow_unique : forall ls ls', well_followed ls -> well_followed ls' -> (forall s, In s (flat_map sides ls) <-> In s (flat_map sides ls')) -> ls = ls'.
Proof.
  intros ls ls' W W' HS. apply (sorted_once _ starts_before); [exact before_asym|apply W|apply W'|now apply follow_perm].
Qed.
