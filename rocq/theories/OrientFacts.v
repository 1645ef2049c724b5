(** Orientation of contours (C43, C44). *)

From Coq Require Import List ZArith Bool Lia Arith.
From Verif Require Import Base BaseFacts Float SpecFloat64 FloatFacts FloatOrder MapFacts Geometry Sweep Contours SpecShape ShapeFacts.
Import ListNotations.
Local Open Scope Z_scope.

(** ** Setters *)

Lemma clockwise_total : forall c, c_points c <> [] -> exists b c', clockwise c = Ok (b, c')
  /\ c_points c' = c_points c /\ c_cache c' = Some b.
Proof.
  intros c H. unfold clockwise. destruct (c_cache c) eqn:E; eauto.
  destruct (c_points c) eqn:F; [congruence|]. eexists _, _. split; [reflexivity|]. cbn. rewrite F. auto.
Qed.

Lemma clockwise_cached : forall c b, c_cache c = Some b -> clockwise c = Ok (b, c).
Proof. intros c b H. unfold clockwise. now rewrite H. Qed.

Lemma set_clockwise_spec : forall c, c_points c <> [] -> exists c', set_clockwise c = Ok c'
  /\ clockwise c' = Ok (true, c') /\ (c_points c' = c_points c \/ c_points c' = rev (c_points c)).
Proof.
  intros c H. destruct (clockwise_total c H) as (b & c1 & E & P & K).
  unfold set_clockwise, counterclockwise. rewrite E. cbn [obind].
  destruct b; cbn [negb]; eexists; (split; [reflexivity|]); split.
  - apply clockwise_cached, K.
  - auto.
  - apply clockwise_cached. unfold change_orientation. cbn. now rewrite K.
  - right. cbn. now rewrite P.
Qed.

Lemma set_counterclockwise_spec : forall c, c_points c <> [] -> exists c', set_counterclockwise c = Ok c'
  /\ clockwise c' = Ok (false, c') /\ (c_points c' = c_points c \/ c_points c' = rev (c_points c)).
Proof.
  intros c H. destruct (clockwise_total c H) as (b & c1 & E & P & K).
  unfold set_counterclockwise. rewrite E. cbn [obind].
  destruct b; eexists; (split; [reflexivity|]); split.
  - apply clockwise_cached. unfold change_orientation. cbn. now rewrite K.
  - right. cbn. now rewrite P.
  - apply clockwise_cached, K.
  - auto.
Qed.

Lemma change_orientation_spec : forall c b c1, clockwise c = Ok (b, c1) ->
  c_points (change_orientation c1) = rev (c_points c)
  /\ exists c2, clockwise (change_orientation c1) = Ok (negb b, c2).
Proof.
  intros c b c1 H.
  assert (P : c_points c1 = c_points c /\ c_cache c1 = Some b).
  { unfold clockwise in H. destruct (c_cache c) eqn:E.
    - inversion H; subst. auto.
    - destruct (c_points c) eqn:F; inversion H; subst. cbn. rewrite F. auto. }
  destruct P as [P K]. split; [cbn; now rewrite P|].
  eexists. apply clockwise_cached. unfold change_orientation. cbn. now rewrite K.
Qed.

(** ** Area of integer contours *)

Fixpoint path (l : list (Z * Z)) : Z :=
  match l with
  | a :: ((b :: _) as l') => cross_z a b + path l'
  | _ => 0
  end.

Lemma path_snoc : forall l a b, path (l ++ [a; b]) = path (l ++ [a]) + cross_z a b.
Proof.
  induction l as [|x l IH]; intros a b; [cbn; ring|].
  destruct l as [|y l]; [cbn; ring|].
  change ((x :: y :: l) ++ [a; b]) with (x :: ((y :: l) ++ [a; b])).
  change ((x :: y :: l) ++ [a]) with (x :: ((y :: l) ++ [a])).
  cbn [path app] in *. rewrite IH. ring.
Qed.

Lemma cross_z_opp : forall a b, cross_z b a = - cross_z a b.
Proof. intros [a b] [c d]. unfold cross_z. cbn. ring. Qed.

Lemma path_rev : forall l, path (rev l) = - path l.
Proof.
  induction l as [|a l IH]; [reflexivity|]. destruct l as [|b l]; [reflexivity|].
  cbn [rev] in *. rewrite <- app_assoc. cbn [app]. rewrite path_snoc, IH. cbn [path].
  rewrite (cross_z_opp a b). ring.
Qed.

Lemma shoelace_combine : forall l q,
  fold_right Z.add 0 (map (fun ab => cross_z (fst ab) (snd ab)) (combine l (tl l ++ [q])))
  = match l with [] => 0 | p :: _ => path l + cross_z (last l p) q end.
Proof.
  induction l as [|a l IH]; intros q; [reflexivity|].
  destruct l as [|b l]; [cbn; ring|].
  specialize (IH q). cbn [tl app combine map fold_right fst snd] in *.
  rewrite IH. cbn [path].
  assert (L : last (a :: b :: l) a = last (b :: l) b).
  { change (last (a :: b :: l) a) with (last (b :: l) a). clear. revert b. induction l as [|c l IH]; intros b; [reflexivity|].
    cbn [last] in *. destruct l; auto. }
  rewrite L. ring.
Qed.

Lemma shoelace_path : forall p l, shoelace (p :: l) = path (p :: l) + cross_z (last (p :: l) p) p.
Proof. intros p l. unfold shoelace. apply (shoelace_combine (p :: l) p). Qed.

Lemma last_app_one : forall {A} (l : list A) a d, last (l ++ [a]) d = a.
Proof. intros. apply last_last. Qed.

Lemma shoelace_rev : forall l, shoelace (rev l) = - shoelace l.
Proof.
  intros [|p l]; [reflexivity|].
  destruct (rev (p :: l)) as [|q r] eqn:E; [apply (f_equal (@length _)) in E; rewrite rev_length in E; discriminate|].
  rewrite !shoelace_path, <- E, path_rev.
  assert (H1 : last (rev (p :: l)) q = p) by (cbn [rev]; apply last_last).
  assert (H2 : last (p :: l) p = q).
  { rewrite <- (rev_involutive (p :: l)), E. cbn [rev]. apply last_last. }
  rewrite H1, H2. rewrite (cross_z_opp q p). ring.
Qed.

Lemma cross_bound : forall m a b, within m a -> within m b -> Z.abs (cross_z a b) <= 2 * (m * m).
Proof.
  intros m [ax ay] [bx by_] [A1 A2] [B1 B2]. unfold cross_z. cbn [fst snd] in *.
  pose proof (mul_bound ax by_ m A1 B2). pose proof (mul_bound ay bx m A2 B1). lia.
Qed.

Lemma cross_int : forall m a b za zb, at_z a za -> at_z b zb -> within m za -> within m zb ->
  2 * (m * m) < 2 ^ 53 -> is_int (v_cross a b) (cross_z za zb).
Proof.
  intros m a b [ax ay] [bx by_] Ha Hb [A1 A2] [B1 B2] Hm. unfold v_cross, cross_z. cbn [fst snd] in *.
  assert (M0 : 0 <= m) by lia. assert (M1 : m < 2 ^ 53) by (pow_lia; nia).
  destruct (at_z_int _ _ Ha) as [IA1 IA2]; cbn [fst snd]; [lia..|].
  destruct (at_z_int _ _ Hb) as [IB1 IB2]; cbn [fst snd]; [lia..|]. cbn [fst snd] in *.
  pose proof (mul_bound ax by_ m A1 B2). pose proof (mul_bound ay bx m A2 B1).
  apply sub_int; [apply mul_int; auto; lia|apply mul_int; auto; lia|lia].
Qed.

Lemma area_loop_int : forall m l zs acc a, Forall2 at_z l zs -> Forall (within m) zs ->
  is_int acc a -> Z.abs a + Z.of_nat (length l) * (2 * (m * m)) < 2 ^ 53 + 2 * (m * m) ->
  l <> [] ->
  is_int (area_loop l acc) (a + path zs) /\ Z.abs (path zs) <= (Z.of_nat (length l) - 1) * (2 * (m * m)).
Proof.
  intros m l. induction l as [|p l IH]; intros zs acc a F W I B N; [congruence|].
  inversion F as [|? z ? zs' Hp F']; subst.
  destruct l as [|q l].
  { inversion F'; subst. cbn [area_loop path length]. rewrite Z.add_0_r. split; auto. lia. }
  inversion F' as [|? z2 ? zs'' Hq F'']; subst.
  inversion W as [|? ? W1 W']; subst. inversion W' as [|? ? W2 W'']; subst.
  cbn [area_loop path]. pose proof (cross_bound m z z2 W1 W2) as CB.
  assert (M0 : 0 <= m * m) by nia.
  cbn [length] in B. rewrite !Nat2Z.inj_succ in B.
  assert (C : is_int (v_cross p q) (cross_z z z2)) by (apply (cross_int m); auto; nia).
  destruct (IH (z2 :: zs'') (f64_add acc (v_cross p q)) (a + cross_z z z2)) as [I2 B2]; auto.
  - apply add_int; auto. nia.
  - cbn [length]. rewrite Nat2Z.inj_succ. nia.
  - congruence.
  - split.
    + refine (eq_ind _ (is_int _) I2 _ _). cbn [path]. ring.
    + cbn [length path] in *. rewrite !Nat2Z.inj_succ in *. lia.
Qed.

Lemma last_at : forall l zs p z, Forall2 at_z l zs -> at_z p z -> at_z (last l p) (last zs z).
Proof.
  intros l zs p z F H. induction F as [|a b l zs Hab F IH]; [auto|].
  destruct F; [auto|]. exact IH.
Qed.
Lemma last_within : forall m zs z, Forall (within m) zs -> within m z -> within m (last zs z).
Proof. intros m zs z F H. induction F as [|a zs Ha F IH]; auto. destruct F; auto. Qed.

Lemma orientation_int : forall m l zs, Forall2 at_z l zs -> Forall (within m) zs -> l <> [] ->
  Z.of_nat (length l) * (2 * (m * m)) < 2 ^ 53 ->
  orientation_of l = Ok (shoelace zs <? 0).
Proof.
  intros m l zs F W N B. destruct l as [|p l]; [congruence|].
  inversion F as [|? z ? zs' Hp F']; subst.
  unfold orientation_of, clockwise. cbn [set_points contour_new c_cache c_points obind].
  inversion W as [|? ? W1 W']; subst.
  assert (L : at_z (last (p :: l) p) (last (z :: zs') z)) by (apply last_at; auto).
  assert (LW : within m (last (z :: zs') z)) by (apply last_within; auto).
  assert (M0 : 0 <= m * m) by nia.
  pose proof (cross_bound m _ _ LW W1) as CB.
  assert (B1 : 2 * (m * m) < 2 ^ 53) by (cbn [length] in B; rewrite Nat2Z.inj_succ in B; nia).
  assert (C : is_int (v_cross (last (p :: l) p) p) (cross_z (last (z :: zs') z) z)) by (apply (cross_int m); auto).
  destruct (area_loop_int m (p :: l) (z :: zs') _ _ F W C) as [I _]; [lia|congruence|].
  rewrite (lt_int _ f64_zero _ 0 I (is_int_zero false)). rewrite shoelace_path.
  now rewrite Z.add_comm.
Qed.

Lemma Forall2_rev : forall {A B} (R : A -> B -> Prop) l l', Forall2 R l l' -> Forall2 R (rev l) (rev l').
Proof. intros A B R l l' F. induction F; cbn; auto. apply Forall2_app; auto. Qed.

Lemma orientation_rev : forall m l zs, Forall2 at_z l zs -> Forall (within m) zs -> l <> [] ->
  Z.of_nat (length l) * (2 * (m * m)) < 2 ^ 53 -> shoelace zs <> 0 ->
  orientation_of (rev l) = Ok (negb (shoelace zs <? 0)).
Proof.
  intros m l zs F W N B A.
  rewrite (orientation_int m (rev l) (rev zs)).
  - rewrite shoelace_rev. f_equal. destruct (Z.ltb_spec (- shoelace zs) 0), (Z.ltb_spec (shoelace zs) 0); auto; lia.
  - now apply Forall2_rev.
  - now apply Forall_rev.
  - intros E. apply N. rewrite <- (rev_involutive l), E. reflexivity.
  - now rewrite rev_length.
Qed.

(** ** Histories *)

Definition agrees (c : contour) : Prop :=
  match c_cache c with
  | None => True
  | Some b => orientation_of (c_points c) = Ok b
  end.

Lemma clockwise_fresh : forall c, c_cache c = None -> c_points c <> [] ->
  exists b, clockwise c = Ok (b, set_cache c (Some b)) /\ orientation_of (c_points c) = Ok b.
Proof.
  intros c H N. unfold orientation_of, clockwise. rewrite H. cbn.
  destruct (c_points c) eqn:E; [congruence|]. eexists. split; reflexivity.
Qed.

Lemma agrees_clockwise : forall c b c', agrees c -> clockwise c = Ok (b, c') ->
  orientation_of (c_points c) = Ok b /\ agrees c' /\ c_points c' = c_points c /\ c_cache c' = Some b.
Proof.
  intros c b c' A H. unfold agrees in A. destruct (c_cache c) as [b0|] eqn:E.
  - rewrite (clockwise_cached _ _ E) in H. inversion H; subst. unfold agrees. rewrite E. auto.
  - destruct (c_points c) eqn:F; [unfold clockwise in H; rewrite E, F in H; discriminate|].
    destruct (clockwise_fresh c E) as (b1 & H1 & H2); [congruence|]. rewrite H1 in H. inversion H; subst.
    rewrite F in H2. unfold agrees. cbn. rewrite F. auto.
Qed.


Section History.
  Variables (m : Z).
  Local Notation int_contour := (int_contour m).
  Lemma int_contour_rev : forall l, int_contour l -> int_contour (rev l)
    /\ exists b, orientation_of l = Ok b /\ orientation_of (rev l) = Ok (negb b).
  Proof.
    intros l (zs & F & W & N & B & A). split.
    - exists (rev zs). rewrite rev_length. repeat split; auto using Forall2_rev, Forall_rev.
      + intros E. apply N. rewrite <- (rev_involutive l), E. reflexivity.
      + rewrite shoelace_rev. lia.
    - eexists. split; [apply (orientation_int m l zs); auto|apply (orientation_rev m l zs); auto].
  Qed.

  Lemma change_agrees : forall c, agrees c -> int_contour (c_points c) ->
    agrees (change_orientation c) /\ int_contour (c_points (change_orientation c)).
  Proof.
    intros c A I. destruct (int_contour_rev _ I) as [I' (b & H1 & H2)]. split; [|exact I'].
    unfold agrees in *. cbn. destruct (c_cache c) as [b0|]; auto. rewrite H2. congruence.
  Qed.

  Lemma run_op_agrees : forall o c c', (forall p, o <> OpAdd p) -> agrees c -> int_contour (c_points c) ->
    run_op c o = Ok c' -> agrees c' /\ int_contour (c_points c').
  Proof.
    intros o c c' No A I H. destruct o as [p| | | |]; cbn in H.
    - exfalso. eapply No; reflexivity.
    - destruct (clockwise c) as [[b c1]|e|e] eqn:E; cbn in H; try discriminate. inversion H; subst.
      destruct (agrees_clockwise _ _ _ A E) as (_ & A' & P & _). rewrite P. auto.
    - inversion H; subst. apply change_agrees; auto.
    - unfold set_clockwise, counterclockwise in H.
      destruct (clockwise c) as [[b c1]|e|e] eqn:E; cbn in H; try discriminate.
      destruct (agrees_clockwise _ _ _ A E) as (_ & A' & P & _).
      assert (I' : int_contour (c_points c1)) by (rewrite P; auto).
      inversion H; subst. destruct (negb b); auto. apply change_agrees; auto.
    - unfold set_counterclockwise in H.
      destruct (clockwise c) as [[b c1]|e|e] eqn:E; cbn in H; try discriminate.
      destruct (agrees_clockwise _ _ _ A E) as (_ & A' & P & _).
      assert (I' : int_contour (c_points c1)) by (rewrite P; auto).
      inversion H; subst. destruct b; auto. apply change_agrees; auto.
  Qed.

  Lemma run_ops_agrees : forall l c c', fixed_history l -> agrees c -> int_contour (c_points c) ->
    run_ops l c = Ok c' -> agrees c' /\ int_contour (c_points c').
  Proof.
    induction l as [|o l IH]; intros c c' No A I H; cbn in H.
    - inversion H; subst. auto.
    - destruct (run_op c o) as [c1|e|e] eqn:E; cbn in H; try discriminate.
      destruct (run_op_agrees o c c1) as [A1 I1]; auto.
      { intros p ->. apply (No p). cbn. auto. }
      apply (IH c1 c'); auto. intros p Hp. apply (No p). cbn. auto.
  Qed.
End History.

Lemma history_reports : forall m l pts c c', fixed_history l -> int_contour m pts ->
  c = set_points contour_new pts -> run_ops l c = Ok c' ->
  exists b, clockwise c' = Ok (b, set_cache c' (Some b)) /\ orientation_of (c_points c') = Ok b
    /\ (c_points c' = pts \/ c_points c' = rev pts).
Proof.
  intros m l pts c c' No I -> H.
  destruct (run_ops_agrees m l (set_points contour_new pts) c') as [A I']; auto.
  { unfold agrees. cbn. auto. }
  assert (P : c_points c' = pts \/ c_points c' = rev pts).
  { clear A I'. assert (G : forall l c c', fixed_history l -> run_ops l c = Ok c' ->
      c_points c' = c_points c \/ c_points c' = rev (c_points c)).
    { clear. induction l as [|o l IH]; intros c c' No H; cbn in H; [inversion H; auto|].
      destruct (run_op c o) as [c1|e|e] eqn:E; cbn in H; try discriminate.
      assert (P1 : c_points c1 = c_points c \/ c_points c1 = rev (c_points c)).
      { assert (CP : forall b c0, clockwise c = Ok (b, c0) -> c_points c0 = c_points c).
        { unfold clockwise. destruct (c_cache c); [intros bb c0 X; inversion X; auto|].
          destruct (c_points c) eqn:F; intros bb c0 X; inversion X; cbn; auto. }
        destruct o as [p| | | |]; cbn in E.
        - exfalso. apply (No p). cbn. auto.
        - destruct (clockwise c) as [[b c0]|e|e] eqn:F; cbn in E; inversion E; subst. left. eauto.
        - inversion E; subst. cbn. auto.
        - unfold set_clockwise, counterclockwise in E.
          destruct (clockwise c) as [[b c0]|e|e] eqn:F; cbn in E; inversion E; subst.
          pose proof (CP _ _ eq_refl) as Q. destruct (negb b); cbn; rewrite Q; auto.
        - unfold set_counterclockwise in E.
          destruct (clockwise c) as [[b c0]|e|e] eqn:F; cbn in E; inversion E; subst.
          pose proof (CP _ _ eq_refl) as Q. destruct b; cbn; rewrite Q; auto. }
      destruct (IH c1 c') as [P2|P2]; auto.
      { intros p Hp. apply (No p). cbn. auto. }
      - rewrite P2. auto.
      - rewrite P2. destruct P1 as [-> | ->]; rewrite ?rev_involutive; auto. }
    destruct (G _ _ _ No H) as [G1|G1]; cbn in G1; auto. }
  assert (N : c_points c' <> []) by (destruct I' as (zs & _ & _ & N & _); exact N).
  destruct (c_cache c') as [b|] eqn:E.
  - exists b. split.
    + rewrite (clockwise_cached _ _ E). f_equal. f_equal. destruct c'; cbn in *. now rewrite E.
    + split; auto. unfold agrees in A. now rewrite E in A.
  - destruct (clockwise_fresh c' E N) as (b & H1 & H2). exists b. auto.
Qed.
