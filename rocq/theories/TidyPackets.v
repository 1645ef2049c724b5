(** What [update_polygon_facing] and [handle_intersections] make of the packets. *)

From Coq Require Import List ZArith QArith Bool Arith Lia Lqa.
From Verif Require Import Base Float SpecShape SpecOrder SpecIntersect SpecHandle SpecTidy SpecContainers Geometry Sweep
  Contours Compute OrderFacts ContainerFacts HandleFacts TidyGeo TidyParity TidySetup.
Import ListNotations.

Definition bits (n : nat) (f : nat -> bool) : list bool := map f (seq 0 n).

Lemma bits_length : forall n f, length (bits n f) = n.
Proof. intros. unfold bits. now rewrite map_length, seq_length. Qed.
Lemma bits_ext : forall n f g, (forall i, f i = g i) -> bits n f = bits n g.
Proof. intros. now apply map_ext. Qed.
Lemma bits_nth : forall n f i, (i < n)%nat -> nth_error (bits n f) i = Some (f i).
Proof.
  intros n f i H. unfold bits. apply map_nth_error. rewrite (nth_error_nth' _ 0%nat); [|now rewrite seq_length]. now rewrite seq_nth.
Qed.
Lemma bits_false : forall n l, length l = n -> bits_clear l = bits n (fun _ => false).
Proof.
  intros n l <-. unfold bits_clear, bits. generalize 0%nat. induction (length l) as [|k IH]; intros a; [reflexivity|]. cbn. f_equal. apply IH.
Qed.
Lemma bits_copy : forall n l f, length l = n -> bits_union (bits_clear l) (bits n f) = Ok (bits n f).
Proof.
  intros n l f H. unfold bits_union. rewrite bits_length. unfold bits_clear. rewrite repeat_length, H, Nat.eqb_refl. f_equal.
  clear. unfold bits. generalize 0%nat. induction n as [|n IH]; intros a; [reflexivity|]. cbn. f_equal. apply IH.
Qed.
Lemma bits_put : forall n f i b, (i < n)%nat -> bits_set (bits n f) i b = Ok (bits n (fun j => if (j =? i)%nat then b else f j)).
Proof.
  intros n f i b H. unfold bits_set. rewrite bits_length. replace (i <? n)%nat with true by (symmetry; now apply Nat.ltb_lt). f_equal.
  apply nth_ext_error. intros j. destruct (Nat.lt_ge_cases j n) as [J|J].
  - rewrite (bits_nth n _ j J). destruct (Nat.eqb_spec j i) as [->|N].
    + apply nth_set_same. now rewrite bits_length.
    + rewrite nth_set_other; [now apply bits_nth|now rewrite bits_length|congruence].
  - assert (N1 : nth_error (set_nth i b (bits n f)) j = None) by (apply nth_error_None; rewrite set_nth_length; rewrite bits_length; lia).
    rewrite N1. symmetry. apply nth_error_None. now rewrite bits_length.
Qed.

(** The packet has the polygons [f] above and [g] below. *)
Definition faced (n : nat) (k : packet) (f g : nat -> bool) : Prop :=
  k_left k = bits n f /\ k_right k = bits n g /\ k_up_out k = negb (f (k_polygon k)).

Definition same_kind (k k' : packet) : Prop := k_polygon k' = k_polygon k /\ k_mode k' = k_mode k /\ k_edge k' = k_edge k.

(** Neither end is in a contour yet. *)
Definition fresh (k : packet) : Prop :=
  k_left_done k = false /\ k_right_done k = false /\ k_left_contour k = None /\ k_right_contour k = None.

Section Update.
Variables (n : nat) (ks : list packet) (s : bseg) (k : packet).
Hypothesis (Hk : nth_error ks (s_index s) = Some k) (Kl : length (k_left k) = n) (Kr : length (k_right k) = n) (Kp : (k_polygon k < n)%nat).

Lemma update_none : exists k', update_polygon_facing ks s None = Ok (put_packet ks s k') /\ same_kind k k'
  /\ faced n k' (fun i => (i =? k_polygon k)%nat) (fun _ => false) /\ k_in_result k' = is_in_result k'
  /\ k_below k' = k_below k /\ (fresh k -> fresh k').
Proof using Hk Kl Kr Kp.
  unfold update_polygon_facing, get_packet. rewrite (index_nat_some _ _ _ Hk). cbn [obind].
  rewrite (bits_false n _ Kl), bits_put by assumption. cbn [obind]. eexists. split; [reflexivity|].
  split; [repeat split|]. split; [|split; [reflexivity|split; [reflexivity|exact (fun F => F)]]]. unfold faced. cbn. rewrite Nat.eqb_refl. cbn.
  split; [apply bits_ext; intros i; now destruct (i =? k_polygon k)%nat|]. split; [now apply bits_false|reflexivity].
Qed.

Lemma update_some : forall (b : bseg) bk f g, nth_error ks (s_index b) = Some bk -> s_index b <> s_index s -> faced n bk f g ->
  exists k', update_polygon_facing ks s (Some b) = Ok (put_packet ks s k') /\ same_kind k k'
  /\ faced n k' (fun i => xorb (f i) (i =? k_polygon k)%nat) (if is_non_contributing (k_edge bk) then g else f)
  /\ k_in_result k' = is_in_result k'
  /\ k_below k' = (if vertical b || is_non_contributing (k_edge bk) then k_below bk else Some (s_index b)) /\ (fresh k -> fresh k').
Proof using Hk Kl Kr Kp.
  intros b bk f g Hb N (F1 & F2 & F3). unfold update_polygon_facing, get_packet. rewrite (index_nat_some _ _ _ Hk). cbn [obind].
  replace (s_index b =? s_index s)%nat with false by (symmetry; now apply Nat.eqb_neq). rewrite (index_nat_some _ _ _ Hb). cbn [obind].
  set (m := if (k_polygon k =? k_polygon bk)%nat then _ else _).
  assert (M : exists o, m = Ok (f (k_polygon k), o)).
  { unfold m. destruct (Nat.eqb_spec (k_polygon k) (k_polygon bk)) as [Q|Q].
    - rewrite F3, negb_involutive, Q. eauto.
    - rewrite F1, (index_nat_some _ _ _ (bits_nth n f _ Kp)). cbn [obind]. eauto. }
  destruct M as [o ->]. cbn [obind]. rewrite F1, (bits_copy n _ _ Kl). cbn [obind].
  replace (bits_union (bits_clear (k_right k)) (if is_non_contributing (k_edge bk) then k_right bk else bits n f))
    with (Ok (bits n (if is_non_contributing (k_edge bk) then g else f)))
    by (rewrite F2; destruct (is_non_contributing (k_edge bk)); now rewrite bits_copy).
  cbn [obind]. rewrite bits_put by assumption. cbn [obind]. eexists. split; [reflexivity|].
  split; [repeat split|]. split; [|split; [reflexivity|split; [reflexivity|exact (fun F => F)]]]. unfold faced. cbn. split; [|split].
  - apply bits_ext. intros i. destruct (Nat.eqb_spec i (k_polygon k)) as [->|]; [now rewrite xorb_true_r|now rewrite xorb_false_r].
  - reflexivity.
  - rewrite Nat.eqb_refl, xorb_true_r. now rewrite negb_involutive.
Qed.
End Update.

Lemma handle_none_l : forall ks m, handle_intersections ks None m = Ok (0%nat, None, None, ks).
Proof. reflexivity. Qed.
Lemma handle_none_r : forall ks m, handle_intersections ks m None = Ok (0%nat, None, None, ks).
Proof. intros ks [m|]; reflexivity. Qed.

(** Edges that are apart are left alone. *)
Lemma handle_apart : forall ks (a b : bseg) e f, seg_z a (e_left e) (e_right e) -> seg_z b (e_left f) (e_right f) -> apart e f ->
  exists m, handle_intersections ks (Some a) (Some b) = Ok (m, None, None, ks) /\ (m =? 2)%nat = false.
Proof.
  intros ks a b e f Ha Hb [T [DJ|(v & V1 & V2 & M)]].
  - exists 0%nat. split; [|reflexivity]. exact (handle_disjoint a b _ _ _ _ ks Ha Hb T DJ).
  - destruct (handle_meet a b _ _ _ _ ks Ha Hb T _ _ M) as [M1 M2].
    destruct (lex_z (e_left e) (e_left f)) eqn:E1.
    { apply lex_eq in E1. exists 0%nat. split; [apply M1; auto|reflexivity]. }
    all: assert (N1 : e_left e <> e_left f) by (intros Q; rewrite Q, lex_refl in E1; discriminate).
    all: destruct (lex_z (e_right e) (e_right f)) eqn:E2;
      [apply lex_eq in E2; exists 0%nat; split; [apply M1; auto|reflexivity]|
       assert (N2 : e_right e <> e_right f) by (intros Q; rewrite Q, lex_refl in E2; discriminate)..].
    all: destruct (M2 N1 N2) as (o1 & o2 & HH & S1 & S2).
    all: assert (I : is_at v (inject_Z (fst v)) (inject_Z (snd v))) by (split; reflexivity).
    all: destruct o1 as [p|]; [exfalso; destruct S1 as (X1 & X2 & _); destruct V1 as [->| ->]; contradiction|].
    all: destruct o2 as [p|]; [exfalso; destruct S2 as (X1 & X2 & _); destruct V2 as [->| ->]; contradiction|].
    all: exists 1%nat; split; [exact HH|reflexivity].
Qed.

Lemma same_length : forall {A} (l m : list A), (forall i, nth_error l i = None <-> nth_error m i = None) -> length l = length m.
Proof.
  intros A l m H. apply Nat.le_antisymm; apply nth_error_None, H, nth_error_None; lia.
Qed.

(** Of two that coincide, the first no longer contributes. *)
Lemma handle_coincide : forall ks (a b : bseg) e f ka kb, seg_z a (e_left e) (e_right e) -> seg_z b (e_left f) (e_right f) -> same_ends e f = true ->
  nth_error ks (s_index a) = Some ka -> nth_error ks (s_index b) = Some kb -> k_polygon ka <> k_polygon kb ->
  is_non_contributing (k_edge kb) = false ->
  exists ks' t, handle_intersections ks (Some a) (Some b) = Ok (2%nat, None, None, ks') /\ length ks' = length ks
    /\ is_non_contributing t = false
    /\ nth_error ks' (s_index a) = Some (with_edge ka ENonContributing) /\ nth_error ks' (s_index b) = Some (with_edge kb t)
    /\ forall i, i <> s_index a -> i <> s_index b -> nth_error ks' i = nth_error ks i.
Proof.
  intros ks a b e f ka kb Ha Hb SE Ka Kb N NC. apply same_ends_iff in SE. destruct SE as [S1 S2]. rewrite <- S1, <- S2 in Hb.
  assert (T : tellable (e_left e) (e_right e) (e_left e) (e_right e)).
  { right. unfold vcross, vsub. cbn. split; [ring|right; ring]. }
  assert (O : overlap (e_left e) (e_right e) (e_left e) (e_right e)).
  { exists (xl e), (yl e), (xr e), (yr e). split; [split; apply on_left|]. split; [split; apply on_right|].
    intros [X Y]. apply point_ext in X; [|exact Y]. destruct Ha as (_ & _ & Ha & _). rewrite X, lex_refl in Ha. discriminate. }
  destruct (handle_overlap a b _ _ _ _ ks Ha Hb T ka kb O Ka Kb N) as [H _].
  destruct (H eq_refl) as (o1 & o2 & ks' & H1 & H2 & H3 & H4 & H5). rewrite lex_refl in H2. destruct H2 as [-> ->]. rewrite NC in H4.
  exists ks', (if Bool.eqb (k_up_out ka) (k_up_out kb) then ESameTransition else EDifferentTransition).
  split; [exact H1|]. split.
  - apply same_length. intros i. destruct (Nat.eq_dec i (s_index a)) as [->|N1]; [split; congruence|].
    destruct (Nat.eq_dec i (s_index b)) as [->|N2]; [split; congruence|]. now rewrite H5.
  - split; [now destruct (Bool.eqb _ _)|]. auto.
Qed.
