(** Sides on different lines of the grid, cut where they cross. *)

From Coq Require Import List ZArith QArith Bool Arith Lia Sorted.
From Verif Require Import Base SpecShape SpecOrder SpecIntersect SpecHandle SpecTidy CrossSetup CrossCover GridFacts GridCut SpecCross SpecGrid.
From Coq Require Import Lqa.
Import ListNotations.
Local Open Scope Z_scope.

(** A side: its polygon, whether it is horizontal, the line it is on, the points on it from left
    to right or bottom to top, and whether it goes the other way. *)
Record line := mk_line { l_poly : nat; l_level : bool; l_at : Z; l_vals : list Z; l_back : bool }.
Definition spot (L : line) (v : Z) : Z * Z := if l_level L then (v, l_at L) else (l_at L, v).
Definition line_route (L : line) : nat * list (Z * Z) := (l_poly L, if l_back L then rev (map (spot L) (l_vals L)) else map (spot L) (l_vals L)).
Definition piece (L : line) (s : Z * Z) : edge := mk_edge (l_poly L) (spot L (fst s)) (spot L (snd s)).

Lemma spot_inj : forall L a b, spot L a = spot L b -> a = b.
Proof. intros L a b. unfold spot. destruct (l_level L); congruence. Qed.
Lemma spot_lt : forall L a b, lex_z (spot L a) (spot L b) = (a ?= b).
Proof. intros L a b. unfold spot, lex_z. destruct (l_level L); cbn [fst snd]; rewrite Z.compare_refl; [|reflexivity]. now destruct (a ?= b). Qed.

Lemma piece_dir : forall L a b, a < b -> if l_level L then level (piece L (a, b)) else plumb (piece L (a, b)).
Proof. intros L a b H. unfold piece, level, plumb, spot. destruct (l_level L); cbn; auto. Qed.

Lemma on_piece : forall L a b x y, a < b -> on_segment (e_left (piece L (a, b))) (e_right (piece L (a, b))) x y <->
  if l_level L then (inject_Z a <= x)%Q /\ (x <= inject_Z b)%Q /\ (y == inject_Z (l_at L))%Q else (inject_Z a <= y)%Q /\ (y <= inject_Z b)%Q /\ (x == inject_Z (l_at L))%Q.
Proof.
  intros L a b x y H. pose proof (piece_dir L a b H) as D. destruct (l_level L) eqn:E.
  - rewrite (on_level _ _ _ D). unfold piece, spot. rewrite E. reflexivity.
  - rewrite (on_plumb _ _ _ D). unfold piece, spot. rewrite E. reflexivity.
Qed.

(** *** Consecutive values *)

Lemma steps_map : forall {A B} (f : A -> B) l, steps (map f l) = map (fun s => (f (fst s), f (snd s))) (steps l).
Proof. intros A B f. induction l as [|a [|b l] IH]; auto. cbn [map] in *. rewrite !steps_cons. cbn [map fst snd]. now rewrite IH. Qed.

Lemma steps_lt : forall l s, StronglySorted Z.lt l -> In s (steps l) -> fst s < snd s /\ In (fst s) l /\ In (snd s) l.
Proof.
  induction l as [|a [|b l] IH]; intros s S H; [destruct H|destruct H|]. rewrite steps_cons in H. inversion S as [|? ? S' F]; subst. destruct H as [<-|H].
  - cbn [fst snd]. inversion F; subst. cbn; auto.
  - destruct (IH s S' H) as (A & B & C). split; [exact A|]. split; now right.
Qed.

Lemma steps_between : forall l s v, StronglySorted Z.lt l -> In s (steps l) -> In v l -> fst s <= v <= snd s -> v = fst s \/ v = snd s.
Proof.
  induction l as [|a [|b l] IH]; intros s v S H V B; [destruct H|destruct H|]. rewrite steps_cons in H. inversion S as [|? ? S' F]; subst. destruct H as [<-|H].
  - cbn [fst snd] in *. destruct V as [V|[V|V]]; [auto|auto|]. inversion S' as [|? ? _ F']; subst. rewrite Forall_forall in F'. specialize (F' v V). lia.
  - destruct V as [<-|V]; [|now apply IH]. destruct (steps_lt _ s S' H) as (_ & I & _). rewrite Forall_forall in F. specialize (F _ I). lia.
Qed.

Lemma steps_before : forall {A} (l : list A) pre v post, l = pre ++ v :: post -> pre <> [] -> exists a, In (a, v) (steps l).
Proof.
  intros A l pre v post -> N. destruct (exists_last N) as (p & a & ->). exists a. rewrite <- app_assoc. cbn [app]. rewrite steps_app. apply in_or_app. right. rewrite steps_cons. now left.
Qed.

Lemma pairs_rev : forall {A} (P : A -> A -> Prop) l, (forall a b, P a b -> P b a) -> ForallOrdPairs P l -> ForallOrdPairs P (rev l).
Proof.
  intros A P l Sy. assert (App : forall l m, ForallOrdPairs P l -> ForallOrdPairs P m -> (forall a b, In a l -> In b m -> P a b) -> ForallOrdPairs P (l ++ m)).
  { induction l0 as [|a l0 IH]; intros m H K X; [exact K|]. inversion H as [|? ? H1 H2]; subst. cbn [app]. constructor.
    - apply Forall_app. split; [exact H1|]. rewrite Forall_forall. intros b B. apply X; [now left|exact B].
    - apply IH; auto. intros c b C B. apply X; [now right|exact B]. }
  induction l as [|a l IH]; intros H; [constructor|]. inversion H as [|? ? H1 H2]; subst. cbn [rev]. apply App; [now apply IH|repeat constructor|].
  intros b c B [<-|[]]. apply Sy. rewrite Forall_forall in H1. apply H1. now apply in_rev.
Qed.

Lemma pairs_flat : forall {A B} (P : B -> B -> Prop) (f : A -> list B) (Q : A -> A -> Prop) l,
  (forall a, In a l -> ForallOrdPairs P (f a)) -> (forall a b x y, In a l -> In b l -> Q a b -> In x (f a) -> In y (f b) -> P x y) -> ForallOrdPairs Q l -> ForallOrdPairs P (flat_map f l).
Proof.
  intros A B P f Q. assert (App : forall l m, ForallOrdPairs P l -> ForallOrdPairs P m -> (forall a b, In a l -> In b m -> P a b) -> ForallOrdPairs P (l ++ m)).
  { induction l as [|a l IH]; intros m H K X; [exact K|]. inversion H as [|? ? H1 H2]; subst. cbn [app]. constructor.
    - apply Forall_app. split; [exact H1|]. rewrite Forall_forall. intros b Bb. apply X; [now left|exact Bb].
    - apply IH; auto. intros c b C Bb. apply X; [now right|exact Bb]. }
  induction l as [|a l IH]; intros H X F; [constructor|]. inversion F as [|? ? F1 F2]; subst. cbn [flat_map]. apply App.
  - apply H. now left.
  - apply IH; [intros b Bb; apply H; now right| |exact F2]. intros b c x y Bb C. apply X; now right.
  - intros x y Hx Hy. apply in_flat_map in Hy. destruct Hy as (b & Bb & Hy). rewrite Forall_forall in F1. apply (X a b); auto; [now left|now right].
Qed.

Lemma nodup_pairs : forall {A B} (f : A -> B) l, NoDup (map f l) -> ForallOrdPairs (fun a b => f a <> f b) l.
Proof.
  intros A B f. induction l as [|a l IH]; intros H; [constructor|]. inversion H as [|? ? N D]; subst. constructor; [|now apply IH]. rewrite Forall_forall. intros b Bb E. apply N. rewrite E. now apply in_map.
Qed.

Lemma ends_swap : forall e f, only_ends e f -> only_ends f e.
Proof. intros e f H x y On. destruct (H x y) as (v & A & B & C); [now apply both_swap|]. exists v. auto. Qed.

(** *** The pieces of a side *)

Lemma route_pieces : forall L, StronglySorted Z.lt (l_vals L) -> route_edges (line_route L) = if l_back L then rev (map (piece L) (steps (l_vals L))) else map (piece L) (steps (l_vals L)).
Proof.
  intros L S. unfold route_edges, line_route. cbn [fst snd].
  assert (G : flat_map (left_to_right (l_poly L)) (steps (map (spot L) (l_vals L))) = map (piece L) (steps (l_vals L))).
  { rewrite steps_map. assert (F : forall s, In s (steps (l_vals L)) -> fst s < snd s) by (intros s H; now apply (steps_lt _ s S)).
    induction (steps (l_vals L)) as [|s t IH]; [reflexivity|]. cbn [map flat_map]. rewrite IH by (intros; apply F; now right). unfold left_to_right. cbn [fst snd]. rewrite spot_lt.
    rewrite (proj2 (Z.compare_lt_iff _ _) (F s (or_introl eq_refl))). reflexivity. }
  destruct (l_back L); [|exact G]. rewrite steps_rev, <- G. clear. induction (steps (map (spot L) (l_vals L))) as [|[a b] t IH]; [reflexivity|].
  cbn [map rev fst snd flat_map]. rewrite flat_map_app, IH. cbn [flat_map]. rewrite app_nil_r, rev_app_distr, swap_side. f_equal.
  unfold left_to_right. destruct (lex_z (fst (a, b)) (snd (a, b))); reflexivity.
Qed.

Lemma in_pieces : forall L e, StronglySorted Z.lt (l_vals L) -> In e (route_edges (line_route L)) <-> exists s, In s (steps (l_vals L)) /\ e = piece L s.
Proof.
  intros L e S. rewrite route_pieces by exact S. destruct (l_back L); rewrite <- ?in_rev, in_map_iff; split; intros (s & A & B); eauto.
Qed.

Lemma line_ends : forall L, StronglySorted Z.lt (l_vals L) -> ForallOrdPairs only_ends (route_edges (line_route L)).
Proof.
  intros L S. rewrite route_pieces by exact S.
  assert (G : ForallOrdPairs only_ends (map (piece L) (steps (l_vals L)))).
  { induction (l_vals L) as [|a [|b l] IH]; [constructor|constructor|]. rewrite steps_cons. cbn [map]. inversion S as [|? ? S' F]; subst. constructor; [|now apply IH].
    rewrite Forall_forall. intros e H. apply in_map_iff in H. destruct H as (s & <- & H). destruct (steps_lt _ s S' H) as (Ls & I & J). intros x y [O1 O2]. destruct s as [c d]. cbn [fst snd] in *.
    assert (Lab : a < b) by (inversion F; assumption). rewrite (on_piece L a b x y Lab) in O1. rewrite (on_piece L c d x y Ls) in O2.
    assert (C : b <= c) by (destruct I as [<-|I]; [lia|]; inversion S' as [|? ? _ F']; subst; rewrite Forall_forall in F'; specialize (F' _ I); lia).
    assert (E : c = b).
    { assert (Q : (inject_Z c <= inject_Z b)%Q) by (destruct (l_level L); lra). rewrite <- Zle_Qle in Q. lia. }
    subst c. exists (spot L b). split; [right; reflexivity|]. split; [left; reflexivity|]. unfold is_at, spot. destruct (l_level L); cbn [fst snd]; (split; [|tauto] || (split; [tauto|])); apply Qle_antisym; tauto. }
  destruct (l_back L); [apply pairs_rev; [exact ends_swap|exact G]|exact G].
Qed.

(** Between two points of a side. *)
Definition lined (L : line) (e : edge) : Prop := exists a b, In a (l_vals L) /\ In b (l_vals L) /\ a < b /\ e = piece L (a, b).

Lemma lined_sep : forall L M e f, lined L e -> lined M f -> (l_level L, l_at L) <> (l_level M, l_at M) -> l_level L = l_level M -> parted e f.
Proof.
  intros L M e f (a & b & _ & _ & Hl & ->) (c & d & _ & _ & Hm & ->) N E x y [O1 O2]. rewrite (on_piece L a b x y Hl) in O1. rewrite (on_piece M c d x y Hm) in O2. apply N. rewrite <- E in *. f_equal. apply inj_eq.
  destruct (l_level L); destruct O1 as (_ & _ & <-), O2 as (_ & _ & <-); reflexivity.
Qed.

Lemma lined_once : forall L M e f, lined L e -> lined M f -> (l_level L, l_at L) <> (l_level M, l_at M) -> ~ along e f.
Proof.
  intros L M e f HL HM N (x & y & x' & y' & H & H' & D). destruct (bool_dec (l_level L) (l_level M)) as [E|E]; [exact (lined_sep L M e f HL HM N E x y H)|].
  apply D. destruct HL as (a & b & _ & _ & Hl & ->), HM as (c & d & _ & _ & Hm & ->). destruct H as [O1 O2], H' as [O3 O4]. rewrite (on_piece L a b x y Hl) in O1. rewrite (on_piece L a b x' y' Hl) in O3. rewrite (on_piece M c d x y Hm) in O2. rewrite (on_piece M c d x' y' Hm) in O4.
  unfold same_point. destruct (l_level L), (l_level M); try (now elim E); destruct O1 as (_ & _ & O1), O2 as (_ & _ & O2), O3 as (_ & _ & O3), O4 as (_ & _ & O4); split; (now rewrite O1, O3) || (now rewrite O2, O4).
Qed.

Lemma lined_side : forall L p q e, In p (map (spot L) (l_vals L)) -> In q (map (spot L) (l_vals L)) -> In e (left_to_right (l_poly L) (p, q)) -> lined L e.
Proof.
  intros L p q e P Q H. apply in_map_iff in P. destruct P as (a & <- & A). apply in_map_iff in Q. destruct Q as (b & <- & B). unfold left_to_right in H. cbn [fst snd] in H. rewrite spot_lt in H.
  destruct (a ?= b) eqn:C; [destruct H| |]; destruct H as [<-|[]].
  - exists a, b. rewrite Z.compare_lt_iff in C. auto.
  - exists b, a. rewrite Z.compare_gt_iff in C. auto.
Qed.

Lemma line_points : forall L v, In v (snd (line_route L)) <-> In v (map (spot L) (l_vals L)).
Proof. intros L v. unfold line_route. cbn [snd]. destruct (l_back L); [now rewrite <- in_rev|reflexivity]. Qed.

Lemma map_split : forall {A B} (f : A -> B) l pre v post, map f l = pre ++ v :: post -> exists l1 a l2, l = l1 ++ a :: l2 /\ map f l1 = pre /\ f a = v /\ map f l2 = post.
Proof.
  intros A B f. induction l as [|a l IH]; intros pre v post H; [destruct pre; discriminate|]. destruct pre as [|p pre]; cbn [map app] in H; injection H as H1 H2.
  - exists [], a, l. auto.
  - destruct (IH _ _ _ H2) as (l1 & b & l2 & -> & <- & <- & <-). exists (a :: l1), b, l2. cbn [map app]. now rewrite H1.
Qed.

Lemma line_forward : forall L, StronglySorted Z.lt (l_vals L) -> forward (map (spot L) (l_vals L)).
Proof.
  intros L. induction (l_vals L) as [|a [|b l] IH]; intros S; [exact I|exact I|]. inversion S as [|? ? S' F]; subst. cbn [map forward] in *. split; [|now apply IH].
  rewrite spot_lt. apply Z.compare_lt_iff. now inversion F.
Qed.

Section Lines.
  Variable g : Z.
  Variable ms : list (list (list mark)).
  Variable Ls : list line.
  Hypothesis Hg : 0 <= g <= 14.
  Hypothesis Hr : routes ms = map line_route Ls.
  Hypothesis Hs : forall L, In L Ls -> StronglySorted Z.lt (l_vals L).
  Hypothesis Hd : NoDup (map (fun L => (l_level L, l_at L)) Ls).
  Hypothesis Hp : forall L v, In L Ls -> In v (l_vals L) -> grid_point g (spot L v).
  Hypothesis Hn : forall L v w, In L Ls -> In v (l_vals L) -> In w (l_vals L) -> v - w <= 2 ^ g * 21.
  (** Where a horizontal and a vertical side meet is a point on both. *)
  Hypothesis Hc : forall L M a b c d, In L Ls -> In M Ls -> l_level L = true -> l_level M = false -> In a (l_vals L) -> In b (l_vals L) -> In c (l_vals M) -> In d (l_vals M) ->
    a <= l_at M <= b -> c <= l_at L <= d -> In (l_at M) (l_vals L) /\ In (l_at L) (l_vals M).
  (** At each point on a side another side crosses it. *)
  Hypothesis Ha : forall L pre v post, In L Ls -> l_vals L = pre ++ v :: post -> pre <> [] -> post <> [] ->
    exists M pre' post', In M Ls /\ l_level M = negb (l_level L) /\ l_at M = v /\ l_vals M = pre' ++ l_at L :: post' /\ pre' <> [].

  Lemma cross_ends_only : forall L M e f, In L Ls -> In M Ls -> l_level L = true -> l_level M = false -> In e (route_edges (line_route L)) -> In f (route_edges (line_route M)) -> only_ends e f.
  Proof using Hs Hc.
    intros L M e f IL IM EL EM He Hf. apply in_pieces in He; [|now apply Hs]. apply in_pieces in Hf; [|now apply Hs]. destruct He as ([a b] & Sa & ->), Hf as ([c d] & Sc & ->).
    destruct (steps_lt _ _ (Hs L IL) Sa) as (Lab & Ia & Ib). destruct (steps_lt _ _ (Hs M IM) Sc) as (Lcd & Ic & Id). cbn [fst snd] in *.
    intros x y [O1 O2]. rewrite (on_piece L a b x y Lab), EL in O1. rewrite (on_piece M c d x y Lcd), EM in O2. destruct O1 as (X0 & X1 & Y), O2 as (Y0 & Y1 & X).
    rewrite X in X0, X1. rewrite Y in Y0, Y1. rewrite <- Zle_Qle in X0, X1, Y0, Y1.
    destruct (Hc L M a b c d IL IM EL EM Ia Ib Ic Id (conj X0 X1) (conj Y0 Y1)) as [V W].
    pose proof (steps_between _ _ _ (Hs L IL) Sa V (conj X0 X1)) as [E1|E1]; pose proof (steps_between _ _ _ (Hs M IM) Sc W (conj Y0 Y1)) as [E2|E2]; cbn [fst snd] in E1, E2;
      exists (l_at M, l_at L); (split; [|split; [|split; assumption]]); unfold is_end, piece, spot; rewrite ?EL, ?EM; cbn [e_left e_right fst snd]; rewrite <- ?E1, <- ?E2; auto.
  Qed.

  Lemma lines_edges : edges (marked ms) = flat_map (fun L => route_edges (line_route L)) Ls.
  Proof using Hr. unfold edges. rewrite marked_edges. fold (routes ms). now rewrite Hr, flat_on_map. Qed.

  Lemma pieces_lined : forall L e, In L Ls -> In e (route_edges (line_route L)) -> lined L e.
  Proof using Hs. intros L e IL He. apply in_pieces in He; [|now apply Hs]. destruct He as ([a b] & S & ->). destruct (steps_lt _ _ (Hs L IL) S) as (A & B & C). exists a, b. auto. Qed.

  Lemma lines_tidy : ForallOrdPairs (fun e f => coincide e f \/ only_ends e f) (edges (marked ms)).
  Proof using Hr Hs Hd Hc.
    rewrite lines_edges. apply (pairs_flat _ _ (fun L M => (l_level L, l_at L) <> (l_level M, l_at M))).
    - intros L IL. eapply pairs_impl; [|apply line_ends; now apply Hs]. intros e f _ _ H. now right.
    - intros L M e f IL IM N He Hf. right. destruct (bool_dec (l_level L) (l_level M)) as [E|E].
      + intros x y On. exfalso. exact (lined_sep L M e f (pieces_lined L e IL He) (pieces_lined M f IM Hf) N E x y On).
      + destruct (l_level L) eqn:EL, (l_level M) eqn:EM; try (now elim E); [now apply (cross_ends_only L M)|apply ends_swap; now apply (cross_ends_only M L)].
    - now apply nodup_pairs.
  Qed.

  Lemma lines_arrive : forall L v, In L Ls -> (exists pre w post, l_vals L = pre ++ w :: post /\ pre <> [] /\ post <> [] /\ v = spot L w) -> (2 <= arrivals (marked ms) v)%nat.
  Proof using Hr Hs Ha.
    clear Hp Hn Hg Hc Hd. intros L v IL (pre & w & post & Q & N1 & N2 & ->). destruct (Ha L pre w post IL Q N1 N2) as (M & pre' & post' & IM & EM & AM & QM & N3).
    destruct (steps_before _ _ _ _ Q N1) as (a & Sa). destruct (steps_before _ _ _ _ QM N3) as (c & Sc).
    assert (E : spot M (l_at L) = spot L w) by (unfold spot; rewrite EM, AM; now destruct (l_level L)).
    assert (D : piece L (a, w) <> piece M (c, l_at L)).
    { intros X. destruct (steps_lt _ _ (Hs L IL) Sa) as (La & _ & _). unfold piece in X. injection X as _ X _. cbn [fst snd] in *. unfold spot in X. rewrite EM in X. destruct (l_level L); cbn [negb] in X; injection X as X1 X2; lia. }
    assert (I : forall K s, In K Ls -> In s (steps (l_vals K)) -> In (piece K s) (edges (marked ms))).
    { intros K s IK Hk. rewrite lines_edges. apply in_flat_map. exists K. split; [exact IK|]. apply in_pieces; [now apply Hs|eauto]. }
    unfold arrivals. change 2%nat with (length [piece L (a, w); piece M (c, l_at L)]). apply NoDup_incl_length; [constructor; [intros [X|[]]; now apply D|constructor; [intros []|constructor]]|].
    assert (T : forall z, same_z z z = true) by (intros z; unfold same_z; now rewrite !Z.eqb_refl).
    intros e [<-|[<-|[]]]; apply filter_In; (split; [now apply I|]); cbn [piece e_right fst snd]; [apply T|rewrite E; apply T].
  Qed.

  Theorem lines_cut : grid_cut g ms.
  Proof using Hg Hr Hs Hd Hp Hn Hc Ha.
    assert (R : forall r, In r (routes ms) -> exists L, In L Ls /\ r = line_route L) by (intros r H; rewrite Hr in H; apply in_map_iff in H; destruct H as (L & <- & H); eauto).
    constructor.
    - exact Hg.
    - intros r v H V. destruct (R r H) as (L & IL & ->). apply line_points in V. apply in_map_iff in V. destruct V as (w & <- & W). now apply Hp.
    - intros r H. destruct (R r H) as (L & IL & ->). unfold line_route. cbn [snd]. pose proof (line_forward L (Hs L IL)) as F. destruct (l_back L); [right; now rewrite rev_involutive|now left].
    - intros r H. destruct (R r H) as (L & IL & ->). unfold upright. destruct (l_level L) eqn:E; [right|left]; intros a b A B; apply line_points in A, B; apply in_map_iff in A, B;
        destruct A as (u & <- & _), B as (w & <- & _); unfold spot; now rewrite E.
    - intros r H a b A B. destruct (R r H) as (L & IL & ->). apply line_points in A, B. apply in_map_iff in A, B. destruct A as (u & <- & U), B as (w & <- & W).
      pose proof (Hn L u w IL U W). pose proof (Hn L w u IL W U). pose proof (size_bound g Hg). unfold spot. destruct (l_level L); cbn [fst snd]; lia.
    - exact lines_tidy.
    - intros j k r r' e f J K N Se Sf. right. rewrite Hr in J, K. rewrite nth_error_map in J, K. destruct (nth_error Ls j) as [L|] eqn:EL; [|discriminate]. destruct (nth_error Ls k) as [M|] eqn:EM; [|discriminate].
      cbn in J, K. injection J as <-. injection K as <-.
      assert (Str : forall K h, stretch (line_route K) h -> lined K h).
      { intros K h (pre & a & mid & b & post & Q & H). apply (lined_side K a b); [apply line_points; rewrite Q..|exact H]; repeat (rewrite in_app_iff; cbn [In]); tauto. }
      apply (lined_once L M); [now apply Str|now apply Str|]. intros X. apply N. pose proof (NoDup_nth_error (map (fun L => (l_level L, l_at L)) Ls)) as [U _]. apply (U Hd); [rewrite map_length; apply nth_error_Some; congruence|].
      rewrite !nth_error_map, EL, EM. cbn. now rewrite X.
    - intros r pre v post H Q N1 N2. destruct (R r H) as (L & IL & ->). apply (lines_arrive L v IL). unfold line_route in Q. cbn [snd] in Q. destruct (l_back L).
      + apply (f_equal (@rev _)) in Q. rewrite rev_involutive, rev_app_distr in Q. cbn [rev] in Q. rewrite <- app_assoc in Q. cbn [app] in Q. apply map_split in Q. destruct Q as (l1 & a & l2 & -> & Q1 & <- & Q2).
        exists l1, a, l2. split; [reflexivity|]. split; [intros ->; apply N2; destruct post; [reflexivity|]; cbn in Q1; now apply app_cons_not_nil in Q1|]. split; [intros ->; apply N1; destruct pre; [reflexivity|]; cbn in Q2; now apply app_cons_not_nil in Q2|reflexivity].
      + apply map_split in Q. destruct Q as (l1 & a & l2 & -> & <- & <- & <-). exists l1, a, l2. split; [reflexivity|]. split; [intros ->; now apply N1|]. split; [intros ->; now apply N2|reflexivity].
  Qed.
End Lines.
