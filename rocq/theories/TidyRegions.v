(** The contours of tidy polygons, and the regions they bound. *)

From Coq Require Import List ZArith QArith Bool Lia Arith Permutation Sorted.
From Verif Require Import Base Float Contours Sweep Compute SpecShape SpecOrder SpecIntersect SpecTurn SpecHandle SpecTidy SpecOverlay SpecCompute
  SweepFacts TraceFacts ComputeFacts OrderFacts TidyGeo TidyParity TidySetup TidyLine TidyPackets TidySweep TidyFacts TidyCorner TidyPair TidyNext TidyWalk
  TidyTrace TidyContours TidyWinding TidySimple TidyArea TidyCover TidyFamily TidyShapes TidyOverlay.
Import ListNotations.
Local Open Scope Z_scope.

Lemma Forall2_nth_both : forall A B (R : A -> B -> Prop) l m i a b, Forall2 R l m -> nth_error l i = Some a -> nth_error m i = Some b -> R a b.
Proof. intros A B R l m i a b F Ha Hb. destruct (Forall2_nth_l _ _ _ _ _ F Hb) as (a' & Ha' & H). congruence. Qed.

Lemma Forall2_pair : forall A B (R : A -> B -> Prop) l m a b, Forall2 R l m -> In (b, a) (combine m l) -> R a b.
Proof. intros A B R l m a b F. induction F as [|a' b' l m H F IH]; [contradiction|]. intros [Q|Q]; [now injection Q as -> ->|now apply IH]. Qed.
Lemma Forall2_find : forall A B (R : A -> B -> Prop) l m a, Forall2 R l m -> In a l -> exists b, In (b, a) (combine m l) /\ R a b.
Proof.
  intros A B R l m a F. induction F as [|a' b' l m H F IH]; [contradiction|]. intros [->|Q]; [exists b'; split; [now left|exact H]|].
  destruct (IH Q) as (b & H1 & H2). exists b. split; [now right|exact H2].
Qed.

(** *** Sums *)

Definition zsum (g : nat -> Z) (l : list nat) : Z := fold_right Z.add 0 (map g l).
Lemma zsum_cons : forall g a l, zsum g (a :: l) = g a + zsum g l.
Proof. reflexivity. Qed.
Lemma zsum_app : forall g l m, zsum g (l ++ m) = zsum g l + zsum g m.
Proof. intros g l m. induction l as [|a l IH]; [reflexivity|]. cbn [app]. rewrite !zsum_cons, IH. ring. Qed.
Lemma zsum_add : forall g h l, zsum (fun i => g i + h i) l = zsum g l + zsum h l.
Proof. intros g h l. induction l as [|a l IH]; [reflexivity|]. rewrite !zsum_cons, IH. ring. Qed.
Lemma zsum_ext : forall g h l, (forall i, In i l -> g i = h i) -> zsum g l = zsum h l.
Proof. intros g h l H. unfold zsum. f_equal. now apply map_ext_in. Qed.
Lemma zsum_zero : forall g l, (forall i, In i l -> g i = 0) -> zsum g l = 0.
Proof. intros g l H. induction l as [|a l IH]; [reflexivity|]. rewrite zsum_cons, H, IH; [reflexivity| |now left]. intros i Hi. apply H. now right. Qed.
Lemma zsum_one : forall a v l, NoDup l -> In a l -> zsum (fun i => if (a =? i)%nat then v else 0) l = v.
Proof.
  intros a v l N H. induction l as [|b l IH]; [contradiction|]. inversion N as [|? ? N1 N2]; subst. rewrite zsum_cons. destruct H as [->|H].
  - rewrite Nat.eqb_refl, zsum_zero; [ring|]. intros i Hi. destruct (Nat.eqb_spec a i); [subst; contradiction|reflexivity].
  - rewrite (IH N2 H). destruct (Nat.eqb_spec a b); [subst; contradiction|ring].
Qed.
Lemma zsum_perm : forall g l m, Permutation l m -> zsum g l = zsum g m.
Proof. intros g l m P. induction P; [reflexivity|rewrite !zsum_cons, IHP; reflexivity|rewrite !zsum_cons; ring|congruence]. Qed.

(** Summing by groups. *)
Lemma zsum_groups : forall (f : nat -> nat) g outs l, NoDup outs -> (forall j, In j l -> In (f j) outs) ->
  zsum g l = zsum (fun i => zsum g (filter (fun j => (f j =? i)%nat) l)) outs.
Proof.
  intros f g outs l N. induction l as [|a l IH]; intros H.
  - symmetry. apply zsum_zero. reflexivity.
  - rewrite zsum_cons, IH by (intros j Hj; apply H; now right). rewrite <- (zsum_one (f a) (g a) outs N) at 1 by (apply H; now left).
    rewrite <- zsum_add. apply zsum_ext. intros i _. cbn [filter]. destruct (f a =? i)%nat; [now rewrite zsum_cons|ring].
Qed.

(** One of the numbers is 1 if the sum of zeros and ones is 1. *)
Lemma zsum_bits : forall g l, (forall i, In i l -> g i = 0 \/ g i = 1) ->
  0 <= zsum g l /\ (zsum g l = 0 -> forall i, In i l -> g i = 0) /\ (NoDup l -> zsum g l = 1 -> exists i, In i l /\ g i = 1 /\ forall k, In k l -> g k = 1 -> k = i).
Proof.
  intros g l. induction l as [|a l IH]; intros H; [split; [reflexivity|]; split; [intros _ i []|discriminate]|].
  destruct IH as (P & Q & R); [intros i Hi; apply H; now right|]. rewrite zsum_cons. destruct (H a (or_introl eq_refl)) as [A|A]; rewrite A.
  - split; [lia|]. split; [intros Z i [<-|Hi]; [exact A|apply Q; [lia|exact Hi]]|]. intros N E. inversion N as [|? ? N1 N2]; subst.
    destruct (R N2 ltac:(lia)) as (i & Hi & Gi & U). exists i. split; [now right|]. split; [exact Gi|]. intros k [<-|Hk] Gk; [lia|now apply U].
  - split; [lia|]. split; [lia|]. intros N E. inversion N as [|? ? N1 N2]; subst. exists a. split; [now left|]. split; [exact A|].
    intros k [<-|Hk] Gk; [reflexivity|]. rewrite (Q ltac:(lia) k Hk) in Gk. discriminate.
Qed.

Lemma zsum_some : forall g l, (forall i, In i l -> 0 <= g i) -> forall i, In i l -> g i <= zsum g l.
Proof.
  intros g l. induction l as [|a l IH]; intros H i Hi; [contradiction|]. rewrite zsum_cons.
  assert (P : 0 <= zsum g l). { clear IH Hi i. induction l as [|b l IH]; [reflexivity|]. rewrite zsum_cons. pose proof (H b (or_intror (or_introl eq_refl))).
    enough (0 <= zsum g l) by lia. apply IH. intros k [<-|Hk]; apply H; [now left|right; now right]. }
  destruct Hi as [<-|Hi]; [lia|]. pose proof (H a (or_introl eq_refl)). specialize (IH (fun k Hk => H k (or_intror Hk)) i Hi). lia.
Qed.

Lemma zsum_shift : forall g k a, zsum g (seq (Datatypes.S a) k) = zsum (fun i => g (Datatypes.S i)) (seq a k).
Proof. intros g k a. unfold zsum. now rewrite <- seq_shift, map_map. Qed.

(** Sums over a list as sums over the indices. *)
Lemma windings_filter : forall x y (P : contour -> bool) d r rz, length r = length rz ->
  windings x y (map snd (filter (fun cl => P (fst cl)) (combine r rz)))
  = zsum (fun j => if P (nth j r d) then winding x y (nth j rz []) else 0) (seq 0 (length r)).
Proof.
  intros x y P d r. induction r as [|c r IH]; intros [|l rz] L; try discriminate; [reflexivity|]. cbn [length seq]. rewrite zsum_cons, zsum_shift.
  cbn [nth combine filter fst]. destruct (P c); cbn [map snd]; [rewrite windings_cons|]; rewrite (IH rz) by (now injection L); reflexivity.
Qed.

Lemma concat_disjoint : forall A (Ls : list (list A)) i j (d : list A) x, NoDup (concat Ls) -> In x (nth i Ls []) -> In x (nth j Ls []) -> i = j.
Proof.
  intros A Ls. induction Ls as [|l Ls IH]; intros i j d x N Hi Hj; [destruct i; contradiction|].
  cbn [concat] in N. apply NoDup_parts in N. destruct N as (_ & N2 & N3).
  assert (X : forall k, In x (nth k Ls []) -> In x (concat Ls)).
  { intros k Hk. apply in_concat. exists (nth k Ls []). split; [|exact Hk]. destruct (Nat.lt_ge_cases k (length Ls)) as [G|G]; [now apply nth_In|].
    rewrite nth_overflow in Hk by exact G. contradiction. }
  destruct i as [|i], j as [|j]; cbn [nth] in Hi, Hj; [reflexivity| | |].
  - exfalso. exact (N3 x Hi (X _ Hj)).
  - exfalso. exact (N3 x Hj (X _ Hi)).
  - f_equal. now apply (IH i j d x).
Qed.

Lemma concat_pick : forall A (Ls : list (list A)) js, NoDup (concat Ls) -> NoDup js -> NoDup (concat (map (fun j => nth j Ls []) js)).
Proof.
  intros A Ls js N J. induction J as [|j js Hj J IH]; [constructor|]. cbn [map concat].
  assert (P : NoDup (nth j Ls [])).
  { destruct (Nat.lt_ge_cases j (length Ls)) as [G|G]; [apply (concat_part _ Ls); [exact N|now apply nth_In]|]. rewrite nth_overflow by exact G. constructor. }
  assert (X : forall x, In x (nth j Ls []) -> ~ In x (concat (map (fun j => nth j Ls []) js))).
  { intros x Hx H. apply in_concat in H. destruct H as (l & Hl & H). apply in_map_iff in Hl. destruct Hl as (k & <- & Hk).
    assert (j = k) as -> by (apply (concat_disjoint _ Ls j k [] x N); assumption). contradiction. }
  revert P X. generalize (nth j Ls []) as l. induction l as [|a l IHl]; intros P X; [exact IH|]. inversion P as [|? ? P1 P2]; subst. cbn [app]. constructor.
  - intros H. apply in_app_or in H. destruct H as [H|H]; [contradiction|]. apply (X a); [now left|exact H].
  - apply IHl; [exact P2|]. intros x Hx. apply X. now right.
Qed.

Section Regions.
Variables (zs : list corners) (modes : list polygon_mode) (r : polygon) (S : list bseg) (ks : list packet) (act sw : list bseg)
  (I : list bend) (Ts : list (list bend)).
Notation n := (length modes).
Notation E := (edges zs).
Notation eg := (eg (edges zs)).
Hypothesis (O : overlaid zs modes r S ks act sw I Ts) (NE : covered modes zs).
Notation src := (src zs).
Notation dst := (dst zs).
Notation face := (face zs).
Notation walk := (walk zs S I).
Notation first := (first zs).
Notation rz := (map (map src) Ts).

Let D := o_drawn _ _ _ _ _ _ _ _ _ O.
Let V := o_inv _ _ _ _ _ _ _ _ _ O.
Let Polys := o_polys _ _ _ _ _ _ _ _ _ O.
Let PI := o_kept _ _ _ _ _ _ _ _ _ O.

Lemma len_T : length Ts = length r.
Proof using O. apply (Forall2_len _ _ _ (o_shown _ _ _ _ _ _ _ _ _ O)). Qed.

Lemma rz_is : forall z, has_corners r z -> z = rz.
Proof using O.
  intros z H. unfold has_corners in H. pose proof (o_shown _ _ _ _ _ _ _ _ _ O) as F.
  assert (G : Forall2 (fun T c => Forall2 at_z (c_points c) (map src T)) Ts r) by (eapply forall2_weaken; [|exact F]; intros T c P; apply P).
  clear - G H. revert z H. induction G as [|T c Ts' r' P G IH]; intros z H; inversion H; subst; [reflexivity|]. cbn [map]. f_equal; [|now apply IH].
  eapply at_zs_same; eassumption.
Qed.
Lemma rz_ok : has_corners r rz.
Proof using O.
  unfold has_corners. pose proof (o_shown _ _ _ _ _ _ _ _ _ O) as F.
  assert (G : Forall2 (fun T c => Forall2 at_z (c_points c) (map src T)) Ts r) by (eapply forall2_weaken; [|exact F]; intros T c P; apply P).
  clear - G. induction G; constructor; auto.
Qed.

(** The walk of a contour. *)
Lemma walk_of : forall i c, nth_error r i = Some c ->
  exists e l, nth_error Ts i = Some (e :: l) /\ walk (e :: l) /\ first (e :: l) /\ NoDup (e :: l) /\ pictured zs n S Ts (e :: l) c.
Proof using O.
  intros i c H. destruct (Forall2_nth_l _ _ _ _ _ (o_shown _ _ _ _ _ _ _ _ _ O) H) as (T & HT & P).
  pose proof (nth_error_In _ _ HT) as IT. pose proof (o_walks _ _ _ _ _ _ _ _ _ O) as W. pose proof (o_first _ _ _ _ _ _ _ _ _ O) as F.
  rewrite Forall_forall in W, F. pose proof (concat_part _ _ _ (o_once _ _ _ _ _ _ _ _ _ O) IT) as N. specialize (W T IT). specialize (F T IT).
  destruct T as [|e l]; [destruct W as (? & ? & X & _); discriminate|]. exists e, l. auto.
Qed.
Lemma walk_at : forall i c z l, has_corners r z -> nth_error r i = Some c -> nth_error z i = Some l ->
  exists e t, nth_error Ts i = Some (e :: t) /\ l = map src (e :: t) /\ walk (e :: t) /\ first (e :: t) /\ NoDup (e :: t) /\ pictured zs n S Ts (e :: t) c.
Proof using O.
  intros i c z l H Hc Hl. rewrite (rz_is z H), nth_error_map in Hl. destruct (walk_of i c Hc) as (e & t & A1 & A). rewrite A1 in Hl. injection Hl as <-.
  exists e, t. auto.
Qed.

(** *** C97: each contour by itself *)
Lemma contour_shape : forall z i c l x y, has_corners r z -> nth_error r i = Some c -> nth_error z i = Some l ->
  (c_external c = true -> 0 < shoelace l /\ (winding x y l = 0 \/ winding x y l = 1))
  /\ (c_external c = false -> shoelace l < 0 /\ (winding x y l = 0 \/ winding x y l = -1)).
Proof using O NE.
  intros z i c l x y H Hc Hl. destruct (walk_at i c z l H Hc Hl) as (e & t & _ & -> & W & F & N & (_ & _ & X & _)). rewrite X.
  rewrite (walk_winding zs modes S ks act sw I D V Polys PI NE _ x y W).
  pose proof (turn_area zs modes S ks act sw I D V Polys PI NE e t W F N) as A. pose proof (area_nonzero zs modes S ks act sw I D V Polys PI NE e t W F N) as B.
  pose proof (walk_range zs modes S ks act sw I D V Polys PI NE e t W F N x y) as C. rewrite A, negb_involutive.
  destruct (0 <? corner zs e t); cbn [negb] in A; (split; intros Q; [try discriminate|try discriminate]); (split; [|exact C]).
  - apply Z.ltb_ge in A. lia.
  - apply Z.ltb_lt in A. lia.
Qed.

(** *** C96: what the contours cover *)
Definition chosen (P : list bool -> bool) : list (list bend) := map snd (filter (fun cT => P (c_from (fst cT))) (combine r Ts)).

Lemma chosen_lines : forall P, map (map src) (chosen P) = map snd (filter (fun cl => P (c_from (fst cl))) (combine r rz)).
Proof using.
  clear. intros P. unfold chosen. revert Ts. induction r as [|c r' IH]; intros [|T Ts']; try reflexivity. cbn [map combine filter fst].
  destruct (P (c_from c)); cbn [map snd]; now rewrite IH.
Qed.
Lemma chosen_in : forall P T, In T (chosen P) -> In T Ts.
Proof using.
  clear. intros P T H. unfold chosen in H. apply in_map_iff in H. destruct H as ([c T'] & <- & H). apply filter_In in H. destruct H as (H & _).
  now apply in_combine_r in H.
Qed.
Lemma chosen_once : forall P, NoDup (concat (chosen P)).
Proof using O.
  intros P. pose proof (o_once _ _ _ _ _ _ _ _ _ O) as N. unfold chosen. clear - N. revert Ts N. induction r as [|c r' IH]; intros [|T Ts'] N; try constructor.
  cbn [combine filter fst]. cbn [concat] in N. apply NoDup_parts in N. destruct N as (N1 & N2 & N3). specialize (IH Ts' N2).
  destruct (P (c_from c)); [|exact IH]. cbn [map snd concat].
  assert (X : forall x, In x T -> ~ In x (concat (map snd (filter (fun cT : contour * list bend => P (c_from (fst cT))) (combine r' Ts'))))).
  { intros x Hx H. apply (N3 x Hx). apply in_concat in H. destruct H as (l & Hl & H). apply in_concat. exists l. split; [|exact H].
    apply in_map_iff in Hl. destruct Hl as ([c' T'] & <- & G). apply filter_In in G. destruct G as (G & _). now apply in_combine_r in G. }
  clear N3. induction N1 as [|a l Ha N1 IHl]; [exact IH|]. cbn [app]. constructor.
  - intros H. apply in_app_or in H. destruct H as [H|H]; [contradiction|]. apply (X a); [now left|exact H].
  - apply IHl. intros x Hx. apply X. now right.
Qed.
Lemma chosen_iff : forall P (d : bend), In d (concat (chosen P)) <-> In d I /\ P (bits n (face d)) = true.
Proof using O.
  intros P d. pose proof (o_shown _ _ _ _ _ _ _ _ _ O) as F. pose proof (o_walks _ _ _ _ _ _ _ _ _ O) as W. split.
  - intros H. split.
    + apply in_concat in H. destruct H as (T & HT & Hd). rewrite Forall_forall in W. apply (walk_in zs S I T); [apply W; now apply (chosen_in P)|exact Hd].
    + apply in_concat in H. destruct H as (T & HT & Hd). unfold chosen in HT. apply in_map_iff in HT. destruct HT as ([c T'] & <- & G). apply filter_In in G.
      destruct G as (G1 & G2). cbn [fst snd] in *. destruct (Forall2_pair _ _ _ _ _ _ _ F G1) as (_ & X & _).
      now rewrite <- (X d Hd).
  - intros (Hd & HP). apply (o_all _ _ _ _ _ _ _ _ _ O) in Hd. apply in_concat in Hd. destruct Hd as (T & HT & Hd). apply in_concat. exists T. split; [|exact Hd].
    unfold chosen. destruct (Forall2_find _ _ _ _ _ _ F HT) as (c & Hc & X).
    apply in_map_iff. exists (c, T). split; [reflexivity|]. apply filter_In. split; [exact Hc|]. cbn [fst]. destruct X as (_ & X & _). now rewrite (X d Hd).
Qed.

Lemma bits_place : forall x y, length zs = n -> bits n (within_poly zs x y) = place_of zs x y.
Proof using. intros x y Len. unfold bits, place_of. rewrite Len. apply map_ext. intros i. apply within_odd. Qed.

Lemma kept_skip : forall x y, skip_side modes (bits n (within_poly zs x y)) = false <-> kept_at modes zs x y.
Proof using.
  clear. intros x y. rewrite skip_bits. unfold kept_at, inner_below, kept_place. split; intros ((i & A & B) & C); (split; [exists i; split; [exact A|]|intros j Hj; apply C]);
    rewrite within_odd in *; assumption.
Qed.

Lemma covers : forall z P x y, length zs = n -> has_corners r z ->
  windings x y (map snd (filter (fun cl => P (c_from (fst cl))) (combine r z)))
  = b2z (P (place_of zs x y) && negb (skip_side modes (bits n (within_poly zs x y)))).
Proof using O NE.
  intros z P x y Len H. rewrite (rz_is z H), <- chosen_lines.
  assert (W : Forall walk (chosen P)).
  { pose proof (o_walks _ _ _ _ _ _ _ _ _ O) as W. rewrite Forall_forall in W |- *. intros T HT. apply W. now apply (chosen_in P). }
  rewrite (walks_windings zs modes S ks act sw I D V Polys PI NE _ x y W). rewrite <- (bits_place x y Len).
  apply (cover zs S D (fun f => P (bits n f) && negb (skip_side modes (bits n f)))).
  - intros f g Q. now rewrite (bits_ext n f g Q).
  - assert (skip_side modes (bits n (fun _ => false)) = true) as ->; [|apply andb_false_r].
    apply not_false_iff_true. intros Q. apply skip_bits in Q. destruct Q as ((i & _ & Q) & _). discriminate.
  - intros d. rewrite chosen_iff, (kept_iff zs modes S ks act sw I D V Polys PI NE d), <- skip_bits, andb_true_iff, negb_true_iff. tauto.
  - apply chosen_once.
  - now apply (walks_dst zs S I).
Qed.

(** *** C98: the regions *)

Notation in_region := (in_region r).
Notation outer := (outer r).

Lemma hole_spec : forall j c h, nth_error r j = Some c -> In h (c_holes c) ->
  exists ch, nth_error r h = Some ch /\ c_external ch = false.
Proof using O. intros j c h Hj Hh. destruct (o_holes _ _ _ _ _ _ _ _ _ O) as (_ & A & _). destruct (A j c h Hj Hh) as (_ & ch & H1 & H2 & _). eauto. Qed.

(** A hole, as a walk. *)
Lemma hole_walk : forall j c h T, nth_error r j = Some c -> nth_error Ts j = Some T -> In h (c_holes c) ->
  exists e' l' b, nth_error Ts h = Some (e' :: l') /\ walk (e' :: l') /\ first (e' :: l') /\ NoDup (e' :: l') /\ corner zs e' l' < 0
    /\ In (b, LeftEnd) T /\ under_side zs S b (fst (last l' e')).
Proof using O NE.
  intros j c h T Hj HT Hh. destruct (hole_spec j c h Hj Hh) as (ch & Hch & Ex).
  destruct (walk_of j c Hj) as (e & l & A1 & _ & _ & _ & (_ & _ & _ & A2)). rewrite HT in A1. injection A1 as ->.
  destruct (A2 h Hh) as (T' & s & b & B1 & B2 & B3 & B4).
  destruct (walk_of h ch Hch) as (e' & l' & C1 & W & F & N & (_ & _ & X & _)). rewrite B1 in C1. injection C1 as ->.
  exists e', l', b. rewrite last_cons in B2. 
  repeat (split; [assumption|]). split; [|split; [exact B3|]].
  - rewrite Ex in X. rewrite (turn_area zs modes S ks act sw I D V Polys PI NE e' l' W F N), negb_involutive in X.
    pose proof (corner_neq zs modes S ks act sw I D V Polys PI NE e' l' W F) as CN. symmetry in X. apply Z.ltb_ge in X. unfold TidySimple.corner in *. lia.
  - rewrite B2. exact B4.
Qed.

Lemma region_family : forall i e l, outer i -> nth_error Ts i = Some (e :: l) -> forall j, in_region i j ->
  exists T, nth_error Ts j = Some T /\ family zs S I e l T.
Proof using O NE.
  intros i e l Oi Hi j H. induction H as [|j c h H IH Hc Hh]; [exists (e :: l); split; [exact Hi|constructor]|].
  destruct IH as (T & HT & FT). destruct (hole_walk j c h T Hc HT Hh) as (e' & l' & b & A1 & A2 & A3 & A4 & A5 & A6 & A7).
  exists (e' :: l'). split; [exact A1|]. now apply (fam_hole zs S I e l T e' l' b).
Qed.

Lemma outer_walk : forall i, outer i -> exists c e l, nth_error r i = Some c /\ nth_error Ts i = Some (e :: l) /\ walk (e :: l) /\ first (e :: l) /\ NoDup (e :: l)
  /\ 0 < corner zs e l /\ pictured zs n S Ts (e :: l) c.
Proof using O NE.
  intros i (c & Hc & Ex). destruct (walk_of i c Hc) as (e & l & A1 & W & F & N & P). exists c, e, l. repeat (split; [assumption|]). split; [|exact P].
  destruct P as (_ & _ & X & _). rewrite Ex in X. rewrite (turn_area zs modes S ks act sw I D V Polys PI NE e l W F N), negb_involutive in X.
  symmetry in X. now apply Z.ltb_lt in X.
Qed.

Lemma region_len : forall i j, (i < length r)%nat -> in_region i j -> (j < length r)%nat.
Proof using O.
  intros i j Hi H. induction H as [|j c h H IH Hc Hh]; [exact Hi|]. destruct (hole_spec j c h Hc Hh) as (ch & X & _). apply nth_error_Some. congruence.
Qed.

(** All contours of a region are made of the same polygons. *)
Lemma region_from : forall i j c c', outer i -> in_region i j -> nth_error r i = Some c -> nth_error r j = Some c' -> c_from c' = c_from c.
Proof using O NE.
  intros i j c c' Oi H Hc Hc'. destruct (outer_walk i Oi) as (c0 & e & l & A1 & A2 & A3 & A4 & A5 & A6 & A7). rewrite Hc in A1. injection A1 as <-.
  destruct (region_family i e l Oi A2 j H) as (T & HT & FT). destruct (walk_of j c' Hc') as (e' & l' & B1 & _ & _ & _ & (_ & B2 & _)).
  rewrite HT in B1. injection B1 as ->. destruct A7 as (_ & A7 & _). rewrite (A7 e (or_introl eq_refl)), (B2 e' (or_introl eq_refl)). apply bits_ext. intros k.
  apply (fam_face zs modes S ks act sw I D V Polys PI NE e l A3 A4 (e' :: l') FT). now left.
Qed.

(** No contour is its own hole. *)
Lemma hole_later : forall j c h, nth_error r j = Some c -> In h (c_holes c) -> (j < h)%nat.
Proof using O NE.
  intros j c h Hj Hh. destruct (o_holes _ _ _ _ _ _ _ _ _ O) as (_ & A & _). destruct (A j c h Hj Hh) as (Le & _). enough (j <> h) by lia.
  intros ->. destruct (walk_of h c Hj) as (e & l & A1 & _). destruct (hole_walk h c h _ Hj A1 Hh) as (e' & l' & b & B1 & W & F & N & C & Hb & U).
  rewrite A1 in B1. injection B1 as -> ->. destruct U as (_ & _ & _ & U & _).
  pose proof (z_left_v zs modes S ks act sw I D V Polys PI NE e' l' W F) as Lz. pose proof (min_src zs e' l' F _ Hb) as M. unfold TidyNext.src in M at 2. cbn [fst snd end_z] in M.
  destruct U as [U|(U1 & U2)].
  - rewrite Lz in U. apply M. now apply lex_gt.
  - assert (X : (b, LeftEnd) = e') by (apply (only_src zs S I e' l' W); [exact Hb|]; unfold TidyNext.src at 1; cbn [fst snd end_z]; congruence).
    rewrite Lz in U2. unfold corner in C. pose proof (z_right zs modes S ks act sw I D V Polys PI NE e' l' W F) as Rz.
    assert (Q1 : dst e' = e_right (eg b)) by (rewrite <- X; reflexivity).
    assert (Q2 : src (last l' e') = e_right (eg (fst (last l' e')))) by (unfold TidyNext.src; rewrite Rz; reflexivity).
    rewrite Q1, Q2 in C. lia.
Qed.

Lemma region_exists : forall j, (j < length r)%nat -> exists i, outer i /\ in_region i j.
Proof using O NE.
  intros j. induction j as [j IH] using (well_founded_induction lt_wf). intros Hj.
  destruct (nth_error r j) as [c|] eqn:Hc; [|apply nth_error_None in Hc; lia].
  destruct (c_external c) eqn:Ex; [exists j; split; [exists c; auto|constructor]|].
  destruct (o_holes _ _ _ _ _ _ _ _ _ O) as (_ & _ & A). destruct (A j c Hc Ex) as (i & ci & Hi & Hin). pose proof (hole_later i ci j Hi Hin) as Lt.
  destruct (IH i Lt) as (k & K1 & K2); [lia|]. exists k. split; [exact K1|]. now apply (region_hole r k i ci).
Qed.

Lemma region_unique : forall i i' j, outer i -> outer i' -> in_region i j -> in_region i' j -> i = i'.
Proof using O.
  intros i i' j (c & Hc & Ex) (c' & Hc' & Ex') H. revert i' c' Hc' Ex'. induction H as [|j cj h H IH Hj Hh]; intros i' c' Hc' Ex' H'.
  - inversion H' as [|j' cj' h' H1 H2 H3]; subst; [reflexivity|]. destruct (hole_spec _ _ _ H2 H3) as (ch & X1 & X2). congruence.
  - inversion H' as [|j' cj' h' H1 H2 H3]; subst.
    + destruct (hole_spec _ _ _ Hj Hh) as (ch & X1 & X2). congruence.
    + apply (IH i' c'); auto. replace j with j'; [exact H1|]. destruct (o_holes _ _ _ _ _ _ _ _ _ O) as (N & _).
      apply (concat_disjoint _ (map c_holes r) j' j [] h N).
      * rewrite (nth_error_nth (map c_holes r) j' [] (x := c_holes cj')); [exact H3|]. now rewrite nth_error_map, H2.
      * rewrite (nth_error_nth (map c_holes r) j [] (x := c_holes cj)); [exact Hh|]. now rewrite nth_error_map, Hj.
Qed.

Lemma roots : exists f, forall j, (j < length r)%nat -> outer (f j) /\ in_region (f j) j.
Proof using O NE.
  enough (H : forall k, (k <= length r)%nat -> exists f, forall j, (j < k)%nat -> outer (f j) /\ in_region (f j) j).
  { destruct (H (length r) (le_n _)) as (f & Hf). eauto. }
  intros k. induction k as [|k IH]; intros Hk; [exists (fun j => j); intros j Hj; inversion Hj|].
  destruct IH as (f & Hf); [lia|]. destruct (region_exists k Hk) as (i & I1 & I2). exists (fun j => if (j =? k)%nat then i else f j). intros j Hj.
  destruct (Nat.eqb_spec j k) as [->|N]; [auto|]. apply Hf. lia.
Qed.

Lemma goes_sum : forall z js x y, has_corners r z -> goes_round z js x y = zsum (fun j => winding x y (nth j z [])) js.
Proof using. intros z js x y _. unfold goes_round, windings, zsum. now rewrite map_map. Qed.

Lemma goes_wind : forall js x y, (forall j, In j js -> (j < length r)%nat) -> goes_round rz js x y = wind zs (concat (map (fun j => nth j Ts []) js)) x y.
Proof using O NE.
  intros js x y H. rewrite <- (walks_windings zs modes S ks act sw I D V Polys PI NE).
  - unfold goes_round. f_equal. rewrite map_map. apply map_ext. intros j. now rewrite <- (map_nth (map src)).
  - apply Forall_forall. intros T HT. apply in_map_iff in HT. destruct HT as (j & <- & Hj). pose proof (o_walks _ _ _ _ _ _ _ _ _ O) as W.
    rewrite Forall_forall in W. apply W, nth_In. rewrite len_T. now apply H.
Qed.

(** A region goes round no place twice. *)
Lemma region_once : forall z i js x y, has_corners r z -> outer i -> region_of r i js -> goes_round z js x y = 0 \/ goes_round z js x y = 1.
Proof using O NE.
  intros z i js x y H Oi (J1 & J2). rewrite (rz_is z H). destruct (outer_walk i Oi) as (c & e & l & A1 & A2 & A3 & A4 & A5 & A6 & _).
  assert (Hi : (i < length r)%nat) by (apply nth_error_Some; congruence).
  rewrite goes_wind by (intros j Hj; apply J2 in Hj; now apply (region_len i)).
  assert (G : forall j T, nth_error Ts j = Some T -> nth j Ts [] = T) by (intros j T Q; now apply nth_error_nth).
  apply (fam_wind zs modes S ks act sw I D V Polys PI NE e l A3 A4 A6).
  - apply concat_pick; [exact (o_once _ _ _ _ _ _ _ _ _ O)|exact J1].
  - apply (walks_dst zs S I). apply Forall_forall. intros T HT. apply in_map_iff in HT. destruct HT as (j & <- & Hj). apply J2 in Hj.
    pose proof (o_walks _ _ _ _ _ _ _ _ _ O) as W. rewrite Forall_forall in W. apply W, nth_In. rewrite len_T. now apply (region_len i).
  - intros d Hd. apply in_concat in Hd. destruct Hd as (T & HT & Hd). apply in_map_iff in HT. destruct HT as (j & <- & Hj). apply J2 in Hj.
    destruct (region_family i e l Oi A2 j Hj) as (T & HT & FT). rewrite (G _ _ HT) in Hd. eauto.
  - apply in_concat. exists (e :: l). split; [|now left]. apply in_map_iff. exists i. split; [now apply G|]. apply J2. constructor.
Qed.

Lemma region_same : forall z i js js' x y, region_of r i js -> region_of r i js' -> goes_round z js x y = goes_round z js' x y.
Proof using.
  clear. intros z i js js' x y (A1 & A2) (B1 & B2). unfold goes_round, windings. rewrite !map_map.
  apply (zsum_perm (fun j => winding x y (nth j z []))). apply NoDup_Permutation; auto. intros j. now rewrite A2, B2.
Qed.

Section Sum.
Variable (f : nat -> nat).
Hypothesis (Hf : forall j, (j < length r)%nat -> outer (f j) /\ in_region (f j) j).
Definition outs : list nat := filter (fun i => (f i =? i)%nat) (seq 0 (length r)).
Definition members (i : nat) : list nat := filter (fun j => (f j =? i)%nat) (seq 0 (length r)).

Lemma root_outer : forall i, outer i -> f i = i.
Proof using O Hf.
  intros i Oi. assert (Hi : (i < length r)%nat) by (destruct Oi as (c & Hc & _); apply nth_error_Some; congruence). destruct (Hf i Hi) as (A & B).
  apply (region_unique (f i) i i); auto. constructor.
Qed.
Lemma outs_iff : forall i, In i outs <-> outer i.
Proof using O Hf.
  intros i. unfold outs. rewrite filter_In, in_seq, Nat.eqb_eq. split.
  - intros ((_ & H) & Q). rewrite <- Q. now apply Hf.
  - intros Oi. split; [|now apply root_outer]. destruct Oi as (c & Hc & _). split; [apply Nat.le_0_l|]. apply nth_error_Some. congruence.
Qed.
Lemma outs_once : NoDup outs.
Proof using. apply NoDup_filter, seq_NoDup. Qed.
Lemma members_region : forall i, outer i -> region_of r i (members i).
Proof using O Hf.
  intros i Oi. split; [apply NoDup_filter, seq_NoDup|]. intros j. unfold members. rewrite filter_In, in_seq, Nat.eqb_eq.
  assert (Hi : (i < length r)%nat) by (destruct Oi as (c & Hc & _); apply nth_error_Some; congruence). split.
  - intros ((_ & H) & <-). now apply Hf.
  - intros H. pose proof (region_len i j Hi H) as Hj. split; [split; [apply Nat.le_0_l|exact Hj]|]. destruct (Hf j Hj). now apply (region_unique (f j) i j).
Qed.

Lemma sum_outs : forall z x y (P : list bool -> bool) c0, has_corners r z ->
  windings x y (map snd (filter (fun cl => P (c_from (fst cl))) (combine r z)))
  = zsum (fun i => if P (c_from (nth i r c0)) then goes_round z (members i) x y else 0) outs.
Proof using O NE Hf.
  intros z x y P c0 H. rewrite (windings_filter x y (fun c => P (c_from c)) c0).
  2: { rewrite (rz_is z H), map_length. symmetry. apply len_T. }
  rewrite (zsum_groups f _ outs); [|exact outs_once|].
  2: { intros j Hj. apply in_seq in Hj. apply outs_iff. apply Hf. lia. }
  apply zsum_ext. intros i Hi. apply outs_iff in Hi. fold (members i).
  assert (Q : forall j, In j (members i) -> c_from (nth j r c0) = c_from (nth i r c0)).
  { intros j Hj. apply (members_region i Hi) in Hj. pose proof Hi as (c & Hc & _). assert (Hl : (i < length r)%nat) by (apply nth_error_Some; congruence).
    pose proof (region_len i j Hl Hj) as Hjl. destruct (nth_error r j) as [c'|] eqn:Hc'; [|apply nth_error_None in Hc'; lia].
    rewrite (nth_error_nth _ _ _ Hc), (nth_error_nth _ _ _ Hc'). now apply (region_from i j). }
  destruct (P (c_from (nth i r c0))) eqn:HP.
  - rewrite (goes_sum z (members i) x y H). apply zsum_ext. intros j Hj. now rewrite (Q j Hj), HP.
  - apply zsum_zero. intros j Hj. now rewrite (Q j Hj), HP.
Qed.
End Sum.

Definition eqbits (a b : list bool) : bool := if list_eq_dec Bool.bool_dec a b then true else false.
Lemma eqbits_iff : forall a b, eqbits a b = true <-> a = b.
Proof using. intros a b. unfold eqbits. destruct (list_eq_dec _ _ _); split; congruence. Qed.

Lemma region_there : forall i, outer i -> exists js, region_of r i js.
Proof using O NE. intros i Oi. destruct roots as (f & Hf). exists (members f i). now apply members_region. Qed.

(** A region only goes round places that are kept, and that are inside the polygons it is made of. *)
Lemma region_place : forall z i c js x y, length zs = n -> has_corners r z -> outer i -> nth_error r i = Some c -> region_of r i js -> goes_round z js x y = 1 ->
  kept_at modes zs x y /\ c_from c = place_of zs x y.
Proof using O NE.
  intros z i c js x y Len H Oi Hc J G. destruct roots as (f & Hf). pose proof (covers z (eqbits (c_from c)) x y Len H) as X.
  rewrite (sum_outs f Hf z x y _ c H) in X.
  assert (S1 : 1 <= zsum (fun i => if eqbits (c_from c) (c_from (nth i r c)) then goes_round z (members f i) x y else 0) (outs f)).
  { rewrite <- G, (region_same z i js (members f i) x y J (members_region f Hf i Oi)).
    replace (goes_round z (members f i) x y) with (if eqbits (c_from c) (c_from (nth i r c)) then goes_round z (members f i) x y else 0).
    - apply (zsum_some (fun i => if eqbits (c_from c) (c_from (nth i r c)) then goes_round z (members f i) x y else 0)); [|now apply outs_iff].
      intros k Hk. apply (outs_iff f Hf) in Hk. cbv beta. destruct (eqbits (c_from c) (c_from (nth k r c))); [|reflexivity].
      destruct (region_once z k _ x y H Hk (members_region f Hf k Hk)) as [-> | ->]; discriminate.
    - rewrite (nth_error_nth _ _ _ Hc). now rewrite (proj2 (eqbits_iff _ _) eq_refl). }
  rewrite X in S1. destruct (eqbits (c_from c) (place_of zs x y)) eqn:Q1; cbn [andb b2z] in S1; [|exfalso; now apply S1].
  apply eqbits_iff in Q1. split; [|exact Q1]. apply kept_skip. destruct (skip_side _ _); [exfalso; now apply S1|reflexivity].
Qed.

(** Every place that is kept is in one region. *)
Lemma place_region : forall z x y, length zs = n -> has_corners r z -> kept_at modes zs x y ->
  exists i, outer i /\ (exists js, region_of r i js /\ goes_round z js x y = 1)
    /\ forall k js, outer k -> region_of r k js -> goes_round z js x y = 1 -> k = i.
Proof using O NE.
  intros z x y Len H K. destruct roots as (f & Hf). pose proof (covers z (fun _ => true) x y Len H) as X. cbn [andb] in X.
  rewrite (sum_outs f Hf z x y (fun _ => true) contour_new H) in X.
  assert (skip_side modes (bits n (within_poly zs x y)) = false) as Sk by (now apply kept_skip). rewrite Sk in X. cbn [negb b2z] in X.
  destruct (zsum_bits (fun i => goes_round z (members f i) x y) (outs f)) as (_ & _ & U).
  { intros i Hi. apply (outs_iff f Hf) in Hi. now apply (region_once z i), members_region. }
  destruct (U (outs_once f) X) as (i & Hi & Gi & Ui). apply (outs_iff f Hf) in Hi. exists i. split; [exact Hi|]. split.
  - exists (members f i). split; [now apply members_region|exact Gi].
  - intros k js Ok J G. apply Ui; [now apply (outs_iff f Hf)|]. rewrite <- G. apply (region_same z k); [now apply members_region|exact J].
Qed.
End Regions.
