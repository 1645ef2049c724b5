(** The sweep over polygons whose sides cross begins in step with the sweep over the cut polygons;
    the overlays are the same. *)

From Coq Require Import List ZArith QArith Bool Arith Lia Permutation.
From Verif Require Import Base Float SpecFloat64 SpecShape SpecOrder SpecIntersect SpecHandle SpecTidy SpecContainers SpecCompute Geometry Sweep
  Contours Compute FloatFacts MapFacts ShapeFacts SweepFacts OrderFacts ContainerFacts HandleFacts TidyGeo TidyParity TidySetup TidyLine TidyPackets TidySweep TidyStart TidyFacts
  TidyShapes CrossGeo CrossPieces CrossMeet CrossCore CrossSplit CrossResolve CrossPair CrossLeft CrossStep CrossRight CrossNext CrossLoop CrossTrace CrossSetup SpecCross.
Import ListNotations.

Definition mk (i : nat) (ab : (Z * Z) * (Z * Z)) : edge := mk_edge i (fst ab) (snd ab).

Lemma Forall2_back : forall {A B} (P : A -> B -> Prop) l m, Forall2 P l m -> Forall2 P (rev l) (rev m).
Proof. intros A B P l m H. induction H as [|a b l m H F IH]; cbn; [constructor|]. apply Forall2_app; [exact IH|]. constructor; [exact H|constructor]. Qed.

Lemma steps_rev : forall (l : list (Z * Z)), steps (rev l) = rev (map (fun ab => (snd ab, fst ab)) (steps l)).
Proof.
  induction l as [|a l IH]; [reflexivity|]. destruct l as [|b l]; [reflexivity|]. rewrite steps_cons. cbn [map rev fst snd] in *. rewrite <- IH. rewrite <- app_assoc. cbn [app].
  rewrite (steps_app (rev l) b [a]). now rewrite steps_cons.
Qed.

Lemma forward_edges : forall i l, forward l -> route_edges (i, l) = map (mk i) (steps l).
Proof.
  intros i l. unfold route_edges. cbn [fst snd]. induction l as [|a l IH]; intros H; [reflexivity|]. destruct l as [|b l]; [reflexivity|]. destruct H as [H1 H2].
  rewrite steps_cons. cbn [flat_map map]. rewrite (IH H2). unfold left_to_right. cbn [fst snd]. now rewrite H1.
Qed.

Lemma forward_app : forall l m, forward (l ++ m) -> forward m /\ forward l.
Proof.
  induction l as [|a l IH]; intros m H; [split; [exact H|exact I]|]. destruct l as [|b l].
  - cbn [app] in H. split; [|exact I]. destruct m as [|c m]; [exact I|]. apply H.
  - cbn [app] in H. destruct H as [H1 H2]. destruct (IH m H2) as [I1 I2]. split; [exact I1|]. split; [exact H1|exact I2].
Qed.

Lemma backward_edges : forall i l, forward (rev l) -> rev (route_edges (i, l)) = map (mk i) (steps (rev l)).
Proof.
  intros i l H. rewrite steps_rev, map_rev. f_equal. unfold route_edges. cbn [fst snd]. rewrite map_map. revert H. induction l as [|a l IH]; intros H; [reflexivity|].
  destruct l as [|b l]; [reflexivity|]. rewrite steps_cons. cbn [flat_map map]. cbn [rev] in H. rewrite <- app_assoc in H. cbn [app] in H. destruct (forward_app _ _ H) as [[H1 _] _].
  rewrite IH; [|cbn [rev]; apply (forward_app (rev l ++ [b]) [a]); rewrite <- app_assoc; exact H].
  unfold left_to_right. cbn [fst snd]. apply lex_gt in H1. now rewrite H1.
Qed.

Lemma forward_ends : forall l a b, forward (a :: l ++ [b]) -> lex_z a b = Lt.
Proof.
  induction l as [|c l IH]; intros a b H; cbn [app] in H; [apply H|]. destruct H as [H1 H2]. apply IH in H2. apply (lex_le_trans _ c); [|exact H2]. intros X. apply lex_gt in X. congruence.
Qed.

Section Track.
Variables (E : list edge) (S : list bseg).
Notation eg := (eg E).
Notation L s := (e_left (eg s)).
Notation R s := (e_right (eg s)).
Notation poly s := (e_poly (eg s)).
Notation reach := (reach E).

(** The segments lead along the points. *)
Fixpoint track (i : nat) (l : list (Z * Z)) (cl : list bseg) {struct cl} : Prop :=
  match cl with
  | [] => True
  | s :: cl' => match l with a :: ((b :: _) as l') => In s S /\ eg s = mk_edge i a b /\ track i l' cl' | _ => False end
  end.

Lemma track_pre : forall i x y l, track i l (x ++ y) -> track i l x.
Proof using. clear. intros i x y. induction x as [|s x IH]; intros l H; [exact I|]. cbn [app track] in *. destruct l as [|a [|b l]]; auto. destruct H as (H1 & H2 & H3). auto. Qed.

Lemma track_suf : forall i pre y l, track i l (pre ++ y) -> exists l1 l2, l = l1 ++ l2 /\ track i l2 y.
Proof using.
  clear. intros i pre y. induction pre as [|s x IH]; intros l H; [exists [], l; auto|]. cbn [app track] in *. destruct l as [|a [|b l]]; try contradiction.
  destruct H as (H1 & H2 & H3). destruct (IH _ H3) as (l1 & l2 & -> & T). exists (a :: l1), l2. auto.
Qed.

Lemma track_steps : forall i l cl, Forall2 (fun e s => In s S /\ eg s = e) (map (mk i) (steps l)) cl -> track i l cl.
Proof using.
  clear. intros i l. induction l as [|a l IH]; intros cl H; [inversion H; exact I|]. destruct l as [|b l]; [inversion H; exact I|].
  rewrite steps_cons in H. cbn [map] in H. inversion H as [|? s ? cl' [H1 H2] H3]; subst. cbn [track]. split; [exact H1|]. split; [exact H2|]. now apply IH.
Qed.

Lemma track_shape : forall i tl b l, (forall a b c, In a l -> In b l -> In c l -> orient a b c = 0%Z) -> track i l (b :: tl) ->
  chain E S b tl /\ poly b = i /\ exists mid q post, l = L b :: mid ++ q :: post /\ reach b tl = q /\ length mid = length tl /\ (tl <> [] -> exists mid', mid = R b :: mid').
Proof using.
  clear. intros i tl. induction tl as [|c tl IH]; intros b l Co H; cbn [track] in H; destruct l as [|x [|y l]]; try contradiction; destruct H as (H1 & H2 & H3).
  - split; [split; [exact I|intros c [<-|[]]; exact H1]|]. rewrite H2. split; [reflexivity|]. exists [], y, l. unfold CrossPieces.reach. cbn [final]. rewrite H2. cbn. repeat split. intros N. now elim N.
  - destruct (IH c (y :: l)) as ((I1 & I2) & I3 & mid & q & post & I4 & I5 & I6 & I7); [intros u v w Hu Hv Hw; apply Co; now right|exact H3|].
    assert (Rc : In (R c) (x :: y :: l)). { destruct l as [|z l]; [contradiction|]. destruct H3 as (_ & -> & _). cbn. auto. }
    split; [split|].
    + cbn [linked]. rewrite H2. cbn [e_left e_right e_poly]. split; [now injection I4|]. split; [|split; [now rewrite I3|exact I1]]. apply Co; [now left|now right; left|exact Rc].
    + intros d [<-|Hd]; [exact H1|now apply I2].
    + rewrite H2. split; [reflexivity|]. cbn [e_left e_right]. exists (y :: mid), q, post. assert (Ly : L c = y) by (now injection I4). rewrite Ly in I4. split; [now rewrite I4|]. split; [exact I5|]. split; [cbn; now rewrite I6|].
      intros _. exists mid. reflexivity.
Qed.
End Track.

Section Build.
Variables (E : list edge) (S : list bseg).
Notation eg := (eg E).
Notation L s := (e_left (eg s)).

Definition routed (r : nat * list (Z * Z)) (p : piece) : Prop :=
  exists fl, (fl = snd r \/ fl = rev (snd r)) /\ forward fl /\ (forall a b c, In a fl -> In b fl -> In c fl -> orient a b c = 0%Z) /\ track E S (fst r) fl (parts p) /\ covers E p.
Definition shown (e : edge) (s : bseg) : Prop := s_left s = int_point (e_left e) /\ s_right s = int_point (e_right e) /\ s_order s = e_poly e.

Lemma build_one : forall r sl sa k, straight (snd r) -> (2 <= length (snd r))%nat -> Forall2 (fun e s => In s S /\ eg s = e) (route_edges r) sl -> Forall2 shown (whole_edge r) sa ->
  exists p, sa = [p_seg p] /\ Permutation (parts p) sl /\ routed r p /\ p_side p = k.
Proof using.
  intros [i l] sl sa k [Fw Co] Len HB HA. cbn [fst snd] in *.
  assert (G : exists fl cl, (fl = l \/ fl = rev l) /\ forward fl /\ Permutation cl sl /\ track E S i fl cl /\ length fl = Datatypes.S (length cl) /\ (forall d d' m, fl = d :: m ++ [d'] -> whole_edge (i, l) = [mk_edge i d d'])).
  { assert (Ls : forall (m : list (Z * Z)), length (steps m) = pred (length m)).
    { intros m. unfold steps. rewrite combine_length. destruct m; cbn [tl length]; lia. }
    destruct Fw as [Fw|Fw].
    - exists l, sl. rewrite (forward_edges i l Fw) in HB. split; [now left|]. split; [exact Fw|]. split; [reflexivity|]. split; [now apply track_steps|].
      apply Forall2_len in HB. rewrite map_length, Ls in HB. split; [lia|]. intros d d' m Q. rewrite Q in Fw. unfold whole_edge. cbn [fst snd]. rewrite Q. cbn [hd]. rewrite app_comm_cons, last_last.
      unfold left_to_right. cbn [fst snd]. now rewrite (forward_ends _ _ _ Fw).
    - exists (rev l), (rev sl). apply Forall2_back in HB. rewrite (backward_edges i l Fw) in HB. split; [now right|]. split; [exact Fw|]. split; [symmetry; apply Permutation_rev|]. split; [now apply track_steps|].
      apply Forall2_len in HB. rewrite map_length, Ls, !rev_length in HB. rewrite !rev_length. split; [lia|]. intros d d' m Q. rewrite Q in Fw.
      assert (Q' : l = d' :: rev m ++ [d]) by (rewrite <- (rev_involutive l), Q; cbn [rev]; now rewrite rev_app_distr).
      unfold whole_edge. cbn [fst snd]. rewrite Q'. cbn [hd]. rewrite app_comm_cons, last_last. unfold left_to_right. cbn [fst snd]. apply forward_ends in Fw. apply lex_gt in Fw. now rewrite Fw. }
  destruct G as (fl & cl & Fl & Ff & Pm & Tr & Lf & Wh).
  assert (Co' : forall a b c, In a fl -> In b fl -> In c fl -> orient a b c = 0%Z).
  { intros a b c Ha Hb Hc. destruct Fl as [->| ->]; [now apply Co|]. rewrite <- in_rev in Ha, Hb, Hc. now apply Co. }
  assert (Ll : (2 <= length fl)%nat) by (destruct Fl as [->| ->]; [exact Len|now rewrite rev_length]).
  destruct cl as [|b tl]; [cbn in Lf; lia|].
  destruct (track_shape E S i tl b fl Co' Tr) as (_ & Pb & mid & q & post & Q & Rq & Lm & _).
  assert (post = []) by (destruct post; [reflexivity|exfalso; rewrite Q in Lf; cbn in Lf; rewrite app_length in Lf; cbn in Lf; lia]). subst post.
  rewrite (Wh _ _ _ Q) in HA. clear Q Wh. inversion HA as [|? s ? sa' (A1 & A2 & A3) A4]; subst. inversion A4; subst.
  exists (mk_piece k s b tl). cbn [p_seg p_side]. split; [reflexivity|]. split; [exact Pm|]. split; [|reflexivity].
  exists fl. cbn [fst snd]. split; [exact Fl|]. split; [exact Ff|]. split; [exact Co'|]. split; [exact Tr|]. unfold covers. cbn [p_seg p_head p_tail]. cbn [e_left e_right e_poly] in A1, A2, A3. rewrite A1, A2, A3. repeat split.
Qed.

Lemma build : forall rts k SB SA, (forall r, In r rts -> straight (snd r) /\ (2 <= length (snd r))%nat) ->
  Forall2 (fun e s => In s S /\ eg s = e) (flat_map route_edges rts) SB -> Forall2 shown (flat_map whole_edge rts) SA ->
  exists U, map p_seg U = SA /\ Permutation (flat_map parts U) SB /\ Forall2 routed rts U /\ map p_side U = seq k (length U).
Proof using.
  induction rts as [|r rts IH]; intros k SB SA Ok HB HA; cbn [flat_map] in HB, HA.
  - inversion HB; inversion HA; subst. exists []. repeat split; constructor.
  - apply Forall2_app_inv_l in HB. destruct HB as (sl & SB' & HB1 & HB2 & ->). apply Forall2_app_inv_l in HA. destruct HA as (sa & SA' & HA1 & HA2 & ->).
    destruct (Ok r (or_introl eq_refl)) as [O1 O2]. destruct (build_one r sl sa k O1 O2 HB1 HA1) as (p & -> & P1 & P2 & P3).
    destruct (IH (Datatypes.S k) SB' SA') as (U & <- & U2 & U3 & U4); auto. { intros r' Hr. apply Ok. now right. }
    exists (p :: U). split; [reflexivity|]. split; [cbn [flat_map]; now apply Permutation_app|]. split; [now constructor|]. cbn [map length seq]. now rewrite P3, U4.
Qed.
End Build.

Lemma route_long : forall ms i r, In r (routes_from i ms) -> (2 <= length (snd r))%nat.
Proof.
  induction ms as [|z ms IH]; intros i r H; [destruct H|]. cbn [routes_from] in H. apply in_app_iff in H. destruct H as [H|H]; [|now apply IH in H].
  apply in_map_iff in H. destruct H as (l & <- & H). apply in_flat_map in H. destruct H as (c & _ & H). cbn [snd]. unfold contour_routes in H. destruct c as [|m c]; [destruct H|].
  revert H. generalize (fst m). generalize (m :: c). clear. induction l0 as [|[v x] c IH]; intros a H; [destruct H|]. cbn [routes_to] in H. destruct H as [<-|H]; [|now apply IH in H].
  cbn [length]. rewrite app_length. cbn. lia.
Qed.
