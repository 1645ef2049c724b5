(** What the sweep does with neighbours, next to what it does with their first edges. *)

From Coq Require Import List ZArith QArith Bool Arith Lia Permutation.
From Verif Require Import Base Float SpecFloat64 SpecShape SpecOrder SpecIntersect SpecHandle SpecTidy SpecContainers Geometry Sweep
  Contours Compute FloatFacts MapFacts ShapeFacts OrderFacts ContainerFacts HandleFacts TidyGeo TidyParity TidySetup TidyLine TidyPackets TidySweep
  CrossGeo CrossPieces CrossMeet CrossCore CrossSplit SpecCross.
Import ListNotations.

Lemma part_piece : forall l p p' c, NoDup (flat_map parts l) -> In p l -> In p' l -> In c (parts p) -> In c (parts p') -> p = p'.
Proof.
  induction l as [|x l IH]; intros p p' c N Hp Hp' Hc Hc'; [destruct Hp|]. cbn [flat_map] in N.
  assert (N1 : NoDup (flat_map parts l)).
  { clear - N. induction (parts x) as [|a m IHm]; [exact N|]. cbn [app] in N. inversion N; subst. auto. }
  assert (N2 : forall c, In c (parts x) -> In c (flat_map parts l) -> False).
  { clear - N. intros c H1 H2. induction (parts x) as [|a m IHm]; [destruct H1|]. cbn [app] in N. inversion N as [|b k K1 K2]; subst.
    destruct H1 as [<-|H1]; [apply K1, in_or_app; now right|auto]. }
  destruct Hp as [<-|Hp], Hp' as [<-|Hp']; [reflexivity| | |eauto].
  - exfalso. apply (N2 c Hc). apply in_flat_map. eauto.
  - exfalso. apply (N2 c Hc'). apply in_flat_map. eauto.
Qed.

(** The packets may differ in what is about to be set. *)
Definition alike (Z : list piece) (ka kb : packet) : Prop :=
  k_polygon ka = k_polygon kb /\ k_mode ka = k_mode kb /\ k_edge ka = k_edge kb /\ below_rel Z (k_below ka) (k_below kb)
  /\ k_left_done ka = k_left_done kb /\ k_right_done ka = k_right_done kb /\ k_left_contour ka = k_left_contour kb
  /\ k_right_contour ka = k_right_contour kb /\ k_left_index ka = k_left_index kb /\ k_right_index ka = k_right_index kb
  /\ length (k_left ka) = length (k_left kb) /\ length (k_right ka) = length (k_right kb).

Lemma matched_alike : forall Z ka kb, matched Z ka kb -> alike Z ka kb.
Proof. intros Z ka kb [H1 H2]. unfold alike. rewrite H1. cbn. rewrite H1 in H2. cbn in H2. repeat split; auto. Qed.
Lemma matched_more : forall Z Z' ka kb, (forall p, In p Z -> In p Z') -> matched Z ka kb -> matched Z' ka kb.
Proof.
  intros Z Z' ka kb I [H1 H2]. split; [exact H1|]. unfold below_rel in *. destruct (k_below ka), (k_below kb); auto. destruct H2 as (p & H2 & H3). eauto.
Qed.
Lemma matched_edge : forall Z ka kb e, matched Z ka kb -> matched Z (with_edge ka e) (with_edge kb e).
Proof. intros Z ka kb e [H1 H2]. split; [|exact H2]. cbn. rewrite H1. reflexivity. Qed.

Lemma union_length : forall a b r, bits_union a b = Ok r -> length r = length a.
Proof.
  intros a b r H. unfold bits_union in H. destruct (Nat.eqb_spec (length a) (length b)) as [Q|]; [|discriminate]. injection H as <-.
  rewrite map_length, combine_length. lia.
Qed.
Lemma set_length : forall a i b r, bits_set a i b = Ok r -> length r = length a.
Proof.
  intros a i b r H. unfold bits_set in H. destruct (Nat.ltb_spec i (length a)) as [Q|]; [|discriminate]. injection H as <-. now apply set_nth_length.
Qed.

Lemma face_packets : forall ksA ks Z p o ks' ka kb, nth_error ksA (s_index (p_seg p)) = Some ka -> nth_error ks (s_index (p_head p)) = Some kb -> alike Z ka kb ->
  match o with
  | None => True
  | Some b => In b Z /\ s_index (p_seg b) <> s_index (p_seg p) /\ vertical (p_seg b) = vertical (p_head b)
      /\ exists ja jb, nth_error ksA (s_index (p_seg b)) = Some ja /\ nth_error ks (s_index (p_head b)) = Some jb /\ matched Z ja jb
  end ->
  update_polygon_facing ks (p_head p) (option_map p_head o) = Ok ks' ->
  exists ka' kb', update_polygon_facing ksA (p_seg p) (option_map p_seg o) = Ok (put_packet ksA (p_seg p) ka') /\ ks' = put_packet ks (p_head p) kb'
    /\ matched Z ka' kb' /\ length (k_left kb') = length (k_left kb) /\ length (k_right kb') = length (k_right kb) /\ k_polygon kb' = k_polygon kb /\ k_mode kb' = k_mode kb.
Proof.
  intros ksA ks Z p o ks' ka kb Ka Kb (P1 & P2 & P3 & P4 & P5 & P6 & P7 & P8 & P9 & P10 & P11 & P12) Ho H.
  unfold update_polygon_facing, get_packet, index_nat in *. rewrite Ka. rewrite Kb in H. cbn [obind] in *.
  destruct o as [b|]; cbn [option_map] in *.
  - destruct Ho as (Hb & NI & V & ja & jb & Ja & Jb & [J1 J2]). apply Nat.eqb_neq in NI. rewrite NI, Ja. rewrite Jb in H.
    destruct (s_index (p_head b) =? s_index (p_head p))%nat; [discriminate H|]. cbn [obind] in *.
    assert (Q1 : k_polygon ja = k_polygon jb) by (rewrite J1; reflexivity). assert (Q2 : k_up_out ja = k_up_out jb) by (rewrite J1; reflexivity).
    assert (Q3 : k_outside ja = k_outside jb) by (rewrite J1; reflexivity). assert (Q4 : k_left ja = k_left jb) by (rewrite J1; reflexivity).
    assert (Q5 : k_right ja = k_right jb) by (rewrite J1; reflexivity). assert (Q6 : k_edge ja = k_edge jb) by (rewrite J1; reflexivity).
    rewrite P1, Q1, Q2, Q3, Q4, Q5, Q6, V.
    set (m := if (k_polygon kb =? k_polygon jb)%nat then _ else _) in *. destruct m as [[up outs]| |]; cbn [obind] in *; [|discriminate H..].
    unfold bits_clear in *. rewrite P11, P12.
    destruct (bits_union (repeat false (length (k_left kb))) (k_left jb)) as [l| |] eqn:U1; cbn [obind] in *; [|discriminate H..].
    destruct (bits_union (repeat false (length (k_right kb))) (if is_non_contributing (k_edge jb) then k_right jb else k_left jb)) as [r| |] eqn:U2; cbn [obind] in *; [|discriminate H..].
    destruct (bits_set l (k_polygon kb) (negb up)) as [l'| |] eqn:U3; cbn [obind] in *; [|discriminate H..]. injection H as <-.
    apply union_length in U1, U2. apply set_length in U3. rewrite repeat_length in U1, U2.
    eexists _, _. split; [reflexivity|]. split; [reflexivity|]. split; [split|].
    + unfold with_below, with_in_result, with_facing, is_in_result. cbn. rewrite P1, P2, P3, P5, P6, P7, P8, P9, P10. reflexivity.
    + cbn. destruct (vertical (p_head b) || is_non_contributing (k_edge jb)); [exact J2|]. exists b. auto.
    + cbn. repeat split; congruence.
  - unfold bits_clear in *. rewrite P1, P11, P12. destruct (bits_set (repeat false (length (k_left kb))) (k_polygon kb) true) as [l| |] eqn:U1; cbn [obind] in *; [|discriminate H..].
    injection H as <-. apply set_length in U1. rewrite repeat_length in U1. eexists _, _. split; [reflexivity|]. split; [reflexivity|]. split; [split|].
    + unfold with_below, with_in_result, with_facing, is_in_result. cbn. rewrite P1, P2, P3, P5, P6, P7, P8, P9, P10. reflexivity.
    + exact P4.
    + cbn. rewrite repeat_length. repeat split; congruence.
Qed.

Definition shrunk (x x' : piece) : Prop := p_side x' = p_side x /\ p_head x' = p_head x /\ exists t, p_tail x = p_tail x' ++ t.
Lemma shrunk_refl : forall x, shrunk x x.
Proof. intros x. split; [reflexivity|]. split; [reflexivity|]. exists []. now rewrite app_nil_r. Qed.
Lemma shrunk_trans : forall x y z, shrunk x y -> shrunk y z -> shrunk x z.
Proof. intros x y z (H1 & H2 & t & H3) (G1 & G2 & u & G3). split; [congruence|]. split; [congruence|]. exists (u ++ t). rewrite H3, G3. now rewrite <- app_assoc. Qed.

Definition tails (l : list piece) : nat := list_sum (map (fun p => length (p_tail p)) l).
Definition todo (U T : list piece) (st : list bseg) : nat := (2 * length U + length T + length st + 3 * (tails U + tails T))%nat.
Lemma tails_app : forall l m, tails (l ++ m) = (tails l + tails m)%nat.
Proof. intros l m. unfold tails. now rewrite map_app, list_sum_app. Qed.
Lemma tails_cons : forall x m, tails (x :: m) = (length (p_tail x) + tails m)%nat.
Proof. reflexivity. Qed.

Section Resolve.
Variables (zs : list corners) (S : list bseg) (modes : list polygon_mode).
Notation E := (edges zs).
Notation n := (length modes).
Notation eg := (eg (edges zs)).
Notation L s := (e_left (eg s)).
Notation R s := (e_right (eg s)).
Notation poly s := (e_poly (eg s)).
Notation mode_at := (mode_at modes).
Notation together := (together (edges zs)).
Notation reach := (reach (edges zs)).
Hypothesis (D : drawn E S).
Variable cs : list (list bseg).
Notation sub := (sub cs).
Notation chain := (chain (edges zs) S).
Notation span := (span (edges zs)).
Notation fine := (fine (edges zs) cs).
Notation p_span := (p_span (edges zs)).
Notation core := (core zs S modes cs).
Notation unborn := (unborn modes).
Hypothesis Chain : forall k b tl, sub k b tl -> chain b tl.
Hypothesis Fit : forall k k' b tl b' tl', sub k b tl -> sub k' b' tl' -> k <> k' -> fit (span b tl) (span b' tl').
Hypothesis Canon : forall s, In s S -> s_left s = int_point (L s) /\ s_right s = int_point (R s).

Definition quiet (x y : piece) : Prop := ~ exists v, crosses (p_span x) (p_span y) v.

Lemma sides_differ : forall x y, fine x -> fine y -> together (p_head x) (p_head y) -> p_head x <> p_head y -> p_side x <> p_side y.
Proof using D Chain.
  intros x y Fx Fy T N Q. apply N. destruct Fx as [Sx _], Fy as [Sy _]. rewrite <- Q in Sy.
  apply (side_apart E S D cs Chain _ _ _ _ _ _ _ Sx Sy); auto; now left.
Qed.

Lemma drawn_nodup : NoDup S.
Proof using D.
  clear - D. apply NoDup_nth_error. intros i j Hi Q. destruct (nth_error S i) as [s|] eqn:X; [|apply nth_error_None in X; lia].
  rewrite <- (dr_index _ _ D i s X). now apply (dr_index _ _ D).
Qed.

Section Facts.
Variables (w : sweep) (ks : list packet) (U T W : list piece) (st : list bseg).
Hypothesis C : core w ks U T W st.

Lemma core_part : forall p p' c, In p (U ++ T ++ W) -> In p' (U ++ T ++ W) -> In c (parts p) -> In c (parts p') -> p = p'.
Proof using D C.
  intros p p' c. apply part_piece. apply (Permutation_NoDup (Permutation_sym (c_parts _ _ _ _ _ _ _ _ _ _ C))), drawn_nodup.
Qed.
Lemma core_head : forall p p', In p (U ++ T ++ W) -> In p' (U ++ T ++ W) -> s_index (p_head p) = s_index (p_head p') -> p = p'.
Proof using D Chain C.
  intros p p' Hp Hp' Q. apply (core_part p p' (p_head p)); auto; [now left|]. left. symmetry.
  apply (index_eq _ _ D); auto; apply (fine_head E S cs Chain); now apply (c_fine _ _ _ _ _ _ _ _ _ _ C).
Qed.

Lemma put_core : forall p ka kb, In p (T ++ W) -> matched (T ++ W) ka kb -> length (k_left kb) = n -> length (k_right kb) = n ->
  k_polygon kb = poly (p_head p) -> k_mode kb = mode_at (poly (p_head p)) ->
  core (with_packets w (put_packet (w_packets w) (p_seg p) ka)) (put_packet ks (p_head p) kb) U T W st.
Proof using D Chain C.
  intros p ka kb Hp M L1 L2 P1 P2. assert (Hp' : In p (U ++ T ++ W)) by (apply in_or_app; now right).
  destruct (c_started _ _ _ _ _ _ _ _ _ _ C p Hp) as (ka0 & kb0 & K1 & K2 & _).
  assert (B1 : (s_index (p_seg p) < length (w_packets w))%nat) by (apply nth_error_Some; congruence).
  assert (B2 : (s_index (p_head p) < length ks)%nat) by (apply nth_error_Some; congruence).
  destruct C. constructor; cbn [with_packets w_segs w_packets w_queue w_active w_swept]; auto.
  - unfold put_packet. rewrite set_nth_length; auto.
  - intros p' Hq. assert (Hq' : In p' (U ++ T ++ W)) by (apply in_or_app; now right).
    destruct (Nat.eq_dec (s_index (p_seg p)) (s_index (p_seg p'))) as [Q|Q].
    + assert (p = p') by (apply (map_nodup_eq _ _ _ _ c_index Hp' Hq' Q)). subst p'. exists ka, kb. unfold put_packet.
      rewrite !nth_set_same by assumption. repeat split; auto; apply M.
    + destruct (c_started p' Hq) as (k & k' & G1 & G2 & G3). exists k, k'. unfold put_packet.
      rewrite !nth_set_other; auto. intros X. apply Q. f_equal. f_equal. apply core_head; auto.
  - intros p' Hq. destruct (c_new p' Hq) as (k & G1 & G2). exists k. split; [|exact G2]. unfold put_packet. rewrite nth_set_other; auto.
    intros Q. assert (Hq' : In p' (U ++ T ++ W)) by (apply in_or_app; now left).
    assert (p = p') by (apply (map_nodup_eq _ _ _ _ c_index Hp' Hq' Q)). subst p'.
    pose proof c_index as ND. rewrite map_app in ND. apply in_split in Hq. destruct Hq as (u1 & u2 & ->). rewrite map_app, <- app_assoc in ND.
    apply NoDup_remove_2 in ND. apply ND. rewrite in_app_iff. right. apply in_or_app. right. now apply (in_map (fun q => s_index (p_seg q))).
Qed.

Lemma face_core : forall p o ks', In p T -> match o with None => True | Some b => In b T /\ b <> p end ->
  update_polygon_facing ks (p_head p) (option_map p_head o) = Ok ks' ->
  exists ksA, update_polygon_facing (w_packets w) (p_seg p) (option_map p_seg o) = Ok ksA /\ core (with_packets w ksA) ks' U T W st.
Proof using D Chain C.
  intros p o ks' Hp Ho H. assert (HZ : forall q, In q T -> In q (T ++ W)) by (intros; apply in_or_app; now left).
  destruct (c_started _ _ _ _ _ _ _ _ _ _ C p (HZ p Hp)) as (ka & kb & K1 & K2 & K3 & K4 & K5 & K6 & K7).
  destruct (face_packets (w_packets w) ks (T ++ W) p o ks' ka kb K1 K2 (matched_alike _ _ _ K3)) as (ka' & kb' & F1 & F2 & F3 & F4 & F5 & F6 & F7); [|exact H|].
  - destruct o as [b|]; [|exact I]. destruct Ho as [Hb N]. split; [auto|]. split; [|split].
    + intros Q. apply N. apply (index_piece zs S modes cs _ _ _ _ _ _ C); auto; apply in_or_app; right; auto.
    + apply (vertical_piece E S D cs Chain). apply (c_fine _ _ _ _ _ _ _ _ _ _ C). apply in_or_app. right. auto.
    + destruct (c_started _ _ _ _ _ _ _ _ _ _ C b (HZ b Hb)) as (ja & jb & J1 & J2 & J3 & _). eauto.
  - exists (put_packet (w_packets w) (p_seg p) ka'). split; [exact F1|]. rewrite F2. apply put_core; auto; congruence.
Qed.
End Facts.

Lemma quiet_ends : forall x y v, is_end v (p_span x) -> is_end v (p_span y) ->
  (forall w, on_at (p_span x) w -> on_at (p_span y) w -> w = v) -> quiet x y.
Proof using.
  clear D Chain Fit Canon. intros x y v E1 E2 U (u & M & N & _). pose proof M as [[O1 O2] _]. apply N. rewrite (U u O1 O2). auto.
Qed.
Lemma quiet_apart : forall x y, apart (p_span x) (p_span y) -> quiet x y.
Proof using.
  clear D Chain Fit Canon. intros x y A (u & M & N & _). pose proof M as [[O1 O2] _]. apply N. now apply apart_at.
Qed.
Lemma quiet_same : forall x y, fine x -> fine y -> same_ends (eg (p_head x)) (eg (p_head y)) = true -> p_tail x = [] -> p_tail y = [] -> quiet x y.
Proof using D Chain.
  clear Fit Canon. intros x y Fx Fy SE Tx Ty (u & M & _). apply same_ends_iff in SE. destruct SE as [S1 S2].
  pose proof (seg_lr _ _ D _ (fine_head E S cs Chain x Fx)) as Lx. unfold CrossMeet.p_span in M. rewrite Tx, Ty in M.
  assert (Q1 : L (p_head x) = u).
  { apply (meet_once _ _ _ _ M); [apply (on_left (span (p_head x) []))|]. rewrite S1. apply (on_left (span (p_head y) [])). }
  assert (Q2 : R (p_head x) = u).
  { apply (meet_once _ _ _ _ M); [apply (on_right (span (p_head x) []))|]. rewrite S2. apply (on_right (span (p_head y) [])). }
  rewrite Q1, Q2, lex_refl in Lx. discriminate.
Qed.

Lemma shrunk_on : forall x x' v, fine x -> shrunk x x' -> on_at (p_span x') v -> on_at (p_span x) v.
Proof using D Chain.
  intros x x' v Fx (_ & H & t & Q) O. unfold CrossMeet.p_span in *. rewrite H in O. rewrite Q. apply (on_prefix _ _ D); [|exact O].
  rewrite <- Q. now apply (fine_chain E S cs Chain).
Qed.
Lemma shrunk_end : forall x x' v, fine x -> fine x' -> shrunk x x' -> is_end v (p_span x) -> on_at (p_span x') v -> is_end v (p_span x').
Proof using D Chain.
  intros x x' v Fx Fx' (H0 & H & t & Q) [V|V] O; [left; unfold CrossMeet.p_span, CrossPieces.span in *; cbn in *; now rewrite H|right].
  apply on_at_iff in O; [|now apply (span_lr E S D cs Chain)]. destruct O as (_ & _ & O). pose proof (fine_chain E S cs Chain x Fx) as Cx.
  unfold CrossMeet.p_span, CrossPieces.span in *. cbn in *. rewrite H in *. rewrite Q in *. destruct t as [|c t]; [now rewrite app_nil_r in V|].
  exfalso. apply O. destruct (chain_app _ _ _ _ _ _ Cx) as (_ & C2 & Q2 & Q3 & _). rewrite V, Q2, Q3. now apply (reach_spec _ _ D).
Qed.

Lemma quiet_shrunk : forall x y x' y', fine x -> fine y -> fine x' -> fine y' -> p_side x <> p_side y -> shrunk x x' -> shrunk y y' -> quiet x y -> quiet x' y'.
Proof using D Chain Fit.
  intros x y x' y' Fx Fy Fx' Fy' N Hx Hy Q (v & M & NE & F1 & F2). pose proof M as [[O1 O2] _].
  destruct (fit_cases E S D cs Chain Fit x y Fx Fy N) as [(SE & Tx & Ty)|[(SE & A)|(SE & X)]].
  - destruct Hx as (_ & X2 & t & X3). destruct Hy as (_ & Y2 & u & Y3). rewrite Tx in X3. rewrite Ty in Y3. symmetry in X3, Y3.
    apply app_eq_nil in X3, Y3. apply (quiet_same x' y' Fx' Fy'); [now rewrite X2, Y2|apply X3|apply Y3|]. exists v. split; [exact M|auto].
  - destruct (apart_at _ _ v A (shrunk_on _ _ _ Fx Hx O1) (shrunk_on _ _ _ Fy Hy O2)) as [V1 V2]. apply NE.
    split; [now apply (shrunk_end x)|now apply (shrunk_end y)].
  - now apply Q.
Qed.
End Resolve.
