(** How the sweep resolves two neighbours, next to how it resolves their first edges. *)

From Coq Require Import List ZArith QArith Bool Arith Lia Permutation.
From Verif Require Import Base Float SpecFloat64 SpecShape SpecOrder SpecIntersect SpecHandle SpecTidy SpecContainers Geometry Sweep
  Contours Compute FloatFacts MapFacts ShapeFacts OrderFacts ContainerFacts HandleFacts TidyGeo TidyParity TidySetup TidyLine TidyPackets TidySweep
  CrossGeo CrossPieces CrossMeet CrossCore CrossSplit CrossResolve SpecCross.
Import ListNotations.

Lemma with_same : forall w, with_packets w (w_packets w) = w.
Proof. now intros []. Qed.

Section Pair.
Variables (zs : list corners) (S : list bseg) (modes : list polygon_mode).
Notation E := (edges zs).
Notation n := (length modes).
Notation eg := (eg (edges zs)).
Notation L s := (e_left (eg s)).
Notation R s := (e_right (eg s)).
Notation poly s := (e_poly (eg s)).
Notation mode_at := (mode_at modes).
Notation together := (together (edges zs)).
Notation reach := (reach (edges zs)).
Hypothesis (D : drawn E S).
Variable cs : list (list bseg).
Notation sub := (sub cs).
Notation chain := (chain (edges zs) S).
Notation span := (span (edges zs)).
Notation fine := (fine (edges zs) cs).
Notation p_span := (p_span (edges zs)).
Notation quiet := (quiet zs).
Notation core := (core zs S modes cs).
Hypothesis Chain : forall k b tl, sub k b tl -> chain b tl.
Hypothesis Fit : forall k k' b tl b' tl', sub k b tl -> sub k' b' tl' -> k <> k' -> fit (span b tl) (span b' tl').
Hypothesis Canon : forall s, In s S -> s_left s = int_point (L s) /\ s_right s = int_point (R s).

Lemma cross_end : forall x y v, fine x -> fine y -> meet_at (e_left (p_span x)) (e_right (p_span x)) (e_left (p_span y)) (e_right (p_span y)) (inject_Z (fst v)) (inject_Z (snd v)) ->
  (is_end v (p_span x) /\ negb (point_eqb (s_left (p_seg x)) (int_point v)) && negb (point_eqb (s_right (p_seg x)) (int_point v)) = false)
  \/ (exists t1 c t2, p_tail x = t1 ++ c :: t2 /\ L c = v)
     /\ negb (point_eqb (s_left (p_seg x)) (int_point v)) && negb (point_eqb (s_right (p_seg x)) (int_point v)) = true.
Proof using D Chain.
  clear Canon Fit. intros x y v Fx Fy M. pose proof (fine_chain E S cs Chain x Fx) as Cx. pose proof (within_reach E S D _ _ Cx) as W2.
  destruct (within_lr E S D (p_head x) (chain_head _ _ _ _ Cx)) as [W1 _]. destruct Fx as [Sx (X1 & X2 & X3)]. rewrite X1, X2.
  destruct (cross_part E S D cs Chain x y v) as [V|[V|(t1 & c & t2 & V1 & V2)]]; auto.
  - repeat split; auto.
  - left. subst v. split; [now left|]. rewrite (proj2 (int_point_eqb _ _ W1 W1) eq_refl). reflexivity.
  - left. subst v. split; [now right|]. rewrite (proj2 (int_point_eqb _ _ W2 W2) eq_refl). now rewrite andb_false_r.
  - right. split; [eauto|]. rewrite V1 in Cx. destruct (chain_app _ _ _ _ _ _ Cx) as (K1 & K2 & K3 & K4 & _ & K5).
    destruct (reach_spec _ _ D _ _ K1) as (A1 & _). destruct (reach_spec _ _ D _ _ K2) as (A2 & _). rewrite K3, V2 in A1. rewrite V2 in A2.
    destruct (within_lr E S D c (chain_head _ _ _ _ K2)) as [W3 _]. rewrite V2 in W3.
    apply andb_true_iff. split; apply negb_true_iff; apply not_true_iff_false; intros Q; apply int_point_eqb in Q; auto.
    + rewrite Q, lex_refl in A1. discriminate.
    + rewrite V1, K4 in Q. rewrite Q, lex_refl in A2. discriminate.
Qed.

(** One of the two, cut where they cross. *)
Lemma cut : forall w ks U T1 x T2 W st v o, core w ks U (T1 ++ x :: T2) W st ->
  (is_end v (p_span x) /\ o = None \/ (exists t1 c t2, p_tail x = t1 ++ c :: t2 /\ L c = v) /\ o = Some (int_point v)) ->
  exists x' w' U' st', maybe_split n w (p_seg x) o = Ok (p_seg x', w') /\ core w' ks U' (T1 ++ x' :: T2) W st' /\ shrunk x x' /\ is_end v (p_span x')
    /\ todo U' (T1 ++ x' :: T2) st' = todo U (T1 ++ x :: T2) st /\ (exists u, U' = u ++ U) /\ (o = None -> x' = x).
Proof using D Chain Fit.
  clear Canon. intros w ks U T1 x T2 W st v o C [[V ->]|[(t1 & c & t2 & V1 & V2) ->]].
  - exists x, w, U, st. split; [reflexivity|]. split; [exact C|]. split; [apply shrunk_refl|]. split; [exact V|]. split; [reflexivity|]. split; [now exists []|auto].
  - destruct (split_core zs S modes D cs Chain Fit _ _ _ _ _ _ _ _ _ _ _ C V1) as (x1 & x2 & w' & H1 & H2 & H3 & H4 & H5 & H6). rewrite V2 in H1.
    exists x1, w', (x2 :: U), (p_seg x :: st). split; [exact H1|]. split; [exact H6|]. split; [|split; [|split; [|split; [now exists [x2]|discriminate]]]].
    + split; [exact H4|]. split; [exact H2|]. exists (c :: t2). now rewrite H3.
    + right. unfold CrossMeet.p_span, CrossPieces.span. cbn. rewrite H2, H3.
      assert (Fx : fine x) by (apply (c_fine _ _ _ _ _ _ _ _ _ _ C); rewrite !in_app_iff; right; left; right; now left).
      pose proof (fine_chain E S cs Chain x Fx) as Cx. rewrite V1 in Cx. destruct (chain_app _ _ _ _ _ _ Cx) as (_ & _ & K3 & _). now rewrite K3.
    + unfold todo. rewrite !app_length, !tails_app, !tails_cons. cbn [length]. rewrite H5, H3, V1, app_length. cbn [length]. lia.
Qed.

Lemma resolve : forall w ks U T1 x y T2 W st mB o1 o2 ksB, core w ks U (T1 ++ x :: y :: T2) W st ->
  handle_intersections ks (Some (p_head x)) (Some (p_head y)) = Ok (mB, o1, o2, ksB) ->
  o1 = None /\ o2 = None /\
  exists m c1 c2 ksA x' y' w1 w2 U' st', handle_intersections (w_packets w) (Some (p_seg x)) (Some (p_seg y)) = Ok (m, c1, c2, ksA) /\ (m =? 2)%nat = (mB =? 2)%nat
    /\ maybe_split n (with_packets w ksA) (p_seg x) c1 = Ok (p_seg x', w1) /\ maybe_split n w1 (p_seg y) c2 = Ok (p_seg y', w2)
    /\ core w2 ksB U' (T1 ++ x' :: y' :: T2) W st' /\ shrunk x x' /\ shrunk y y' /\ quiet x' y'
    /\ todo U' (T1 ++ x' :: y' :: T2) st' = todo U (T1 ++ x :: y :: T2) st /\ (exists u, U' = u ++ U).
Proof using D Chain Fit Canon.
  intros w ks U T1 x y T2 W st mB o1 o2 ksB C HB. set (T := T1 ++ x :: y :: T2) in *.
  assert (Hx : In x T) by (apply in_or_app; right; now left). assert (Hy : In y T) by (apply in_or_app; right; right; now left).
  assert (Fx : fine x) by (apply (c_fine _ _ _ _ _ _ _ _ _ _ C), core_T, Hx). assert (Fy : fine y) by (apply (c_fine _ _ _ _ _ _ _ _ _ _ C), core_T, Hy).
  assert (Tg : together (p_head x) (p_head y)) by (now apply (c_together _ _ _ _ _ _ _ _ _ _ C)).
  assert (Nh : p_head x <> p_head y).
  { pose proof (head_T zs S modes D cs Chain _ _ _ _ _ _ C) as N. unfold T in N. rewrite map_app in N. cbn [map] in N. apply NoDup_remove_2 in N.
    intros Q. apply N, in_or_app. right. left. now symmetry. }
  assert (Nxy : x <> y) by (intros Q; apply Nh; now rewrite Q).
  pose proof (sides_differ zs S D cs Chain x y Fx Fy Tg Nh) as Ns.
  pose proof (fine_head E S cs Chain x Fx) as Ix. pose proof (fine_head E S cs Chain y Fy) as Iy.
  pose proof (piece_z E S D cs Chain x Fx) as Zx. pose proof (piece_z E S D cs Chain y Fy) as Zy.
  assert (Apart : same_ends (eg (p_head x)) (eg (p_head y)) = false -> o1 = None /\ o2 = None /\ ksB = ks /\ (mB =? 2)%nat = false).
  { intros SE. destruct (handle_apart ks (p_head x) (p_head y) (eg (p_head x)) (eg (p_head y))) as (m & H1 & H2).
    - now apply (seg_spec _ _ D).
    - now apply (seg_spec _ _ D).
    - now apply (pairs_apart _ _ D).
    - rewrite H1 in HB. injection HB as <- <- <- <-. auto. }
  destruct (fit_cases E S D cs Chain Fit x y Fx Fy Ns) as [(SE & Tx & Ty)|[(SE & A)|(SE & v & Cv)]].
  - clear Apart. pose proof (quiet_same zs S D cs Chain x y Fx Fy SE Tx Ty) as Qu.
    destruct Fx as [Sx (X1 & X2 & X3)]. destruct Fy as [Sy (Y1 & Y2 & Y3)]. rewrite Tx in X2. rewrite Ty in Y2.
    destruct (Canon _ Ix) as [Cx1 Cx2]. destruct (Canon _ Iy) as [Cy1 Cy2].
    assert (PL : s_left (p_seg x) = s_left (p_head x)) by (rewrite Cx1; exact X1). assert (PR : s_right (p_seg x) = s_right (p_head x)) by (rewrite Cx2; exact X2).
    assert (QL : s_left (p_seg y) = s_left (p_head y)) by (rewrite Cy1; exact Y1). assert (QR : s_right (p_seg y) = s_right (p_head y)) by (rewrite Cy2; exact Y2).
    apply same_ends_iff in SE. destruct SE as [S1 S2].
    assert (EL : s_left (p_head y) = s_left (p_head x)) by (rewrite Cx1, Cy1, S1; reflexivity).
    assert (ER : s_right (p_head y) = s_right (p_head x)) by (rewrite Cx2, Cy2, S2; reflexivity).
    assert (PE : point_eqb (s_left (p_head x)) (s_left (p_head x)) = true).
    { rewrite Cx1. apply int_point_eqb; auto; now apply (within_lr E S D). }
    assert (RC : compare_points (s_right (p_head x)) (s_right (p_head x)) = Ok Eq).
    { rewrite Cx2. destruct (within_lr E S D _ Ix) as [_ Wa].
      rewrite (compare_z _ _ (R (p_head x)) (R (p_head x))), lex_refl; auto using int_point_at. }
    assert (K : exists m ksA ksB', handle_intersections (w_packets w) (Some (p_seg x)) (Some (p_seg y)) = Ok (m, None, None, ksA)
      /\ handle_intersections ks (Some (p_head x)) (Some (p_head y)) = Ok (m, None, None, ksB') /\ core (with_packets w ksA) ksB' U T W st).
    { unfold handle_intersections in *. rewrite PL, PR, QL, QR. rewrite EL, ER in HB |- *.
      destruct (intersect_segments _ _) as [|p|p q] in HB |- *.
      - exists 0%nat, (w_packets w), ks. rewrite with_same. auto.
      - rewrite PE. cbn [orb]. exists 0%nat, (w_packets w), ks. rewrite with_same. auto.
      - assert (HZ : forall q, In q T -> In q (T ++ W)) by (intros; apply in_or_app; now left).
        destruct (c_started _ _ _ _ _ _ _ _ _ _ C x (HZ x Hx)) as (ka & kb & A1 & A2 & A3 & A4 & A5 & A6 & A7).
        destruct (c_started _ _ _ _ _ _ _ _ _ _ C y (HZ y Hy)) as (ja & jb & B1 & B2 & B3 & B4 & B5 & B6 & B7).
        unfold get_packet, index_nat in HB |- *. rewrite A1, B1. rewrite A2, B2 in HB |- *. cbn [obind] in HB |- *.
        destruct A3 as [A3 A3']. destruct B3 as [B3 B3'].
        assert (G1 : k_polygon ka = k_polygon kb) by (rewrite A3; reflexivity). assert (G2 : k_polygon ja = k_polygon jb) by (rewrite B3; reflexivity).
        assert (G3 : k_up_out ka = k_up_out kb) by (rewrite A3; reflexivity). assert (G4 : k_up_out ja = k_up_out jb) by (rewrite B3; reflexivity).
        assert (G5 : k_edge ja = k_edge jb) by (rewrite B3; reflexivity).
        rewrite G1, G2, G3, G4. destruct (k_polygon kb =? k_polygon jb)%nat; [discriminate HB|].
        destruct (compare_points (s_left (p_head x)) (s_left (p_head x))) as [cl| |]; cbn [obind] in HB |- *; [|discriminate HB..].
        rewrite RC in HB |- *. cbn [obind] in HB |- *. rewrite PE in HB |- *.
        pose proof (put_core zs S modes D cs Chain _ _ _ _ _ _ C x (with_edge ka ENonContributing) (with_edge kb ENonContributing) (HZ x Hx)) as P1.
        specialize (P1 (matched_edge _ _ _ _ (conj A3 A3')) A4 A5 A6 A7).
        assert (I1 : s_index (p_seg y) <> s_index (p_seg x)).
        { intros Q. apply Nxy. symmetry. apply (index_piece zs S modes cs _ _ _ _ _ _ C); auto; now apply core_T. }
        assert (I2 : s_index (p_head y) <> s_index (p_head x)) by (intros Q; apply Nh; symmetry; now apply (index_eq _ _ D)).
        assert (E1 : nth_error (put_packet (w_packets w) (p_seg x) (with_edge ka ENonContributing)) (s_index (p_seg y)) = Some ja)
          by (unfold put_packet; rewrite nth_set_other; [exact B1|apply nth_error_Some; rewrite A1; discriminate|intros Q; now apply I1]).
        assert (E2 : nth_error (put_packet ks (p_head x) (with_edge kb ENonContributing)) (s_index (p_head y)) = Some jb)
          by (unfold put_packet; rewrite nth_set_other; [exact B2|apply nth_error_Some; rewrite A2; discriminate|intros Q; now apply I2]).
        rewrite E1. rewrite E2 in HB |- *. cbn [obind] in HB |- *. rewrite G5.
        destruct (is_non_contributing (k_edge jb)) in HB |- *.
        + exists 2%nat, (put_packet (w_packets w) (p_seg x) (with_edge ka ENonContributing)), (put_packet ks (p_head x) (with_edge kb ENonContributing)). auto.
        + set (t2 := if Bool.eqb _ _ then _ else _) in *.
          pose proof (put_core zs S modes D cs Chain _ _ _ _ _ _ P1 y (with_edge ja t2) (with_edge jb t2) (HZ y Hy)) as P2.
          specialize (P2 (matched_edge _ _ _ _ (conj B3 B3')) B4 B5 B6 B7). eexists 2%nat, _, _. split; [reflexivity|]. split; [reflexivity|].
          exact P2. }
    destruct K as (m & ksA & ksB' & K1 & K2 & K3). rewrite K2 in HB. injection HB as <- <- <- <-. split; [reflexivity|]. split; [reflexivity|].
    exists m, None, None, ksA, x, y, (with_packets w ksA), (with_packets w ksA), U, st. split; [exact K1|]. split; [reflexivity|].
    split; [reflexivity|]. split; [reflexivity|]. split; [exact K3|]. split; [apply shrunk_refl|]. split; [apply shrunk_refl|]. split; [exact Qu|].
    split; [reflexivity|now exists []].
  - destruct (Apart SE) as (-> & -> & -> & Hm). split; [reflexivity|]. split; [reflexivity|].
    destruct (handle_apart (w_packets w) (p_seg x) (p_seg y) (p_span x) (p_span y) Zx Zy A) as (m & H1 & H2).
    exists m, None, None, (w_packets w), x, y, w, w, U, st. split; [exact H1|]. split; [congruence|]. rewrite with_same.
    split; [reflexivity|]. split; [reflexivity|]. split; [exact C|]. split; [apply shrunk_refl|]. split; [apply shrunk_refl|].
    split; [now apply quiet_apart|]. split; [reflexivity|now exists []].
  - destruct (Apart SE) as (-> & -> & -> & Hm). split; [reflexivity|]. split; [reflexivity|]. destruct Cv as (M & NE & F1 & F2).
    assert (M' : meet_at (e_left (p_span y)) (e_right (p_span y)) (e_left (p_span x)) (e_right (p_span x)) (inject_Z (fst v)) (inject_Z (snd v))).
    { destruct M as [[M1 M2] M3]. split; [split; assumption|]. intros a b [G1 G2]. apply M3. now split. }
    set (pt := fun s : bseg => if negb (point_eqb (s_left s) (int_point v)) && negb (point_eqb (s_right s) (int_point v)) then Some (int_point v) else None).
    assert (H : handle_intersections (w_packets w) (Some (p_seg x)) (Some (p_seg y)) = Ok (1%nat, pt (p_seg x), pt (p_seg y), w_packets w)).
    { unfold handle_intersections. pose proof (fine_chain E S cs Chain x Fx) as Kx. pose proof (fine_chain E S cs Chain y Fy) as Ky.
      pose proof Fx as [Sx (X1 & X2 & X3)]. pose proof Fy as [Sy (Y1 & Y2 & Y3)]. rewrite X1, X2, Y1, Y2.
      match goal with |- match ?i with _ => _ end = _ => replace i with (IPoint (int_point v)) by (symmetry; exact F1) end.
      destruct (point_eqb (int_point (L (p_head x))) (int_point (L (p_head y)))) eqn:Q1.
      { exfalso. apply int_point_eqb in Q1; [|now apply (within_lr E S D)..]. apply NE.
        assert (V : L (p_head x) = v).
        { apply (meet_once _ _ _ _ M); [apply (on_left (p_span x))|]. rewrite Q1. apply (on_left (p_span y)). }
        split; left; [now symmetry|]. cbn. rewrite <- Q1. now symmetry. }
      destruct (point_eqb (int_point (reach (p_head x) (p_tail x))) (int_point (reach (p_head y) (p_tail y)))) eqn:Q2.
      { exfalso. apply int_point_eqb in Q2; [|now apply (within_reach E S D)..]. apply NE.
        assert (V : reach (p_head x) (p_tail x) = v).
        { apply (meet_once _ _ _ _ M); [apply (on_right (p_span x))|]. rewrite Q2. apply (on_right (p_span y)). }
        split; right; [now symmetry|]. cbn. rewrite <- Q2. now symmetry. }
      cbn [orb]. unfold pt. rewrite X1, X2, Y1, Y2. reflexivity. }
    destruct (cut w ks U T1 x (y :: T2) W st v (pt (p_seg x)) C) as (x' & w1 & U1 & st1 & G1 & G2 & G3 & G4 & G5 & (u1 & G6) & _).
    { destruct (cross_end x y v Fx Fy M) as [[Q1 Q2]|[Q1 Q2]]; unfold pt; rewrite Q2; auto. }
    assert (G2' : core w1 ks U1 ((T1 ++ [x']) ++ y :: T2) W st1) by (rewrite <- app_assoc; exact G2).
    destruct (cut w1 ks U1 (T1 ++ [x']) y T2 W st1 v (pt (p_seg y)) G2') as (y' & w2 & U2 & st2 & J1 & J2 & J3 & J4 & J5 & (u2 & J6) & _).
    { destruct (cross_end y x v Fy Fx M') as [[Q1 Q2]|[Q1 Q2]]; unfold pt; rewrite Q2; auto. }
    rewrite <- app_assoc in J2. rewrite <- !app_assoc in J5. cbn [app] in J2, J5.
    exists 1%nat, (pt (p_seg x)), (pt (p_seg y)), (w_packets w), x', y', w1, w2, U2, st2. split; [exact H|]. split; [now rewrite Hm|]. rewrite with_same.
    split; [exact G1|]. split; [exact J1|]. split; [exact J2|]. split; [exact G3|]. split; [exact J3|]. split; [|split].
    + apply (quiet_ends zs x' y' v G4 J4). intros u O1 O2. apply (meet_once _ _ _ _ M).
      * now apply (shrunk_on zs S D cs Chain x x').
      * now apply (shrunk_on zs S D cs Chain y y').
    + unfold T. congruence.
    + exists (u2 ++ u1). rewrite J6, G6. now rewrite app_assoc.
Qed.
End Pair.
