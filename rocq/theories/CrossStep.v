(** One event of the sweep, next to the event of the first edge. *)

From Coq Require Import List ZArith QArith Bool Arith Lia Permutation.
From Verif Require Import Base Float SpecFloat64 SpecShape SpecOrder SpecIntersect SpecHandle SpecTidy SpecContainers Geometry Sweep
  Contours Compute FloatFacts MapFacts ShapeFacts OrderFacts ContainerFacts HandleFacts TidyGeo TidyParity TidySetup TidyLine TidyPackets TidySweep
  CrossGeo CrossPieces CrossMeet CrossCore CrossSplit CrossResolve CrossPair CrossLeft SpecCross.
Import ListNotations.

Lemma shrunk_heads : forall l l', Forall2 shrunk l l' -> map p_head l' = map p_head l.
Proof. induction 1 as [|x x' l l' (_ & H & _) _ IH]; cbn; congruence. Qed.
Lemma shrunk_back : forall l l' x, Forall2 shrunk l l' -> In x l' -> exists y, In y l /\ shrunk y x.
Proof.
  intros l l' x H. induction H as [|a a' l l' H1 _ IH]; intros I; [destruct I|]. destruct I as [<-|I]; [exists a; split; [now left|exact H1]|].
  destruct (IH I) as (y & Y1 & Y2). exists y. split; [now right|exact Y2].
Qed.
Lemma shrunk_list : forall l, Forall2 shrunk l l.
Proof. induction l; constructor; auto using shrunk_refl. Qed.

Lemma ex_bind : forall {A B} (m : outcome A) (k : A -> outcome B) a (P : B -> Prop), m = Ok a -> (exists r, k a = Ok r /\ P r) -> exists r, obind m k = Ok r /\ P r.
Proof. intros A B m k a P -> H. exact H. Qed.

Section Step.
Variables (zs : list corners) (S : list bseg) (modes : list polygon_mode).
Notation E := (edges zs).
Notation n := (length modes).
Notation eg := (eg (edges zs)).
Notation L s := (e_left (eg s)).
Notation R s := (e_right (eg s)).
Notation poly s := (e_poly (eg s)).
Notation mode_at := (mode_at modes).
Notation together := (together (edges zs)).
Notation reach := (reach (edges zs)).
Hypothesis (D : drawn E S).
Variable cs : list (list bseg).
Notation sub := (sub cs).
Notation chain := (chain (edges zs) S).
Notation span := (span (edges zs)).
Notation fine := (fine (edges zs) cs).
Notation p_span := (p_span (edges zs)).
Notation quiet := (quiet zs).
Notation quiet_opt := (quiet_opt zs).
Notation calm := (calm zs).
Notation core := (core zs S modes cs).
Hypothesis Chain : forall k b tl, sub k b tl -> chain b tl.
Hypothesis Fit : forall k k' b tl b' tl', sub k b tl -> sub k' b' tl' -> k <> k' -> fit (span b tl) (span b' tl').
Hypothesis Canon : forall s, In s S -> s_left s = int_point (L s) /\ s_right s = int_point (R s).

Lemma fine_T : forall w ks U T W st p, core w ks U T W st -> In p T -> fine p.
Proof using. clear. intros w ks U T W st p C H. apply (c_fine _ _ _ _ _ _ _ _ _ _ C), core_T, H. Qed.

Lemma left_sim : forall w ks Ua p Ub T W st q qB sw ks' act', core w ks (Ua ++ p :: Ub) T W st -> calm T ->
  Permutation (w_queue w) ((p_seg p, LeftEnd) :: q) -> heap cmp_of q ->
  nth_error ks (s_index (p_head p)) = Some (packet_new (poly (p_head p)) (mode_at (poly (p_head p))) n) ->
  ~ In (p_head p) (map p_head T) -> (forall x, In x T -> together (p_head p) (p_head x)) ->
  (exists bl ab act1, sl_insert_neighbors segment_cmp (map p_head T) (p_head p) = Ok (bl, ab, act1) /\ strictly_sorted sc act1 /\ In (p_head p) act1) ->
  sweep_left n (mk_sweep S ks qB (map p_head T) sw) (p_head p) = Ok (mk_sweep S ks' qB act' sw) ->
  exists w', sweep_left n (mk_sweep (w_segs w) (w_packets w) q (w_active w) (w_swept w)) (p_seg p) = Ok w' /\
  exists U' T' st', core w' ks' U' T' W st' /\ act' = map p_head T' /\ calm T' /\ (todo U' T' st' + 1 = todo (Ua ++ p :: Ub) T st)%nat
    /\ forall x, In x T' -> exists y, In y (p :: T) /\ shrunk y x.
Proof using D Chain Fit Canon.
  intros w ks Ua p Ub T W st q qB sw ks' act' C Cm Pq Hq Kb NI Tg (bl & ab & act1 & B1 & B2 & B3) HB.
  assert (HT : exists T1 T2, T = T1 ++ T2 /\ act1 = map p_head (T1 ++ p :: T2)).
  { unfold sl_insert_neighbors in B1. destruct (binary_search segment_cmp (map p_head T) (p_head p)) as [[f ix]| |]; cbn [obind] in B1; [|discriminate B1..].
    match type of B1 with obind ?m _ = _ => destruct m as [o| |]; cbn [obind] in B1; [|discriminate B1..] end. injection B1 as _ _ B1. destruct f; [subst; contradiction|].
    exists (firstn ix T), (skipn ix T). split; [symmetry; apply firstn_skipn|]. rewrite <- B1. rewrite <- map_insert. reflexivity. }
  destruct HT as (T1 & T2 & -> & ->). clear B1 bl ab.
  assert (Hp : In p ((Ua ++ p :: Ub) ++ (T1 ++ T2) ++ W)) by (rewrite !in_app_iff; left; right; now left).
  pose proof (c_fine _ _ _ _ _ _ _ _ _ _ C p Hp) as Fp.
  assert (FT : forall x, In x (T1 ++ T2) -> fine x) by (intros x; apply (fine_T _ _ _ _ _ _ _ C)).
  assert (NX : forall x, In x (T1 ++ T2) -> p_head x <> p_head p /\ s_index (p_seg x) <> s_index (p_seg p)).
  { intros x Hx. assert (N : p_head x <> p_head p) by (intros Q; apply NI; rewrite <- Q; now apply in_map). split; [exact N|]. intros Q. apply N. f_equal.
    apply (index_piece zs S modes cs _ _ _ _ _ _ C); auto. now apply core_T. }
  assert (SB : binary_search segment_cmp (map p_head (T1 ++ T2)) (p_head p) = Ok (false, length T1)).
  { rewrite !map_app in *. cbn [map] in *. rewrite <- (map_length p_head T1). apply (search_missing zs S D); [exact B2|]. apply Forall_forall. intros y Hy.
    rewrite in_app_iff in Hy. cbn [In] in Hy.
    assert (Hy' : y = p_head p \/ In y (map p_head (T1 ++ T2))) by (rewrite map_app, in_app_iff; intuition). destruct Hy' as [->|Hy'].
    - now apply (fine_head E S cs Chain).
    - apply in_map_iff in Hy'. destruct Hy' as (x & <- & Hx). apply (fine_head E S cs Chain), FT, Hx. }
  assert (SA : binary_search segment_cmp (map p_seg (T1 ++ T2)) (p_seg p) = Ok (false, length T1)).
  { etransitivity; [|exact SB]. apply search_zip. intros x Hx. destruct (NX x Hx). apply (zip2 zs S D cs Chain Fit); auto. destruct (Tg x Hx). now split. }
  assert (IB : sl_insert_neighbors segment_cmp (map p_head (T1 ++ T2)) (p_head p) = Ok (option_map p_head (last_of T1), option_map p_head (hd_error T2), map p_head (T1 ++ p :: T2))).
  { rewrite !map_app in *. cbn [map]. rewrite <- last_map, <- hd_map. apply insert_nb. now rewrite map_length. }
  assert (IA : sl_insert_neighbors segment_cmp (map p_seg (T1 ++ T2)) (p_seg p) = Ok (option_map p_seg (last_of T1), option_map p_seg (hd_error T2), map p_seg (T1 ++ p :: T2))).
  { rewrite !map_app in *. cbn [map]. rewrite <- last_map, <- hd_map. apply insert_nb. now rewrite map_length. }
  unfold sweep_left in HB |- *. cbn [w_segs w_packets w_queue w_active w_swept] in HB |- *. rewrite (c_act _ _ _ _ _ _ _ _ _ _ C).
  match type of HB with obind ?m _ = _ => replace m with (Ok (option_map p_head (last_of T1), option_map p_head (hd_error T2), map p_head (T1 ++ p :: T2))) in HB by (symmetry; exact IB) end.
  cbn [obind w_packets] in HB.
  destruct (update_polygon_facing ks (p_head p) (option_map p_head (last_of T1))) as [ks1| |] eqn:U1; cbn [obind] in HB; [|discriminate HB..].
  destruct (c_new _ _ _ _ _ _ _ _ _ _ C p) as (k0 & K0 & l0 & r0 & K1 & K2 & K3); [apply in_or_app; right; now left|].
  destruct (face_packets (w_packets w) ks ((T1 ++ p :: T2) ++ W) p (last_of T1) ks1 k0 _ K0 Kb) as (ka & kb & F1 & F2 & F3 & F4 & F5 & F6 & F7).
  { rewrite K3. unfold alike. cbn. rewrite !repeat_length. auto 12. }
  { destruct (last_of T1) as [b|] eqn:Lb; [|exact I]. apply last_in in Lb. assert (Hb : In b (T1 ++ T2)) by (apply in_or_app; now left).
    split; [rewrite !in_app_iff; auto|]. split; [now apply NX|]. split; [apply (vertical_piece E S D cs Chain), FT, Hb|].
    destruct (c_started _ _ _ _ _ _ _ _ _ _ C b) as (ja & jb & J1 & J2 & J3 & _); [apply in_or_app; now left|]. exists ja, jb.
    split; [exact J1|]. split; [exact J2|]. apply (matched_more ((T1 ++ T2) ++ W)); [|exact J3]. intros y Hy. rewrite !in_app_iff in *. cbn [In]. tauto. }
  { exact U1. }
  assert (C1 := start_core zs S modes D cs Chain w ks Ua p Ub T1 T2 W st q ka kb C Pq Hq B2 Tg).
  rewrite F2 in HB. assert (Lk : (s_index (p_head p) < length ks)%nat) by (apply nth_error_Some; rewrite Kb; discriminate).
  specialize (C1 Lk F3). rewrite F4, F5, F6, F7 in C1. specialize (C1 (repeat_length _ _) (repeat_length _ _) eq_refl eq_refl).
  set (w1 := mk_sweep _ _ _ _ _) in C1. set (ksb := put_packet ks (p_head p) kb) in *.
  destruct (handle_intersections ksb (Some (p_head p)) (option_map p_head (hd_error T2))) as [[[[mB o1] o2] ksB]| |] eqn:H1; cbn [obind] in HB; [|discriminate HB..].
  destruct (near_above zs S modes D cs Chain Fit Canon _ _ _ _ _ _ _ _ _ _ _ _ C1 H1) as (-> & -> & m & c1 & c2 & ksA & p' & T2' & w2 & w3 & U' & st' & G1 & G2 & G3 & G4 & G5 & G6 & G7 & G8 & G9 & G10).
  cbn [maybe_split maybe_split_opt obind] in HB.
  refine (ex_bind _ _ _ _ IA _). cbn [w_packets]. refine (ex_bind _ _ _ _ F1 _). refine (ex_bind _ _ _ _ G1 _).
  refine (ex_bind _ _ _ _ G4 _). refine (ex_bind _ _ _ _ G5 _). cbn beta iota.
  rewrite G2.
  assert (Hp' : p_head p' = p_head p) by apply G7.
  assert (Fp' : fine p') by (apply (fine_T _ _ _ _ _ _ _ G6), in_or_app; right; now left).
  assert (Fa' : forall x, In x T2' -> fine x) by (intros x Hx; apply (fine_T _ _ _ _ _ _ _ G6), in_or_app; right; now right).
  assert (HT2 : option_map p_head (hd_error T2) = option_map p_head (hd_error T2')) by (rewrite <- !hd_map; now rewrite (shrunk_heads _ _ G8)).
  rewrite HT2, <- Hp' in HB. clear IA IB SA SB F1 F2 U1 H1 G1 G4 G5 F3.
  (* facing again *)
  match type of HB with obind ?m _ = _ => destruct m as [wB| |] eqn:HB1 end; cbn [obind] in HB; [|discriminate HB..].
  match goal with |- exists r, obind ?m ?k = Ok r /\ _ =>
    assert (Mid : exists w4 ks4, m = Ok w4 /\ wB = mk_sweep S ks4 qB (map p_head (T1 ++ p :: T2)) sw /\ core w4 ks4 U' (T1 ++ p' :: T2') W st') end.
  { destruct (mB =? 2)%nat eqn:QB.
    - destruct T2' as [|a' T2']; [exfalso; inversion G8; subst; now apply G3|]. cbn [hd_error option_map unwrap obind w_packets with_packets] in HB1 |- *.
      destruct (update_polygon_facing ksB (p_head p') (option_map p_head (last_of T1))) as [ks2| |] eqn:U2; cbn [obind] in HB1; [|discriminate HB1..].
      assert (NDh := head_T zs S modes D cs Chain _ _ _ _ _ _ G6).
      destruct (face_core zs S modes D cs Chain _ _ _ _ _ _ G6 p' (last_of T1) ks2) as (ksA2 & V1 & V2); [apply in_or_app; right; now left| |exact U2|].
      { destruct (last_of T1) as [b|] eqn:Lb; [|exact I]. apply last_in in Lb. split; [apply in_or_app; now left|]. intros ->.
        rewrite map_app in NDh. cbn [map] in NDh. apply NoDup_remove_2 in NDh. apply NDh, in_or_app. left. now apply in_map. }
      destruct (update_polygon_facing ks2 (p_head a') (Some (p_head p'))) as [ks3| |] eqn:U3; cbn [obind] in HB1; [|discriminate HB1..].
      destruct (face_core zs S modes D cs Chain _ _ _ _ _ _ V2 a' (Some p') ks3) as (ksA3 & V3 & V4); [apply in_or_app; right; right; now left| |exact U3|].
      { split; [apply in_or_app; right; now left|]. intros ->. rewrite map_app in NDh. cbn [map] in NDh. apply NoDup_remove_2 in NDh. apply NDh, in_or_app. right. now left. }
      injection HB1 as <-. exists (with_packets (with_packets w3 ksA2) ksA3), ks3.
      split; [|split; [reflexivity|exact V4]].
      refine (obind_ok _ _ _ _ V1 _). refine (obind_ok _ _ _ _ V3 _). now destruct w3.
    - injection HB1 as <-. exists w3, ksB. split; [reflexivity|]. split; [reflexivity|exact G6]. }
  destruct Mid as (w4 & ks4 & M1 & -> & M3). clear HB1 G6.
  refine (ex_bind _ _ _ _ M1 _). clear M1.
  cbn [obind w_packets with_packets] in HB |- *.
  destruct (handle_intersections ks4 (option_map p_head (last_of T1)) (Some (p_head p'))) as [[[[mB2 o1] o2] ks5]| |] eqn:H2; cbn [obind] in HB; [|discriminate HB..].
  destruct (near_below zs S modes D cs Chain Fit Canon _ _ _ _ _ _ _ _ _ _ _ _ M3 H2) as (-> & -> & m2 & d1 & d2 & ksA5 & p2 & T1' & w5 & w6 & U2 & st2 & J1 & J2 & J3 & J4 & J5 & J6 & J7 & J8 & J9 & J10).
  cbn [maybe_split maybe_split_opt obind] in HB.
  refine (ex_bind _ _ _ _ J1 _). refine (ex_bind _ _ _ _ J4 _). refine (ex_bind _ _ _ _ J5 _). cbn beta iota.
 rewrite J2.
  assert (Hp2 : p_head p2 = p_head p') by apply J7.
  assert (HT1 : option_map p_head (last_of T1) = option_map p_head (last_of T1')) by (rewrite <- !last_map; now rewrite (shrunk_heads _ _ J8)).
  rewrite HT1, <- Hp2 in HB. clear J1 J4 J5 H2 M3.
  assert (Act : map p_head (T1 ++ p :: T2) = map p_head (T1' ++ p2 :: T2')).
  { rewrite !map_app. cbn [map]. rewrite (shrunk_heads _ _ J8), (shrunk_heads _ _ G8). congruence. }
  rewrite Act in HB.
  assert (Fin : forall w7 ks7, core w7 ks7 U2 (T1' ++ p2 :: T2') W st2 ->
    core w7 ks7 U2 (T1' ++ p2 :: T2') W st2 /\ map p_head (T1' ++ p2 :: T2') = map p_head (T1' ++ p2 :: T2') /\ calm (T1' ++ p2 :: T2')
    /\ (todo U2 (T1' ++ p2 :: T2') st2 + 1 = todo (Ua ++ p :: Ub) (T1 ++ T2) st)%nat /\ forall x, In x (T1' ++ p2 :: T2') -> exists y, In y (p :: T1 ++ T2) /\ shrunk y x).
  { intros w7 ks7 C7. assert (F7' : forall x, In x (T1' ++ p2 :: T2') -> fine x) by (intros x; apply (fine_T _ _ _ _ _ _ _ C7)).
    pose proof (core_sides zs S modes D cs Chain _ _ _ _ _ _ C7) as ND7. pose proof (core_sides zs S modes D cs Chain _ _ _ _ _ _ C) as ND0.
    rewrite map_app in ND0.
    assert (ND1 : NoDup (map p_side T1) /\ NoDup (map p_side T2)).
    { clear - ND0. induction (map p_side T1) as [|a l IH]; cbn in *; [split; [constructor|exact ND0]|]. inversion ND0 as [|? ? N1 N2]; subst.
      destruct (IH N2). split; [constructor; [|assumption]|assumption]. intros X. apply N1, in_or_app. now left. }
    apply calm_app in Cm. destruct Cm as (Ca & Cb & _).
    split; [exact C7|]. split; [reflexivity|]. split; [|split].
    - apply calm_app. split; [|split].
      + apply (calm_shrunk zs S D cs Chain Fit T1 T1' J8 (proj1 ND1)); [| |exact Ca].
        * intros x Hx. apply FT, in_or_app. now left.
        * intros x Hx. apply F7', in_or_app. now left.
      + apply calm_cons. split.
        * destruct T2' as [|a' T2']; [exact I|]. cbn in G9 |- *. apply (quiet_shrunk zs S D cs Chain Fit p' a'); auto using shrunk_refl.
          -- apply Fa'. now left.
          -- apply F7', in_or_app. right. now left.
          -- apply Fa'. now left.
          -- rewrite map_app in ND7. cbn [map] in ND7. apply NoDup_remove_2 in ND7. destruct J7 as (Q & _). rewrite <- Q. intros X. apply ND7, in_or_app. right. left. now symmetry.
        * apply (calm_shrunk zs S D cs Chain Fit T2 T2' G8 (proj2 ND1)); [| |exact Cb].
          -- intros x Hx. apply FT, in_or_app. now right.
          -- intros x Hx. apply F7', in_or_app. right. now right.
      + exact J9.
    - rewrite J10, G10. unfold todo. rewrite !app_length, !tails_app, !tails_cons. cbn [length]. lia.
    - intros x Hx. apply in_app_iff in Hx. destruct Hx as [Hx|[<-|Hx]].
      + destruct (shrunk_back _ _ _ J8 Hx) as (y & Y1 & Y2). exists y. split; [right; apply in_or_app; now left|exact Y2].
      + exists p. split; [now left|]. now apply (shrunk_trans p p').
      + destruct (shrunk_back _ _ _ G8 Hx) as (y & Y1 & Y2). exists y. split; [right; apply in_or_app; now right|exact Y2]. }
  destruct (mB2 =? 2)%nat eqn:QB.
  - destruct T1' as [|b' T1' _] using rev_ind; [exfalso; inversion J8; subst; now apply J3|]. rewrite last_snoc in HB |- *. cbn [option_map unwrap obind w_packets w_active with_packets] in HB |- *.
    clear HT1 Act. rewrite <- app_assoc in *. cbn [app] in *.
    assert (NDh := head_T zs S modes D cs Chain _ _ _ _ _ _ J6).
    assert (FB : binary_search segment_cmp (map p_head (T1' ++ b' :: p2 :: T2')) (p_head b') = Ok (true, length T1')).
    { rewrite map_app. cbn [map]. rewrite <- (map_length p_head T1'). pose proof (c_sorted _ _ _ _ _ _ _ _ _ _ J6) as X. pose proof (core_heads zs S modes cs Chain _ _ _ _ _ _ J6) as Y.
      rewrite map_app in X, Y. cbn [map] in X, Y. apply (search_found zs S D); [exact X|exact Y]. }
    assert (FA : binary_search segment_cmp (map p_seg (T1' ++ b' :: p2 :: T2')) (p_seg b') = Ok (true, length T1')).
    { etransitivity; [|exact FB]. apply (search_T zs S modes D cs Chain Fit _ _ _ _ _ _ J6). apply in_or_app. right. now left. }
    assert (PB : sl_previous segment_cmp (map p_head (T1' ++ b' :: p2 :: T2')) (p_head b') = Ok (option_map p_head (last_of T1'))).
    { rewrite map_app in FB |- *. cbn [map] in FB |- *. rewrite <- last_map. apply previous_nb. now rewrite map_length. }
    assert (PA : sl_previous segment_cmp (map p_seg (T1' ++ b' :: p2 :: T2')) (p_seg b') = Ok (option_map p_seg (last_of T1'))).
    { rewrite map_app in FA |- *. cbn [map] in FA |- *. rewrite <- last_map. apply previous_nb. now rewrite map_length. }
    match type of HB with obind ?m _ = _ => replace m with (Ok (option_map p_head (last_of T1'))) in HB by (symmetry; exact PB) end. cbn [obind] in HB.
    destruct (update_polygon_facing ks5 (p_head b') (option_map p_head (last_of T1'))) as [ks6| |] eqn:U4; cbn [obind] in HB; [|discriminate HB..].
    destruct (face_core zs S modes D cs Chain _ _ _ _ _ _ J6 b' (last_of T1') ks6) as (ksA6 & V1 & V2); [apply in_or_app; right; now left| |exact U4|].
    { destruct (last_of T1') as [b|] eqn:Lb; [|exact I]. apply last_in in Lb. split; [apply in_or_app; now left|]. intros ->.
      rewrite map_app in NDh. cbn [map] in NDh. apply NoDup_remove_2 in NDh. apply NDh, in_or_app. left. now apply in_map. }
    destruct (update_polygon_facing ks6 (p_head p2) (Some (p_head b'))) as [ks7| |] eqn:U5; cbn [obind] in HB; [|discriminate HB..].
    destruct (face_core zs S modes D cs Chain _ _ _ _ _ _ V2 p2 (Some b') ks7) as (ksA7 & V3 & V4); [apply in_or_app; right; right; now left| |exact U5|].
    { split; [apply in_or_app; right; now left|]. intros ->. rewrite map_app in NDh. cbn [map] in NDh. apply NoDup_remove_2 in NDh. apply NDh, in_or_app. right. now left. }
    unfold with_packets in HB. cbn [w_segs w_queue w_active w_swept] in HB. injection HB as <- <-.
    exists (with_packets (with_packets w6 ksA6) ksA7). split; [|exists U2, (T1' ++ b' :: p2 :: T2'), st2; exact (Fin _ _ V4)].
    rewrite (c_act _ _ _ _ _ _ _ _ _ _ J6). refine (obind_ok _ _ _ _ PA _). refine (obind_ok _ _ _ _ V1 _). refine (obind_ok _ _ _ _ V3 _). now destruct w6.
  - unfold with_packets in HB. cbn [w_segs w_queue w_active w_swept] in HB. injection HB as <- <-.
    exists w6. split; [reflexivity|]. exists U2, (T1' ++ p2 :: T2'), st2. exact (Fin _ _ J6).
Qed.
End Step.
