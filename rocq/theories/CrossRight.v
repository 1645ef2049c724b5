(** A right end, next to the right end of the edge; and the ends that are left over from splitting. *)

From Coq Require Import List ZArith QArith Bool Arith Lia Permutation.
From Verif Require Import Base Float SpecFloat64 SpecShape SpecOrder SpecIntersect SpecHandle SpecTidy SpecContainers Geometry Sweep
  Contours Compute FloatFacts MapFacts ShapeFacts OrderFacts ContainerFacts HandleFacts TidyGeo TidyParity TidySetup TidyLine TidyPackets TidySweep
  CrossGeo CrossPieces CrossMeet CrossCore CrossSplit CrossResolve CrossPair CrossLeft CrossStep SpecCross.
Import ListNotations.

Lemma sorted_without : forall {A} (c : A -> A -> comparison) l1 x l2, strictly_sorted c (l1 ++ x :: l2) -> strictly_sorted c (l1 ++ l2).
Proof.
  induction l1 as [|a l1 IH]; intros x l2 H; cbn [app strictly_sorted] in *; [apply H|]. destruct H as [H1 H2]. split; [|eauto].
  rewrite Forall_forall in *. intros y Hy. apply H1. rewrite in_app_iff in *. cbn [In]. tauto.
Qed.

Lemma bs_any : forall {A} (cmp : A -> A -> outcome comparison) l x, (forall y, In y l -> exists c, cmp y x = Ok c /\ c <> Eq) ->
  exists ix, binary_search cmp l x = Ok (false, ix) /\ (ix <= length l)%nat.
Proof.
  intros A cmp l x H.
  assert (B : forall fuel base size, (size <= fuel)%nat -> (0 < size)%nat -> (base + size <= length l)%nat -> exists b, bs_loop cmp fuel l x base size = Ok b /\ (b < length l)%nat).
  { induction fuel as [|fuel IH]; intros base size H1 H2 H3; [lia|]. cbn [bs_loop]. destruct (Nat.leb_spec size 1) as [Q|Q]; [exists base; split; [reflexivity|lia]|].
    assert (Hh : (1 <= size / 2)%nat) by (apply Nat.div_le_lower_bound; lia). assert (Hl : (size / 2 < size)%nat) by (apply Nat.div_lt; lia).
    unfold index_nat. destruct (nth_error l (base + size / 2)) as [y|] eqn:Y; [|apply nth_error_None in Y; lia]. cbn [obind].
    destruct (H y) as (c & -> & _); [eapply nth_error_In; eassumption|]. cbn [obind]. apply IH; [lia|lia|]. destruct c; lia. }
  unfold binary_search. destruct l as [|a l']; [exists 0%nat; split; [reflexivity|cbn; lia]|]. set (l := a :: l') in *.
  destruct (B (length l) 0%nat (length l)) as (b & -> & Hb); [lia|cbn; lia|lia|]. cbn [obind]. unfold index_nat.
  destruct (nth_error l b) as [y|] eqn:Y; [|apply nth_error_None in Y; lia]. cbn [obind]. destruct (H y) as (c & -> & Hc); [eapply nth_error_In; eassumption|].
  cbn [obind]. destruct c; [congruence| |]; eexists; (split; [reflexivity|lia]).
Qed.

Section Right.
Variables (zs : list corners) (S : list bseg) (modes : list polygon_mode).
Notation E := (edges zs).
Notation n := (length modes).
Notation eg := (eg (edges zs)).
Notation L s := (e_left (eg s)).
Notation R s := (e_right (eg s)).
Notation poly s := (e_poly (eg s)).
Notation mode_at := (mode_at modes).
Notation together := (together (edges zs)).
Notation reach := (reach (edges zs)).
Hypothesis (D : drawn E S).
Variable cs : list (list bseg).
Notation sub := (sub cs).
Notation chain := (chain (edges zs) S).
Notation span := (span (edges zs)).
Notation fine := (fine (edges zs) cs).
Notation p_span := (p_span (edges zs)).
Notation quiet := (quiet zs).
Notation quiet_opt := (quiet_opt zs).
Notation calm := (calm zs).
Notation core := (core zs S modes cs).
Hypothesis Chain : forall k b tl, sub k b tl -> chain b tl.
Hypothesis Fit : forall k k' b tl b' tl', sub k b tl -> sub k' b' tl' -> k <> k' -> fit (span b tl) (span b' tl').
Hypothesis Canon : forall s, In s S -> s_left s = int_point (L s) /\ s_right s = int_point (R s).

Lemma end_core : forall w ks U T1 p T2 W st q, core w ks U (T1 ++ p :: T2) W st -> p_tail p = [] ->
  Permutation (w_queue w) ((p_seg p, RightEnd) :: q) -> heap cmp_of q ->
  core (mk_sweep (w_segs w) (w_packets w) q (map p_seg (T1 ++ T2)) (w_swept w ++ [p_seg p])) ks U (T1 ++ T2) (W ++ [p]) st.
Proof using.
  clear D Chain Fit Canon. intros w ks U T1 p T2 W st q C Hp Pq Hq.
  assert (PM : Permutation (U ++ (T1 ++ p :: T2) ++ W) (U ++ (T1 ++ T2) ++ W ++ [p])).
  { apply Permutation_app_head. rewrite <- !app_assoc. apply Permutation_app_head. cbn [app]. rewrite app_assoc. apply Permutation_cons_append. }
  assert (Back : forall x, In x (U ++ (T1 ++ T2) ++ W ++ [p]) -> In x (U ++ (T1 ++ p :: T2) ++ W)) by (intros x Hx; now apply (Permutation_in _ (Permutation_sym PM))).
  assert (Sub : forall x, In x (T1 ++ T2) -> In x (T1 ++ p :: T2)) by (intros x; rewrite !in_app_iff; cbn [In]; tauto).
  assert (Z1 : forall x, In x ((T1 ++ T2) ++ W ++ [p]) -> In x ((T1 ++ p :: T2) ++ W)) by (intros x; rewrite !in_app_iff; cbn [In]; intuition).
  assert (Z2 : forall x, In x ((T1 ++ p :: T2) ++ W) -> In x ((T1 ++ T2) ++ W ++ [p])) by (intros x; rewrite !in_app_iff; cbn [In]; intuition).
  destruct C. constructor; cbn [w_segs w_packets w_queue w_active w_swept]; auto.
  - etransitivity; [|exact c_parts]. symmetry. now apply Permutation_flat_map.
  - apply (Permutation_NoDup (Permutation_map _ PM)), c_index.
  - intros s Hs. destruct (c_stale s Hs) as (G1 & G2 & G3). split; [exact G1|]. split; [exact G2|]. intros x Hx. apply G3. now apply Back.
  - apply (Permutation_cons_inv (a := (p_seg p, RightEnd))). rewrite <- Pq, c_queue. unfold events. rewrite !map_app. cbn [map]. rewrite <- !app_assoc. cbn [app].
    rewrite !(app_assoc (flat_map both_ends U)). symmetry. apply Permutation_middle.
  - rewrite c_swept, map_app. reflexivity.
  - intros x Hx. apply in_app_iff in Hx. destruct Hx as [Hx|[<-|[]]]; auto.
  - rewrite map_app in *. cbn [map] in c_sorted. eapply sorted_without. exact c_sorted.
  - intros x Hx. destruct (c_started x (Z1 x Hx)) as (k & k' & G1 & G2 & G3 & G4). exists k, k'. split; [exact G1|]. split; [exact G2|]. split; [|exact G4].
    eapply matched_more; [exact Z2|exact G3].
Qed.

Lemma right_sim : forall w ks U T1 p T2 W st q qB ks' act' sw', core w ks U (T1 ++ p :: T2) W st -> p_tail p = [] -> calm (T1 ++ p :: T2) ->
  Permutation (w_queue w) ((p_seg p, RightEnd) :: q) -> heap cmp_of q ->
  sweep_right n (mk_sweep S ks qB (map p_head (T1 ++ p :: T2)) (map p_head W)) (p_head p) = Ok (mk_sweep S ks' qB act' sw') ->
  exists w', sweep_right n (mk_sweep (w_segs w) (w_packets w) q (w_active w) (w_swept w)) (p_seg p) = Ok w' /\
  exists U' T' st', core w' ks' U' T' (W ++ [p]) st' /\ act' = map p_head T' /\ sw' = map p_head (W ++ [p]) /\ calm T'
    /\ (todo U' T' st' + 1 = todo U (T1 ++ p :: T2) st)%nat /\ forall x, In x T' -> exists y, In y (T1 ++ p :: T2) /\ shrunk y x.
Proof using D Chain Fit Canon.
  intros w ks U T1 p T2 W st q qB ks' act' sw' C Tp Cm Pq Hq HB.
  assert (FB : binary_search segment_cmp (map p_head (T1 ++ p :: T2)) (p_head p) = Ok (true, length T1)).
  { pose proof (c_sorted _ _ _ _ _ _ _ _ _ _ C) as X. pose proof (core_heads zs S modes cs Chain _ _ _ _ _ _ C) as Y.
    rewrite map_app in *. cbn [map] in *. rewrite <- (map_length p_head T1). apply (search_found zs S D); [exact X|exact Y]. }
  assert (FA : binary_search segment_cmp (map p_seg (T1 ++ p :: T2)) (p_seg p) = Ok (true, length T1)).
  { etransitivity; [|exact FB]. apply (search_T zs S modes D cs Chain Fit _ _ _ _ _ _ C). apply in_or_app. right. now left. }
  assert (RB : sl_remove_neighbors segment_cmp (map p_head (T1 ++ p :: T2)) (p_head p) = Ok (true, option_map p_head (last_of T1), option_map p_head (hd_error T2), map p_head (T1 ++ T2))).
  { rewrite !map_app in *. cbn [map] in *. rewrite <- last_map, <- hd_map. apply remove_nb. now rewrite map_length. }
  assert (RA : sl_remove_neighbors segment_cmp (map p_seg (T1 ++ p :: T2)) (p_seg p) = Ok (true, option_map p_seg (last_of T1), option_map p_seg (hd_error T2), map p_seg (T1 ++ T2))).
  { rewrite !map_app in *. cbn [map] in *. rewrite <- last_map, <- hd_map. apply remove_nb. now rewrite map_length. }
  pose proof (end_core _ _ _ _ _ _ _ _ _ C Tp Pq Hq) as C1. set (w1 := mk_sweep _ _ _ _ _) in C1.
  pose proof (core_sides zs S modes D cs Chain _ _ _ _ _ _ C1) as ND1. rewrite map_app in ND1.
  apply calm_app in Cm. destruct Cm as (Ca & Cb & _). apply calm_cons in Cb. destruct Cb as [_ Cb].
  unfold sweep_right in HB |- *. cbn [w_segs w_packets w_queue w_active w_swept] in HB |- *. rewrite (c_act _ _ _ _ _ _ _ _ _ _ C).
  match type of HB with obind ?m _ = _ => replace m with (Ok (true, option_map p_head (last_of T1), option_map p_head (hd_error T2), map p_head (T1 ++ T2))) in HB by (symmetry; exact RB) end.
  cbn [obind] in HB. refine (ex_bind _ _ _ _ RA _). cbn beta iota. change (mk_sweep (w_segs w) (w_packets w) q (map p_seg (T1 ++ T2)) (w_swept w ++ [p_seg p])) with w1.
  assert (Plain : calm (T1 ++ T2) -> ks' = ks -> act' = map p_head (T1 ++ T2) -> sw' = map p_head (W ++ [p]) ->
    exists U' T' st', core w1 ks' U' T' (W ++ [p]) st' /\ act' = map p_head T' /\ sw' = map p_head (W ++ [p]) /\ calm T'
      /\ (todo U' T' st' + 1 = todo U (T1 ++ p :: T2) st)%nat /\ forall x, In x T' -> exists y, In y (T1 ++ p :: T2) /\ shrunk y x).
  { intros Cm -> -> ->. exists U, (T1 ++ T2), st. split; [exact C1|]. split; [reflexivity|]. split; [reflexivity|]. split; [exact Cm|]. split.
    - unfold todo. rewrite !app_length, !tails_app, !tails_cons, Tp. cbn [length]. lia.
    - intros x Hx. exists x. split; [rewrite in_app_iff in *; cbn [In]; tauto|apply shrunk_refl]. }
  assert (Sw : map p_head W ++ [p_head p] = map p_head (W ++ [p])) by (now rewrite map_app).
  destruct T2 as [|a T2]; [|destruct T1 as [|b T1 _] using rev_ind].
  - cbn [hd_error option_map] in HB |- *. injection HB as <- <- <-. exists w1. split; [reflexivity|]. apply Plain; auto. now rewrite app_nil_r.
  - cbn [hd_error option_map last_of rev] in HB |- *. injection HB as <- <- <-. exists w1. split; [reflexivity|]. apply Plain; auto.
  - clear Plain. rewrite last_snoc in HB |- *. cbn [hd_error option_map w_packets w_segs w_queue w_active w_swept] in HB |- *.
    assert (C2 : core w1 ks U (T1 ++ b :: a :: T2) (W ++ [p]) st) by (rewrite <- app_assoc in C1; exact C1).
    match type of HB with obind ?m _ = _ => destruct m as [[[[mB o1] o2] ksB]| |] eqn:H; cbn [obind] in HB; [|discriminate HB..] end.
    destruct (resolve zs S modes D cs Chain Fit Canon _ _ _ _ _ _ _ _ _ _ _ _ _ C2 H) as (-> & -> & m & c1 & c2 & ksA & b' & a' & w2 & w3 & U' & st' & G1 & G2 & G3 & G4 & G5 & G6 & G7 & G8 & G9 & _).
    cbn [maybe_split obind] in HB. unfold with_packets in HB. cbn [w_segs w_packets w_queue w_active w_swept] in HB. injection HB as <- <- <-.
    refine (ex_bind _ _ _ _ G1 _). refine (ex_bind _ _ _ _ G3 _). refine (ex_bind _ _ _ _ G4 _). exists w3. split; [reflexivity|].
    assert (FT : forall x, In x ((T1 ++ [b]) ++ a :: T2) -> fine x) by (intros x; apply (fine_T _ _ _ _ _ _ _ _ _ _ _ C1)).
    assert (FT' : forall x, In x (T1 ++ b' :: a' :: T2) -> fine x) by (intros x; apply (fine_T _ _ _ _ _ _ _ _ _ _ _ G5)).
    assert (S1 : Forall2 shrunk (T1 ++ [b]) (T1 ++ [b'])) by (clear - G6; induction T1; constructor; auto using shrunk_refl).
    assert (S2 : Forall2 shrunk (a :: T2) (a' :: T2)) by (constructor; [exact G7|apply shrunk_list]).
    assert (ND : NoDup (map p_side (T1 ++ [b])) /\ NoDup (map p_side (a :: T2))).
    { clear - ND1. induction (map p_side (T1 ++ [b])) as [|x l IH]; cbn [app] in *; [split; [constructor|exact ND1]|]. inversion ND1 as [|? ? N1 N2]; subst.
      destruct (IH N2). split; [constructor; [|assumption]|assumption]. intros X. apply N1, in_or_app. now left. }
    assert (QT : T1 ++ b' :: a' :: T2 = (T1 ++ [b']) ++ a' :: T2) by (now rewrite <- app_assoc).
    exists U', (T1 ++ b' :: a' :: T2), st'. split; [exact G5|]. split; [|split; [exact Sw|split; [|split]]].
    + rewrite QT, !map_app. rewrite <- !map_app. rewrite (map_app p_head (T1 ++ [b])), (map_app p_head (T1 ++ [b'])), (shrunk_heads _ _ S1), (shrunk_heads _ _ S2). reflexivity.
    + rewrite QT in FT' |- *. apply calm_app. split; [|split; [|rewrite last_snoc; exact G8]].
      * apply (calm_shrunk zs S D cs Chain Fit _ _ S1 (proj1 ND)); [| |exact Ca]; intros x Hx; [apply FT|apply FT']; apply in_or_app; now left.
      * apply (calm_shrunk zs S D cs Chain Fit _ _ S2 (proj2 ND)); [| |exact Cb]; intros x Hx; [apply FT|apply FT']; apply in_or_app; now right.
    + rewrite G9. unfold todo. repeat (rewrite ?app_length, ?tails_app, ?tails_cons, ?Tp; cbn [length]). change (tails []) with 0%nat. lia.
    + intros x Hx. rewrite QT in Hx. apply in_app_iff in Hx. destruct Hx as [Hx|Hx].
      * destruct (shrunk_back _ _ _ S1 Hx) as (y & Y1 & Y2). exists y. split; [apply in_or_app; now left|exact Y2].
      * destruct (shrunk_back _ _ _ S2 Hx) as (y & Y1 & Y2). exists y. split; [apply in_or_app; right; now right|exact Y2].
Qed.

(** The end of a segment that has been replaced. *)
Lemma stale_sim : forall w ks U T W sa s sb q, core w ks U T W (sa ++ s :: sb) -> Permutation (w_queue w) ((s, RightEnd) :: q) -> heap cmp_of q ->
  exists w', sweep_right n (mk_sweep (w_segs w) (w_packets w) q (w_active w) (w_swept w)) s = Ok w' /\ core w' ks U T W (sa ++ sb)
    /\ (todo U T (sa ++ sb) + 1 = todo U T (sa ++ s :: sb))%nat.
Proof using D Chain.
  clear Canon Fit. intros w ks U T W sa s sb q C Pq Hq. destruct (c_stale _ _ _ _ _ _ _ _ _ _ C s) as (I1 & _ & I2); [apply in_or_app; right; now left|].
  destruct (bs_any segment_cmp (map p_seg T) s) as (ix & Hs & Hix).
  { intros y Hy. apply in_map_iff in Hy. destruct Hy as (x & <- & Hx). pose proof (core_T U T W x Hx) as Hx'.
    destruct (segment_anti _ (p_seg x) s) as (c & H1 & H2 & H3).
    - eexists _, _. apply (piece_z E S D cs Chain). now apply (c_fine _ _ _ _ _ _ _ _ _ _ C).
    - exact I1.
    - now apply I2.
    - exists c. split; [exact H1|assumption]. }
  assert (Bf : exists o, before (map p_seg T) ix = Ok o).
  { destruct ix as [|ix]; [now exists None|]. cbn [before]. unfold index_nat. destruct (nth_error (map p_seg T) ix) as [y|] eqn:Y; [now exists (Some y)|].
    apply nth_error_None in Y. rewrite map_length in Y, Hix. lia. }
  destruct Bf as (o & Bf). exists (mk_sweep (w_segs w) (w_packets w) q (w_active w) (w_swept w)). split; [|split].
  - unfold sweep_right. cbn [w_active w_segs w_packets w_queue w_swept]. unfold sl_remove_neighbors. rewrite (c_act _ _ _ _ _ _ _ _ _ _ C).
    etransitivity; [refine (obind_ok _ _ (false, o, nth_error (map p_seg T) ix, map p_seg T) _ _ eq_refl)|reflexivity].
    refine (obind_ok _ _ _ _ Hs _). refine (obind_ok _ _ _ _ Bf _). reflexivity.
  - destruct C. constructor; cbn [w_segs w_packets w_queue w_active w_swept]; auto.
    + intros t Ht. apply c_stale. rewrite in_app_iff in *. cbn [In]. tauto.
    + apply (Permutation_cons_inv (a := (s, RightEnd))). rewrite <- Pq, c_queue. unfold events. rewrite !map_app. cbn [map]. rewrite !app_assoc. symmetry. apply Permutation_middle.
  - unfold todo. rewrite !app_length. cbn [length]. lia.
Qed.
End Right.
