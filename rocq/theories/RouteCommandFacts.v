(** Proofs about the route command as a whole (C91), and more on the chart command (C80). *)

From Coq Require Import String List ZArith Bool Lia Sorted.
From Coq Require Import Strings.Byte.
From Verif Require Import SpecBytes Base BaseFacts ParseWad MapNameFacts ArchiveWad ParseMap SpecMapName SpecArchive SpecLumps SpecMap IterFacts ParseMapFacts
  PropsArchiveAux Float MapModel SpecMapModel MapFacts Contours Chart SpecChart ChartFacts ChartCommandFacts Route SpecRoute RouteDraw SpecRouteDraw SweepFacts.
Import ListNotations.
Local Open Scope Z_scope.

(** ** The description of a map is determined by its marker *)

Lemma denotes_unique : forall s n n', denotes s n -> denotes s n' -> n = n'.
Proof. intros s n n' H H'. apply map_name_of_iff in H. apply map_name_of_iff in H'. congruence. Qed.

Lemma block_unique : forall dir r r', block_ok dir r -> block_ok dir r' -> marker_index r = marker_index r' -> r = r'.
Proof.
  intros dir r r' (e & fs & He & Hd & HR & Hne & HI & HH & HD & HL1 & HL2) (e' & fs' & He' & Hd' & HR' & Hne' & HI' & HH' & HD' & HL1' & HL2') E.
  rewrite <- E in *. assert (e' = e) by congruence. subst e'. assert (fs' = fs) by (eapply longest_unique; eauto). subst fs'.
  assert (N : b_name r = b_name r') by (eapply denotes_unique; eauto).
  assert (L : forall f, lump_index f r = lump_index f r').
  { intros f. destruct (lump_index f r) as [k|] eqn:K.
    - apply HI in K. symmetry. apply HI'. exact K.
    - destruct (lump_index f r') as [k|] eqn:K'; [|reflexivity]. apply HI' in K'. apply HI in K'. congruence. }
  assert (F : b_format r = b_format r').
  { assert (D : In BEHAVIOR fs \/ ~ In BEHAVIOR fs) by (destruct (in_dec (fun a b : lump => ltac:(decide equality)) BEHAVIOR fs); auto).
    destruct D as [D|D]; [rewrite (HH D), (HH' D)|rewrite (HD D), (HD' D)]; reflexivity. }
  assert (X : last_index r = last_index r').
  { destruct (Nat.lt_ge_cases (S (marker_index r) + length fs) (length dir)) as [D|D]; [rewrite (HL1 D), (HL1' D)|rewrite (HL2 D), (HL2' D)]; reflexivity. }
  pose proof (L THINGS) as L1. pose proof (L LINEDEFS) as L2. pose proof (L SIDEDEFS) as L3. pose proof (L VERTEXES) as L4.
  pose proof (L SEGS) as L5. pose proof (L SSECTORS) as L6. pose proof (L NODES) as L7. pose proof (L SECTORS) as L8.
  pose proof (L REJECT) as L9. pose proof (L BLOCKMAP) as L10. pose proof (L BEHAVIOR) as L11. pose proof (L TEXTMAP) as L12.
  clear - N F X E L1 L2 L3 L4 L5 L6 L7 L8 L9 L10 L11 L12. cbn [lump_index] in *.
  destruct r, r'. cbn in *. subst. reflexivity.
Qed.

(** ** Which maps the iteration yields *)

Lemma block_marker : forall dir r, block_ok dir r -> marker dir (marker_index r).
Proof. intros dir r (e & fs & H1 & H2 & _). exists e, (b_name r). auto. Qed.

Lemma maps_of_in : forall l b, In (WMap b) l -> In b (maps_of l).
Proof.
  induction l as [|x l IH]; intros b H; cbn [maps_of]; [destruct H|]. destruct H as [->|H]; [left; reflexivity|].
  specialize (IH b H). destruct x; [right; exact IH|exact IH|exact IH|exact IH].
Qed.

(** A marker is reported as the map at it. *)
Lemma reported_map : forall w i, marker (directory w) i -> (forall j, (j <= i)%nat -> marker (directory w) j -> ~ broken (directory w) j) ->
  exists r, In r (iter_maps w) /\ marker_index r = i.
Proof.
  intros w i M B. assert (L : (i < length (directory w))%nat) by (destruct M as (e & nm & M & _); apply nth_error_Some; congruence).
  assert (R : reported w i) by (apply iter_reach; [exact L|]; intros j Lj (Mj & Bj); exact (B j Lj Mj Bj)).
  unfold reported in R. apply in_concat in R. destruct R as (sp & H1 & H2). apply in_map_iff in H1. destruct H1 as (x & <- & Hx).
  pose proof (iter_kinds w x Hx) as K. destruct x as [b|k e|k e|k e].
  - destruct H2 as [<-|H2]; [exists b; split; [apply maps_of_in, Hx|reflexivity]|].
    exfalso. unfold lump_positions in H2. apply in_flat_map in H2. destruct H2 as ([f o] & Hf & H2).
    destruct (lump_index f b) as [k|] eqn:E; [|destruct H2]. destruct H2 as [->|[]].
    destruct (block_in_range w b f i (maps_of_in _ _ Hx) E) as [Q _]. exact (named_not_marker _ _ _ Q M).
  - exfalso. destruct K as [_ K]. destruct H2 as [->|[]]. exact (K i eq_refl M).
  - exfalso. destruct K as [_ K]. destruct H2 as [->|[]]. exact (K i eq_refl M).
  - exfalso. destruct K as [_ K]. destruct H2 as [->|[]]. exact (K i eq_refl M).
Qed.

Lemma map_reported : forall w r, In r (iter_maps w) ->
  marker (directory w) (marker_index r) /\ forall j, (j <= marker_index r)%nat -> marker (directory w) j -> ~ broken (directory w) j.
Proof.
  intros w r H. pose proof (block_marker _ _ (block_points w r H)) as M. split; [exact M|].
  assert (L : (marker_index r < length (directory w))%nat) by (destruct M as (e & nm & M & _); apply nth_error_Some; congruence).
  intros j Lj Mj Bj. refine (proj1 (iter_reach w _ L) _ j Lj (conj Mj Bj)).
  unfold reported. apply in_concat. exists (item_span (WMap r)). split; [apply in_map, maps_in, H|left; reflexivity].
Qed.

Lemma sorted_app_l : forall (l l' : list nat), StronglySorted lt (l ++ l') ->
  StronglySorted lt l /\ StronglySorted lt l' /\ forall a b, In a l -> In b l' -> (a < b)%nat.
Proof.
  induction l as [|a l IH]; intros l' H; cbn [app] in H; [split; [constructor|split; [exact H|intros a b []]]|].
  apply StronglySorted_inv in H. destruct H as [H F]. destruct (IH l' H) as (H1 & H2 & H3). rewrite Forall_forall in F.
  split; [constructor; [exact H1|]; apply Forall_forall; intros x Hx; apply F, in_or_app; auto|]. split; [exact H2|].
  intros x y [->|Hx] Hy; [apply F, in_or_app; auto|apply H3; auto].
Qed.

Lemma seq_sorted : forall n i, StronglySorted lt (seq i n).
Proof.
  induction n as [|n IH]; intros i; cbn [seq]; constructor; [apply IH|]. apply Forall_forall. intros x Hx. apply in_seq in Hx. lia.
Qed.

Lemma maps_sorted : forall w, StronglySorted lt (map marker_index (iter_maps w)).
Proof.
  intros w. destruct (iter_spans w) as (n & _ & Sp). pose proof (seq_sorted n 0) as S. rewrite <- Sp in S. clear Sp.
  unfold iter_maps. induction (iter w) as [|x l IH]; cbn [maps_of map concat] in *; [constructor|].
  destruct (sorted_app_l _ _ S) as (_ & S2 & S3). specialize (IH S2).
  destruct x as [b|i e|i e|i e]; try exact IH. cbn [map]. constructor; [exact IH|].
  apply Forall_forall. intros k Hk. apply in_map_iff in Hk. destruct Hk as (b' & <- & Hb). apply maps_in in Hb.
  apply S3; [left; reflexivity|]. apply in_concat. exists (item_span (WMap b')). split; [apply in_map, Hb|left; reflexivity].
Qed.

(** ** Which map is drawn *)

Definition skipped (r : map_block) : bool := match b_name r with MAPxx n => n <? 15 | ExMy _ _ => false end.

Lemma skipped_early : forall dir r, block_ok dir r -> (skipped r = true <-> early dir (marker_index r)).
Proof.
  intros dir r (e & fs & He & Hd & _). unfold skipped, early. split.
  - destruct (b_name r) as [a b|n] eqn:E; [discriminate|]. intros L. exists e, n. split; [exact He|]. split; [exact Hd|]. lia.
  - intros (e' & n & He' & Hd' & L). assert (e' = e) by congruence. subst e'. rewrite (denotes_unique _ _ _ Hd Hd'). lia.
Qed.

Lemma split_skipped : forall l, Forall (fun r => skipped r = true) l
  \/ exists rs r rest, l = rs ++ r :: rest /\ Forall (fun r => skipped r = true) rs /\ skipped r = false.
Proof.
  induction l as [|r l IH]; [left; constructor|]. destruct (skipped r) eqn:E; [|right; exists [], r, l; auto].
  destruct IH as [F|(rs & r' & rest & -> & F & N)]; [left; auto|right]. exists (r :: rs), r', rest. auto.
Qed.

Lemma route_split : forall std fuel mode w l,
  (Forall (fun r => skipped r = true) l /\ route_maps std fuel mode w l = Ok None)
  \/ exists rs r rest, l = rs ++ r :: rest /\ Forall (fun r => skipped r = true) rs /\ skipped r = false
     /\ route_maps std fuel mode w l =
        let* bm := parse_doom_map w r in
        match bm with
        | BMDoom b => let* m := from_bare b in let* d := route_map_as_svg std fuel mode m in Ok (Some d)
        | BMHexen _ => Ok None
        end.
Proof.
  intros std fuel mode w. induction l as [|r l IH]; [left; split; [constructor|reflexivity]|]. cbn [route_maps]. fold (skipped r).
  destruct (skipped r) eqn:E.
  - destruct IH as [[F ->]|(rs & r' & rest & -> & F & N & ->)]; [left; auto|right]. exists (r :: rs), r', rest. auto.
  - right. exists [], r, l. auto.
Qed.

Lemma first_route : forall w rs r rest, iter_maps w = rs ++ r :: rest -> Forall (fun r => skipped r = true) rs -> skipped r = false ->
  route_marker (directory w) (marker_index r).
Proof.
  intros w rs r rest E F N. assert (Hr : In r (iter_maps w)) by (rewrite E; apply in_or_app; right; left; reflexivity).
  destruct (map_reported w r Hr) as [M B]. split; [exact M|]. split; [|split; [|exact B]].
  - intros Q. apply (skipped_early (directory w)) in Q; [congruence|apply block_points, Hr].
  - intros j Lj Mj. destruct (reported_map w j Mj) as (r' & Hr' & <-); [intros k Lk; apply B; lia|].
    apply skipped_early; [apply block_points, Hr'|]. pose proof (maps_sorted w) as S. rewrite E in Hr', S. rewrite Forall_forall in F.
    apply in_app_or in Hr'. destruct Hr' as [Hr'|[->|Hr']]; [apply F, Hr'|lia|].
    exfalso. rewrite map_app in S. destruct (sorted_app_l _ _ S) as (_ & S2 & _). cbn [map] in S2. apply StronglySorted_inv in S2.
    destruct S2 as [_ S2]. rewrite Forall_forall in S2. specialize (S2 (marker_index r') (in_map _ _ _ Hr')). lia.
Qed.

Lemma route_marker_unique : forall dir i j, route_marker dir i -> route_marker dir j -> i = j.
Proof.
  intros dir i j (Mi & Ni & Ei & _) (Mj & Nj & Ej & _). destruct (Nat.lt_trichotomy i j) as [L|[L|L]]; [|exact L|]; exfalso; eauto.
Qed.

(** C91. *)
Lemma route_command : forall std fuel mode w, unsigned_entries w ->
  ((~ exists i, route_marker (directory w) i) -> do_route std fuel mode w = Ok None)
  /\ forall r, block_ok (directory w) r -> route_marker (directory w) (marker_index r) ->
     (forall b m, map_decoded w r (BMDoom b) -> from_bare b = Ok m ->
        do_route std fuel mode w = let* d := route_map_as_svg std fuel mode m in Ok (Some d))
     /\ (forall b, map_decoded w r (BMHexen b) -> do_route std fuel mode w = Ok None)
     /\ (forall f, first_unreadable_lump w r f ->
           (lump_index f r = None -> do_route std fuel mode w = Err (MissingMapLump (lump_string f)))
           /\ (lump_index f r <> None -> exists p, do_route std fuel mode w = Panic p)).
Proof.
  intros std fuel mode w Hu. unfold do_route.
  destruct (route_split std fuel mode w (iter_maps w)) as [[F H]|(rs & r0 & rest & E & F & N & H)].
  - split; [intros _; exact H|]. intros r Hb (M & Ne & _ & B). exfalso.
    destruct (reported_map w _ M B) as (r' & Hr' & Er). apply Ne. rewrite <- Er. apply skipped_early; [apply block_points, Hr'|].
    rewrite Forall_forall in F. apply F, Hr'.
  - pose proof (first_route w rs r0 rest E F N) as R0. split; [intros Q; exfalso; apply Q; eauto|].
    intros r Hb Hr. assert (r = r0).
    { apply (block_unique (directory w)); [exact Hb|apply block_points; rewrite E; apply in_or_app; right; left; reflexivity|].
      eapply route_marker_unique; eauto. }
    subst r0. rewrite H. split; [|split].
    + intros b m D Fb. rewrite (proj2 (parse_doom_map_ok w r _ Hu) D). cbn [obind]. rewrite Fb. reflexivity.
    + intros b D. rewrite (proj2 (parse_doom_map_ok w r _ Hu) D). reflexivity.
    + intros f Hf. split; intros Hn.
      * rewrite (proj2 (parse_doom_map_err w r (MissingMapLump (lump_string f)) Hu)); [reflexivity|]. exists f. auto.
      * destruct (proj2 (parse_doom_map_panic w r Hu)) as [p Hp]; [exists f; auto|]. rewrite Hp. exists p. reflexivity.
Qed.

(** One of the cases applies. *)
Lemma route_cases : forall w, unsigned_entries w ->
  (~ exists i, route_marker (directory w) i)
  \/ exists r, block_ok (directory w) r /\ route_marker (directory w) (marker_index r)
     /\ ((exists b m, map_decoded w r (BMDoom b) /\ from_bare b = Ok m) \/ (exists b, map_decoded w r (BMHexen b))
         \/ exists f, first_unreadable_lump w r f).
Proof.
  intros w Hu. destruct (split_skipped (iter_maps w)) as [F|(rs & r & rest & E & F & N)].
  - left. intros (i & M & Ne & _ & B). destruct (reported_map w i M B) as (r & Hr & <-). apply Ne.
    apply skipped_early; [apply block_points, Hr|]. rewrite Forall_forall in F. apply F, Hr.
  - right. exists r. split; [apply block_points; rewrite E; apply in_or_app; right; left; reflexivity|].
    split; [eapply first_route; eauto|].
    destruct (parse_doom_map_cases w r Hu) as [([b|b] & D & _)|[(f & Hf & _)|(f & p & Hf & _)]].
    + left. exists b, (conv_map b). split; [exact D|apply from_bare_conv].
    + right. left. eauto.
    + right. right. eauto.
    + right. right. eauto.
Qed.

(** C80. *)
Lemma chart_fails : forall mode w e, unsigned_entries w -> Z.of_nat (length (buffer w)) <= 2 ^ 63 ->
  do_chart mode w = Err e <->
  exists r f, block_ok (directory w) r /\ first_marker (directory w) (marker_index r) /\ ~ broken (directory w) (marker_index r)
    /\ first_unreadable_lump w r f /\ lump_index f r = None /\ e = MissingMapLump (lump_string f).
Proof.
  intros mode w e Hu Hw. rewrite (chart_err mode w e Hu Hw). split; intros (r & f & H1 & H2 & H3 & H4); exists r, f;
    (split; [exact H1|split; [exact H2|split; [|exact H4]]]).
  - destruct (map_reported w r H3) as [M B]. exact (B _ (le_n _) M).
  - destruct H2 as [M Hj]. destruct (reported_map w (marker_index r) M) as (r' & Hr' & Er).
    { intros j Lj Mj. destruct (Nat.eq_dec j (marker_index r)) as [->|Nj]; [exact H3|]. exfalso. apply (Hj j); [lia|exact Mj]. }
    rewrite (block_unique _ r r' H1 (block_points _ _ Hr') (eq_sym Er)). exact Hr'.
Qed.
