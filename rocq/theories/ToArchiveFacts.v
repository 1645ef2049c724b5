(** Proofs about the conversion to an archive. *)

From Coq Require Import String List ZArith Bool Lia ZifyBool ZifyNat ZifyN.
From Coq Require Import Strings.Byte.
From Verif Require Import Base SpecBytes BaseFacts Nom ParseWad
  SpecMapName MapNameFacts ArchiveWad SpecArchive ArchiveFacts IterFacts TexturexFacts.
Import ListNotations.
Local Open Scope Z_scope.

Lemma make_entry_cases : forall w k e, unsigned_entries w -> nth_error (directory w) k = Some e ->
  (in_bounds (buffer w) e /\ exists en, copy_of w NsMap k en /\ make_entry w k = Ok en)
  \/ (~ in_bounds (buffer w) e /\ make_entry w k = Panic PSlice).
Proof.
  intros w k e Hu Hk. unfold make_entry, index_nat. rewrite Hk. cbn [obind].
  destruct (unsigned_nth _ _ _ Hu Hk) as [U1 U2].
  destruct (extract_slice_cases e (buffer w) U1 U2) as [(Hb & d & Hd & ->)|(Hb & ->)]; cbn [obind].
  - left. split; [exact Hb|]. eexists; split; [|reflexivity]. exists e. auto.
  - right. auto.
Qed.

Lemma copy_of_unique : forall w ns k a b, copy_of w ns k a -> copy_of w ns k b -> a = b.
Proof.
  intros w ns k [n d s] [n' d' s'] (e & He & A & B & C) (e' & He' & A' & B' & C'). cbn in *.
  rewrite He in He'. injection He' as <-. subst. f_equal. eapply entry_data_unique; eauto.
Qed.

Lemma opt_copy_unique : forall w k a b, opt_rel (copy_of w NsMap) k a -> opt_rel (copy_of w NsMap) k b -> a = b.
Proof.
  intros w [k|] [a|] [b|]; cbn; try tauto. intros H1 H2. f_equal. eapply copy_of_unique; eauto.
Qed.

Lemma archived_map_unique : forall w b m m', archived_map w b m -> archived_map w b m' -> m = m'.
Proof.
  intros w b m m' (A1 & A2 & A3 & A4) (B1 & B2 & B3 & B4).
  pose proof (copy_of_unique _ _ _ _ _ A3 B3) as EM.
  assert (EF : forall f, arch_lump f m = arch_lump f m') by (intros f; eapply opt_copy_unique; eauto).
  pose proof (EF THINGS); pose proof (EF LINEDEFS); pose proof (EF SIDEDEFS); pose proof (EF VERTEXES);
  pose proof (EF SEGS); pose proof (EF SSECTORS); pose proof (EF NODES); pose proof (EF SECTORS);
  pose proof (EF REJECT); pose proof (EF BLOCKMAP); pose proof (EF BEHAVIOR); pose proof (EF TEXTMAP).
  clear EF A4 B4. rewrite <- B1 in A1. rewrite <- B2 in A2. clear B1 B2.
  destruct m, m'; cbn in *. clear A3 B3. subst. reflexivity.
Qed.

Lemma block_index_entry : forall dir b f k, block_ok dir b -> lump_index f b = Some k ->
  exists e, nth_error dir k = Some e /\ name e = lump_name f.
Proof.
  intros dir b f k (e & fs & _ & _ & ((R & N) & _) & _ & HI & _) Hk.
  apply HI in Hk. destruct Hk as (j & Hj & ->). apply N; exact Hj.
Qed.

Lemma opt_cases : forall w b f, unsigned_entries w -> block_ok (directory w) b ->
  ((forall k e, lump_index f b = Some k -> nth_error (directory w) k = Some e -> in_bounds (buffer w) e)
   /\ exists o, opt_rel (copy_of w NsMap) (lump_index f b) o
        /\ oopt (make_entry w) (lump_index f b) = Ok o)
  \/ (~ (forall k e, lump_index f b = Some k -> nth_error (directory w) k = Some e -> in_bounds (buffer w) e)
      /\ oopt (make_entry w) (lump_index f b) = Panic PSlice).
Proof.
  intros w b f Hu Hb. destruct (lump_index f b) as [k|] eqn:E; cbn [oopt].
  - destruct (block_index_entry _ _ _ _ Hb E) as (e & He & _).
    destruct (make_entry_cases w k e Hu He) as [(Hin & en & Hc & ->)|(Hn & ->)]; cbn [obind].
    + left. split; [intros k' e' Hk He'; congruence|]. exists (Some en). auto.
    + right. split; [|reflexivity]. intros H. apply Hn. eapply H; eauto.
  - left. split; [discriminate|]. exists None. cbn. auto.
Qed.

Lemma convert_map_cases : forall w b, unsigned_entries w -> block_ok (directory w) b ->
  (item_in_bounds w (WMap b) /\ exists m, archived_map w b m /\ convert_map w b = Ok m)
  \/ (~ item_in_bounds w (WMap b) /\ convert_map w b = Panic PSlice).
Proof.
  intros w b Hu Hb. unfold convert_map.
  assert (HM : exists e, nth_error (directory w) (marker_index b) = Some e).
  { destruct Hb as (e & fs & He & _). eauto. }
  destruct HM as [e He].
  destruct (make_entry_cases w (marker_index b) e Hu He) as [(Hin & en & Hc & ->)|(Hn & ->)]; cbn [obind].
  2:{ right. split; [|reflexivity]. intros [H _]. apply Hn. auto. }
  pose proof (fun f => opt_cases w b f Hu Hb) as HO.
  Ltac stage HO F :=
    let H1 := fresh "B" in let o := fresh "o" in let H2 := fresh "R" in let H3 := fresh "E" in
    destruct (HO F) as [(H1 & o & H2 & H3)|(H1 & H3)]; cbn [lump_index] in H3; rewrite H3; cbn [obind];
    [|right; split; [|reflexivity]; intros [_ HH]; apply H1; intros k' e'; apply (HH F)].
  stage HO THINGS. stage HO LINEDEFS. stage HO SIDEDEFS. stage HO VERTEXES. stage HO SEGS.
  stage HO SSECTORS. stage HO NODES. stage HO SECTORS. stage HO REJECT. stage HO BLOCKMAP.
  stage HO BEHAVIOR. stage HO TEXTMAP.
  left. split.
  - split; [intros e' He'; congruence|]. intros []; assumption.
  - eexists; split; [|reflexivity]. split; [reflexivity|]. split; [reflexivity|]. split; [exact Hc|].
    intros []; assumption.
Qed.

Lemma convert_item_cases : forall w i x, unsigned_entries w -> item_ok (directory w) i x ->
  (item_in_bounds w x /\ exists its, archived w x its /\ convert_item w x = Ok its)
  \/ (~ item_in_bounds w x /\ convert_item w x = Panic PSlice).
Proof.
  intros w i x Hu Hx. destruct x as [b|k e|k e|k e]; cbn [convert_item].
  - destruct Hx as [Hb _]. destruct (convert_map_cases w b Hu Hb) as [(Hin & m & Hm & ->)|(Hn & ->)]; cbn [obind].
    + left. split; [exact Hin|]. eexists; split; [constructor; exact Hm|reflexivity].
    + right. auto.
  - left. split; [exact I|]. eexists; split; [constructor|reflexivity].
  - left. split; [exact I|]. eexists; split; [constructor|reflexivity].
  - destruct Hx as ((Hk & _) & _). cbn [item_in_bounds].
    destruct (unsigned_nth _ _ _ Hu Hk) as [U1 U2].
    destruct (extract_slice_cases e (buffer w) U1 U2) as [(Hb & d & Hd & ->)|(Hb & ->)]; cbn [obind].
    + left. split; [exact Hb|]. eexists; split; [|reflexivity]. constructor. exists e. auto.
    + right. auto.
Qed.

Lemma archived_unique : forall w x a b, archived w x a -> archived w x b -> a = b.
Proof.
  intros w x a b Ha Hb. inversion Ha; subst; inversion Hb; subst; auto.
  - do 2 f_equal. eapply archived_map_unique; eauto.
  - do 2 f_equal. eapply copy_of_unique; eauto.
Qed.

Lemma iter_items_ok : forall w x, In x (iter w) -> exists i, item_ok (directory w) i x.
Proof. intros w x Hx. destruct (iter_spec w) as (n & _ & _ & H & _). destruct (H x Hx) as (j & _ & Hj). eauto. Qed.

Lemma to_archive_cases : forall w, unsigned_entries w ->
  ((forall x, In x (iter w) -> item_in_bounds w x)
   /\ exists parts, Forall2 (archived w) (iter w) parts
      /\ to_archive w = Ok (mk_archive (identification (header w)) (concat parts)))
  \/ ((exists x, In x (iter w) /\ ~ item_in_bounds w x) /\ to_archive w = Panic PSlice).
Proof.
  intros w Hu. unfold to_archive.
  pose proof (iter_items_ok w) as HI. set (xs := iter w) in *. clearbody xs.
  induction xs as [|x xs IH]; cbn [omap].
  - left. split; [intros x []|]. exists []. split; [constructor|reflexivity].
  - destruct (HI x (or_introl eq_refl)) as [i Hi].
    destruct (convert_item_cases w i x Hu Hi) as [(Hb & its & Ha & ->)|(Hn & ->)]; cbn [obind].
    + destruct IH as [(HB & parts & HF & E)|((y & Hy & Hny) & E)].
      * intros y Hy. apply HI. right; exact Hy.
      * left. split; [intros y [<-|Hy]; auto|]. exists (its :: parts). split; [constructor; auto|].
        destruct (omap (convert_item w) xs) as [ps|e|p]; cbn [obind] in *; try discriminate.
        injection E as E. cbn [concat]. rewrite E. reflexivity.
      * right. split; [exists y; split; [right; auto|auto]|].
        destruct (omap (convert_item w) xs) as [ps|e|p]; cbn [obind] in *; try discriminate.
        injection E as ->. reflexivity.
    + right. split; [|reflexivity]. exists x. split; [left; reflexivity|exact Hn].
Qed.

Lemma Forall2_archived_unique : forall w xs p q, Forall2 (archived w) xs p -> Forall2 (archived w) xs q -> p = q.
Proof.
  intros w xs p q H. revert q. induction H as [|x a xs p Ha H IH]; intros q Hq; inversion Hq; subst; auto.
  f_equal; [eapply archived_unique; eauto|auto].
Qed.

Lemma archived_in_bounds : forall w x its, archived w x its -> (exists i, item_ok (directory w) i x) -> item_in_bounds w x.
Proof.
  intros w x its H [i Hi]. destruct H as [b m (_ & _ & (e & He & _ & [Hd _] & _) & HF)|i' e|i' e|i' e en (e' & He & _ & [Hd _] & _)]; cbn; auto.
  - split; [intros e' He'; congruence|]. intros f k e' Hk He'. specialize (HF f). rewrite Hk in HF. cbn in HF.
    destruct (arch_lump f m) as [en|]; [|tauto]. destruct HF as (e'' & He'' & _ & [Hd'' _] & _). congruence.
  - destruct Hi as ((Hk & _) & _). congruence.
Qed.

Lemma to_archive_ok : forall w a, unsigned_entries w ->
  to_archive w = Ok a <->
  wadtype a = identification (header w)
  /\ exists parts, Forall2 (archived w) (iter w) parts /\ contents a = concat parts.
Proof.
  intros w a Hu. destruct (to_archive_cases w Hu) as [(_ & parts & HF & ->)|((x & Hx & Hn) & ->)].
  - split.
    + intros E. injection E as <-. cbn. eauto.
    + intros (Ht & parts' & HF' & Hc). pose proof (Forall2_archived_unique _ _ _ _ HF HF'); subst parts'.
      destruct a; cbn in *; subst; reflexivity.
  - split; [discriminate|]. intros (_ & parts & HF & _). exfalso. apply Hn.
    pose proof (iter_items_ok w x Hx) as HI.
    apply In_nth_error in Hx. destruct Hx as [k Hk].
    destruct (nth_error parts k) as [p|] eqn:E.
    + eapply archived_in_bounds; [|exact HI]. exact (Forall2_nth _ _ _ _ _ _ HF Hk E).
    + apply nth_error_None in E. apply Forall2_length' in HF.
      assert (k < length (iter w))%nat by (apply nth_error_Some; congruence). lia.
Qed.

Lemma to_archive_panic : forall w, unsigned_entries w ->
  (exists p, to_archive w = Panic p) <-> exists x, In x (iter w) /\ ~ item_in_bounds w x.
Proof.
  intros w Hu. destruct (to_archive_cases w Hu) as [(HB & parts & HF & ->)|(Hx & ->)].
  - split; [intros [p H]; discriminate|]. intros (x & Hx & Hn). exfalso. auto.
  - split; eauto.
Qed.

(** ** first_entry of the archive *)

Lemma first_plain_some : forall l nm en, archive_first_entry_in l nm = Some en <-> first_plain l nm en.
Proof.
  intros l nm en. induction l as [|x l IH]; cbn [archive_first_entry_in].
  - split; [discriminate|]. intros ([|? ?] & l2 & H & _); discriminate.
  - destruct x as [m|e].
    + rewrite IH. split.
      * intros (l1 & l2 & -> & Hn & Hb). exists (IMap m :: l1), l2. split; [reflexivity|]. split; [auto|].
        intros en' [H|H]; [discriminate|auto].
      * intros ([|y l1] & l2 & H & Hn & Hb); cbn in H; [discriminate|]. injection H as <- ->.
        exists l1, l2. split; [reflexivity|]. split; [auto|]. intros en' H. apply Hb. right; auto.
    + destruct (bytes_eqb (en_name e) nm) eqn:E.
      * apply bytes_eqb_eq in E. split.
        -- intros H. injection H as <-. exists [], l. split; [reflexivity|]. split; [auto|]. intros en' [].
        -- intros ([|y l1] & l2 & H & Hn & Hb); cbn in H; [congruence|]. injection H as <- ->.
           exfalso. apply (Hb e); [left; reflexivity|auto].
      * apply bytes_eqb_neq in E. rewrite IH. split.
        -- intros (l1 & l2 & -> & Hn & Hb). exists (IEntry e :: l1), l2. split; [reflexivity|]. split; [auto|].
           intros en' [H|H]; [congruence|auto].
        -- intros ([|y l1] & l2 & H & Hn & Hb); cbn in H; [congruence|]. injection H as <- ->.
           exists l1, l2. split; [reflexivity|]. split; [auto|]. intros en' H. apply Hb. right; auto.
Qed.

Lemma first_plain_none : forall l nm, archive_first_entry_in l nm = None <->
  forall en, In (IEntry en) l -> en_name en <> nm.
Proof.
  intros l nm. induction l as [|x l IH]; cbn [archive_first_entry_in].
  - split; [intros _ en []|auto].
  - destruct x as [m|e].
    + rewrite IH. split; [intros H en [Hx|Hx]; [discriminate|auto]|intros H en Hx; apply H; right; auto].
    + destruct (bytes_eqb (en_name e) nm) eqn:E.
      * apply bytes_eqb_eq in E. split; [discriminate|]. intros H. exfalso. apply (H e); [left; reflexivity|auto].
      * apply bytes_eqb_neq in E. rewrite IH. split.
        -- intros H en [Hx|Hx]; [congruence|auto].
        -- intros H en Hx. apply H. right; auto.
Qed.

Lemma find_skip : forall dir nm i j, (i <= j <= length dir)%nat ->
  (forall k, (i <= k < j)%nat -> ~ named dir k nm) ->
  find (fun e => bytes_eqb (name e) nm) (skipn i dir) = find (fun e => bytes_eqb (name e) nm) (skipn j dir).
Proof.
  intros dir nm i j Hij Hno. remember (j - i)%nat as d eqn:Ed. revert i Ed Hij Hno.
  induction d as [|d IH]; intros i Ed Hij Hno; [replace j with i by lia; reflexivity|].
  destruct (skipn i dir) as [|e l] eqn:E.
  - assert (length (skipn i dir) = 0)%nat by (rewrite E; reflexivity). rewrite skipn_length in H. lia.
  - destruct (nth_of_skipn dir i e l (eq_sym E)) as (He & -> & _). cbn [find].
    replace (bytes_eqb (name e) nm) with false.
    + apply IH; [lia|lia|]. intros k Hk. apply Hno. lia.
    + symmetry. apply bytes_eqb_neq. intros Hn. apply (Hno i); [lia|]. exists e; auto.
Qed.

Lemma seq_app_inv : forall a n l1 l2, seq a n = l1 ++ l2 -> l1 = seq a (length l1) /\ l2 = seq (a + length l1) (n - length l1) /\ (length l1 <= n)%nat.
Proof.
  intros a n l1 l2 H.
  assert (L : (length l1 + length l2 = n)%nat) by (rewrite <- app_length, <- H; apply seq_length).
  replace n with (length l1 + length l2)%nat in H by lia. rewrite seq_app in H.
  assert (E1 : length (seq a (length l1)) = length l1) by apply seq_length.
  split; [|split; [|lia]].
  - assert (F : firstn (length l1) (seq a (length l1) ++ seq (a + length l1) (length l2)) = firstn (length l1) (l1 ++ l2)) by congruence.
    rewrite !firstn_app_exact in F by auto. auto.
  - assert (F : skipn (length l1) (seq a (length l1) ++ seq (a + length l1) (length l2)) = skipn (length l1) (l1 ++ l2)) by congruence.
    rewrite !skipn_app_exact in F by auto. rewrite <- F. f_equal. lia.
Qed.

Lemma lump_positions_in : forall b k, In k (lump_positions b) -> exists f c, In (f, c) canonical /\ lump_index f b = Some k.
Proof.
  intros b k H. unfold lump_positions in H. apply in_flat_map in H. destruct H as ([f c] & Hin & Hk).
  exists f, c. split; [exact Hin|]. destruct (lump_index f b) as [k'|]; cbn in Hk; [|tauto]. destruct Hk as [->|[]]; auto.
Qed.

Lemma first_entry_items : forall w nm, ordinary_name nm -> forall xs parts i,
  (i <= length (directory w))%nat ->
  concat (map item_span xs) = seq i (length (directory w) - i) ->
  (forall x, In x xs -> exists j, item_ok (directory w) j x) ->
  Forall2 (archived w) xs parts ->
  match find (fun e => bytes_eqb (name e) nm) (skipn i (directory w)) with
  | None => archive_first_entry_in (concat parts) nm = None
  | Some e => exists en, archive_first_entry_in (concat parts) nm = Some en /\ entry_data (buffer w) e (en_data en)
  end.
Proof.
  intros w nm (O1 & O2 & O3 & O4). set (dir := directory w).
  induction xs as [|x xs IH]; intros parts i Hi Hspan Hok HF.
  - cbn in Hspan. assert (L : length (seq i (length dir - i)) = 0%nat) by (rewrite <- Hspan; reflexivity).
    rewrite seq_length in L. rewrite skipn_all_nil by lia. cbn [find]. inversion HF; subst. reflexivity.
  - inversion HF as [|? its ? parts' Ha HF']; subst. cbn [map concat] in *.
    symmetry in Hspan. destruct (seq_app_inv _ _ _ _ Hspan) as (E1 & E2 & L).
    set (j := (i + length (item_span x))%nat) in *.
    assert (Hj : (j <= length dir)%nat) by lia.
    replace (length dir - i - length (item_span x))%nat with (length dir - j)%nat in E2 by lia.
    specialize (IH parts' j Hj E2 (fun y Hy => Hok y (or_intror Hy)) HF').
    destruct (Hok x (or_introl eq_refl)) as [i0 Hx].
    assert (Hskip : (forall k, In k (item_span x) -> ~ named dir k nm) ->
              find (fun e => bytes_eqb (name e) nm) (skipn i dir) = find (fun e => bytes_eqb (name e) nm) (skipn j dir)).
    { intros HN. apply find_skip; [lia|]. intros k Hk. apply HN. rewrite E1. apply in_seq. unfold j in Hk. lia. }
    destruct Ha as [b m Hm|k e|k e|k e en Hc]; cbn [concat app].
    + destruct Hx as [Hb Hmi]. rewrite Hskip.
      * cbn [archive_first_entry_in]. exact IH.
      * cbn [item_span]. intros k [<-|Hk] (e & He & Hn).
        -- destruct Hb as (e' & fs & He' & Hd & _). apply (O3 (b_name b)). rewrite <- Hn.
           assert (e' = e) as <- by congruence. exact Hd.
        -- apply lump_positions_in in Hk. destruct Hk as (f & c & Hin & Hk).
           destruct (block_index_entry _ _ _ _ Hb Hk) as (e' & He' & Hn'). apply (O4 f c Hin).
           congruence.
    + destruct Hx as ((Hk & Hs) & _). rewrite Hskip; [exact IH|].
      cbn [item_span]. intros k' [<-|[]] (e' & He' & Hn). assert (e' = e) as -> by congruence.
      apply O1. rewrite <- Hn. exact Hs.
    + destruct Hx as ((Hk & Hs) & _). rewrite Hskip; [exact IH|].
      cbn [item_span]. intros k' [<-|[]] (e' & He' & Hn). assert (e' = e) as -> by congruence.
      apply O2. rewrite <- Hn. exact Hs.
    + cbn [item_span length] in *. cbn [seq] in E1. injection E1 as ->.
      destruct Hc as (e' & He' & Hn & Hd & _).
      destruct (skipn i dir) as [|e0 l0] eqn:Es.
      { assert (length (skipn i dir) = 0)%nat by (rewrite Es; reflexivity). rewrite skipn_length in H. lia. }
      destruct (nth_of_skipn dir i e0 l0 (eq_sym Es)) as (He0 & -> & _).
      change (nth_error (directory w) i = Some e0) in He0. assert (e0 = e') as -> by congruence.
      cbn [find archive_first_entry_in]. rewrite Hn.
      destruct (bytes_eqb (name e') nm) eqn:Eb.
      * exists en. auto.
      * replace (S i) with j by (unfold j; lia). exact IH.
Qed.

Lemma archive_first_agrees : forall w a nm, unsigned_entries w -> to_archive w = Ok a -> ordinary_name nm ->
  (forall k, ~ (marker (directory w) k /\ broken (directory w) k)) ->
  first_entry w nm = Ok (option_map en_data (archive_first_entry a nm)).
Proof.
  intros w a nm Hu Ha Ho Hnb. apply to_archive_ok in Ha; auto. destruct Ha as (_ & parts & HF & Hc).
  destruct (iter_spec w) as (n & Hn & Hspan & Hok & Hno & Hstop).
  assert (n = length (directory w)) by (destruct Hstop as [|HB]; auto; exfalso; eapply Hnb; eauto). subst n.
  pose proof (first_entry_items w nm Ho (iter w) parts 0 ltac:(lia)) as H.
  rewrite Nat.sub_0_r in H. specialize (H Hspan).
  specialize (H (fun x Hx => match Hok x Hx with ex_intro _ j (conj _ Hj) => ex_intro _ j Hj end) HF).
  cbn [skipn] in H. unfold archive_first_entry. rewrite Hc. unfold first_entry.
  pose proof (find_first (fun e => bytes_eqb (name e) nm) (directory w)) as HFd. cbv beta in HFd.
  destruct (find (fun e => bytes_eqb (name e) nm) (directory w)) as [e|].
  - destruct H as (en & -> & Hd). destruct HFd as (k & Hk & _).
    destruct (unsigned_nth _ _ _ Hu Hk) as [U1 U2].
    change (slice (buffer w) (filepos e) (filepos e + size e)) with (extract_slice e (buffer w)).
    rewrite (proj2 (extract_slice_ok e (buffer w) (en_data en) U1 U2) Hd). reflexivity.
  - rewrite H. reflexivity.
Qed.
