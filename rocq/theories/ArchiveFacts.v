(** Proofs about lump extraction and WAD iteration. *)

From Coq Require Import String List ZArith Bool Lia ZifyBool ZifyNat ZifyN Sorted.
From Coq Require Import Strings.Byte.
From Verif Require Import Base SpecBytes BaseFacts Nom NomFacts ParseWad SpecWad WadFacts
  SpecMapName MapNameFacts ArchiveWad SpecArchive TexturexFacts.
Import ListNotations.
Local Open Scope Z_scope.
Ltac Zify.zify_post_hook ::= Z.div_mod_to_equations.

(** ** Lump data *)

Lemma parse_wad_unsigned : forall buf w, parse_wad buf = Ok w -> unsigned_entries w.
Proof.
  intros buf w H. apply (parse_wad_ok_iff true) in H. destruct H as (_ & _ & _ & _ & _ & _ & Hk).
  apply Forall_forall. intros e He. apply In_nth_error in He. destruct He as [k He].
  destruct (Hk k e He) as (A & B & _). rewrite A, B.
  pose proof (u32_at_range buf (entry_offset buf k)).
  pose proof (u32_at_range buf (entry_offset buf k + 4)). lia.
Qed.

Lemma extract_slice_cases : forall e buf, 0 <= filepos e -> 0 <= size e ->
  (in_bounds buf e /\ exists d, entry_data buf e d /\ extract_slice e buf = Ok d)
  \/ (~ in_bounds buf e /\ extract_slice e buf = Panic PSlice).
Proof.
  intros e buf H1 H2. unfold extract_slice, slice, entry_data, in_bounds, zlen.
  replace (filepos e <=? filepos e + size e) with true by lia. cbn [andb].
  destruct (Z.leb_spec (filepos e + size e) (Z.of_nat (length buf))) as [L|L].
  - left. split; [lia|]. eexists; split; [split; [lia|reflexivity]|].
    unfold sub. do 2 f_equal. lia.
  - right. split; [lia|reflexivity].
Qed.

Lemma entry_data_unique : forall buf e d d', entry_data buf e d -> entry_data buf e d' -> d = d'.
Proof. intros buf e d d' [_ ->] [_ ->]. reflexivity. Qed.

Lemma extract_slice_ok : forall e buf d, 0 <= filepos e -> 0 <= size e ->
  extract_slice e buf = Ok d <-> entry_data buf e d.
Proof.
  intros e buf d H1 H2. destruct (extract_slice_cases e buf H1 H2) as [(Hb & d' & Hd & ->)|(Hb & ->)].
  - split; [congruence|]. intros H. f_equal. eapply entry_data_unique; eauto.
  - split; [discriminate|]. intros [H _]. contradiction.
Qed.

Lemma unsigned_nth : forall w k e, unsigned_entries w -> nth_error (directory w) k = Some e ->
  0 <= filepos e /\ 0 <= size e.
Proof. intros w k e H Hk. unfold unsigned_entries in H. rewrite Forall_forall in H. apply H. eapply nth_error_In; eauto. Qed.

Lemma entry_slice_ok : forall w i d, unsigned_entries w ->
  entry_slice w i = Ok d <-> exists e, nth_error (directory w) i = Some e /\ entry_data (buffer w) e d.
Proof.
  intros w i d Hu. unfold entry_slice, index_nat.
  destruct (nth_error (directory w) i) as [e|] eqn:E; cbn [obind].
  - destruct (unsigned_nth _ _ _ Hu E). change (slice (buffer w) (filepos e) (filepos e + size e)) with (extract_slice e (buffer w)).
    rewrite extract_slice_ok by auto. split; [eauto|]. intros (e' & He & H'). congruence.
  - split; [discriminate|]. intros (e & He & _). discriminate.
Qed.

Lemma entry_slice_panic : forall w i, unsigned_entries w ->
  (exists p, entry_slice w i = Panic p)
  <-> (forall e, nth_error (directory w) i = Some e -> ~ in_bounds (buffer w) e).
Proof.
  intros w i Hu. unfold entry_slice, index_nat.
  destruct (nth_error (directory w) i) as [e|] eqn:E; cbn [obind].
  - destruct (unsigned_nth _ _ _ Hu E) as [U1 U2].
    change (slice (buffer w) (filepos e) (filepos e + size e)) with (extract_slice e (buffer w)).
    destruct (extract_slice_cases e (buffer w) U1 U2) as [(Hb & d' & Hd & ->)|(Hb & ->)].
    + split; [intros [p H]; discriminate|]. intros H. exfalso. eapply H; eauto.
    + split; [intros _ e' He'; injection He' as <-; exact Hb|eauto].
  - split; [discriminate|eauto].
Qed.

Lemma entry_slice_no_err : forall w i x, entry_slice w i <> Err x.
Proof.
  intros w i x. unfold entry_slice, index_nat. destruct (nth_error (directory w) i); cbn [obind]; [|discriminate].
  unfold slice. destruct ((filepos d <=? filepos d + size d) && (filepos d + size d <=? zlen (buffer w))); discriminate.
Qed.

(** ** first_entry *)

Lemma find_first : forall (p : dir_entry -> bool) l,
  match find p l with
  | Some e => exists k, nth_error l k = Some e /\ p e = true
                /\ forall j e', (j < k)%nat -> nth_error l j = Some e' -> p e' = false
  | None => forall k e, nth_error l k = Some e -> p e = false
  end.
Proof.
  intros p l. induction l as [|a l IH]; cbn [find].
  - intros [|k] e; discriminate.
  - destruct (p a) eqn:E.
    + exists 0%nat. split; [reflexivity|]. split; [exact E|]. lia.
    + destruct (find p l) as [e|].
      * destruct IH as (k & Hk & He & Hb). exists (S k). split; [exact Hk|]. split; [exact He|].
        intros [|j] e' Hj He'; cbn in He'; [congruence|]. eapply (Hb j); eauto. lia.
      * intros [|k] e Hk; cbn in Hk; [congruence|]. eauto.
Qed.

Lemma first_entry_cases : forall w nm, unsigned_entries w ->
  ((forall k, ~ named (directory w) k nm) /\ first_entry w nm = Ok None)
  \/ (exists k e, first_named (directory w) nm k /\ nth_error (directory w) k = Some e
      /\ ((exists d, entry_data (buffer w) e d /\ first_entry w nm = Ok (Some d))
          \/ (~ in_bounds (buffer w) e /\ first_entry w nm = Panic PSlice))).
Proof.
  intros w nm Hu. unfold first_entry.
  pose proof (find_first (fun e => bytes_eqb (name e) nm) (directory w)) as HF. cbv beta in HF.
  destruct (find (fun e => bytes_eqb (name e) nm) (directory w)) as [e|].
  - right. destruct HF as (k & Hk & He & Hb). apply bytes_eqb_eq in He.
    exists k, e. split; [split; [exists e; auto|]|].
    + intros j Hj (e' & He' & Hn). pose proof (Hb j e' Hj He') as Hf.
      apply bytes_eqb_neq in Hf. auto.
    + split; [exact Hk|]. destruct (unsigned_nth _ _ _ Hu Hk) as [U1 U2].
      change (slice (buffer w) (filepos e) (filepos e + size e)) with (extract_slice e (buffer w)).
      destruct (extract_slice_cases e (buffer w) U1 U2) as [(_ & d & Hd & ->)|(Hn & ->)]; cbn [obind]; eauto.
  - left. split; [|reflexivity]. intros k (e & He & Hn). pose proof (HF k e He) as Hf.
    apply bytes_eqb_neq in Hf. auto.
Qed.

Lemma first_named_unique : forall dir nm k k', first_named dir nm k -> first_named dir nm k' -> k = k'.
Proof.
  intros dir nm k k' [H1 H2] [H3 H4]. destruct (Nat.lt_trichotomy k k') as [H|[H|H]]; auto; exfalso; firstorder.
Qed.

Lemma first_entry_none : forall w nm, unsigned_entries w ->
  first_entry w nm = Ok None <-> forall k, ~ named (directory w) k nm.
Proof.
  intros w nm Hu. destruct (first_entry_cases w nm Hu) as [[Hn ->]|(k & e & Hf & _ & [(d & _ & ->)|(_ & ->)])].
  - tauto.
  - split; [discriminate|]. intros H. exfalso. eapply H. apply Hf.
  - split; [discriminate|]. intros H. exfalso. eapply H. apply Hf.
Qed.

Lemma first_entry_some : forall w nm d, unsigned_entries w ->
  first_entry w nm = Ok (Some d) <->
  exists k e, first_named (directory w) nm k /\ nth_error (directory w) k = Some e /\ entry_data (buffer w) e d.
Proof.
  intros w nm d Hu. destruct (first_entry_cases w nm Hu) as [[Hn ->]|(k & e & Hf & Hk & [(d' & Hd & ->)|(Hb & ->)])].
  - split; [discriminate|]. intros (k & e & Hf & _). exfalso. eapply Hn. apply Hf.
  - split; [intros H; injection H as <-; eauto 6|]. intros (k' & e' & Hf' & Hk' & Hd').
    pose proof (first_named_unique _ _ _ _ Hf Hf'); subst k'. rewrite Hk in Hk'. injection Hk' as <-.
    do 2 f_equal. eapply entry_data_unique; eauto.
  - split; [discriminate|]. intros (k' & e' & Hf' & Hk' & Hd').
    pose proof (first_named_unique _ _ _ _ Hf Hf'); subst k'. rewrite Hk in Hk'. injection Hk' as <-.
    exfalso. apply Hb. apply Hd'.
Qed.

Lemma first_entry_panic : forall w nm, unsigned_entries w ->
  (exists p, first_entry w nm = Panic p) <->
  exists k e, first_named (directory w) nm k /\ nth_error (directory w) k = Some e /\ ~ in_bounds (buffer w) e.
Proof.
  intros w nm Hu. destruct (first_entry_cases w nm Hu) as [[Hn ->]|(k & e & Hf & Hk & [(d' & Hd & ->)|(Hb & ->)])].
  - split; [intros [p H]; discriminate|]. intros (k & e & Hf & _). exfalso. eapply Hn. apply Hf.
  - split; [intros [p H]; discriminate|]. intros (k' & e' & Hf' & Hk' & Hd').
    pose proof (first_named_unique _ _ _ _ Hf Hf'); subst k'. rewrite Hk in Hk'. injection Hk' as <-.
    exfalso. apply Hd'. apply Hd.
  - split; [intros _; eauto 6|eauto].
Qed.

(** ** iter_entries_between *)

(** The yielded entries with their indices. *)
Fixpoint between_idx (b e : bytes) (flag : bool) (i : nat) (l : list dir_entry) : list nat :=
  match l with
  | [] => []
  | x :: l' =>
      if flag && bytes_eqb (name x) e then between_idx b e false (S i) l'
      else if negb flag && bytes_eqb (name x) b then between_idx b e true (S i) l'
      else if flag then i :: between_idx b e flag (S i) l'
      else between_idx b e flag (S i) l'
  end.

Lemma between_idx_ge : forall b e l flag i k, In k (between_idx b e flag i l) -> (i <= k < i + length l)%nat.
Proof.
  intros b e l. induction l as [|x l IH]; intros flag i k; cbn [between_idx length]; [intros []|].
  destruct (flag && bytes_eqb (name x) e); [intros H; apply IH in H; lia|].
  destruct (negb flag && bytes_eqb (name x) b); [intros H; apply IH in H; lia|].
  destruct flag; [intros [<-|H]; [lia|]|intros H]; try (apply IH in H); lia.
Qed.

Lemma between_idx_sorted : forall b e l flag i, StronglySorted lt (between_idx b e flag i l).
Proof.
  intros b e l. induction l as [|x l IH]; intros flag i; cbn [between_idx]; [constructor|].
  destruct (flag && bytes_eqb (name x) e); [apply IH|].
  destruct (negb flag && bytes_eqb (name x) b); [apply IH|].
  destruct flag; [|apply IH]. constructor; [apply IH|].
  apply Forall_forall. intros k H. apply between_idx_ge in H. lia.
Qed.

Lemma nth_of_skipn : forall {A} (dir : list A) i x l, x :: l = skipn i dir ->
  nth_error dir i = Some x /\ l = skipn (S i) dir /\ (i < length dir)%nat.
Proof.
  intros A dir i x l H. split; [|split].
  - revert dir H. clear. induction i as [|i IH]; intros [|y dir] H; cbn in *; try discriminate; [congruence|auto].
  - replace (S i) with (i + 1)%nat by lia. rewrite <- skipn_skipn', <- H. reflexivity.
  - assert (L : length (x :: l) = length (skipn i dir)) by congruence. rewrite skipn_length in L. cbn in L. lia.
Qed.

Lemma between_loop_idx : forall b e dir l flag i, l = skipn i dir ->
  Forall2 (fun k x => nth_error dir k = Some x) (between_idx b e flag i l) (between_loop b e flag l).
Proof.
  intros b e dir l. induction l as [|x l IH]; intros flag i Hl; cbn [between_idx between_loop]; [constructor|].
  destruct (nth_of_skipn dir i x l Hl) as (Hx & Hl' & _).
  destruct (flag && bytes_eqb (name x) e); [apply IH; exact Hl'|].
  destruct (negb flag && bytes_eqb (name x) b); [apply IH; exact Hl'|].
  destruct flag; [|apply IH; exact Hl']. constructor; [exact Hx|apply IH; exact Hl'].
Qed.

Lemma named_at : forall dir i x nm, nth_error dir i = Some x -> (named dir i nm <-> name x = nm).
Proof.
  intros dir i x nm H. split; [intros (e & He & Hn); congruence|intros Hn; exists x; auto].
Qed.

(** Distinct markers. *)
Lemma between_idx_spec : forall b e dir, b <> e -> forall l flag i, l = skipn i dir ->
  (flag = true <-> exists j, (j < i)%nat /\ named dir j b /\ forall m, (j < m < i)%nat -> ~ named dir m e) ->
  forall k, In k (between_idx b e flag i l) <-> (i <= k)%nat /\ inside dir b e k.
Proof.
  intros b e dir Hbe l. induction l as [|x l IH]; intros flag i Hl Hflag k; cbn [between_idx].
  - split; [intros []|]. intros [Hk (Hlt & _)].
    assert (length (skipn i dir) = 0%nat) by (rewrite <- Hl; reflexivity). rewrite skipn_length in H. lia.
  - destruct (nth_of_skipn dir i x l Hl) as (Hx & Hl' & Hi).
    pose proof (named_at dir i x b Hx) as Nb. pose proof (named_at dir i x e Hx) as Ne.
    assert (Hone : forall flag', (flag' = true <-> exists j, (j < S i)%nat /\ named dir j b /\ forall m, (j < m < S i)%nat -> ~ named dir m e) ->
              forall k, In k (between_idx b e flag' (S i) l) <-> (S i <= k)%nat /\ inside dir b e k)
      by (intros flag' Hf; apply IH; auto).
    assert (Hsplit : forall k, (i <= k)%nat -> k = i \/ (S i <= k)%nat) by lia.
    destruct flag; cbn [andb negb].
    + destruct Hflag as [Hflag _]. destruct (Hflag eq_refl) as (j & Hj & Hjb & Hje).
      destruct (bytes_eqb (name x) e) eqn:E.
      * apply bytes_eqb_eq in E. rewrite Hone.
        -- split; [intros [? ?]; split; [lia|auto]|]. intros [Hk Hin]. split; [|exact Hin].
           destruct (Hsplit k Hk) as [->|]; [|auto]. exfalso. destruct Hin as (_ & Hn & _). apply Hn, Ne, E.
        -- split; [discriminate|]. intros (j' & Hj' & Hb' & He'). exfalso.
           destruct (Nat.eq_dec j' i) as [->|Hne].
           ++ apply Nb in Hb'. congruence.
           ++ apply (He' i); [lia|]. apply Ne, E.
      * apply bytes_eqb_neq in E. cbn [In]. rewrite Hone.
        -- split.
           ++ intros [<-|[Hk Hin]]; [|split; [lia|auto]]. split; [lia|]. split; [exact Hi|].
              split; [rewrite Ne; exact E|]. exists j. auto.
           ++ intros [Hk Hin]. destruct (Hsplit k Hk) as [->|]; auto.
        -- split; [|reflexivity]. intros _. exists j. split; [lia|]. split; [exact Hjb|].
           intros m Hm. destruct (Nat.eq_dec m i) as [->|]; [rewrite Ne; exact E|]. apply Hje. lia.
    + assert (Hno : ~ exists j, (j < i)%nat /\ named dir j b /\ forall m, (j < m < i)%nat -> ~ named dir m e).
      { intros H. apply Hflag in H. discriminate. }
      assert (Hik : ~ inside dir b e i) by (intros (_ & _ & H); contradiction).
      assert (Hstep : forall k, (S i <= k)%nat /\ inside dir b e k <-> (i <= k)%nat /\ inside dir b e k).
      { intros k'. split; [intros [? ?]; split; [lia|auto]|]. intros [Hk Hin].
        destruct (Hsplit k' Hk) as [->|]; [contradiction|auto]. }
      destruct (bytes_eqb (name x) b) eqn:E.
      * apply bytes_eqb_eq in E. rewrite Hone; [apply Hstep|]. split; [|reflexivity]. intros _.
        exists i. split; [lia|]. split; [apply Nb, E|]. intros m Hm. lia.
      * apply bytes_eqb_neq in E. rewrite Hone; [apply Hstep|]. split; [discriminate|].
        intros (j' & Hj' & Hb' & He'). exfalso. destruct (Nat.eq_dec j' i) as [->|Hne].
        -- apply Nb in Hb'. contradiction.
        -- apply Hno. exists j'. split; [lia|]. split; [exact Hb'|]. intros m Hm. apply He'. lia.
Qed.

(** Equal markers. *)
Lemma count_named_S : forall dir nm i x, nth_error dir i = Some x ->
  count_named dir nm (S i) = (count_named dir nm i + if bytes_eqb (name x) nm then 1 else 0)%nat.
Proof.
  intros dir nm. induction dir as [|y dir IH]; intros i x Hx; [destruct i; discriminate|].
  destruct i as [|i].
  - cbn in Hx. injection Hx as ->. cbn [count_named]. destruct (list_eq_dec byte_eq_dec (name x) nm) as [E|E].
    + rewrite (proj2 (bytes_eqb_eq _ _) E). destruct dir; reflexivity.
    + rewrite (proj2 (bytes_eqb_neq _ _) E). destruct dir; reflexivity.
  - cbn [nth_error] in Hx. change (count_named (y :: dir) nm (S (S i))) with
      ((if list_eq_dec Byte.byte_eq_dec (name y) nm then 1 else 0) + count_named dir nm (S i))%nat.
    rewrite (IH i x Hx). change (count_named (y :: dir) nm (S i)) with
      ((if list_eq_dec Byte.byte_eq_dec (name y) nm then 1 else 0) + count_named dir nm i)%nat. lia.
Qed.

Lemma between_idx_same : forall b dir l flag i, l = skipn i dir ->
  flag = Nat.odd (count_named dir b i) ->
  forall k, In k (between_idx b b flag i l) <-> (i <= k)%nat /\ inside_same dir b k.
Proof.
  intros b dir l. induction l as [|x l IH]; intros flag i Hl Hflag k; cbn [between_idx].
  - split; [intros []|]. intros [Hk (Hlt & _)].
    assert (length (skipn i dir) = 0%nat) by (rewrite <- Hl; reflexivity). rewrite skipn_length in H. lia.
  - destruct (nth_of_skipn dir i x l Hl) as (Hx & Hl' & Hi).
    pose proof (named_at dir i x b Hx) as Nb.
    pose proof (count_named_S dir b i x Hx) as HS.
    assert (Hsplit : forall k, (i <= k)%nat -> k = i \/ (S i <= k)%nat) by lia.
    destruct (bytes_eqb (name x) b) eqn:E.
    + apply bytes_eqb_eq in E.
      assert (Hik : ~ inside_same dir b i) by (intros (_ & Hn & _); apply Hn, Nb, E).
      assert (Hstep : (S i <= k)%nat /\ inside_same dir b k <-> (i <= k)%nat /\ inside_same dir b k).
      { split; [intros [? ?]; split; [lia|auto]|]. intros [Hk Hin].
        destruct (Hsplit k Hk) as [->|]; [contradiction|auto]. }
      assert (Hodd : Nat.odd (count_named dir b (S i)) = negb flag).
      { rewrite HS, Nat.add_1_r, Nat.odd_succ, <- Nat.negb_odd, Hflag. reflexivity. }
      destruct flag; cbn [andb negb] in *; rewrite IH; auto.
    + apply bytes_eqb_neq in E. rewrite Nat.add_0_r in HS. rewrite !Bool.andb_false_r.
      destruct flag.
      * cbn [In]. rewrite IH by (auto; congruence). split.
        -- intros [<-|[Hk Hin]]; [|split; [lia|auto]]. split; [lia|]. split; [exact Hi|].
           split; [rewrite Nb; exact E|auto].
        -- intros [Hk Hin]. destruct (Hsplit k Hk) as [->|]; auto.
      * rewrite IH by (auto; congruence).
        split; [intros [? ?]; split; [lia|auto]|]. intros [Hk Hin].
        destruct (Hsplit k Hk) as [->|]; [|auto]. destruct Hin as (_ & _ & Ho). congruence.
Qed.

Lemma between_items : forall w b e, unsigned_entries w ->
  let ks := between_idx b e false 0 (directory w) in
  (forall xs, iter_entries_between w b e = Ok xs <->
     Forall2 (fun k x => exists d, nth_error (directory w) k = Some d /\ we_name x = name d
                         /\ entry_data (buffer w) d (we_data x)) ks xs)
  /\ ((exists p, iter_entries_between w b e = Panic p) <->
      exists k d, In k ks /\ nth_error (directory w) k = Some d /\ ~ in_bounds (buffer w) d).
Proof.
  intros w b e Hu ks. unfold iter_entries_between.
  pose proof (between_loop_idx b e (directory w) (directory w) false 0 eq_refl) as HF.
  fold ks in HF.
  set (f := fun e0 : dir_entry => let* d := extract_slice e0 (buffer w) in Ok (mk_wad_entry (name e0) d)) in *.
  set (ds := between_loop b e false (directory w)) in *. clearbody ks ds. split.
  - intros xs. rewrite omap_ok. revert xs. induction HF as [|k x ks ds Hk HF IH]; intros xs.
    + split; intros H; inversion H; constructor.
    + destruct (unsigned_nth _ _ _ Hu Hk) as [U1 U2]. split; intros H.
      * inversion H as [|? y ? ys Hy Hys]; subst. constructor; [|apply IH; auto].
        unfold f in Hy. apply obind_ok in Hy. destruct Hy as (d & Hd & Hy). injection Hy as <-.
        apply extract_slice_ok in Hd; auto. exists x; auto.
      * inversion H as [|? y ? ys Hy Hys]; subst. constructor; [|apply IH; auto].
        destruct Hy as (d & Hd & Hn & Hdata). rewrite Hk in Hd. injection Hd as <-.
        unfold f. apply obind_ok. exists (we_data y). split; [apply extract_slice_ok; auto|].
        destruct y; cbn in *; subst; reflexivity.
  - induction HF as [|k x ks ds Hk HF IH]; cbn [omap].
    + split; [intros [p H]; discriminate|intros (k & d & [] & _)].
    + destruct (unsigned_nth _ _ _ Hu Hk) as [U1 U2]. unfold f at 1.
      destruct (extract_slice_cases x (buffer w) U1 U2) as [(Hb & d & Hd & ->)|(Hb & ->)]; cbn [obind].
      * split.
        -- intros [p H]. assert (exists p, omap f ds = Panic p).
           { destruct (omap f ds); cbn [obind] in H; try discriminate; eauto. }
           apply IH in H0. destruct H0 as (k' & d' & Hin & H0). exists k', d'. split; [right; auto|auto].
        -- intros (k' & d' & [<-|Hin] & Hk' & Hnb).
           ++ rewrite Hk in Hk'. injection Hk' as <-. contradiction.
           ++ assert (HP : exists p, omap f ds = Panic p) by (apply IH; eauto).
              destruct HP as [p ->]. cbn [obind]. eauto.
      * split; [|eauto]. intros _. exists k, x. split; [left; reflexivity|auto].
Qed.

Lemma between_ks_spec : forall w b e, b <> e -> forall k,
  In k (between_idx b e false 0 (directory w)) <-> inside (directory w) b e k.
Proof.
  intros w b e Hbe k. rewrite (between_idx_spec b e (directory w) Hbe (directory w) false 0 eq_refl).
  - split; [tauto|]. split; [lia|auto].
  - split; [discriminate|]. intros (j & Hj & _). lia.
Qed.
Lemma between_ks_same : forall w b k,
  In k (between_idx b b false 0 (directory w)) <-> inside_same (directory w) b k.
Proof.
  intros w b k. rewrite (between_idx_same b (directory w) (directory w) false 0 eq_refl).
  - split; [tauto|]. split; [lia|auto].
  - destruct (directory w); reflexivity.
Qed.

Lemma sorted_unique : forall ks ks' : list nat, StronglySorted lt ks -> StronglySorted lt ks' ->
  (forall k, In k ks <-> In k ks') -> ks = ks'.
Proof.
  induction ks as [|a ks IH]; intros [|b ks'] H H' HI.
  - reflexivity.
  - exfalso. apply (HI b). left; reflexivity.
  - exfalso. apply (HI a). left; reflexivity.
  - inversion H as [|? ? Hs Hf]; subst. inversion H' as [|? ? Hs' Hf']; subst.
    rewrite Forall_forall in Hf, Hf'.
    assert (a = b).
    { destruct (proj1 (HI a) (or_introl eq_refl)) as [->|Ha]; auto.
      destruct (proj2 (HI b) (or_introl eq_refl)) as [->|Hb]; auto.
      apply Hf in Hb. apply Hf' in Ha. lia. }
    subst b. f_equal. apply IH; auto. intros k. split; intros Hk.
    + destruct (proj1 (HI k) (or_intror Hk)) as [->|]; auto. apply Hf in Hk. lia.
    + destruct (proj2 (HI k) (or_intror Hk)) as [->|]; auto. apply Hf' in Hk. lia.
Qed.

Lemma between_general : forall w b e (P : nat -> Prop), unsigned_entries w ->
  (forall k, In k (between_idx b e false 0 (directory w)) <-> P k) ->
  (forall xs, iter_entries_between w b e = Ok xs <-> yields w P xs)
  /\ ((exists p, iter_entries_between w b e = Panic p) <->
      exists k d, P k /\ nth_error (directory w) k = Some d /\ ~ in_bounds (buffer w) d).
Proof.
  intros w b e P Hu HP. destruct (between_items w b e Hu) as [HO HPan].
  pose proof (between_idx_sorted b e (directory w) false 0) as HS. split.
  - intros xs. rewrite HO. unfold yields. split.
    + intros HF. exists (between_idx b e false 0 (directory w)). auto.
    + intros (ks & Hs & Hin & HF).
      replace (between_idx b e false 0 (directory w)) with ks; auto.
      apply sorted_unique; auto. intros k. rewrite Hin, HP. reflexivity.
  - rewrite HPan. split; intros (k & d & H1 & H2); exists k, d; (split; [apply HP; auto|auto]).
Qed.
