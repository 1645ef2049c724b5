(** Proofs about the map-aware WAD iterator. *)

From Coq Require Import String List ZArith Bool Lia ZifyBool ZifyNat ZifyN.
From Coq Require Import Strings.Byte.
From Verif Require Import Base SpecBytes BaseFacts Nom NomFacts ParseWad
  SpecMapName MapNameFacts ArchiveWad SpecArchive ArchiveFacts.
Import ListNotations.
Local Open Scope Z_scope.
Ltac Zify.zify_post_hook ::= Z.div_mod_to_equations.

Definition order_of (cs : list (lump * bool)) : list (bytes * bool) :=
  map (fun '(f, b) => (lump_name f, b)) cs.

Lemma order_canonical : MAP_LUMP_ORDER = order_of canonical.
Proof. reflexivity. Qed.

Lemma lump_name_inj : forall f g, lump_name f = lump_name g -> f = g.
Proof.
  intros f g H. apply bytes_eqb_eq in H.
  destruct f, g; try reflexivity; vm_compute in H; discriminate.
Qed.

Lemma lump_not_marker : forall f, map_name_of (lump_name f) = None.
Proof. intros []; vm_compute; reflexivity. Qed.

Lemma assign_spec : forall r f i, exists r', assign_lump r (lump_name f) i = Some r'
  /\ lump_index f r' = Some i
  /\ (forall g, g <> f -> lump_index g r' = lump_index g r)
  /\ b_name r' = b_name r /\ marker_index r' = marker_index r /\ last_index r' = last_index r
  /\ b_format r' = match f with BEHAVIOR => Hexen | _ => b_format r end.
Proof.
  intros [fo n m l th li si ve se ss no sc re bl be te] f i.
  destruct f;
    (eexists; split; [reflexivity|]; cbn [lump_index b_name marker_index last_index b_format
       things_index linedefs_index sidedefs_index vertexes_index segs_index ssectors_index nodes_index
       sectors_index reject_index blockmap_index behavior_index textmap_index];
     split; [reflexivity|]; split; [intros [] Hg; try reflexivity; congruence|]; repeat split).
Qed.

Lemma run_in : forall cs fs f, run cs fs -> In f fs -> In f (map fst cs).
Proof.
  intros cs fs f H. induction H; cbn [map fst In]; [intros []|intros [->|]; auto|auto].
Qed.

Lemma run_prefix : forall cs fs gs, run cs (fs ++ gs) -> run cs fs.
Proof.
  intros cs fs gs H. remember (fs ++ gs) as l eqn:E. revert fs E.
  induction H as [cs|f b cs l H IH|f cs l H IH]; intros fs E.
  - destruct fs; [constructor|discriminate].
  - destruct fs as [|g fs]; [constructor|]. injection E as -> ->. constructor. apply IH. reflexivity.
  - apply run_skip. auto.
Qed.

(** The iterator state at index [i]. *)
Definition st (dir : list dir_entry) (i : nat) : iter_state := enumerate_from i (skipn i dir).

Lemma st_nil : forall dir i, st dir i = [] <-> (length dir <= i)%nat.
Proof.
  intros dir i. unfold st. split; intros H.
  - assert (L : length (enumerate_from i (skipn i dir)) = 0%nat) by (rewrite H; reflexivity).
    rewrite enumerate_from_length, skipn_length in L. lia.
  - rewrite skipn_all_nil by lia. reflexivity.
Qed.

Lemma st_cons : forall dir i, (i < length dir)%nat ->
  exists e, nth_error dir i = Some e /\ st dir i = (i, e) :: st dir (S i).
Proof.
  intros dir i H. destruct (skipn i dir) as [|e l] eqn:E.
  - assert (L : length (skipn i dir) = 0%nat) by (rewrite E; reflexivity). rewrite skipn_length in L. lia.
  - destruct (nth_of_skipn dir i e l (eq_sym E)) as (He & Hl & _). exists e. split; [exact He|].
    unfold st. rewrite E, <- Hl. reflexivity.
Qed.

(** What scanning the order [cs] from index [i] finds. *)
Definition found (dir : list dir_entry) (cs : list (lump * bool)) (i : nat) (fs : list lump) : Prop :=
  run cs fs
  /\ (forall j f, nth_error fs j = Some f -> named dir (i + j) (lump_name f))
  /\ (forall f, run cs (fs ++ [f]) -> ~ named dir (i + length fs) (lump_name f)).

Definition filled (r r' : map_block) (i : nat) (fs : list lump) : Prop :=
  (forall j f, nth_error fs j = Some f -> lump_index f r' = Some (i + j)%nat)
  /\ (forall f, ~ In f fs -> lump_index f r' = lump_index f r)
  /\ b_name r' = b_name r /\ marker_index r' = marker_index r
  /\ (In BEHAVIOR fs -> b_format r' = Hexen) /\ (~ In BEHAVIOR fs -> b_format r' = b_format r).

Lemma filled_nil : forall r i, filled r r i [].
Proof.
  intros r i. split; [|split; [|split; [|split; [|split]]]]; auto; try tauto.
  intros [|j] f; discriminate. intros [].
Qed.

Lemma filled_cons : forall r r1 r' i f fs,
  lump_index f r1 = Some i -> (forall g, g <> f -> lump_index g r1 = lump_index g r) ->
  b_name r1 = b_name r -> marker_index r1 = marker_index r ->
  b_format r1 = match f with BEHAVIOR => Hexen | _ => b_format r end ->
  ~ In f fs -> filled r1 r' (S i) fs -> filled r r' i (f :: fs).
Proof.
  intros r r1 r' i f fs H1 H2 H3 H4 H5 Hn (A & B & C & D & E & F).
  split; [|split; [|split; [|split; [|split]]]].
  - intros [|j] g Hg; cbn [nth_error] in Hg.
    + injection Hg as <-. rewrite (B f Hn), H1, Nat.add_0_r. reflexivity.
    + rewrite (A j g Hg). f_equal. lia.
  - intros g Hg. cbn [In] in Hg. rewrite (B g) by tauto. apply H2. intros ->; apply Hg; auto.
  - congruence.
  - congruence.
  - intros [->|HB]; [rewrite (F Hn), H5; reflexivity|auto].
  - intros HB. cbn [In] in HB. rewrite F by tauto. rewrite H5. destruct f; auto. exfalso; apply HB; auto.
Qed.

Lemma scan_spec : forall dir cs r i, NoDup (map fst cs) -> (i < length dir)%nat ->
  exists fs, found dir cs i fs /\
  match nth_error dir i with
  | None => False
  | Some e =>
      match scan_lumps (order_of cs) r i e (st dir i) with
      | inl (r', i'', it') =>
          filled r r' i fs /\ last_index r' = last_index r
          /\ it' = st dir (i + length fs)
          /\ (i + length fs <= length dir)%nat
          /\ ((i + length fs < length dir)%nat ->
                i'' = (i + length fs)%nat /\ forall f, In (f, true) cs -> In f fs)
          /\ ((length dir <= i + length fs)%nat -> i'' = (i + length fs - 1)%nat /\ fs <> [])
      | inr it' =>
          (i + length fs < length dir)%nat /\ (exists f, In (f, true) cs /\ ~ In f fs)
          /\ it' = st dir (i + length fs)
      end
  end.
Proof.
  intros dir cs. induction cs as [|[f b] cs IH]; intros r i Hnd Hi.
  - destruct (st_cons dir i Hi) as (e & He & Hst). exists []. rewrite He. cbn [order_of map scan_lumps length].
    split.
    + split; [constructor|]. split; [intros [|j]; discriminate|]. intros f H. inversion H.
    + rewrite Nat.add_0_r. split; [apply filled_nil|]. split; [reflexivity|]. split; [reflexivity|].
      split; [lia|]. split; [intros _; split; [reflexivity|intros ? []]|lia].
  - destruct (st_cons dir i Hi) as (e & He & Hst). cbn [map fst] in Hnd. inversion Hnd as [|? ? Hni Hnd']; subst.
    cbn [order_of map scan_lumps]. fold (order_of cs). rewrite He.
    destruct (bytes_eqb (name e) (lump_name f)) eqn:En.
    + apply bytes_eqb_eq in En. rewrite En.
      destruct (assign_spec r f i) as (r1 & -> & A1 & A2 & A3 & A4 & A5 & A6).
      rewrite Hst. cbn [tl].
      assert (Hfound : forall fs, found dir cs (S i) fs -> found dir ((f, b) :: cs) i (f :: fs)).
      { intros fs (R & N & M). split; [constructor; exact R|]. split.
        - intros [|j] g Hg; cbn [nth_error] in Hg.
          + injection Hg as <-. rewrite Nat.add_0_r. exists e; auto.
          + replace (i + S j)%nat with (S i + j)%nat by lia. auto.
        - intros g Hg. cbn [app] in Hg. cbn [length].
          replace (i + S (length fs))%nat with (S i + length fs)%nat by lia.
          inversion Hg as [|? ? ? ? Hr|? ? ? Hr]; subst.
          + apply M; exact Hr.
          + exfalso. apply Hni. eapply run_in; [exact Hr|]. left; reflexivity. }
      assert (Hnin : forall fs, found dir cs (S i) fs -> ~ In f fs).
      { intros fs (R & _) H. apply Hni. eapply run_in; eauto. }
      destruct (Nat.ltb_spec (S i) (length dir)) as [H|H].
      * destruct (st_cons dir (S i) H) as (e' & He' & Hst').
        destruct (IH r1 (S i) Hnd' H) as (fs & Hf & Hres). rewrite He' in Hres.
        exists (f :: fs). split; [auto|]. rewrite Hst' in Hres |- *.
        destruct (scan_lumps (order_of cs) r1 (S i) e' ((S i, e') :: st dir (S (S i)))) as [[[r' i''] it']|it'].
        -- destruct Hres as (B1 & B2 & B3 & B4 & B5 & B6). cbn [length].
           replace (i + S (length fs))%nat with (S i + length fs)%nat by lia.
           split; [eapply filled_cons; eauto|]. split; [congruence|]. split; [exact B3|]. split; [exact B4|].
           split.
           ++ intros HL. destruct (B5 HL) as [-> HB]. split; [reflexivity|].
              intros g [E|Hg]; [injection E as -> _; left; reflexivity|right; auto].
           ++ intros HL. destruct (B6 HL) as [-> _]. split; [reflexivity|discriminate].
        -- destruct Hres as (B1 & (g & B2 & B3) & B4). cbn [length]. split; [lia|].
           split; [|rewrite B4; f_equal; lia]. exists g.
           split; [right; exact B2|]. intros [->|Hg]; [|auto]. apply Hni.
           change g with (fst (g, true)). apply in_map. exact B2.
      * assert (Hs : st dir (S i) = []) by (apply st_nil; lia). rewrite Hs.
        exists [f]. assert (Hf0 : found dir cs (S i) []).
        { split; [constructor|]. split; [intros [|j]; discriminate|]. intros g _ (e' & He' & _).
          cbn [length] in He'. assert (nth_error dir (S i + 0) <> None) by congruence.
          apply nth_error_Some in H0. lia. }
        split; [auto|]. cbn [length]. split.
        { eapply filled_cons; [exact A1|exact A2|exact A3|exact A4|exact A6|intros []|apply filled_nil]. }
        split; [exact A5|]. split; [symmetry; apply st_nil; lia|]. split; [lia|]. split; [lia|].
        intros _. split; [lia|discriminate].
    + apply bytes_eqb_neq in En. destruct b.
      * exists []. split.
        -- split; [constructor|]. split; [intros [|j]; discriminate|]. intros g Hg (e' & He' & Hn').
           cbn [app length] in *. rewrite Nat.add_0_r in He'. inversion Hg; subst. congruence.
        -- cbn [length]. split; [lia|]. rewrite Nat.add_0_r. split; [|reflexivity].
           exists f. split; [left; reflexivity|intros []].
      * destruct (IH r i Hnd' Hi) as (fs & (R & N & M) & Hres). rewrite He in Hres.
        exists fs. split.
        -- split; [apply run_skip; exact R|]. split; [exact N|]. intros g Hg.
           inversion Hg as [|? ? ? gs Hr E1 E2|? ? ? Hr]; subst.
           ++ destruct fs; discriminate.
           ++ destruct fs as [|g' fs]; cbn [app length] in *.
              ** match goal with E : _ :: _ = [g] |- _ => injection E as E0 _; subst g end. intros (e' & He' & Hn'). rewrite Nat.add_0_r in He'. congruence.
              ** match goal with E : _ :: _ = g' :: _ |- _ => injection E as E0 _; subst g' end. exfalso. apply Hni. eapply run_in; [exact R|]. left; reflexivity.
           ++ apply M; exact Hr.
        -- destruct (scan_lumps (order_of cs) r i e (st dir i)) as [[[r' i''] it']|it'].
           ++ destruct Hres as (B1 & B2 & B3 & B4 & B5 & B6). repeat (split; [assumption|]).
              split; [|exact B6]. intros HL. destruct (B5 HL) as [E HB]. split; [exact E|].
              intros g [Eg|Hg]; [discriminate|auto].
           ++ destruct Hres as (B1 & (g & B2 & B3) & B4). split; [exact B1|]. split; [|exact B4].
              exists g. split; [right; exact B2|exact B3].
Qed.

Lemma found_longest : forall dir i fs, found dir canonical (S i) fs -> longest_run dir i fs.
Proof.
  intros dir i fs (R & N & M). split; [split; auto|]. intros f [R' N'].
  apply (M f R'). apply (N' (length fs) f). rewrite nth_error_app2 by lia. rewrite Nat.sub_diag. reflexivity.
Qed.

Lemma longest_unique : forall dir i fs fs', longest_run dir i fs -> longest_run dir i fs' -> fs = fs'.
Proof.
  assert (Hagree : forall dir i fs fs' j f f', run_after dir i fs -> run_after dir i fs' ->
            nth_error fs j = Some f -> nth_error fs' j = Some f' -> f = f').
  { intros dir i fs fs' j f f' [_ H] [_ H'] Hf Hf'.
    destruct (H j f Hf) as (e & He & Hn). destruct (H' j f' Hf') as (e' & He' & Hn').
    apply lump_name_inj. congruence. }
  assert (Hle : forall dir i fs fs', run_after dir i fs -> longest_run dir i fs' ->
            (length fs <= length fs')%nat).
  { intros dir i fs fs' H [H' Hmax]. destruct (Nat.leb_spec (length fs) (length fs')) as [L|L]; auto. exfalso.
    destruct (nth_error fs (length fs')) as [f|] eqn:Ef; [|apply nth_error_None in Ef; lia].
    apply (Hmax f).
    assert (E : fs' ++ [f] = firstn (S (length fs')) fs).
    { apply nth_error_ext'.
      - rewrite app_length, firstn_length. cbn [length]. lia.
      - intros k. destruct (Nat.ltb_spec k (length fs')) as [Lk|Lk].
        + rewrite nth_error_app1 by lia.
          assert (Ek : nth_error (firstn (S (length fs')) fs) k = nth_error fs k).
          { rewrite <- (firstn_skipn (S (length fs')) fs) at 2. rewrite nth_error_app1; auto.
            rewrite firstn_length. lia. }
          rewrite Ek. destruct (nth_error fs' k) as [a|] eqn:Ea; [|apply nth_error_None in Ea; lia].
          destruct (nth_error fs k) as [b|] eqn:Eb; [|apply nth_error_None in Eb; lia].
          f_equal. exact (Hagree _ _ _ _ _ _ _ H' H Ea Eb).
        + destruct (Nat.eq_dec k (length fs')) as [->|Hk].
          * rewrite nth_error_app2, Nat.sub_diag by lia. cbn [nth_error]. rewrite <- Ef.
            rewrite <- (firstn_skipn (S (length fs')) fs) at 1. rewrite nth_error_app1; auto.
            rewrite firstn_length. lia.
          * rewrite (proj2 (nth_error_None _ _)) by (rewrite app_length; cbn; lia).
            symmetry. apply nth_error_None. rewrite firstn_length. lia. }
    rewrite E. destruct H as [R N]. split.
    - apply (run_prefix _ _ (skipn (S (length fs')) fs)). rewrite firstn_skipn. exact R.
    - intros j g Hg. apply N. rewrite <- (firstn_skipn (S (length fs')) fs). rewrite nth_error_app1; auto.
      apply nth_error_Some. congruence. }
  intros dir i fs fs' H H'.
  assert (L : length fs = length fs') by (apply Nat.le_antisymm; [apply (Hle dir i fs fs')|apply (Hle dir i fs' fs)]; auto; [apply H|apply H']).
  apply nth_error_ext'; auto. intros k.
  destruct (nth_error fs k) as [a|] eqn:Ea.
  - destruct (nth_error fs' k) as [b|] eqn:Eb.
    + f_equal. exact (Hagree _ _ _ _ _ _ _ (proj1 H) (proj1 H') Ea Eb).
    + apply nth_error_None in Eb. assert (k < length fs)%nat by (apply nth_error_Some; congruence). lia.
  - symmetry. apply nth_error_None. apply nth_error_None in Ea. lia.
Qed.

Lemma positions_seq : forall (get : lump -> option nat) cs fs i, run cs fs -> NoDup (map fst cs) ->
  (forall j f, nth_error fs j = Some f -> get f = Some (i + j)%nat) ->
  (forall f, In f (map fst cs) -> ~ In f fs -> get f = None) ->
  flat_map (fun '(f, _) => match get f with Some k => [k] | None => [] end) cs = seq i (length fs).
Proof.
  intros get cs fs i H. revert i. induction H as [cs|f b cs fs H IH|f cs fs H IH]; intros i Hnd H1 H2.
  - cbn [length seq]. clear Hnd H1. induction cs as [|[f b] cs IHcs]; cbn [flat_map]; [reflexivity|].
    rewrite (H2 f) by (cbn; auto). cbn [app]. apply IHcs. intros g Hg. apply H2. cbn. auto.
  - cbn [map fst] in Hnd. inversion Hnd as [|? ? Hni Hnd']; subst.
    cbn [flat_map length seq]. rewrite (H1 0%nat f eq_refl). rewrite Nat.add_0_r. cbn [app]. f_equal.
    apply IH; auto.
    + intros j g Hg. rewrite (H1 (S j) g Hg). f_equal. lia.
    + intros g Hg Hn. apply H2; [cbn; auto|]. cbn. intros [->|Hg']; auto.
  - cbn [map fst] in Hnd. inversion Hnd as [|? ? Hni Hnd']; subst.
    cbn [flat_map]. rewrite (H2 f); [|cbn; auto|].
    + cbn [app]. apply IH; auto. intros g Hg. apply H2. cbn; auto.
    + intros Hf. apply Hni. eapply run_in; eauto.
Qed.

Lemma canonical_nodup : NoDup (map fst canonical).
Proof. cbn. repeat constructor; cbn; intuition discriminate. Qed.

Lemma ends_with_iff : forall s t, ends_with s t = true <-> has_suffix s t.
Proof.
  intros s t. unfold ends_with, has_suffix. split.
  - intros H. apply andb_prop in H. destruct H as [H1 H2]. apply bytes_eqb_eq in H2.
    exists (firstn (length s - length t) s). rewrite <- H2 at 2. symmetry. apply firstn_skipn.
  - intros [p ->]. rewrite app_length.
    replace (length p + length t - length t)%nat with (length p) by lia.
    rewrite skipn_app_exact by reflexivity. rewrite bytes_eqb_refl. lia.
Qed.

Lemma marker_iff : forall dir i e, nth_error dir i = Some e ->
  (marker dir i <-> map_name_of (name e) <> None).
Proof.
  intros dir i e He. split.
  - intros (e' & n & He' & Hn). rewrite He in He'. injection He' as <-.
    apply map_name_of_iff in Hn. congruence.
  - intros H. destruct (map_name_of (name e)) as [n|] eqn:E; [|congruence].
    exists e, n. split; [exact He|]. apply map_name_of_iff. exact E.
Qed.

Lemma named_not_marker : forall dir k f, named dir k (lump_name f) -> ~ marker dir k.
Proof.
  intros dir k f (e & He & Hn) Hm. apply (marker_iff dir k e He) in Hm. apply Hm. rewrite Hn. apply lump_not_marker.
Qed.

(** An item of the iteration, at index [i], ending before [j]. *)
Definition item_ok (dir : list dir_entry) (i : nat) (x : wad_item) : Prop :=
  match x with
  | WMap b => block_ok dir b /\ marker_index b = i
  | _ => plain_item dir x /\ item_entry x = Some i /\ ~ marker dir i
  end.

Lemma set_last_facts : forall r l, b_format (set_last_index r l) = b_format r
  /\ b_name (set_last_index r l) = b_name r /\ marker_index (set_last_index r l) = marker_index r
  /\ last_index (set_last_index r l) = l
  /\ forall f, lump_index f (set_last_index r l) = lump_index f r.
Proof. intros [fo n m la th li si ve se ss no sc re bl be te] l. repeat split. Qed.

Lemma next_spec : forall dir i, (i < length dir)%nat ->
  match wad_next (st dir i) with
  | (None, it') => (marker dir i /\ broken dir i) /\ exists fs, longest_run dir i fs /\ it' = st dir (S i + length fs)
  | (Some x, it') =>
      exists j, (i < j <= length dir)%nat /\ it' = st dir j /\ item_span x = seq i (j - i)
        /\ item_ok dir i x /\ ~ (marker dir i /\ broken dir i)
        /\ forall k, (i < k < j)%nat -> ~ marker dir k
  end.
Proof.
  intros dir i Hi. destruct (st_cons dir i Hi) as (e & He & Hst). rewrite Hst. cbn [wad_next].
  pose proof (marker_iff dir i e He) as Hm.
  destruct (map_name_of (name e)) as [mn|] eqn:Emn.
  - assert (Hmark : marker dir i) by (apply Hm; discriminate).
    destruct (Nat.ltb_spec (S i) (length dir)) as [H|H].
    + destruct (st_cons dir (S i) H) as (e' & He' & Hst'). rewrite Hst'.
      rewrite order_canonical. rewrite <- Hst'.
      set (r0 := if bytes_eqb (name e') (bs "TEXTMAP") then set_format (new_block mn i) UDMF else new_block mn i).
      destruct (scan_spec dir canonical r0 (S i) canonical_nodup H) as (fs & Hf & Hres).
      rewrite He' in Hres.
      assert (HT : bytes_eqb (name e') (bs "TEXTMAP") = true ->
                   exists it, scan_lumps (order_of canonical) r0 (S i) e' (st dir (S i)) = inr it).
      { intros E. apply bytes_eqb_eq in E.
        unfold canonical. cbn [order_of map scan_lumps]. rewrite E.
        change (bytes_eqb (bs "TEXTMAP") (lump_name THINGS)) with false. eauto. }
      apply found_longest in Hf.
      destruct (scan_lumps (order_of canonical) r0 (S i) e' (st dir (S i))) as [[[r' i''] it']|it'].
      * assert (ET : bytes_eqb (name e') (bs "TEXTMAP") = false).
        { destruct (bytes_eqb (name e') (bs "TEXTMAP")); auto. destruct (HT eq_refl). discriminate. }
        subst r0. rewrite ET in Hres.
        destruct Hres as ((A & B & C & D & E & F) & _ & -> & G1 & G2 & G3).
        assert (Hne : fs <> []).
        { intros ->. destruct (Nat.ltb_spec (S i + 0) (length dir)) as [L|L].
          - destruct (G2 L) as [_ HR]. destruct (HR THINGS). cbn; auto.
          - destruct (G3 L); auto. }
        assert (Hpos : (0 < length fs)%nat) by (destruct fs; [congruence|cbn; lia]).
        destruct (set_last_facts r' i'') as (S1 & S2 & S3 & S4 & S5).
        assert (BN : forall f, lump_index f (new_block mn i) = None) by (intros []; reflexivity).
        assert (Hbr : ~ broken dir i).
        { intros [HB|(fs' & HL & HB1 & f & HB2 & HB3)]; [lia|].
          pose proof (longest_unique _ _ _ _ Hf HL); subst fs'.
          destruct (G2 HB1) as [_ HR]. apply HB3, HR, HB2. }
        exists (S i + length fs)%nat. split; [lia|]. split; [reflexivity|]. split; [|split; [|split]].
        -- cbn [item_span]. rewrite S3, D. cbn [marker_index new_block].
           replace (S i + length fs - i)%nat with (S (length fs)) by lia. cbn [seq]. f_equal.
           unfold lump_positions. destruct Hf as [[R _] _].
           apply (positions_seq (fun f => lump_index f (set_last_index r' i''))); auto using canonical_nodup.
           ++ intros j f Hj. rewrite S5. apply A; exact Hj.
           ++ intros f _ Hn. rewrite S5, (B f Hn). apply BN.
        -- cbn [item_ok]. rewrite S3, D. split; [|reflexivity].
           exists e, fs. rewrite S3, D, S2, C, S1, S4. cbn [marker_index new_block b_name].
           split; [exact He|]. split; [apply map_name_of_iff; exact Emn|]. split; [exact Hf|].
           split; [exact Hne|]. split; [|split; [|split; [|split]]].
           ++ intros f k. rewrite S5. split.
              ** intros Hk. destruct (in_dec (fun a c : lump => ltac:(decide equality) : {a = c} + {a <> c}) f fs) as [Hin|Hin].
                 --- apply In_nth_error in Hin. destruct Hin as [j Hj]. exists j. split; [exact Hj|].
                     rewrite (A j f Hj) in Hk. congruence.
                 --- rewrite (B f Hin), BN in Hk. discriminate.
              ** intros (j & Hj & ->). apply A; exact Hj.
           ++ exact E.
           ++ intros HN. rewrite (F HN). reflexivity.
           ++ intros HL. apply G2 in HL. tauto.
           ++ intros HL. destruct (G3 HL) as [-> _]. lia.
        -- tauto.
        -- intros k Hk. destruct (nth_error fs (k - S i)) as [f|] eqn:Ef; [|apply nth_error_None in Ef; lia].
           destruct Hf as [[_ N] _]. apply (named_not_marker dir k f).
           replace k with (S i + (k - S i))%nat by lia. apply N; exact Ef.
      * destruct Hres as (B1 & (f & B2 & B3) & B4). split; [|eauto].
        split; [exact Hmark|]. right. exists fs. split; [exact Hf|]. split; [exact B1|]. exists f. auto.
    + assert (Hs : st dir (S i) = []) by (apply st_nil; lia). rewrite Hs.
      split; [split; [exact Hmark|]; left; lia|]. exists []. rewrite Nat.add_0_r. split; [|symmetry; exact Hs].
      split; [split; [constructor|intros [|j]; discriminate]|]. intros f [_ N]. destruct (N 0%nat f eq_refl) as (e' & He' & _).
      assert (nth_error dir (S i + 0) <> None) by congruence. apply nth_error_Some in H0. lia.
  - assert (Hnm : ~ marker dir i) by (rewrite Hm; congruence).
    pose proof (ends_with_iff (name e) start_suffix) as HS. pose proof (ends_with_iff (name e) end_suffix) as HE.
    change (bs "_START") with start_suffix. change (bs "_END") with end_suffix.
    destruct (ends_with (name e) start_suffix); [|destruct (ends_with (name e) end_suffix)];
      (exists (S i); split; [lia|]; split; [reflexivity|]; split;
       [replace (S i - i)%nat with 1%nat by lia; reflexivity|]; split; [|split; [tauto|lia]];
       cbn [item_ok plain_item item_entry]; split; [|split; [reflexivity|exact Hnm]];
       split; [exact He|]).
    + apply HS; reflexivity.
    + apply HE; reflexivity.
    + split; intros HH; [apply HS in HH|apply HE in HH]; discriminate.
Qed.

Lemma collect_spec : forall dir fuel i, (i <= length dir)%nat -> (length dir - i < fuel)%nat ->
  exists xs it', collect_items fuel (st dir i) = Some (xs, it')
    /\ exists n, (i <= n <= length dir)%nat /\ concat (map item_span xs) = seq i (n - i)
       /\ (forall x, In x xs -> exists j, (i <= j < n)%nat /\ item_ok dir j x)
       /\ (forall k, (i <= k < n)%nat -> ~ (marker dir k /\ broken dir k))
       /\ (n = length dir \/ (marker dir n /\ broken dir n)).
Proof.
  intros dir fuel. induction fuel as [|fuel IH]; intros i Hi Hfuel; [lia|].
  cbn [collect_items]. destruct (Nat.eq_dec i (length dir)) as [->|Hne].
  - assert (Hs : st dir (length dir) = []) by (apply st_nil; lia). rewrite Hs. cbn [wad_next].
    do 2 eexists. split; [reflexivity|]. exists (length dir). split; [lia|].
    rewrite Nat.sub_diag. split; [reflexivity|]. split; [intros x []|]. split; [lia|auto].
  - pose proof (next_spec dir i ltac:(lia)) as HN.
    destruct (wad_next (st dir i)) as [[x|] it'].
    + destruct HN as (j & Hj & -> & Hspan & Hok & Hnb & Hnm).
      destruct (IH j ltac:(lia) ltac:(lia)) as (xs & it'' & -> & n & Hn & Hc & Hall & Hno & Hstop).
      do 2 eexists. split; [reflexivity|]. exists n. split; [lia|]. split; [|split; [|split]].
      * cbn [map concat]. rewrite Hspan, Hc. replace j with (i + (j - i))%nat at 2 by lia.
        rewrite <- seq_app. f_equal. lia.
      * intros y [<-|Hy]; [exists i; split; [lia|auto]|].
        destruct (Hall y Hy) as (k & Hk & Hok'). exists k. split; [lia|auto].
      * intros k Hk. destruct (Nat.eq_dec k i) as [->|]; [exact Hnb|].
        destruct (Nat.ltb_spec k j) as [L|L]; [|apply Hno; lia].
        intros [HM _]. eapply Hnm; [|exact HM]. lia.
      * exact Hstop.
    + do 2 eexists. split; [reflexivity|]. exists i. split; [lia|]. rewrite Nat.sub_diag.
      split; [reflexivity|]. split; [intros x []|]. split; [lia|]. right. apply HN.
Qed.

Lemma iter_spec : forall w, exists n, (n <= length (directory w))%nat
  /\ concat (map item_span (iter w)) = seq 0 n
  /\ (forall x, In x (iter w) -> exists j, (j < n)%nat /\ item_ok (directory w) j x)
  /\ (forall k, (k < n)%nat -> ~ (marker (directory w) k /\ broken (directory w) k))
  /\ (n = length (directory w) \/ (marker (directory w) n /\ broken (directory w) n)).
Proof.
  intros w. unfold iter, iter_collect.
  change (enumerate (directory w)) with (st (directory w) 0).
  assert (L : length (st (directory w) 0) = length (directory w)) by apply enumerate_from_length.
  rewrite L.
  destruct (collect_spec (directory w) (S (length (directory w))) 0 ltac:(lia) ltac:(lia))
    as (xs & it' & -> & n & Hn & Hc & Hall & Hno & Hstop).
  exists n. rewrite Nat.sub_0_r in Hc. split; [lia|]. split; [exact Hc|]. split; [|split; [|exact Hstop]].
  - intros x Hx. destruct (Hall x Hx) as (j & Hj & Hok). exists j. split; [lia|exact Hok].
  - intros k Hk. apply Hno. lia.
Qed.

(** Fuel is never exhausted. *)
Lemma iter_collect_total : forall dir, iter_collect dir <> None.
Proof.
  intros dir. unfold iter_collect. change (enumerate dir) with (st dir 0).
  assert (L : length (st dir 0) = length dir) by apply enumerate_from_length. rewrite L.
  destruct (collect_spec dir (S (length dir)) 0 ltac:(lia) ltac:(lia)) as (xs & it' & -> & _). discriminate.
Qed.

Lemma st_at : forall dir i, at_index dir i (st dir i).
Proof.
  intros dir i. unfold at_index, st. generalize (skipn_length i dir). generalize (skipn i dir) as l.
  intros l <-. clear dir. revert i. induction l as [|x l IH]; intros i; cbn [enumerate_from map length seq fst snd]; [auto|].
  destruct (IH (S i)) as (-> & ->). auto.
Qed.

Lemma st_only : forall dir i it, at_index dir i it -> it = st dir i.
Proof.
  intros dir i it (H1 & H2). unfold st. rewrite <- H2.
  assert (L : length it = (length dir - i)%nat) by (rewrite <- (map_length fst), H1; apply seq_length).
  rewrite <- L in H1. clear - H1. revert i H1. induction it as [|[k e] it IH]; intros i H; cbn in *; [reflexivity|].
  injection H as -> H. f_equal. apply IH, H.
Qed.

Lemma next_resume : forall dir i it, (i < length dir)%nat -> at_index dir i it -> fst (wad_next it) = None ->
  exists fs, longest_run dir i fs /\ at_index dir (S i + length fs) (snd (wad_next it)).
Proof.
  intros dir i it Hi Hat Hn. apply st_only in Hat. subst it. pose proof (next_spec dir i Hi) as H.
  destruct (wad_next (st dir i)) as [[x|] it']; cbn [fst snd] in *; [discriminate|].
  destruct H as (_ & fs & Hf & ->). exists fs. split; [exact Hf|apply st_at].
Qed.
