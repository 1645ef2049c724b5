(** Proofs about [parse_wad]. *)

From Coq Require Import String List ZArith Bool Lia ZifyBool ZifyNat ZifyN.
From Coq Require Import Strings.Byte.
From Verif Require Import Base SpecBytes BaseFacts Nom NomFacts ParseWad SpecWad.
Import ListNotations.
Local Open Scope Z_scope.
Ltac Zify.zify_post_hook ::= Z.div_mod_to_equations.

(** Decompose a [do_parse!] block of [reads] parsers. *)
Ltac reads_step :=
  first
    [ apply reads_le_u8 | apply reads_le_u16 | apply reads_le_i16
    | apply reads_le_u32 | apply reads_le_i32 | apply reads_fla | apply reads_ret
    | eapply reads_bind; [ | intros ? ] ].

Ltac norm_at :=
  repeat rewrite ?u8_at_skipn, ?u16_at_skipn, ?u32_at_skipn, ?i16_at_skipn, ?i32_at_skipn,
    ?sub_skipn, ?skipn_skipn' in *;
  cbn [Nat.add] in *.

Lemma reads_wad_entry : reads p_wad_entry 16 (fun i e => entry_at i 0 e).
Proof.
  eapply reads_ext; [unfold p_wad_entry; repeat reads_step | reflexivity |].
  intros i e. cbn beta. unfold entry_at. split.
  - intros (a & -> & b & -> & c & Hc & ->). cbn [filepos size name].
    norm_at. auto.
  - intros (Ha & Hb & Hc). eexists; split; [reflexivity|].
    eexists; split; [reflexivity|]. exists (name e). norm_at. split; [exact Hc|].
    destruct e; cbn in *; subst; reflexivity.
Qed.

Lemma entry_at_skipn : forall l m off e, entry_at (skipn m l) off e <-> entry_at l (m + off) e.
Proof.
  intros. unfold entry_at. rewrite !u32_at_skipn, sub_skipn, !Nat.add_assoc. reflexivity.
Qed.

Lemma p_entries_spec : forall n i, (16 * n <= length i)%nat ->
  (exists es, p_entries n i = Done (skipn (16 * n) i) es /\ length es = n
     /\ forall k e, nth_error es k = Some e -> entry_at i (16 * k) e)
  \/ (exists c, p_entries n i = NError c /\ bad_char c
     /\ exists k, (k < n)%nat /\ forall e, ~ entry_at i (16 * k) e).
Proof.
  induction n as [|n IH]; intros i Hlen.
  - left. exists []. split; [reflexivity|]. split; [reflexivity|]. intros k e Hk. destruct k; discriminate.
  - cbn [p_entries]. destruct (reads_wad_entry i) as [_ Hl].
    destruct Hl as [(e & He & Hu & ->)|[Hno [c [-> Hc]]]]; [lia| |].
    + destruct (IH (skipn 16 i)) as [(es & -> & Hes & Hk)|(c & -> & Hc & k & Hk & Hno)].
      * rewrite skipn_length. lia.
      * left. exists (e :: es). rewrite skipn_skipn'. split; [|split].
        -- f_equal. f_equal. lia.
        -- cbn. lia.
        -- intros [|k] e' Hk'; cbn [nth_error] in Hk'.
           ++ injection Hk' as <-. exact He.
           ++ apply Hk in Hk'. rewrite entry_at_skipn in Hk'.
              replace (16 * S k)%nat with (16 + 16 * k)%nat by lia. exact Hk'.
      * right. exists c. repeat split; auto. exists (S k). split; [lia|].
        intros e' He'. apply (Hno e'). rewrite entry_at_skipn.
        replace (16 + 16 * k)%nat with (16 * S k)%nat by lia. exact He'.
    + right. exists c. repeat split; auto. exists 0%nat. split; [lia|exact Hno].
Qed.

(** ** The header *)

Lemma tag_cmp_4 : forall a b c d i,
  match tag_cmp [a; b; c; d] i with
  | Some (Some r) => (4 <= length i)%nat /\ firstn 4 i = [a; b; c; d] /\ r = skipn 4 i
  | Some None => firstn 4 i <> firstn (length i) [a; b; c; d]
  | None => (length i < 4)%nat /\ firstn 4 i = firstn (length i) [a; b; c; d]
  end.
Proof.
  assert (B : forall x y, Byte.eqb x y = true -> x = y) by (intros; apply Byte.byte_dec_bl; auto).
  assert (B' : forall x y, Byte.eqb x y = false -> x <> y)
    by (intros x y H E; apply (Byte.byte_dec_lb (x:=x) (y:=y)) in E; congruence).
  intros a b c d i.
  destruct i as [|x [|y [|z [|t r]]]]; cbn [tag_cmp firstn length skipn];
    repeat match goal with
           | |- context [Byte.eqb ?u ?v] => destruct (Byte.eqb u v) eqn:?
           end;
    repeat match goal with
           | H : Byte.eqb _ _ = true |- _ => apply B in H; subst
           | H : Byte.eqb _ _ = false |- _ => apply B' in H
           end;
    try (repeat split; auto; lia); try (intros E; congruence).
Qed.

Definition header_ctx (v : bool) (buf : bytes) (c : context) : Prop :=
  c = add_node v buf (KCustom 1) (CCode buf KAlt).

Lemma p_wad_header_spec : forall v buf,
  (exists t, has_header buf t
     /\ p_wad_header v buf = Done (skipn 12 buf) (mk_header t (u32_at buf 4) (u32_at buf 8)))
  \/ (header_cut_short buf /\ exists m, p_wad_header v buf = Incomplete m)
  \/ (wrong_magic buf /\ p_wad_header v buf
        = NFailure (add_node v buf (KCustom 1) (CCode buf KAlt))).
Proof.
  intros v buf. unfold p_wad_header.
  set (k := fun ident => do n <- le_u32;; do ofs <- le_u32;; pret (mk_header ident n ofs)).
  assert (Hk : forall t, reads (k t) 8
            (fun i h => h = mk_header t (u32_at i 0) (u32_at i 4))).
  { intros t. eapply reads_ext; [unfold k; repeat reads_step | reflexivity |].
    intros i h; cbn beta. norm_at. split.
    - intros (a & -> & b & -> & ->). reflexivity.
    - intros ->. eexists; split; [reflexivity|]. eexists; split; reflexivity. }
  assert (Hcont : forall t, (4 <= length buf)%nat -> firstn 4 buf = magic t ->
     (has_header buf t /\ k t (skipn 4 buf) = Done (skipn 12 buf) (mk_header t (u32_at buf 4) (u32_at buf 8)))
     \/ (header_cut_short buf /\ exists m, k t (skipn 4 buf) = Incomplete m)).
  { intros t H4 Hm. destruct (Hk t (skipn 4 buf)) as [Hs Hl]. rewrite skipn_length in Hs, Hl.
    destruct (Nat.ltb_spec (length buf) 12) as [H|H].
    - right. split.
      + split; [exact H|]. exists t. unfold sub. cbn [skipn]. rewrite Hm.
        rewrite firstn_all2; auto. destruct t; cbn; lia.
      + destruct Hs as [[m Hs]|[c [Hs _]]]; [lia|eauto|].
        exfalso. revert Hs. unfold k, pbind, pret, le_u32.
        destruct (skipn 4 buf) as [|? [|? [|? [|? [|? [|? [|? [|? ?]]]]]]]]; discriminate.
    - left. split; [split; [exact H|exact Hm]|].
      destruct Hl as [(h & -> & _ & ->)|[Hno _]]; [lia| |exfalso; eapply Hno; reflexivity].
      norm_at. reflexivity. }
  unfold pbind, return_error, alt2, iwad_tag, pwad_tag, pvalue, tag.
  change (bs "IWAD") with (magic IWAD). change (bs "PWAD") with (magic PWAD).
  pose proof (tag_cmp_4 x49 x57 x41 x44 buf) as HI. change ([x49; x57; x41; x44]) with (magic IWAD) in HI.
  pose proof (tag_cmp_4 x50 x57 x41 x44 buf) as HP. change ([x50; x57; x41; x44]) with (magic PWAD) in HP.
  destruct (tag_cmp (magic IWAD) buf) as [[r|]|].
  - destruct HI as (H4 & Hm & ->). destruct (Hcont IWAD H4 Hm) as [[H1 H2]|H]; [left; eauto|right; left; auto].
  - destruct (tag_cmp (magic PWAD) buf) as [[r|]|].
    + destruct HP as (H4 & Hm & ->). destruct (Hcont PWAD H4 Hm) as [[H1 H2]|H]; [left; eauto|right; left; auto].
    + right; right. split; [|reflexivity]. intros [|]; unfold sub; cbn [skipn]; auto.
    + right; left. destruct HP as [H4 Hm]. split; [|eauto]. split; [lia|].
      exists PWAD. exact Hm.
  - right; left. destruct HI as [H4 Hm]. split; [|eauto]. split; [lia|]. exists IWAD. exact Hm.
Qed.

Lemma headers_exclusive : forall buf,
  (forall t t', has_header buf t -> has_header buf t' -> t = t')
  /\ (forall t, has_header buf t -> ~ header_cut_short buf)
  /\ (forall t, has_header buf t -> ~ wrong_magic buf)
  /\ (header_cut_short buf -> ~ wrong_magic buf).
Proof.
  intros buf. split; [|split; [|split]].
  - intros [|] [|] [_ H1] [_ H2]; auto; rewrite H1 in H2; discriminate.
  - intros t [H _] [H' _]. lia.
  - intros t [Hl H] Hw. apply (Hw t). rewrite H. unfold sub. cbn [skipn].
    rewrite firstn_all2; auto. destruct t; cbn; lia.
  - intros [_ [t Ht]] Hw. apply (Hw t). exact Ht.
Qed.

(** ** The whole parser *)

(** Every outcome of [parse_wad], with the exact condition. *)
Inductive wad_case (v : bool) (buf : bytes) : outcome bare_wad -> Prop :=
| WC_ok : forall w, wad_layout buf w -> wad_case v buf (Ok w)
| WC_header : header_cut_short buf -> wad_case v buf (Err (TruncatedData "wad header"))
| WC_magic : wrong_magic buf ->
    wad_case v buf (Err (if v then ParseError else InvalidMagic))
| WC_index : forall t, has_header buf t -> ~ directory_inside buf ->
    wad_case v buf (Err (TruncatedData "wad index"))
| WC_name : forall t, has_header buf t -> directory_inside buf -> bad_directory_name buf ->
    wad_case v buf (Err ParseError).

Lemma wrong_magic_nonempty : forall buf, wrong_magic buf -> buf <> [].
Proof. intros buf H ->. apply (H IWAD). reflexivity. Qed.

Lemma parse_wad_cases : forall v buf, wad_case v buf (parse_wad_with v buf).
Proof.
  intros v buf. unfold parse_wad_with.
  destruct (p_wad_header_spec v buf) as [(t & Ht & ->)|[(Hc & m & ->)|(Hw & ->)]];
    cbn [nom_to_result obind].
  - unfold p_wad_directory. cbn [numlumps infotableofs].
    pose proof (u32_at_range buf 4) as R4. pose proof (u32_at_range buf 8) as R8.
    destruct (Z.ltb_spec (zlen buf) (u32_at buf 8 + u32_at buf 4 * 16)) as [H|H].
    + cbn [obind nom_to_result]. eapply WC_index; eauto. unfold directory_inside, zlen in *. lia.
    + assert (Hin : directory_inside buf) by (unfold directory_inside, zlen in *; lia).
      unfold slice_from. destruct (Z.leb_spec (u32_at buf 8) (zlen buf)); [|lia].
      cbn [obind].
      destruct (p_entries_spec (Z.to_nat (u32_at buf 4)) (skipn (Z.to_nat (u32_at buf 8)) buf))
        as [(es & -> & Hes & Hk)|(c & -> & (b & r & ->) & k & Hk & Hno)].
      * rewrite skipn_length. unfold zlen in *. lia.
      * cbn [obind nom_to_result]. apply WC_ok. unfold wad_layout. cbn [buffer header directory identification numlumps infotableofs].
        repeat (split; [first [reflexivity | assumption | lia]|]).
        intros k e He. apply Hk in He. exact (proj1 (entry_at_skipn _ _ _ _) He).
      * assert (buf <> []) by (destruct Ht as [Hl _]; intros ->; cbn in Hl; lia).
        destruct buf as [|b' buf']; [congruence|].
        cbn [obind nom_to_result index_nat nth_error]. eapply WC_name; eauto.
        exists k. split; [lia|]. intros e He. apply (Hno e). exact (proj2 (entry_at_skipn _ _ _ _) He).
  - apply WC_header; auto.
  - pose proof (wrong_magic_nonempty _ Hw). destruct buf as [|b buf]; [congruence|].
    destruct v; cbn [add_node obind nom_to_result index_nat nth_error].
    + apply (WC_magic true); auto.
    + apply (WC_magic false); auto.
Qed.

Lemma entry_at_unique : forall buf off e e', entry_at buf off e -> entry_at buf off e' -> e = e'.
Proof.
  intros buf off [f s n] [f' s' n'] (H1 & H2 & H3) (H4 & H5 & H6). cbn in *.
  subst. f_equal. eapply name_field_unique; eauto.
Qed.

Lemma wad_layout_unique : forall buf w w', wad_layout buf w -> wad_layout buf w' -> w = w'.
Proof.
  intros buf [b [t n o] d] [b' [t' n' o'] d']. unfold wad_layout. cbn.
  intros (-> & Ht & -> & -> & _ & Hl & Hk) (-> & Ht' & -> & -> & _ & Hl' & Hk').
  assert (t = t') by (apply (proj1 (headers_exclusive buf)); auto). subst t'.
  f_equal. clear Ht Ht'.
  assert (Hlen : length d = length d') by lia.
  clear Hl Hl'. apply nth_error_ext'; auto.
  intros k. destruct (nth_error d k) as [e|] eqn:E, (nth_error d' k) as [e'|] eqn:E'; auto.
  - f_equal. eapply entry_at_unique; eauto.
  - apply nth_error_None in E'. assert (nth_error d k <> None) by congruence.
    apply nth_error_Some in H. lia.
  - apply nth_error_None in E. assert (nth_error d' k <> None) by congruence.
    apply nth_error_Some in H. lia.
Qed.

Lemma wad_layout_not_bad : forall buf w, wad_layout buf w -> ~ bad_directory_name buf.
Proof.
  intros buf w (_ & _ & _ & _ & _ & Hl & Hk) (k & Hlt & Hno).
  destruct (nth_error (directory w) k) as [e|] eqn:E.
  - eapply Hno. apply Hk. exact E.
  - apply nth_error_None in E. lia.
Qed.

Lemma parse_wad_ok_iff : forall v buf w, parse_wad_with v buf = Ok w <-> wad_layout buf w.
Proof.
  intros v buf w. pose proof (parse_wad_cases v buf) as HC.
  destruct (headers_exclusive buf) as (_ & X1 & X2 & _).
  split.
  - intros H. rewrite H in HC. inversion HC; auto.
  - intros H. pose proof H as (_ & Ht & _ & _ & Hin & _).
    inversion HC as [w' Hw' E|Hc E|Hm E|t Ht' Hd E|t Ht' Hd Hb E].
    + f_equal. eapply wad_layout_unique; eauto.
    + exfalso; eapply X1; eauto.
    + exfalso; eapply X2; eauto.
    + contradiction.
    + exfalso; eapply wad_layout_not_bad; eauto.
Qed.

Lemma parse_wad_no_panic : forall v buf p, parse_wad_with v buf <> Panic p.
Proof.
  intros v buf p H. pose proof (parse_wad_cases v buf) as HC. rewrite H in HC. inversion HC.
Qed.

Lemma parse_wad_truncated_header : forall v buf,
  parse_wad_with v buf = Err (TruncatedData "wad header") <-> header_cut_short buf.
Proof.
  intros v buf. pose proof (parse_wad_cases v buf) as HC.
  destruct (headers_exclusive buf) as (_ & X1 & X2 & X3).
  split; intros H.
  - rewrite H in HC. inversion HC; auto; destruct v; discriminate.
  - inversion HC as [w' Hw' E|Hc E|Hm E|t Ht' Hd E|t Ht' Hd Hb E]; auto.
    + exfalso. destruct Hw' as (_ & Ht & _). eapply X1; eauto.
    + exfalso; eapply X3; eauto.
    + exfalso; eapply X1; eauto.
    + exfalso; eapply X1; eauto.
Qed.

Lemma parse_wad_truncated_index : forall v buf,
  parse_wad_with v buf = Err (TruncatedData "wad index")
  <-> (exists t, has_header buf t) /\ ~ directory_inside buf.
Proof.
  intros v buf. pose proof (parse_wad_cases v buf) as HC.
  destruct (headers_exclusive buf) as (_ & X1 & X2 & X3).
  split; intros H.
  - rewrite H in HC. inversion HC; eauto; destruct v; discriminate.
  - destruct H as [[t Ht] Hd].
    inversion HC as [w' Hw' E|Hc E|Hm E|t' Ht' Hd' E|t' Ht' Hd' Hb E]; auto.
    + exfalso. destruct Hw' as (_ & _ & _ & _ & Hi & _). auto.
    + exfalso; eapply X1; eauto.
    + exfalso; eapply X2; eauto.
    + contradiction.
Qed.

Lemma parse_wad_parse_error : forall buf,
  parse_wad buf = Err ParseError
  <-> wrong_magic buf
      \/ ((exists t, has_header buf t) /\ directory_inside buf /\ bad_directory_name buf).
Proof.
  intros buf. unfold parse_wad. pose proof (parse_wad_cases nom_verbose buf) as HC.
  destruct (headers_exclusive buf) as (_ & X1 & X2 & X3).
  split; intros H.
  - rewrite H in HC. inversion HC; eauto 6.
  - inversion HC as [w' Hw' E|Hc E|Hm E|t' Ht' Hd' E|t' Ht' Hd' Hb E]; auto; exfalso.
    + destruct H as [H|[_ [_ H]]].
      * destruct Hw' as (_ & Ht & _). eapply X2; eauto.
      * eapply wad_layout_not_bad; eauto.
    + destruct H as [H|[[t Ht] _]]; [eapply X3; eauto|eapply X1; eauto].
    + destruct H as [H|[_ [Hd _]]]; [eapply X2; eauto|contradiction].
Qed.

Lemma parse_wad_error_kinds : forall buf e, parse_wad buf = Err e ->
  e = TruncatedData "wad header" \/ e = TruncatedData "wad index" \/ e = ParseError.
Proof.
  intros buf e H. pose proof (parse_wad_cases nom_verbose buf) as HC.
  unfold parse_wad in H. rewrite H in HC. inversion HC; auto.
Qed.

(** Simple errors (nom without verbose-errors) would report the magic. *)
Lemma parse_wad_magic_simple : forall buf,
  parse_wad_with false buf = Err InvalidMagic <-> wrong_magic buf.
Proof.
  intros buf. pose proof (parse_wad_cases false buf) as HC.
  destruct (headers_exclusive buf) as (_ & X1 & X2 & X3).
  split; intros H.
  - rewrite H in HC. inversion HC; auto.
  - inversion HC as [w' Hw' E|Hc E|Hm E|t' Ht' Hd' E|t' Ht' Hd' Hb E]; auto; exfalso.
    + destruct Hw' as (_ & Ht & _). eapply X2; eauto.
    + eapply X3; eauto.
    + eapply X2; eauto.
    + eapply X2; eauto.
Qed.
