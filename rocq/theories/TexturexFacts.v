(** Proofs about TEXTUREx parsing. *)

From Coq Require Import String List ZArith Bool Lia ZifyBool ZifyNat ZifyN.
From Coq Require Import Strings.Byte.
From Verif Require Import Base SpecBytes BaseFacts Nom NomFacts ParseTexturex ParseMap SpecLumps
  LumpFacts WadFacts SpecTexturex.
Import ListNotations.
Local Open Scope Z_scope.
Ltac Zify.zify_post_hook ::= Z.div_mod_to_equations.

Lemma i32_at_range : forall l i, - 2 ^ 31 <= i32_at l i < 2 ^ 31.
Proof.
  intros l i. unfold i32_at. pose proof (u32_at_range l i).
  cbv zeta. destruct (Z.ltb_spec (u32_at l i) (2 ^ 31)); lia.
Qed.

(** A loop that stops at the first failing element. *)
Lemma omap_cases : forall {A B} (f : A -> outcome B) l,
  (exists ys, omap f l = Ok ys /\ Forall2 (fun x y => f x = Ok y) l ys)
  \/ (exists k x, nth_error l k = Some x
      /\ (forall j y, (j < k)%nat -> nth_error l j = Some y -> exists z, f y = Ok z)
      /\ ((exists e, f x = Err e /\ omap f l = Err e)
          \/ (exists p, f x = Panic p /\ omap f l = Panic p))).
Proof.
  intros A B f l. induction l as [|a l IH]; cbn [omap].
  - left. exists []. split; [reflexivity|constructor].
  - destruct (f a) as [b|e|p] eqn:E; cbn [obind].
    + destruct IH as [(ys & -> & H)|(k & x & Hk & Hb & H)].
      * left. exists (b :: ys). split; [reflexivity|]. constructor; auto.
      * right. exists (S k), x. split; [exact Hk|]. split.
        -- intros [|j] y Hj Hy; cbn in Hy; [injection Hy as <-; eauto|]. apply (Hb j y); [lia|auto].
        -- destruct H as [(e & H1 & ->)|(p & H1 & ->)]; cbn [obind]; eauto.
    + right. exists 0%nat, a. split; [reflexivity|]. split; [intros j y Hj; lia|]. left; eauto.
    + right. exists 0%nat, a. split; [reflexivity|]. split; [intros j y Hj; lia|]. right; eauto.
Qed.

Lemma tex_header_cases : forall buf, Z.of_nat (length buf) < 2 ^ 63 ->
  (tex_header buf /\ exists rest, texturex_lump_header buf
     = Done rest (map (tex_offset buf) (seq 0 (tex_count buf))))
  \/ (~ tex_header buf /\ exists m, texturex_lump_header buf = Incomplete m).
Proof.
  intros buf Hlen. unfold texturex_lump_header, pbind, pret.
  destruct (reads_le_i32 buf) as [Hs Hl].
  destruct (Nat.ltb_spec (length buf) 4) as [H|H].
  - right. split; [unfold tex_header; lia|].
    destruct (Hs H) as [[m ->]|[c [E _]]]; eauto. exfalso. eapply le_i32_no_error; eauto.
  - destruct (Hl H) as [(a & -> & _ & ->)|[Hno _]]; [|exfalso; eapply Hno; eauto].
    pose proof (i32_at_range buf 0) as R.
    destruct (count_le_i32 nom_verbose (as_usize (i32_at buf 0)) (skipn 4 buf)) as [Hd Hi].
    assert (L : zlen (skipn 4 buf) = zlen buf - 4) by (unfold zlen; rewrite skipn_length; lia).
    unfold zlen in *. unfold as_usize in *.
    destruct (Z.leb_spec 0 (i32_at buf 0)) as [P|P].
    + rewrite (Z.mod_small (i32_at buf 0)) in * by lia.
      destruct (Z.leb_spec (4 + 4 * i32_at buf 0) (Z.of_nat (length buf))) as [Q|Q].
      * left. split; [unfold tex_header; lia|]. rewrite Hd by lia. eexists. f_equal.
        unfold tex_count. apply map_ext_in. intros k _. unfold tex_offset.
        rewrite i32_at_skipn. f_equal. lia.
      * right. split; [unfold tex_header; lia|]. destruct Hi as [m ->]; [lia|]. eauto.
    + right. split; [unfold tex_header; lia|].
      assert (E : i32_at buf 0 mod 18446744073709551616 = i32_at buf 0 + 18446744073709551616) by lia.
      rewrite E in *. destruct Hi as [m ->]; [lia|]. eauto.
Qed.

Definition tail_of (nm : bytes) : parser tex_entry :=
  do _ <- le_i32;;
  do width <- le_i16;;
  do height <- le_i16;;
  do _ <- le_i32;;
  do _ <- le_i16;;
  pret (mk_tex nm width height).

Lemma tail_no_error : forall nm i c, tail_of nm i <> NError c.
Proof.
  intros nm i c. unfold tail_of, pbind, pret, le_i32, le_i16.
  do 14 (destruct i as [|? i]; try discriminate).
Qed.

Lemma tex_entry_cases : forall i,
  (exists t, tex_at i 0 t /\ texturex_lump_entry i = Done (skipn 22 i) t /\ (22 <= length i)%nat)
  \/ ((8 <= length i)%nat /\ (forall nm, ~ name_field (sub i 0 8) nm)
      /\ exists c, texturex_lump_entry i = NError c /\ bad_char c)
  \/ ((length i < 22)%nat /\ ((8 <= length i)%nat -> exists nm, name_field (sub i 0 8) nm)
      /\ exists m, texturex_lump_entry i = Incomplete m).
Proof.
  intros i. destruct (reads_tex i) as [Hs Hl]. destruct (reads_fla 8 i) as [Fs Fl].
  change (firstn 8 i) with (sub i 0 8) in Fl.
  change (texturex_lump_entry i) with
    (pbind (fixed_length_ascii 8) (fun nm => tail_of nm) i) in *.
  unfold pbind in *.
  destruct (Nat.ltb_spec (length i) 8) as [H8|H8].
  - right; right. destruct (Fs H8) as [[m E]|[c [E Hc]]].
    + split; [lia|]. split; [lia|]. rewrite E. eauto.
    + exfalso. unfold fixed_length_ascii in E. destruct (Nat.ltb_spec (length i) 8); [discriminate|lia].
  - destruct (Fl H8) as [(nm & Hn & Hu & E)|[Hno (c & E & Hc)]].
    + rewrite E in *. destruct (Nat.ltb_spec (length i) 22) as [H22|H22].
      * right; right. split; [lia|]. split; [eauto|].
        destruct (Hs H22) as [[m ->]|[c [Ec _]]]; eauto. exfalso. eapply tail_no_error; eauto.
      * left. destruct (Hl H22) as [(t & Ht & _ & ->)|[Hn' (c & Ec & _)]]; eauto 6.
        exfalso. eapply tail_no_error; eauto.
    + right; left. rewrite E. split; [lia|]. split; [auto|]. eauto.
Qed.

(** One texture: what happens at offset [o] of a non-empty buffer. *)
Lemma read_texture_cases : forall buf i o, buf <> [] ->
  (tex_readable buf o /\ exists t, tex_at buf (Z.to_nat o) t /\ read_texture buf (i, o) = Ok t)
  \/ (~ tex_readable buf o
      /\ ((o < 0 /\ read_texture buf (i, o) = Err (NegativeOffset "TEXTUREx" i o))
          \/ (Z.of_nat (length buf) < o /\ read_texture buf (i, o) = Panic PSlice)
          \/ (0 <= o <= Z.of_nat (length buf) /\ tex_bad_name buf o
              /\ read_texture buf (i, o) = Err ParseError)
          \/ (0 <= o <= Z.of_nat (length buf) /\ ~ tex_bad_name buf o
              /\ read_texture buf (i, o) = Err (TruncatedData "TEXTUREx")))).
Proof.
  intros buf i o Hb. unfold read_texture.
  destruct (Z.ltb_spec o 0) as [H|H].
  - right. split; [unfold tex_readable; lia|]. left; auto.
  - unfold slice_from. destruct (Z.leb_spec o (zlen buf)) as [L|L]; unfold zlen in L.
    2:{ right. split; [unfold tex_readable; lia|]. right; left. split; [lia|reflexivity]. }
    cbn [obind]. set (s := skipn (Z.to_nat o) buf).
    assert (Ls : length s = (length buf - Z.to_nat o)%nat) by apply skipn_length.
    assert (Es : forall k n, sub s k n = sub buf (Z.to_nat o + k) n) by (intros; apply sub_skipn).
    destruct (tex_entry_cases s) as [(t & Ht & -> & Hl)|[(H8 & Hn & c & -> & (b & r & ->))|(H22 & Hn & m & ->)]];
      cbn [nom_to_result].
    + left. assert (Ht' : tex_at buf (Z.to_nat o) t) by (apply tex_at_skipn; exact Ht).
      split; [|eauto]. split; [lia|]. split; [lia|eauto].
    + assert (B : tex_bad_name buf o).
      { split; [lia|]. intros nm. rewrite <- (Nat.add_0_r (Z.to_nat o)), <- Es. apply Hn. }
      right. split.
      * intros (_ & _ & t & (Hnm & _)). eapply (proj2 B); eauto.
      * right; right; left. split; [lia|]. split; [exact B|].
        destruct buf as [|b0 buf]; [congruence|]. reflexivity.
    + right. split; [unfold tex_readable; lia|]. right; right; right. split; [lia|]. split; [|reflexivity].
      intros [B1 B2]. destruct Hn as [nm Hnm]; [lia|].
      apply (B2 nm). rewrite Es, Nat.add_0_r in Hnm. exact Hnm.
Qed.

Lemma enumerate_nth : forall {A} (l : list A) k x,
  nth_error (enumerate l) k = Some x <-> exists a, nth_error l k = Some a /\ x = (k, a).
Proof. intros A l k x. unfold enumerate. rewrite enumerate_from_spec. reflexivity. Qed.

Lemma offsets_nth : forall buf k a,
  nth_error (map (tex_offset buf) (seq 0 (tex_count buf))) k = Some a
  <-> (k < tex_count buf)%nat /\ a = tex_offset buf k.
Proof.
  intros buf k a. destruct (Nat.ltb_spec k (tex_count buf)) as [H|H].
  - rewrite nth_error_map. rewrite (nth_error_nth' (seq 0 (tex_count buf)) 0%nat) by (rewrite seq_length; lia).
    rewrite seq_nth by lia. cbn. split; [intros E; injection E as <-; auto|intros [_ ->]; reflexivity].
  - rewrite (proj2 (nth_error_None _ _)) by (rewrite map_length, seq_length; lia).
    split; [discriminate|lia].
Qed.

(** The complete description of the result. *)
Inductive tex_case (buf : bytes) : outcome (list tex_entry) -> Prop :=
| TC_ok : forall ts, tex_header buf -> length ts = tex_count buf ->
    (forall k, (k < tex_count buf)%nat -> tex_readable buf (tex_offset buf k)) ->
    (forall k t, nth_error ts k = Some t -> tex_at buf (Z.to_nat (tex_offset buf k)) t) ->
    tex_case buf (Ok ts)
| TC_header : ~ tex_header buf -> tex_case buf (Err (TruncatedData "TEXTUREx header"))
| TC_negative : forall i, tex_header buf -> first_unreadable buf i -> tex_offset buf i < 0 ->
    tex_case buf (Err (NegativeOffset "TEXTUREx" i (tex_offset buf i)))
| TC_panic : forall i, tex_header buf -> first_unreadable buf i ->
    Z.of_nat (length buf) < tex_offset buf i -> tex_case buf (Panic PSlice)
| TC_name : forall i, tex_header buf -> first_unreadable buf i ->
    0 <= tex_offset buf i <= Z.of_nat (length buf) -> tex_bad_name buf (tex_offset buf i) ->
    tex_case buf (Err ParseError)
| TC_short : forall i, tex_header buf -> first_unreadable buf i ->
    0 <= tex_offset buf i <= Z.of_nat (length buf) -> ~ tex_bad_name buf (tex_offset buf i) ->
    tex_case buf (Err (TruncatedData "TEXTUREx")).

Lemma parse_texturex_cases : forall buf, Z.of_nat (length buf) < 2 ^ 63 ->
  tex_case buf (parse_texturex_names buf).
Proof.
  intros buf Hlen. unfold parse_texturex_names.
  destruct (tex_header_cases buf Hlen) as [(Hh & rest & ->)|(Hh & m & ->)]; cbn [nom_to_result obind];
    [|constructor; exact Hh].
  assert (Hne : buf <> []) by (intros ->; destruct Hh as [H _]; cbn in H; lia).
  destruct (omap_cases (read_texture buf) (enumerate (map (tex_offset buf) (seq 0 (tex_count buf)))))
    as [(ts & -> & HF)|(k & x & Hk & Hb & Hf)].
  - assert (Hlts : length ts = tex_count buf).
    { apply Forall2_length' in HF. rewrite enumerate_length, map_length, seq_length in HF. auto. }
    assert (HN : forall k t, nth_error ts k = Some t -> read_texture buf (k, tex_offset buf k) = Ok t).
    { intros k t Hk.
      assert (L : (k < tex_count buf)%nat) by (rewrite <- Hlts; apply nth_error_Some; congruence).
      assert (E : nth_error (enumerate (map (tex_offset buf) (seq 0 (tex_count buf)))) k
                  = Some (k, tex_offset buf k)).
      { apply enumerate_nth. eexists; split; [apply offsets_nth; eauto|reflexivity]. }
      exact (Forall2_nth _ _ _ _ _ _ HF E Hk). }
    constructor; auto.
    + intros k L. destruct (nth_error ts k) as [t|] eqn:E; [|apply nth_error_None in E; lia].
      apply HN in E. destruct (read_texture_cases buf k (tex_offset buf k) Hne) as [[H _]|[_ H]]; auto.
      rewrite E in H. intuition discriminate.
    + intros k t E. apply HN in E.
      destruct (read_texture_cases buf k (tex_offset buf k) Hne) as [[_ (t' & Ht & E')]|[_ H]].
      * congruence.
      * rewrite E in H. intuition discriminate.
  - apply enumerate_nth in Hk. destruct Hk as (o & Ho & ->). apply offsets_nth in Ho. destruct Ho as [L ->].
    assert (HU : ~ tex_readable buf (tex_offset buf k) -> first_unreadable buf k).
    { intros Hn. split; [exact L|]. split; [|exact Hn]. intros j Hj.
      destruct (Hb j (j, tex_offset buf j) Hj) as [z Hz].
      { apply enumerate_nth. eexists; split; [apply offsets_nth; split; [lia|reflexivity]|reflexivity]. }
      destruct (read_texture_cases buf j (tex_offset buf j) Hne) as [[H _]|[_ H]]; auto.
      rewrite Hz in H. intuition discriminate. }
    destruct (read_texture_cases buf k (tex_offset buf k) Hne) as [[_ (t & _ & E)]|[Hn H]].
    + destruct Hf as [(e & E' & _)|(p & E' & _)]; congruence.
    + specialize (HU Hn).
      destruct H as [(Hc & E)|[(Hc & E)|[(Hc & Hd & E)|(Hc & Hd & E)]]];
        destruct Hf as [(e & E' & ->)|(p & E' & ->)]; rewrite E in E'; try discriminate;
        injection E' as <-; econstructor; eauto.
Qed.

Lemma first_unreadable_unique : forall buf i j, first_unreadable buf i -> first_unreadable buf j -> i = j.
Proof.
  intros buf i j (Li & Bi & Ni) (Lj & Bj & Nj).
  destruct (Nat.lt_trichotomy i j) as [H|[H|H]]; auto; exfalso; eauto.
Qed.

Lemma tex_at_unique : forall buf o t t', tex_at buf o t -> tex_at buf o t' -> t = t'.
Proof.
  intros buf o [n w h] [n' w' h'] (A1 & A2 & A3) (B1 & B2 & B3). cbn in *. subst.
  f_equal. eapply name_field_unique; eauto.
Qed.

Lemma parse_texturex_ok_iff : forall buf ts, Z.of_nat (length buf) < 2 ^ 63 ->
  parse_texturex_names buf = Ok ts <->
  tex_header buf /\ length ts = tex_count buf
  /\ forall k t, nth_error ts k = Some t ->
       0 <= tex_offset buf k /\ tex_offset buf k + 22 <= Z.of_nat (length buf)
       /\ tex_at buf (Z.to_nat (tex_offset buf k)) t.
Proof.
  intros buf ts Hlen. pose proof (parse_texturex_cases buf Hlen) as HC. split.
  - intros E. rewrite E in HC. inversion HC as [ts' Hh Hl Hr Ht| | | | |]; subst.
    split; [exact Hh|]. split; [exact Hl|]. intros k t Hk.
    assert (L : (k < tex_count buf)%nat) by (rewrite <- Hl; apply nth_error_Some; congruence).
    destruct (Hr k L) as (R1 & R2 & _). auto.
  - intros (Hh & Hl & Ht).
    assert (Hread : forall k, (k < tex_count buf)%nat -> tex_readable buf (tex_offset buf k)).
    { intros k L. destruct (nth_error ts k) as [t|] eqn:E; [|apply nth_error_None in E; lia].
      destruct (Ht k t E) as (R1 & R2 & R3). split; [auto|]. split; [auto|eauto]. }
    assert (HnoU : forall i, ~ first_unreadable buf i) by (intros i (L & _ & N); apply N; auto).
    inversion HC as [ts' Hh' Hl' Hr' Ht'|Hh'|i Hh' U|i Hh' U|i Hh' U|i Hh' U];
      try (exfalso; eapply HnoU; eauto; fail); try contradiction.
    f_equal. apply nth_error_ext'; [congruence|]. intros k.
    destruct (nth_error ts' k) as [t'|] eqn:E'.
    + assert (L : (k < tex_count buf)%nat) by (rewrite <- Hl'; apply nth_error_Some; congruence).
      destruct (nth_error ts k) as [t|] eqn:E; [|apply nth_error_None in E; lia].
      f_equal. eapply tex_at_unique; [apply Ht'; exact E'|]. apply Ht; exact E.
    + apply nth_error_None in E'. symmetry. apply nth_error_None. lia.
Qed.

Lemma parse_texturex_negative : forall buf i v, Z.of_nat (length buf) < 2 ^ 63 ->
  parse_texturex_names buf = Err (NegativeOffset "TEXTUREx" i v) <->
  tex_header buf /\ first_unreadable buf i /\ tex_offset buf i = v /\ v < 0.
Proof.
  intros buf i v Hlen. pose proof (parse_texturex_cases buf Hlen) as HC. split.
  - intros E. rewrite E in HC. inversion HC; subst. auto.
  - intros (Hh & U & Hv & Hn).
    inversion HC as [ts' Hh' Hl' Hr' Ht'|Hh'|i' Hh' U'|i' Hh' U'|i' Hh' U'|i' Hh' U'];
      try contradiction; try (exfalso; destruct U as (L & _ & N); apply N; auto; fail);
      pose proof (first_unreadable_unique _ _ _ U U'); subst i'; try (exfalso; lia).
    congruence.
Qed.

Lemma parse_texturex_panic : forall buf p, Z.of_nat (length buf) < 2 ^ 63 ->
  parse_texturex_names buf = Panic p <->
  p = PSlice /\ tex_header buf
  /\ exists i, first_unreadable buf i /\ Z.of_nat (length buf) < tex_offset buf i.
Proof.
  intros buf p Hlen. pose proof (parse_texturex_cases buf Hlen) as HC. split.
  - intros E. rewrite E in HC. inversion HC; subst. eauto.
  - intros (-> & Hh & i & U & Ho).
    inversion HC as [ts' Hh' Hl' Hr' Ht'|Hh'|i' Hh' U'|i' Hh' U'|i' Hh' U'|i' Hh' U'];
      try contradiction; try (exfalso; destruct U as (L & _ & N); apply N; auto; fail);
      try reflexivity;
      pose proof (first_unreadable_unique _ _ _ U U'); subst i'; exfalso; lia.
Qed.

Lemma parse_texturex_names_short : forall buf ts t, parse_texturex_names buf = Ok ts ->
  Z.of_nat (length buf) < 2 ^ 63 -> In t ts -> short_name (tx_name t).
Proof.
  intros buf ts t H Hlen Ht. apply parse_texturex_ok_iff in H; auto.
  destruct H as (_ & _ & H). apply In_nth_error in Ht. destruct Ht as [k Hk].
  destruct (H k t Hk) as (R1 & R2 & (Hn & _)).
  eapply name_field_short; [exact Hn|]. unfold sub. rewrite firstn_length. lia.
Qed.
