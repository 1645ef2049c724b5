(** Characterisations of the nom combinators: fixed-size record parsers and
    their repetition. *)

From Coq Require Import String List ZArith Bool Lia ZifyBool ZifyNat ZifyN.
From Coq Require Import Strings.Byte.
From Verif Require Import Base SpecBytes BaseFacts Nom.
Import ListNotations.
Local Open Scope Z_scope.
Ltac Zify.zify_post_hook ::= Z.div_mod_to_equations.

(** The only recoverable error of the record parsers: a bad character, reported
    at a non-empty position. *)
Definition bad_char (c : context) : Prop :=
  exists b r, c = CCode (b :: r) (KCustom 0).

(** [p] reads exactly [n] bytes and relates them to its value by [R]. *)
Definition reads {A} (p : parser A) (n : nat) (R : bytes -> A -> Prop) : Prop :=
  forall i,
    ((length i < n)%nat ->
       (exists m, p i = Incomplete m) \/ (exists c, p i = NError c /\ bad_char c))
    /\ ((n <= length i)%nat ->
       (exists a, R i a /\ (forall a', R i a' -> a' = a) /\ p i = Done (skipn n i) a)
       \/ ((forall a, ~ R i a) /\ exists c, p i = NError c /\ bad_char c)).

Lemma reads_bind : forall {A B} (p : parser A) (k : A -> parser B) n m R S,
  reads p n R -> (forall a, reads (k a) m (S a)) ->
  reads (pbind p k) (n + m) (fun i b => exists a, R i a /\ S a (skipn n i) b).
Proof.
  intros A B p k n m R S Hp Hk i. destruct (Hp i) as [Hs Hl]. unfold pbind. split; intros Hlen.
  - destruct (Nat.ltb_spec (length i) n) as [H|H].
    + destruct (Hs H) as [[x ->]|[c [-> Hc]]]; eauto.
    + destruct (Hl H) as [[a (HR & _ & ->)]|[_ [c [-> Hc]]]]; eauto.
      destruct (Hk a (skipn n i)) as [Hs' _]. apply Hs'. rewrite skipn_length. lia.
  - destruct Hl as [[a (HR & Hu & ->)]|[Hno [c [-> Hc]]]]; [lia| |].
    + destruct (Hk a (skipn n i)) as [_ Hl']. destruct Hl' as [[b (HS & Hu' & Hd)]|[Hno [c [Hd Hc]]]].
      * rewrite skipn_length; lia.
      * left. exists b. repeat split.
        -- exists a; auto.
        -- intros b' (a' & HR' & HS'). apply Hu in HR'. subst a'. auto.
        -- rewrite Hd, skipn_skipn'. reflexivity.
      * right. split; [|eauto]. intros b (a' & HR' & HS'). apply Hu in HR'. subst a'.
        eapply Hno; eauto.
    + right. split; [|eauto]. intros b (a' & HR' & _). eapply Hno; eauto.
Qed.

Lemma reads_ret : forall {A} (a : A), reads (pret a) 0 (fun _ x => x = a).
Proof.
  intros A a i. split; intros H; [lia|]. left. exists a. repeat split; auto.
Qed.

Lemma reads_ext : forall {A} (p : parser A) n m (R S : bytes -> A -> Prop),
  reads p n R -> n = m -> (forall i a, R i a <-> S i a) -> reads p m S.
Proof.
  intros A p n m R S H <- HRS i. destruct (H i) as [Hs Hl]. split; auto.
  intros Hlen. destruct (Hl Hlen) as [[a (HR & Hu & Hd)]|[Hno Hd]].
  - left. exists a. repeat split; auto; [apply HRS; auto|]. intros a' Ha'. apply Hu, HRS; auto.
  - right. split; auto. intros a Ha. apply (Hno a), HRS; auto.
Qed.

Lemma reads_le_u8 : reads le_u8 1 (fun i a => a = u8_at i 0).
Proof.
  intros i. destruct i as [|b0 r]; cbn [length]; split; intros H; try lia; cbn [le_u8]; [left; eauto|].
  left. exists (zb b0). repeat split; auto.
Qed.
Lemma reads_le_u16 : reads le_u16 2 (fun i a => a = u16_at i 0).
Proof.
  intros i. destruct i as [|b0 [|b1 r]]; cbn [length]; split; intros H; try lia; cbn [le_u16]; try (left; eexists; reflexivity).
  left. exists (u16_of b0 b1). repeat split; auto.
Qed.
Lemma reads_le_i16 : reads le_i16 2 (fun i a => a = i16_at i 0).
Proof.
  intros i. destruct i as [|b0 [|b1 r]]; cbn [length]; split; intros H; try lia; cbn [le_i16]; try (left; eexists; reflexivity).
  left. exists (i16_of b0 b1).
  assert (E : i16_at (b0 :: b1 :: r) 0 = i16_of b0 b1) by (apply i16_at_of; reflexivity).
  repeat split; auto. intros; congruence.
Qed.
Lemma reads_le_u32 : reads le_u32 4 (fun i a => a = u32_at i 0).
Proof.
  intros i. destruct i as [|b0 [|b1 [|b2 [|b3 r]]]]; cbn [length]; split; intros H; try lia; cbn [le_u32]; try (left; eexists; reflexivity).
  left. exists (u32_of b0 b1 b2 b3). repeat split; auto.
Qed.
Lemma reads_le_i32 : reads le_i32 4 (fun i a => a = i32_at i 0).
Proof.
  intros i. destruct i as [|b0 [|b1 [|b2 [|b3 r]]]]; cbn [length]; split; intros H; try lia; cbn [le_i32]; try (left; eexists; reflexivity).
  left. exists (i32_of b0 b1 b2 b3).
  assert (E : i32_at (b0 :: b1 :: b2 :: b3 :: r) 0 = i32_of b0 b1 b2 b3) by (apply i32_at_of; reflexivity).
  repeat split; auto. intros; congruence.
Qed.

(** ** fixed_length_ascii *)

Lemma printable_b : forall b, (32 <=? zb b) && (zb b <=? 126) = true <-> printable b.
Proof. intros b. unfold printable. change (byte_val b) with (zb b). lia. Qed.

Lemma zb_zero : forall b, zb b = 0 <-> b = x00.
Proof.
  intros b; split; [|intros ->; reflexivity]. intros H. rewrite <- (bz_zb b), H. reflexivity.
Qed.

Lemma printable_not_nul : ~ printable x00.
Proof. unfold printable, byte_val; cbn; lia. Qed.

Lemma name_field_unique : forall f a b, name_field f a -> name_field f b -> a = b.
Proof.
  intros f a b (ta & Ha & Pa & Ta) (tb & Hb & Pb & Tb).
  revert f b ta tb Ha Hb Pa Pb Ta Tb.
  induction a as [|x a IH]; intros f b ta tb Ha Hb Pa Pb Ta Tb; destruct b as [|y b]; auto.
  - cbn in Ha. subst f ta. destruct Ta as [Ta|[t Ta]]; [discriminate|].
    injection Ta as -> _. inversion Pb; subst. exfalso; apply printable_not_nul; auto.
  - cbn in Hb. subst f tb. destruct Tb as [Tb|[t Tb]]; [discriminate|].
    injection Tb as -> _. inversion Pa; subst. exfalso; apply printable_not_nul; auto.
  - subst f. cbn in Hb. injection Hb as -> Hb. f_equal.
    inversion Pa; inversion Pb; subst. eapply IH; eauto.
Qed.

Lemma fla_scan_spec : forall n i acc, (n <= length i)%nat ->
  match fla_scan n i acc with
  | ScanStr s => exists nm, s = rev acc ++ nm /\ name_field (firstn n i) nm
  | ScanBad pos => pos <> [] /\ forall nm, ~ name_field (firstn n i) nm
  end.
Proof.
  induction n as [|n IH]; intros i acc H; cbn [fla_scan].
  - exists []. rewrite app_nil_r. split; auto. exists []. cbn. auto.
  - destruct i as [|b i]; [cbn in H; lia|]. cbn [firstn].
    destruct (zb b =? 0) eqn:E0.
    + assert (b = x00) by (apply zb_zero; lia). subst b.
      exists []. rewrite app_nil_r. split; auto. exists (x00 :: firstn n i). cbn. eauto.
    + destruct ((32 <=? zb b) && (zb b <=? 126)) eqn:Ep.
      * specialize (IH i (b :: acc)). cbn in H. specialize (IH ltac:(lia)).
        apply printable_b in Ep.
        destruct (fla_scan n i (b :: acc)) as [s|pos].
        -- destruct IH as (nm & -> & (t & Ht & P & T)). exists (b :: nm). split.
           ++ cbn. rewrite <- app_assoc. reflexivity.
           ++ exists t. cbn. rewrite Ht. repeat split; auto.
        -- destruct IH as (Hp & Hno). split; auto. intros nm (t & Ht & P & T).
           destruct nm as [|y nm].
           ++ cbn in Ht. subst t. destruct T as [T|[t' T]]; [discriminate|].
              injection T as -> _. apply printable_not_nul; auto.
           ++ cbn in Ht. injection Ht as <- Ht. inversion P; subst. apply (Hno nm). exists t. auto.
      * split; [discriminate|]. intros nm (t & Ht & P & T).
        destruct nm as [|y nm].
        -- cbn in Ht. subst t. destruct T as [T|[t' T]]; [discriminate|].
           injection T as -> _. apply E0 || (cbn in E0; discriminate).
        -- cbn in Ht. injection Ht as <- Ht. inversion P; subst.
           apply printable_b in H2. congruence.
Qed.

Lemma reads_fla : forall n, reads (fixed_length_ascii n) n (fun i a => name_field (firstn n i) a).
Proof.
  intros n i. unfold fixed_length_ascii. split; intros H.
  - destruct (Nat.ltb_spec (length i) n); [|lia]. eauto.
  - destruct (Nat.ltb_spec (length i) n); [lia|].
    pose proof (fla_scan_spec n i [] H) as HS. destruct (fla_scan n i []) as [s|pos].
    + destruct HS as (nm & -> & Hn). left. exists nm. cbn [rev app]. repeat split; auto.
      intros a' Ha'. eapply name_field_unique; eauto.
    + destruct HS as (Hp & Hno). right. split; auto. destruct pos as [|b r]; [congruence|].
      eexists; split; [reflexivity|]. exists b, r. reflexivity.
Qed.

Lemma name_field_short : forall f nm, name_field f nm -> (length f <= 8)%nat -> short_name nm.
Proof.
  intros f nm (t & -> & P & T) H. split; auto. rewrite app_length in H. lia.
Qed.

Lemma name_field_put : forall nm, short_name nm -> name_field (put_name nm) nm.
Proof.
  intros nm [Hl P]. exists (repeat x00 (8 - length nm)). repeat split; auto.
  destruct (8 - length nm)%nat; cbn; eauto.
Qed.

Lemma put_name_length : forall nm, (length nm <= 8)%nat -> length (put_name nm) = 8%nat.
Proof. intros nm H. unfold put_name. rewrite app_length, repeat_length. lia. Qed.

(** ** Repetition *)

Lemma bytes_eqb_length_neq : forall a b, length a <> length b -> bytes_eqb a b = false.
Proof. intros a b H. apply bytes_eqb_neq. intros ->. apply H; reflexivity. Qed.

(** Records [rs] read one after another from offset 0, stopping at the first
    place where no record can be read. *)
Fixpoint runs {A} (n : nat) (R : bytes -> A -> Prop) (i : bytes) (rs : list A) : Prop :=
  match rs with
  | [] => (n <= length i)%nat -> forall a, ~ R i a
  | r :: rs' => (n <= length i)%nat /\ R i r /\ runs n R (skipn n i) rs'
  end.

Lemma many0_loop_reads : forall {A} (p : parser A) n R,
  reads p n R -> (0 < n)%nat ->
  forall fuel i acc, (length i < fuel)%nat ->
  exists rs, many0_loop fuel (complete p) i acc = Done (skipn (length rs * n) i) (rev acc ++ rs)
             /\ runs n R i rs.
Proof.
  intros A p n R Hp Hn. induction fuel as [|fuel IH]; intros i acc Hf; [lia|].
  cbn [many0_loop].
  replace (complete p i) with (match p i with Incomplete _ => NError (CCode i KComplete) | r => r end)
    by reflexivity.
  destruct (Hp i) as [Hs Hl].
  destruct (Nat.ltb_spec (length i) n) as [H|H].
  - exists []. cbn [length Nat.mul skipn runs]. rewrite app_nil_r. split; [|intros; lia].
    destruct (Hs H) as [[m ->]|[c [-> _]]]; reflexivity.
  - destruct (Hl H) as [[a (HR & Hu & ->)]|[Hno [c [-> _]]]].
    + rewrite bytes_eqb_length_neq by (rewrite skipn_length; lia).
      destruct (IH (skipn n i) (a :: acc)) as (rs & Hd & Hr); [rewrite skipn_length; lia|].
      exists (a :: rs). rewrite Hd. split.
      * rewrite skipn_skipn'. cbn [rev length Nat.mul]. rewrite <- app_assoc. reflexivity.
      * cbn [runs]. auto.
    + exists []. cbn [length Nat.mul skipn runs]. rewrite app_nil_r. split; auto.
Qed.

Lemma many0_reads : forall {A} (p : parser A) n R,
  reads p n R -> (0 < n)%nat ->
  forall i, exists rs, many0 (complete p) i = Done (skipn (length rs * n) i) rs /\ runs n R i rs.
Proof.
  intros A p n R Hp Hn i. unfold many0.
  destruct (many0_loop_reads p n R Hp Hn (S (length i)) i []) as (rs & Hd & Hr); [lia|].
  exists rs. auto.
Qed.

Lemma runs_spec : forall {A} n (R : bytes -> A -> Prop) i rs,
  runs n R i rs <->
  (forall k r, nth_error rs k = Some r ->
     ((k + 1) * n <= length i)%nat /\ R (skipn (k * n) i) r)
  /\ (((length rs + 1) * n <= length i)%nat -> forall r, ~ R (skipn (length rs * n) i) r).
Proof.
  intros A n R i rs; revert i. induction rs as [|r rs IH]; intros i; cbn [runs].
  - cbn [length Nat.add Nat.mul]. rewrite Nat.add_0_r. cbn [skipn]. split.
    + intros H. split; auto. intros k r Hk. destruct k; discriminate.
    + intros [_ H]. exact H.
  - rewrite IH. rewrite skipn_length. split.
    + intros (Hn & HR & H1 & H2). split.
      * intros [|k] r' Hk; cbn [nth_error] in Hk.
        -- injection Hk as <-. cbn. split; [lia|auto].
        -- destruct (H1 k r' Hk) as [Ha Hb]. rewrite skipn_skipn' in Hb.
           split; [cbn; lia|]. cbn [Nat.mul]. exact Hb.
      * cbn [length Nat.mul Nat.add]. intros Hl. rewrite <- skipn_skipn'. apply H2. lia.
    + intros [H1 H2]. destruct (H1 0%nat r eq_refl) as [Ha Hb]. cbn in Ha, Hb.
      split; [lia|]. split; [exact Hb|]. split.
      * intros k r' Hk. destruct (H1 (S k) r' Hk) as [Hc Hd]. cbn [Nat.mul] in Hd.
        rewrite skipn_skipn'. split; [cbn in Hc; lia|exact Hd].
      * intros Hl. cbn [length Nat.mul Nat.add] in H2. rewrite skipn_skipn'. apply H2. lia.
Qed.

Lemma runs_unique : forall {A} n (R : bytes -> A -> Prop) i rs rs',
  (forall i a b, R i a -> R i b -> a = b) ->
  runs n R i rs -> runs n R i rs' -> rs = rs'.
Proof.
  intros A n R i rs rs' HU; revert i rs'. induction rs as [|r rs IH]; intros i [|r' rs']; cbn [runs]; auto.
  - intros H (Hn & HR & _). exfalso. eapply H; eauto.
  - intros (Hn & HR & _) H. exfalso. eapply H; eauto.
  - intros (Hn & HR & H1) (_ & HR' & H2). f_equal; [eapply HU; eauto|]. eapply IH; eauto.
Qed.

(** Records decoded one by one from a lump. [rec buf off r]: a record [r] is at
    offset [off]. *)
Lemma runs_ext : forall {A} n (R S : bytes -> A -> Prop) i rs,
  (forall i a, R i a <-> S i a) -> runs n R i rs <-> runs n S i rs.
Proof.
  intros A n R S i rs H; revert i; induction rs as [|r rs IH]; intros i; cbn [runs].
  - split; intros HH Hl a Ha; eapply HH; eauto; apply H; eauto.
  - rewrite (IH (skipn n i)), (H i r). reflexivity.
Qed.

(** ** count! *)

Lemma count_loop_reads : forall {A} v (p : parser A) n (f : bytes -> A),
  reads p n (fun i a => a = f i) -> (forall i c, p i <> NError c) -> (0 < n)%nat ->
  forall fuel c start i acc, (length i < fuel)%nat ->
  (0 <= c -> Z.of_nat n * c <= zlen i ->
     count_loop v fuel p c start i acc
     = Done (skipn (Z.to_nat c * n) i)
            (rev acc ++ map (fun k => f (skipn (k * n) i)) (seq 0 (Z.to_nat c))))
  /\ (zlen i < Z.of_nat n * c -> exists m, count_loop v fuel p c start i acc = Incomplete m).
Proof.
  intros A v p n f Hp Hne Hn. induction fuel as [|fuel IH]; intros c start i acc Hf; [lia|].
  cbn [count_loop]. destruct (Hp i) as [Hs Hl]. unfold zlen in *.
  destruct (Z.leb_spec c 0) as [Hc|Hc].
  - split; intros H; [intros H'|nia]. replace c with 0 by lia. cbn. rewrite app_nil_r. reflexivity.
  - destruct (Nat.ltb_spec (length i) n) as [H|H].
    + split; intros HH; [intros H'; nia|].
      destruct (Hs H) as [[m ->]|[cc [E Hb]]]; eauto. exfalso; eapply Hne; eauto.
    + destruct (Hl H) as [[a (HR & Hu & ->)]|[Hno _]]; [|exfalso; eapply Hno; eauto].
      subst a. destruct (IH (c - 1) start (skipn n i) (f i :: acc)) as [H1 H2]; [rewrite skipn_length; lia|].
      rewrite skipn_length in H1, H2. split.
      * intros HH H'. rewrite H1 by nia.
        replace (Z.to_nat c) with (S (Z.to_nat (c - 1))) by lia.
        cbn [seq map Nat.mul rev]. rewrite skipn_skipn', <- app_assoc. cbn [app skipn].
        rewrite <- seq_shift, map_map. do 3 f_equal.
        apply map_ext. intros k. cbn [Nat.mul]. rewrite skipn_skipn'. reflexivity.
      * intros HH. apply H2. nia.
Qed.

Lemma le_i32_no_error : forall i c, le_i32 i <> NError c.
Proof. intros [|b0 [|b1 [|b2 [|b3 r]]]] c; cbn [le_i32]; discriminate. Qed.

Lemma count_le_i32 : forall v c i,
  (0 <= c -> 4 * c <= zlen i ->
     count v le_i32 c i
     = Done (skipn (Z.to_nat c * 4) i) (map (fun k => i32_at i (k * 4)) (seq 0 (Z.to_nat c))))
  /\ (zlen i < 4 * c -> exists m, count v le_i32 c i = Incomplete m).
Proof.
  intros v c i. unfold count.
  destruct (count_loop_reads v le_i32 4 (fun i => i32_at i 0) reads_le_i32 le_i32_no_error ltac:(lia)
              (S (length i)) c i i [] ltac:(lia)) as [H1 H2].
  split; intros H.
  - intros H'. rewrite H1 by lia. cbn [rev app]. f_equal. apply map_ext. intros k.
    rewrite i32_at_skipn. rewrite Nat.add_0_r. reflexivity.
  - apply H2; lia.
Qed.
