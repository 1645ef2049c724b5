(** Encoding facts: fields of concatenated buffers, WAD round trip. *)

From Coq Require Import String List ZArith Bool Lia ZifyBool ZifyNat ZifyN.
From Coq Require Import Strings.Byte.
From Verif Require Import Base SpecBytes BaseFacts Nom NomFacts ParseWad SpecWad WadFacts.
Import ListNotations.
Local Open Scope Z_scope.
Ltac Zify.zify_post_hook ::= Z.div_mod_to_equations.

Lemma nth_app_shift : forall {A} (a b : list A) i d, nth (length a + i) (a ++ b) d = nth i b d.
Proof. intros A a b i d. rewrite app_nth2 by lia. f_equal. lia. Qed.

Lemma u8_at_app : forall a b i n, n = length a -> u8_at (a ++ b) (n + i) = u8_at b i.
Proof. intros a b i n ->. unfold u8_at. rewrite nth_app_shift. reflexivity. Qed.
Lemma u16_at_app : forall a b i n, n = length a -> u16_at (a ++ b) (n + i) = u16_at b i.
Proof.
  intros a b i n H. unfold u16_at. rewrite <- !Nat.add_assoc, !u8_at_app by auto. reflexivity.
Qed.
Lemma u32_at_app : forall a b i n, n = length a -> u32_at (a ++ b) (n + i) = u32_at b i.
Proof.
  intros a b i n H. unfold u32_at. rewrite <- !Nat.add_assoc, !u8_at_app by auto. reflexivity.
Qed.
Lemma i16_at_app : forall a b i n, n = length a -> i16_at (a ++ b) (n + i) = i16_at b i.
Proof. intros a b i n H. unfold i16_at. rewrite u16_at_app by auto. reflexivity. Qed.
Lemma sub_app : forall a b i n k, n = length a -> sub (a ++ b) (n + i) k = sub b i k.
Proof.
  intros a b i n k H. unfold sub. rewrite <- skipn_skipn'. rewrite skipn_app_exact by auto. reflexivity.
Qed.

Lemma byte_of_val_bz : forall z, byte_of_val (z mod 2 ^ 8) = bz z.
Proof. reflexivity. Qed.

Lemma le_bytes_2 : forall z, le_bytes 2 z = put16 z.
Proof. intros z. reflexivity. Qed.

Lemma le_bytes_4 : forall z, le_bytes 4 z = put32 z.
Proof.
  intros z. cbn [le_bytes]. rewrite !byte_of_val_bz. unfold put32.
  change (2 ^ 8) with 256. rewrite !Z.div_div by lia. reflexivity.
Qed.

Lemma u32_at_put32 : forall z r, 0 <= z < 2 ^ 32 -> u32_at (put32 z ++ r) 0 = z.
Proof.
  intros z r H. change (u32_at (put32 z ++ r) 0) with
    (u32_of (bz z) (bz (z / 256)) (bz (z / 65536)) (bz (z / 16777216))).
  apply u32_of_put32. lia.
Qed.
Lemma i16_at_put16 : forall z r, -32768 <= z <= 32767 -> i16_at (put16 z ++ r) 0 = z.
Proof.
  intros z r H. rewrite (i16_at_of _ _ (bz z) (bz (z / 256))) by reflexivity.
  apply i16_of_put16. lia.
Qed.
Lemma u16_at_put16 : forall z r, 0 <= z < 65536 -> u16_at (put16 z ++ r) 0 = z.
Proof.
  intros z r H. change (u16_at (put16 z ++ r) 0) with (u16_of (bz z) (bz (z / 256))).
  apply u16_of_put16. lia.
Qed.

Lemma padded_put_name : forall nm, padded nm = put_name nm.
Proof. reflexivity. Qed.

Lemma encode_entry_length : forall e, short_name (name e) -> length (encode_entry e) = 16%nat.
Proof.
  intros e [H _]. unfold encode_entry. rewrite !le_bytes_4, padded_put_name, !app_length, !length_put32.
  rewrite put_name_length by auto. reflexivity.
Qed.

Lemma entry_at_encode : forall e r, entry_encodable e -> entry_at (encode_entry e ++ r) 0 e.
Proof.
  intros e r (Hf & Hs & Hn). unfold entry_at, encode_entry.
  rewrite !le_bytes_4, padded_put_name, <- !app_assoc. repeat split.
  - rewrite u32_at_put32; auto.
  - change (0 + 4)%nat with (4 + 0)%nat. rewrite u32_at_app by reflexivity. rewrite u32_at_put32; auto.
  - change (0 + 8)%nat with (4 + (4 + 0))%nat. rewrite !sub_app by reflexivity.
    unfold sub. cbn [skipn].
    rewrite firstn_app_exact by (symmetry; apply put_name_length; apply Hn).
    apply name_field_put; auto.
Qed.

Lemma concat_blocks_skipn : forall {A B} (f : A -> list B) n l k,
  (forall x, In x l -> length (f x) = n) ->
  skipn (n * k) (concat (map f l)) = concat (map f (skipn k l)).
Proof.
  intros A B f n l k; revert l. induction k as [|k IH]; intros l H.
  - rewrite Nat.mul_0_r. reflexivity.
  - destruct l as [|x l]; [cbn [map concat skipn]; apply skipn_nil|].
    cbn [map concat skipn]. replace (n * S k)%nat with (n + n * k)%nat by lia.
    rewrite <- skipn_skipn', skipn_app_exact by (symmetry; apply H; cbn; auto).
    apply IH. intros; apply H; cbn; auto.
Qed.

Lemma concat_blocks_length : forall {A B} (f : A -> list B) n l,
  (forall x, In x l -> length (f x) = n) -> length (concat (map f l)) = (n * length l)%nat.
Proof.
  intros A B f n l; induction l as [|x l IH]; intros H; cbn [map concat length]; [lia|].
  rewrite app_length, IH, H by (intros; try apply H; cbn; auto). lia.
Qed.

Lemma nth_error_skipn_cons : forall {A} (l : list A) k x,
  nth_error l k = Some x -> skipn k l = x :: skipn (S k) l.
Proof.
  intros A l; induction l as [|y l IH]; intros [|k] x H; cbn in H; try discriminate.
  - injection H as ->. reflexivity.
  - cbn [skipn]. apply IH in H. exact H.
Qed.

Lemma encode_wad_layout : forall t body dir,
  Forall entry_encodable dir -> 12 + Z.of_nat (length body) < 2 ^ 32 ->
  Z.of_nat (length dir) < 2 ^ 32 ->
  wad_layout (encode_wad t body dir)
    (mk_wad (encode_wad t body dir)
            (mk_header t (Z.of_nat (length dir)) (12 + Z.of_nat (length body))) dir).
Proof.
  intros t body dir He Hb Hd. unfold wad_layout. cbn [buffer header directory identification numlumps infotableofs].
  set (buf := encode_wad t body dir).
  assert (Hm : length (magic t) = 4%nat) by (destruct t; reflexivity).
  assert (H4 : u32_at buf 4 = Z.of_nat (length dir)).
  { unfold buf, encode_wad. change 4%nat with (4 + 0)%nat. rewrite u32_at_app by auto.
    rewrite le_bytes_4, u32_at_put32 by lia. reflexivity. }
  assert (H8 : u32_at buf 8 = 12 + Z.of_nat (length body)).
  { unfold buf, encode_wad. change 8%nat with (4 + (4 + 0))%nat. rewrite u32_at_app by auto.
    rewrite u32_at_app by (rewrite le_bytes_4; reflexivity).
    rewrite le_bytes_4, u32_at_put32 by lia. reflexivity. }
  assert (Hlen16 : forall x, In x dir -> length (encode_entry x) = 16%nat).
  { intros x Hx. rewrite Forall_forall in He. apply encode_entry_length. apply He; auto. }
  assert (Hl : length buf = (12 + length body + 16 * length dir)%nat).
  { unfold buf, encode_wad. rewrite !le_bytes_4, !app_length, Hm, !length_put32.
    rewrite (concat_blocks_length encode_entry 16) by auto. lia. }
  split; [reflexivity|]. split.
  { split; [lia|]. unfold sub. cbn [skipn]. unfold buf, encode_wad. apply firstn_app_exact; auto. }
  split; [auto|]. split; [auto|]. split.
  { unfold directory_inside. lia. }
  split; [auto|].
  intros k e Hk. unfold entry_offset. rewrite H8.
  replace (Z.to_nat (12 + Z.of_nat (length body))) with (12 + length body)%nat by lia.
  apply (proj1 (entry_at_skipn buf (12 + length body) (16 * k) e)).
  rewrite <- (Nat.add_0_r (16 * k)). apply (proj1 (entry_at_skipn _ (16 * k) 0 e)).
  assert (E : skipn (12 + length body) buf = concat (map encode_entry dir)).
  { unfold buf, encode_wad. rewrite !app_assoc. apply skipn_app_exact.
    rewrite !le_bytes_4, !app_length, Hm, !length_put32. reflexivity. }
  rewrite E. rewrite (concat_blocks_skipn encode_entry 16) by auto.
  rewrite (nth_error_skipn_cons _ _ _ Hk). cbn [map concat].
  apply entry_at_encode. rewrite Forall_forall in He. apply He. eapply nth_error_In; eauto.
Qed.

Lemma parse_encode_wad : forall t body dir,
  Forall entry_encodable dir -> 12 + Z.of_nat (length body) < 2 ^ 32 ->
  Z.of_nat (length dir) < 2 ^ 32 ->
  parse_wad (encode_wad t body dir)
  = Ok (mk_wad (encode_wad t body dir)
          (mk_header t (Z.of_nat (length dir)) (12 + Z.of_nat (length body))) dir).
Proof. intros. apply parse_wad_ok_iff. apply encode_wad_layout; auto. Qed.
