(** Facts about [Base.v] and [SpecBytes.v]. *)

From Coq Require Import String List ZArith Bool Lia ZifyBool ZifyNat ZifyN.
From Coq Require Import Strings.Byte.
From Verif Require Import Base SpecBytes.
Import ListNotations.
Local Open Scope Z_scope.
Ltac Zify.zify_post_hook ::= Z.div_mod_to_equations.

Lemma bytes_eqb_eq : forall a b, bytes_eqb a b = true <-> a = b.
Proof.
  induction a as [|x a IH]; destruct b as [|y b]; cbn; split; intros H; try congruence.
  - apply andb_prop in H. destruct H as [H1 H2].
    apply Byte.byte_dec_bl in H1. apply IH in H2. congruence.
  - injection H as -> ->. rewrite (proj2 (IH b) eq_refl).
    rewrite (Byte.byte_dec_lb (x:=y) (y:=y) eq_refl). reflexivity.
Qed.

Lemma bytes_eqb_refl : forall a, bytes_eqb a a = true.
Proof. intros; apply bytes_eqb_eq; reflexivity. Qed.

Lemma bytes_eqb_neq : forall a b, bytes_eqb a b = false <-> a <> b.
Proof.
  intros a b; split; intros H.
  - intros ->. rewrite bytes_eqb_refl in H; discriminate.
  - destruct (bytes_eqb a b) eqn:E; auto. apply bytes_eqb_eq in E; contradiction.
Qed.

Lemma bytes_eqb_sym : forall a b, bytes_eqb a b = bytes_eqb b a.
Proof.
  intros a b. destruct (bytes_eqb b a) eqn:E.
  - apply bytes_eqb_eq in E; subst; apply bytes_eqb_refl.
  - apply bytes_eqb_neq in E. apply bytes_eqb_neq. congruence.
Qed.

Lemma zb_byte_val : forall b, zb b = byte_val b.
Proof. reflexivity. Qed.

Lemma byte_val_range : forall b, 0 <= byte_val b <= 255.
Proof. intros b; unfold byte_val. pose proof (Byte.to_N_bounded b). lia. Qed.

Lemma zb_range : forall b, 0 <= zb b <= 255.
Proof. exact byte_val_range. Qed.

Lemma zb_bz : forall z, zb (bz z) = z mod 256.
Proof.
  intros z. unfold zb, bz.
  destruct (Byte.of_N (Z.to_N (z mod 256))) as [b|] eqn:E.
  - apply Byte.to_of_N in E. rewrite E. lia.
  - apply Byte.of_N_None_iff in E. lia.
Qed.

Lemma bz_zb : forall b, bz (zb b) = b.
Proof.
  intros b. unfold zb, bz. pose proof (Byte.to_N_bounded b).
  replace (Z.to_N (Z.of_N (Byte.to_N b) mod 256)) with (Byte.to_N b) by lia.
  rewrite Byte.of_to_N. reflexivity.
Qed.

Lemma bz_mod : forall z b, z mod 256 = zb b -> bz z = b.
Proof.
  intros z b H. unfold bz. rewrite H. unfold zb.
  rewrite N2Z.id. rewrite Byte.of_to_N. reflexivity.
Qed.

(** ** 16- and 32-bit fields *)

Lemma i16_of_put16 : forall z, -32768 <= z <= 32767 -> i16_of (bz z) (bz (z / 256)) = z.
Proof. intros z H. unfold i16_of, u16_of, wrap_i16. rewrite !zb_bz. lia. Qed.

Lemma u16_of_put16 : forall z, 0 <= z < 65536 -> u16_of (bz z) (bz (z / 256)) = z.
Proof. intros z H. unfold u16_of. rewrite !zb_bz. lia. Qed.

Lemma u32_of_put32 : forall z, 0 <= z < 4294967296 ->
  u32_of (bz z) (bz (z / 256)) (bz (z / 65536)) (bz (z / 16777216)) = z.
Proof. intros z H. unfold u32_of. rewrite !zb_bz. lia. Qed.

Lemma put16_i16_of : forall a b, put16 (i16_of a b) = [a; b].
Proof.
  intros a b. unfold put16, i16_of, u16_of, wrap_i16.
  pose proof (zb_range a); pose proof (zb_range b).
  f_equal; [|f_equal]; apply bz_mod; lia.
Qed.

Lemma put16_u16_of : forall a b, put16 (u16_of a b) = [a; b].
Proof.
  intros a b. unfold put16, u16_of.
  pose proof (zb_range a); pose proof (zb_range b).
  f_equal; [|f_equal]; apply bz_mod; lia.
Qed.

Lemma i16_of_range : forall a b, -32768 <= i16_of a b <= 32767.
Proof. intros; unfold i16_of, wrap_i16; lia. Qed.
Lemma u16_of_range : forall a b, 0 <= u16_of a b < 65536.
Proof.
  intros a b; unfold u16_of. pose proof (zb_range a); pose proof (zb_range b). lia.
Qed.
Lemma u32_of_range : forall a b c d, 0 <= u32_of a b c d < 4294967296.
Proof.
  intros a b c d; unfold u32_of.
  pose proof (zb_range a); pose proof (zb_range b); pose proof (zb_range c); pose proof (zb_range d). lia.
Qed.

Lemma length_put16 : forall z, length (put16 z) = 2%nat.
Proof. reflexivity. Qed.
Lemma length_put32 : forall z, length (put32 z) = 4%nat.
Proof. reflexivity. Qed.

(** ** Lists *)

Lemma skipn_skipn' : forall {A} (n m : nat) (l : list A), skipn n (skipn m l) = skipn (m + n) l.
Proof.
  intros A n m; induction m as [|m IH]; intros l; cbn [skipn Nat.add]; auto.
  destruct l as [|x l]; [apply skipn_nil|]. apply IH.
Qed.

Lemma nth_skipn' : forall {A} (n m : nat) (l : list A) d, nth n (skipn m l) d = nth (m + n) l d.
Proof.
  intros A n m; revert n. induction m as [|m IH]; intros n l d; cbn [skipn Nat.add]; auto.
  destruct l as [|x l]; cbn; [destruct n; reflexivity|]. apply IH.
Qed.

Lemma nth_firstn' : forall {A} (n m : nat) (l : list A) d, (n < m)%nat -> nth n (firstn m l) d = nth n l d.
Proof.
  intros A n m; revert n. induction m as [|m IH]; intros n l d H; [lia|].
  destruct l as [|x l]; [reflexivity|]. destruct n; cbn; auto. apply IH. lia.
Qed.

Lemma skipn_all_nil : forall {A} n (l : list A), (length l <= n)%nat -> skipn n l = [].
Proof. intros; apply skipn_all2; auto. Qed.

Lemma zlen_app : forall {A} (a b : list A), zlen (a ++ b) = zlen a + zlen b.
Proof. intros; unfold zlen; rewrite app_length; lia. Qed.
Lemma zlen_nonneg : forall {A} (a : list A), 0 <= zlen a.
Proof. intros; unfold zlen; lia. Qed.

Lemma firstn_app_exact : forall {A} (a b : list A) n, n = length a -> firstn n (a ++ b) = a.
Proof. intros A a b n ->. rewrite firstn_app, firstn_all, Nat.sub_diag. cbn. apply app_nil_r. Qed.
Lemma skipn_app_exact : forall {A} (a b : list A) n, n = length a -> skipn n (a ++ b) = b.
Proof. intros A a b n ->. rewrite skipn_app, skipn_all, Nat.sub_diag. reflexivity. Qed.

Lemma nth_ext_len : forall {A} (d : A) l l', length l = length l' ->
  (forall i, (i < length l)%nat -> nth i l d = nth i l' d) -> l = l'.
Proof. intros A d l l' H1 H2. eapply nth_ext; eauto. Qed.

Lemma flat_map_length_const : forall {A B} (f : A -> list B) k l,
  (forall x, In x l -> length (f x) = k) -> length (flat_map f l) = (length l * k)%nat.
Proof.
  intros A B f k; induction l as [|x l IH]; intros H; cbn; auto.
  rewrite app_length, IH, H; cbn; auto. intros; apply H; cbn; auto.
Qed.

(** ** Spec fields vs. model fields *)

Lemma i16_at_of : forall l i b0 b1, nth i l x00 = b0 -> nth (i + 1) l x00 = b1 ->
  i16_at l i = i16_of b0 b1.
Proof.
  intros l i b0 b1 <- <-. unfold i16_at, u16_at, u8_at, i16_of, u16_of, wrap_i16.
  change (zb ?x) with (byte_val x).
  pose proof (byte_val_range (nth i l x00)); pose proof (byte_val_range (nth (i+1) l x00)).
  cbv zeta. destruct (Z.ltb_spec (byte_val (nth i l x00) + 2 ^ 8 * byte_val (nth (i + 1) l x00)) (2 ^ 15)); lia.
Qed.

Lemma i32_at_of : forall l i b0 b1 b2 b3,
  nth i l x00 = b0 -> nth (i + 1) l x00 = b1 -> nth (i + 2) l x00 = b2 -> nth (i + 3) l x00 = b3 ->
  i32_at l i = i32_of b0 b1 b2 b3.
Proof.
  intros l i b0 b1 b2 b3 <- <- <- <-. unfold i32_at, u32_at, u8_at, i32_of, u32_of, wrap_i32.
  change (zb ?x) with (byte_val x).
  pose proof (byte_val_range (nth i l x00)); pose proof (byte_val_range (nth (i+1) l x00)).
  pose proof (byte_val_range (nth (i+2) l x00)); pose proof (byte_val_range (nth (i+3) l x00)).
  cbv zeta.
  match goal with |- (if ?c then _ else _) = _ => destruct c eqn:E end; lia.
Qed.

Lemma u8_at_skipn : forall l m i, u8_at (skipn m l) i = u8_at l (m + i).
Proof. intros; unfold u8_at. rewrite nth_skipn'. reflexivity. Qed.
Lemma u16_at_skipn : forall l m i, u16_at (skipn m l) i = u16_at l (m + i).
Proof. intros; unfold u16_at. rewrite !u8_at_skipn. rewrite !Nat.add_assoc. reflexivity. Qed.
Lemma u32_at_skipn : forall l m i, u32_at (skipn m l) i = u32_at l (m + i).
Proof. intros; unfold u32_at. rewrite !u8_at_skipn. rewrite !Nat.add_assoc. reflexivity. Qed.
Lemma i16_at_skipn : forall l m i, i16_at (skipn m l) i = i16_at l (m + i).
Proof. intros; unfold i16_at. rewrite !u16_at_skipn. reflexivity. Qed.
Lemma i32_at_skipn : forall l m i, i32_at (skipn m l) i = i32_at l (m + i).
Proof. intros; unfold i32_at. rewrite !u32_at_skipn. reflexivity. Qed.
Lemma sub_skipn : forall l m i n, sub (skipn m l) i n = sub l (m + i) n.
Proof. intros; unfold sub. rewrite skipn_skipn'. reflexivity. Qed.

Lemma u8_at_range : forall l i, 0 <= u8_at l i <= 255.
Proof. intros; apply byte_val_range. Qed.
Lemma u32_at_range : forall l i, 0 <= u32_at l i < 4294967296.
Proof.
  intros l i; unfold u32_at.
  pose proof (u8_at_range l i); pose proof (u8_at_range l (i+1)); pose proof (u8_at_range l (i+2)); pose proof (u8_at_range l (i+3)).
  lia.
Qed.
Lemma u16_at_range : forall l i, 0 <= u16_at l i < 65536.
Proof.
  intros l i; unfold u16_at. pose proof (u8_at_range l i); pose proof (u8_at_range l (i+1)). lia.
Qed.
Lemma i16_at_range : forall l i, -32768 <= i16_at l i <= 32767.
Proof.
  intros l i; unfold i16_at. pose proof (u16_at_range l i). cbv zeta.
  destruct (Z.ltb_spec (u16_at l i) (2^15)); lia.
Qed.

(** ** Outcomes *)

Lemma obind_ok : forall {A B} (m : outcome A) (k : A -> outcome B) b,
  obind m k = Ok b <-> exists a, m = Ok a /\ k a = Ok b.
Proof.
  intros A B [a|e|p] k b; cbn; split; intros H; try discriminate.
  - exists a; auto.
  - destruct H as (a' & H1 & H2). congruence.
  - destruct H as (a' & H1 & H2). discriminate.
  - destruct H as (a' & H1 & H2). discriminate.
Qed.

Lemma omap_ok : forall {A B} (f : A -> outcome B) l ys,
  omap f l = Ok ys <-> Forall2 (fun x y => f x = Ok y) l ys.
Proof.
  intros A B f; induction l as [|x l IH]; intros ys; cbn [omap].
  - split; intros H; [injection H as <-; constructor | inversion H; reflexivity].
  - rewrite obind_ok. split.
    + intros (y & Hy & H). apply obind_ok in H. destruct H as (ys' & Hys & H).
      injection H as <-. constructor; auto. apply IH; auto.
    + intros H. inversion H as [|? y ? ys' Hy Hys]; subst. exists y; split; auto.
      apply obind_ok. exists ys'; split; auto. apply IH; auto.
Qed.

Lemma omap_total : forall {A B} (f : A -> outcome B) (g : A -> B) l,
  (forall x, In x l -> f x = Ok (g x)) -> omap f l = Ok (map g l).
Proof.
  intros A B f g; induction l as [|x l IH]; intros H; cbn; auto.
  rewrite H by (cbn; auto). cbn. rewrite IH; auto. intros; apply H; cbn; auto.
Qed.

Lemma slice_ok : forall {A} (l : list A) s e r,
  0 <= s -> slice l s e = Ok r <->
  s <= e /\ e <= zlen l /\ r = firstn (Z.to_nat (e - s)) (skipn (Z.to_nat s) l).
Proof.
  intros A l s e r Hs. unfold slice.
  destruct ((s <=? e) && (e <=? zlen l)) eqn:E.
  - split; [intros H; injection H as <-; repeat split; lia |intros (_ & _ & ->); reflexivity].
  - split; [discriminate | intros (H1 & H2 & _); lia].
Qed.

Lemma slice_panic : forall {A} (l : list A) s e,
  (exists r, slice l s e = Ok r) \/ slice l s e = Panic PSlice.
Proof. intros A l s e. unfold slice. destruct (_ && _); eauto. Qed.

Lemma enumerate_from_spec : forall {A} (l : list A) i k x,
  nth_error (enumerate_from i l) k = Some x <->
  exists a, nth_error l k = Some a /\ x = ((i + k)%nat, a).
Proof.
  intros A l; induction l as [|a l IH]; intros i k x; cbn [enumerate_from].
  - destruct k; cbn; split; intros H; try discriminate; destruct H as (? & ? & ?); discriminate.
  - destruct k as [|k]; cbn [nth_error].
    + rewrite Nat.add_0_r. split; intros H.
      * injection H as <-. eauto.
      * destruct H as (a' & Ha & ->). congruence.
    + rewrite IH. replace (S i + k)%nat with (i + S k)%nat by lia. reflexivity.
Qed.

Lemma enumerate_from_length : forall {A} (l : list A) i, length (enumerate_from i l) = length l.
Proof. intros A l; induction l as [|a l IH]; intros i; cbn; auto. Qed.

Lemma enumerate_length : forall {A} (l : list A), length (enumerate l) = length l.
Proof. intros; apply enumerate_from_length. Qed.

Lemma enumerate_from_skipn : forall {A} (l : list A) i k,
  skipn k (enumerate_from i l) = enumerate_from (i + k) (skipn k l).
Proof.
  intros A l; induction l as [|a l IH]; intros i k.
  - rewrite !skipn_nil. reflexivity.
  - destruct k as [|k]; cbn [skipn enumerate_from].
    + rewrite Nat.add_0_r. reflexivity.
    + rewrite IH. f_equal. lia.
Qed.

Lemma nth_error_ext' : forall {A} (l l' : list A), length l = length l' ->
  (forall k, nth_error l k = nth_error l' k) -> l = l'.
Proof.
  intros A l; induction l as [|x l IH]; intros [|y l'] Hl H; cbn in Hl; try discriminate; auto.
  f_equal.
  - specialize (H 0%nat). cbn in H. congruence.
  - apply IH; [lia|]. intros k. apply (H (S k)).
Qed.

Lemma Forall2_length' : forall {A B} (P : A -> B -> Prop) l l', Forall2 P l l' -> length l = length l'.
Proof. intros A B P l l' H. induction H; cbn; auto. Qed.

Lemma Forall2_nth : forall {A B} (P : A -> B -> Prop) l l' k x y,
  Forall2 P l l' -> nth_error l k = Some x -> nth_error l' k = Some y -> P x y.
Proof.
  intros A B P l l' k x y H. revert k. induction H as [|a b l l' Hab H IH]; intros [|k] Hx Hy; cbn in *;
    try discriminate; [congruence|eauto].
Qed.
