(** Proofs about map names. *)

From Coq Require Import String List ZArith Bool Lia ZifyBool ZifyNat ZifyN.
From Coq Require Import Strings.Byte.
From Verif Require Import Base SpecBytes BaseFacts Nom ParseWad SpecMapName.
Import ListNotations.
Local Open Scope Z_scope.
Ltac Zify.zify_post_hook ::= Z.div_mod_to_equations.

Lemma byte_eqb_true : forall a b, Byte.eqb a b = true -> a = b.
Proof. intros a b H. apply Byte.byte_dec_bl; auto. Qed.

Lemma digit_b : forall b, is_digit (zb b) = true -> digit b (zb b - 48).
Proof. intros b H. unfold is_digit in H. unfold digit. change (byte_val b) with (zb b). lia. Qed.
Lemma digit_inv : forall b d, digit b d -> is_digit (zb b) = true /\ zb b = 48 + d.
Proof. intros b d [H1 H2]. change (byte_val b) with (zb b) in H2. unfold is_digit. lia. Qed.

Definition done_opt {A} (r : iresult A) : option A := match r with Done _ a => Some a | _ => None end.

Lemma exmy_spec : forall s n, done_opt (exmy_map_name s) = Some n <->
  exists b x c y, s = [x45; b; x4d; c] /\ digit b x /\ digit c y /\ n = ExMy x y.
Proof.
  intros s n. split.
  - unfold exmy_map_name, pbind, pret, tag, verify, naive_eof.
    change (bs "E") with [x45]. change (bs "M") with [x4d].
    destruct s as [|a s]; cbn [tag_cmp]; [discriminate|].
    destruct (Byte.eqb x45 a) eqn:Ea; [|discriminate]. apply byte_eqb_true in Ea; subst a.
    destruct s as [|b s]; cbn [le_u8]; [discriminate|].
    destruct (is_digit (zb b)) eqn:Eb; [|discriminate].
    destruct s as [|m s]; cbn [tag_cmp]; [discriminate|].
    destruct (Byte.eqb x4d m) eqn:Em; [|discriminate]. apply byte_eqb_true in Em; subst m.
    destruct s as [|c s]; cbn [le_u8]; [discriminate|].
    destruct (is_digit (zb c)) eqn:Ec; [|discriminate].
    destruct s as [|d s]; [|discriminate]. cbn [done_opt]. intros H. injection H as <-.
    apply digit_b in Eb. apply digit_b in Ec. eauto 10.
  - intros (b & x & c & y & -> & Hb & Hc & ->).
    apply digit_inv in Hb. apply digit_inv in Hc. destruct Hb as [Hb Eb], Hc as [Hc Ec].
    unfold exmy_map_name, pbind, pret, tag, verify, naive_eof.
    change (bs "E") with [x45]. change (bs "M") with [x4d]. cbn [tag_cmp].
    change (Byte.eqb x45 x45) with true. cbn [le_u8]. rewrite Hb. cbn [tag_cmp].
    change (Byte.eqb x4d x4d) with true. cbn [le_u8]. rewrite Hc. cbn [done_opt].
    do 2 f_equal; lia.
Qed.

Lemma two_digits : forall b c n,
  (match utf8_2 [b; c] with
   | Some s => match u8_from_str s with
               | Some v => (1 <=? v) && (v <=? 32) = true /\ n = v
               | None => False
               end
   | None => False
   end) <->
  ((exists t u, digit b t /\ digit c u /\ 1 <= 10 * t + u <= 32 /\ n = 10 * t + u)
   \/ (b = x2b /\ exists u, digit c u /\ 1 <= u /\ n = u)).
Proof.
  intros b c n. unfold utf8_2, u8_from_str.
  assert (P43 : zb b = 43 <-> b = x2b).
  { split; [|intros ->; reflexivity]. intros H. rewrite <- (bz_zb b), H. reflexivity. }
  split.
  - destruct (((zb b <? 128) && (zb c <? 128)) || ((194 <=? zb b) && (zb b <=? 223) && (128 <=? zb c) && (zb c <=? 191)));
      [|tauto].
    destruct (zb b =? 43) eqn:E.
    + cbn [dec_digits]. destruct (is_digit (zb c)) eqn:Ec; [|tauto].
      destruct (0 * 10 + (zb c - 48) <=? 255); [|tauto]. intros [H ->].
      right. split; [apply P43; lia|]. exists (zb c - 48). apply digit_b in Ec. repeat split; try apply Ec; lia.
    + cbn [dec_digits]. destruct (is_digit (zb b)) eqn:Eb; [|tauto].
      destruct (0 * 10 + (zb b - 48) <=? 255); [|tauto].
      destruct (is_digit (zb c)) eqn:Ec; [|tauto].
      destruct ((0 * 10 + (zb b - 48)) * 10 + (zb c - 48) <=? 255); [|tauto]. intros [H ->].
      left. exists (zb b - 48), (zb c - 48). apply digit_b in Eb. apply digit_b in Ec.
      repeat split; try apply Eb; try apply Ec; lia.
  - intros [(t & u & Hb & Hc & Hr & ->)|(-> & u & Hc & Hr & ->)].
    + apply digit_inv in Hb. apply digit_inv in Hc. destruct Hb as [Db Eb], Hc as [Dc Ec].
      assert (0 <= t <= 9 /\ 0 <= u <= 9) by (unfold is_digit in *; lia).
      replace (((zb b <? 128) && (zb c <? 128)) || _) with true by lia.
      replace (zb b =? 43) with false by lia. cbn [dec_digits]. rewrite Db.
      replace (0 * 10 + (zb b - 48) <=? 255) with true by lia. rewrite Dc.
      replace ((0 * 10 + (zb b - 48)) * 10 + (zb c - 48) <=? 255) with true by lia. lia.
    + apply digit_inv in Hc. destruct Hc as [Dc Ec]. change (zb x2b) with 43.
      assert (0 <= u <= 9) by (unfold is_digit in *; lia).
      replace (((43 <? 128) && (zb c <? 128)) || _) with true by lia.
      cbv beta iota zeta. change (zb x2b) with 43. change (43 =? 43) with true. cbv beta iota zeta. cbn [dec_digits]. rewrite Dc.
      replace (0 * 10 + (zb c - 48) <=? 255) with true by lia. lia.
Qed.

Lemma mapxx_spec : forall s n, done_opt (mapxx_map_name s) = Some n <->
  exists b c x, s = [x4d; x41; x50; b; c] /\ n = MAPxx x
   /\ ((exists t u, digit b t /\ digit c u /\ 1 <= 10 * t + u <= 32 /\ x = 10 * t + u)
      \/ (b = x2b /\ exists u, digit c u /\ 1 <= u /\ x = u)).
Proof.
  intros s n. unfold mapxx_map_name, pbind, pret, tag, verify, naive_eof, map_res, take.
  change (bs "MAP") with [x4d; x41; x50]. split.
  - destruct s as [|m s]; cbn [tag_cmp]; [discriminate|].
    destruct (Byte.eqb x4d m) eqn:E1; [|discriminate]. apply byte_eqb_true in E1; subst m.
    destruct s as [|a s]; cbn [tag_cmp]; [discriminate|].
    destruct (Byte.eqb x41 a) eqn:E1; [|discriminate]. apply byte_eqb_true in E1; subst a.
    destruct s as [|p s]; cbn [tag_cmp]; [discriminate|].
    destruct (Byte.eqb x50 p) eqn:E1; [|discriminate]. apply byte_eqb_true in E1; subst p.
    destruct s as [|b s]; cbn [length]; [discriminate|].
    destruct s as [|c s]; cbn [length]; [discriminate|].
    change (S (S (length s)) <? 2)%nat with false. cbn [firstn skipn].
    destruct (utf8_2 [b; c]) as [t|] eqn:Eu; [|discriminate].
    destruct (u8_from_str t) as [v|] eqn:Ev; [|discriminate].
    destruct ((1 <=? v) && (v <=? 32)) eqn:Er; [|discriminate].
    destruct s as [|d s]; [|discriminate]. cbn [done_opt]. intros H. injection H as <-.
    exists b, c, v. split; [reflexivity|]. split; [reflexivity|].
    apply two_digits. rewrite Eu, Ev. auto.
  - intros (b & c & x & -> & -> & H). apply two_digits in H. cbn [tag_cmp].
    change (Byte.eqb x4d x4d) with true. change (Byte.eqb x41 x41) with true.
    change (Byte.eqb x50 x50) with true. cbn [length]. change (2 <? 2)%nat with false.
    cbn [firstn skipn].
    destruct (utf8_2 [b; c]) as [t|]; [|tauto].
    destruct (u8_from_str t) as [v|]; [|tauto]. destruct H as [-> ->]. reflexivity.
Qed.

Lemma map_name_of_iff : forall s n, map_name_of s = Some n <-> denotes s n.
Proof.
  intros s n. unfold map_name_of, vanilla_map_name, alt2.
  pose proof (exmy_spec s n) as HE. pose proof (mapxx_spec s n) as HM.
  assert (HX : forall e m, exmy_map_name s = m -> done_opt m = Some e ->
                 exists b c, s = [x45; b; x4d; c]).
  { intros e m <- H. apply exmy_spec in H. destruct H as (b & x & c & y & -> & _). eauto. }
  (* the first branch gives up with Incomplete only on inputs that no branch accepts *)
  assert (HI : forall m, exmy_map_name s = Incomplete m -> done_opt (mapxx_map_name s) = None).
  { intros m. unfold exmy_map_name, pbind, tag. change (bs "E") with [x45].
    destruct s as [|a s']; cbn [tag_cmp].
    - reflexivity.
    - destruct (Byte.eqb x45 a) eqn:Ea; [|discriminate]. apply byte_eqb_true in Ea; subst a.
      reflexivity. }
  assert (HF : forall c, exmy_map_name s <> NFailure c).
  { intros c. unfold exmy_map_name, pbind, tag, verify, naive_eof, pret.
    change (bs "E") with [x45]. change (bs "M") with [x4d].
    destruct s as [|? [|? [|? [|? [|? ?]]]]]; cbn [tag_cmp le_u8];
      repeat (match goal with
              | |- context [Byte.eqb ?a ?b] => destruct (Byte.eqb a b)
              | |- context [is_digit ?a] => destruct (is_digit a)
              end; cbn [tag_cmp le_u8]); discriminate. }
  assert (HFM : forall c, mapxx_map_name s <> NFailure c).
  { intros c. unfold mapxx_map_name, pbind, tag, verify, naive_eof, pret, map_res, take.
    change (bs "MAP") with [x4d; x41; x50].
    destruct (tag_cmp [x4d; x41; x50] s) as [[r|]|]; try discriminate.
    destruct (length r <? 2)%nat; try discriminate.
    destruct (utf8_2 (firstn 2 r)) as [l|]; try discriminate.
    destruct (u8_from_str l) as [z|]; try discriminate.
    destruct ((1 <=? z) && (z <=? 32)); try discriminate.
    destruct (skipn 2 r); discriminate. }
  split.
  - destruct (exmy_map_name s) as [r e|m|c|c] eqn:E.
    + intros H. injection H as ->. destruct HE as [HE _]. destruct (HE eq_refl) as (b & x & c & y & -> & Hb & Hc & ->).
      constructor; auto.
    + discriminate.
    + destruct (mapxx_map_name s) as [r e|m|c'|c'] eqn:E'; try discriminate.
      intros H. injection H as ->. destruct HM as [HM _].
      destruct (HM eq_refl) as (b & c' & x & -> & -> & [(t & u & Hb & Hc & Hr & ->)|(-> & u & Hc & Hr & ->)]);
        constructor; auto.
    + discriminate.
  - intros H.
    assert (HD : done_opt (exmy_map_name s) = Some n \/
                 (done_opt (exmy_map_name s) = None /\ done_opt (mapxx_map_name s) = Some n)).
    { destruct H as [b x c y Hb Hc|b t c u Hb Hc Hr|c u Hc Hr].
      - left. apply HE. eauto 10.
      - right. split; [reflexivity|]. apply HM. do 3 eexists; split; [reflexivity|]. split; [reflexivity|]. left; eauto 10.
      - right. split; [reflexivity|]. apply HM. do 3 eexists; split; [reflexivity|]. split; [reflexivity|]. right; eauto 10. }
    destruct (exmy_map_name s) as [r e|m|c|c] eqn:E; cbn [done_opt] in *.
    + destruct HD as [HD|[HD _]]; congruence.
    + destruct HD as [HD|[_ HD]]; [discriminate|]. rewrite (HI m eq_refl) in HD. discriminate.
    + destruct HD as [HD|[_ HD]]; [discriminate|].
      destruct (mapxx_map_name s); cbn [done_opt] in HD; congruence.
    + exfalso. eapply HF; eauto.
Qed.

Lemma denotes_valid : forall s n, denotes s n -> valid_map_name n.
Proof.
  intros s n [b x c y [Hb _] [Hc _]|b t c u [Hb _] [Hc _] Hr|c u [Hc _] Hr]; unfold valid_map_name; lia.
Qed.

Lemma digit_bz : forall d, 0 <= d <= 9 -> digit (bz (48 + d)) d.
Proof.
  intros d H. unfold digit. split; auto. change (byte_val ?b) with (zb b). rewrite zb_bz. lia.
Qed.

Lemma show_denotes : forall n, valid_map_name n -> denotes (show_map_name n) n.
Proof.
  intros [x y|x] H; cbn in H; unfold show_map_name, show_u8_02, show_u8.
  - replace (x <? 10) with true by lia. replace (y <? 10) with true by lia.
    change (bs "E") with [x45]. change (bs "M") with [x4d]. cbn [app].
    constructor; apply digit_bz; lia.
  - change (bs "MAP") with [x4d; x41; x50].
    destruct (Z.ltb_spec x 10) as [L|L]; cbn [app].
    + pose proof (D_mapxx (bz 48) 0 (bz (48 + x)) x) as D. cbn [Z.mul Z.add] in D.
      apply D; [apply (digit_bz 0)|apply digit_bz|]; lia.
    + replace (x <? 100) with true by lia.
      replace (MAPxx x) with (MAPxx (10 * (x / 10) + x mod 10)) by (f_equal; lia).
      constructor; try apply digit_bz; lia.
Qed.

Lemma show_parse : forall n, valid_map_name n -> map_name_of (show_map_name n) = Some n.
Proof. intros n H. apply map_name_of_iff. apply show_denotes; auto. Qed.

Lemma bz_digit : forall b d, digit b d -> bz (48 + d) = b.
Proof.
  intros b d [H1 H2]. rewrite <- H2. apply bz_zb.
Qed.

(** Printing a recognised name gives it back unless it contains a plus sign. *)
Lemma parse_show : forall s n, map_name_of s = Some n -> nth 3 s x00 <> x2b -> show_map_name n = s.
Proof.
  intros s n H Hp. apply map_name_of_iff in H.
  destruct H as [b x c y Hb Hc|b t c u Hb Hc Hr|c u Hc Hr]; unfold show_map_name, show_u8_02, show_u8.
  - assert (0 <= x <= 9 /\ 0 <= y <= 9) by (split; [apply Hb|apply Hc]).
    replace (x <? 10) with true by lia. replace (y <? 10) with true by lia.
    rewrite (bz_digit b x Hb), (bz_digit c y Hc). reflexivity.
  - assert (0 <= t <= 9 /\ 0 <= u <= 9) by (split; [apply Hb|apply Hc]).
    change (bs "MAP") with [x4d; x41; x50]. destruct (Z.ltb_spec (10 * t + u) 10) as [L|L]; cbn [app].
    + assert (t = 0) by lia. subst t. rewrite <- (bz_digit b 0 Hb), <- (bz_digit c u Hc). reflexivity.
    + replace (10 * t + u <? 100) with true by lia.
      replace ((10 * t + u) / 10) with t by lia. replace ((10 * t + u) mod 10) with u by lia.
      rewrite (bz_digit b t Hb), (bz_digit c u Hc). reflexivity.
  - exfalso. apply Hp. reflexivity.
Qed.

Lemma show_not_plus : forall n, valid_map_name n -> nth 3 (show_map_name n) x00 <> x2b.
Proof.
  intros n H E. pose proof (show_denotes n H) as D.
  inversion D as [b x c y Hb Hc Es En|b t c u Hb Hc Hr Es En|c u Hc Hr Es En];
    rewrite <- Es in E; cbn in E; subst.
  - destruct Hc as [? Hc]. change (byte_val x2b) with 43 in Hc. lia.
  - destruct Hb as [? Hb]. change (byte_val x2b) with 43 in Hb. lia.
  - unfold show_map_name, show_u8_02, show_u8 in Es. destruct (u <? 10) eqn:E10.
    + change (bs "MAP") with [x4d; x41; x50] in Es. cbn [app] in Es. injection Es as Es _. vm_compute in Es. discriminate.
    + destruct Hc. lia.
Qed.

Lemma parse_show_iff : forall s n, map_name_of s = Some n ->
  (show_map_name n = s <-> nth 3 s x00 <> x2b).
Proof.
  intros s n H. split.
  - intros <-. apply show_not_plus. eapply denotes_valid, map_name_of_iff; eauto.
  - apply parse_show; auto.
Qed.

(** ** Printing any name *)

Lemma show_u8_decimal : forall z, u8_value z -> decimal (show_u8 z) z.
Proof.
  intros z H. unfold u8_value in H. unfold show_u8. destruct (Z.ltb_spec z 10); [constructor; apply digit_bz; lia|]. destruct (Z.ltb_spec z 100).
  - replace z with (10 * (z / 10) + z mod 10) at 3 by lia. apply (decimal_more [_]); [constructor; apply digit_bz; lia|lia|apply digit_bz; lia].
  - replace z with (10 * (10 * (z / 100) + z / 10 mod 10) + z mod 10) at 4 by lia.
    apply (decimal_more [_; _]); [|lia|apply digit_bz; lia]. apply (decimal_more [_]); [constructor; apply digit_bz; lia|lia|apply digit_bz; lia].
Qed.

Definition digits_value (s : list byte) : Z := fold_left (fun n b => 10 * n + (byte_val b - 48)) s 0.
Lemma decimal_value : forall s n, decimal s n -> digits_value s = n.
Proof.
  intros s n H. induction H as [b d (D & E)|s n b d H IH N (D & E)]; unfold digits_value in *; [cbn [fold_left]; lia|].
  rewrite fold_left_app. cbn [fold_left]. lia.
Qed.
Lemma decimal_digits : forall s n, decimal s n -> Forall (fun b => 48 <= byte_val b <= 57) s.
Proof.
  intros s n H. induction H as [b d (D & E)|s n b d H IH N (D & E)]; [repeat constructor; lia|]. apply Forall_app. split; [exact IH|]. repeat constructor; lia.
Qed.

Lemma split_unique : forall (P : byte -> Prop) m s s' t t', ~ P m -> Forall P s -> Forall P s' -> s ++ m :: t = s' ++ m :: t' -> s = s' /\ t = t'.
Proof.
  intros P m s. induction s as [|b s IH]; intros [|b' s'] t t' N H H' E; cbn [app] in E.
  - now injection E.
  - injection E as E1 E2. inversion H'. subst. contradiction.
  - injection E as E1 E2. inversion H. subst. contradiction.
  - injection E as E1 E2. inversion H. inversion H'. subst. edestruct IH as (A & B); [exact N| | |exact E2|]; auto. subst. auto.
Qed.


Lemma show_exmy : forall x y, u8_value x -> u8_value y -> exists s t, decimal s x /\ decimal t y /\ show_map_name (ExMy x y) = [x45] ++ s ++ [x4d] ++ t.
Proof. intros x y X Y. exists (show_u8 x), (show_u8 y). split; [now apply show_u8_decimal|]. split; [now apply show_u8_decimal|reflexivity]. Qed.
Lemma show_mapxx : forall x, u8_value x -> exists s, decimal s x /\ show_map_name (MAPxx x) = [x4d; x41; x50] ++ (if x <? 10 then [x30] else []) ++ s.
Proof.
  intros x X. exists (show_u8 x). split; [now apply show_u8_decimal|]. unfold show_map_name, show_u8_02. change (bs "MAP") with [x4d; x41; x50]. f_equal. destruct (x <? 10) eqn:L; [|reflexivity].
  unfold show_u8. rewrite L. reflexivity.
Qed.

Lemma show_injective : forall n n', u8_name n -> u8_name n' -> show_map_name n = show_map_name n' -> n = n'.
Proof.
  intros [x y|x] [x' y'|x'] H H' E; cbn [u8_name] in H, H'.
  - destruct (show_exmy x y (proj1 H) (proj2 H)) as (s & t & S1 & T1 & E1). destruct (show_exmy x' y' (proj1 H') (proj2 H')) as (s' & t' & S2 & T2 & E2).
    rewrite E1, E2 in E. cbn [app] in E. injection E as E.
    apply (split_unique (fun b => 48 <= byte_val b <= 57)) in E; [|change (byte_val x4d) with 77; lia|now apply (decimal_digits _ x)|now apply (decimal_digits _ x')].
    destruct E as (-> & ->). f_equal; [rewrite <- (decimal_value _ _ S1)|rewrite <- (decimal_value _ _ T1)]; now apply decimal_value.
  - discriminate.
  - discriminate.
  - destruct (show_mapxx x H) as (s & S1 & E1). destruct (show_mapxx x' H') as (s' & S2 & E2). rewrite E1, E2 in E. cbn [app] in E. injection E as E.
    assert (V : forall u v, digits_value ((if u <? 10 then [x30] else []) ++ v) = digits_value v) by (intros u v; destruct (u <? 10); reflexivity).
    f_equal. rewrite <- (decimal_value _ _ S1), <- (decimal_value _ _ S2), <- (V x s), <- (V x' s'). now rewrite E.
Qed.
