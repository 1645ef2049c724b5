(** Parsing then writing reproduces the bytes; validity of parsed records. *)

From Coq Require Import String List ZArith Bool Lia ZifyBool ZifyNat ZifyN.
From Coq Require Import Strings.Byte.
From Verif Require Import Base SpecBytes BaseFacts Nom NomFacts ParseWad ArchiveWad ParseMap
  ParseTexturex SpecWad WadFacts EncodeFacts SpecLumps LumpFacts.
Import ListNotations.
Local Open Scope Z_scope.
Ltac Zify.zify_post_hook ::= Z.div_mod_to_equations.

Lemma sub_two : forall i o, (o + 2 <= length i)%nat ->
  sub i o 2 = [nth o i x00; nth (o + 1) i x00].
Proof.
  intros i o H. unfold sub.
  assert (L : (2 <= length (skipn o i))%nat) by (rewrite skipn_length; lia).
  pose proof (nth_skipn' 0 o i x00) as E0. pose proof (nth_skipn' 1 o i x00) as E1.
  rewrite Nat.add_0_r in E0. rewrite <- E0, <- E1. clear E0 E1 H.
  destruct (skipn o i) as [|a [|b r]]; cbn in *; try lia. reflexivity.
Qed.

Lemma put16_i16_at : forall i o, (o + 2 <= length i)%nat -> put16 (i16_at i o) = sub i o 2.
Proof.
  intros i o H. rewrite (i16_at_of i o _ _ eq_refl eq_refl), put16_i16_of, sub_two; auto.
Qed.
Lemma put16_u16_at : forall i o, (o + 2 <= length i)%nat -> put16 (u16_at i o) = sub i o 2.
Proof.
  intros i o H. rewrite sub_two by auto. apply put16_u16_of.
Qed.

Lemma sub_cat : forall i o n m, sub i o n ++ sub i (o + n) m = sub i o (n + m).
Proof.
  intros i o n m. unfold sub. rewrite <- skipn_skipn'.
  generalize (skipn o i) as l. clear. induction n as [|n IH]; intros l; cbn [Nat.add]; auto.
  destruct l as [|x l]; cbn [firstn skipn app].
  - destruct m; reflexivity.
  - f_equal. apply IH.
Qed.
Lemma sub_cat' : forall i o n o' m t, o' = (o + n)%nat -> sub i o n ++ (sub i o' m ++ t) = sub i o (n + m) ++ t.
Proof. intros i o n o' m t ->. rewrite app_assoc, sub_cat. reflexivity. Qed.

Lemma sub_length : forall i o n, (o + n <= length i)%nat -> length (sub i o n) = n.
Proof. intros i o n H. unfold sub. rewrite firstn_length, skipn_length. lia. Qed.

Ltac glue :=
  repeat match goal with
  | |- context [sub ?i ?o ?n ++ (sub ?i ?o' ?m ++ ?t)] =>
      rewrite (sub_cat' i o n o' m t) by reflexivity; cbn [Nat.add]
  | |- context [sub ?i ?o ?n ++ sub ?i ?o' ?m] =>
      change (sub i o' m) with (sub i (o + n) m); rewrite (sub_cat i o n m); cbn [Nat.add]
  end.

Lemma doom_thing_rewrite : forall i r, (10 <= length i)%nat -> doom_thing_at i 0 r -> write_doom_thing r = sub i 0 10.
Proof.
  intros i r H ->. unfold write_doom_thing. cbn [dt_x dt_y dt_angle dt_num dt_flags Nat.add].
  rewrite !put16_i16_at, put16_u16_at by lia. glue. reflexivity.
Qed.
Lemma doom_line_rewrite : forall i r, (14 <= length i)%nat -> doom_line_at i 0 r -> write_doom_line r = sub i 0 14.
Proof.
  intros i r H ->. unfold write_doom_line. cbn [dl_v0 dl_v1 dl_flags dl_special dl_tag dl_front dl_back Nat.add].
  rewrite !put16_i16_at by lia. glue. reflexivity.
Qed.
Lemma vertex_rewrite : forall i r, (4 <= length i)%nat -> vertex_at i 0 r -> write_vertex r = sub i 0 4.
Proof.
  intros i r H ->. unfold write_vertex. cbn [vx vy Nat.add].
  rewrite !put16_i16_at by lia. glue. reflexivity.
Qed.

Lemma runs_rewrite : forall {A} n (R : bytes -> A -> Prop) (w : A -> bytes) i rs,
  (forall i r, (n <= length i)%nat -> R i r -> w r = sub i 0 n) ->
  runs n R i rs -> flat_map w rs = firstn (length rs * n) i.
Proof.
  intros A n R w i rs Hw; revert i. induction rs as [|r rs IH]; intros i Hr; cbn [runs flat_map length] in *; auto.
  destruct Hr as (Hl & HR & Hr). rewrite (Hw i r Hl HR), (IH _ Hr).
  pose proof (sub_cat i 0 n (length rs * n)) as E. unfold sub in E at 2 3. cbn [Nat.add skipn] in E.
  rewrite E. f_equal.
Qed.

Lemma lump_rewrite : forall {A} (p : parser A) n (R : bytes -> A -> Prop) (w : A -> bytes),
  reads p n R -> (0 < n)%nat ->
  (forall i r, (n <= length i)%nat -> R i r -> w r = sub i 0 n) ->
  (forall i, exists r, R i r) ->
  forall buf rest rs, many0 (complete p) buf = Done rest rs ->
  flat_map w rs = firstn (length buf / n * n) buf.
Proof.
  intros A p n R w Hp Hn Hw Ht buf rest rs H.
  destruct (many0_reads p n R Hp Hn buf) as (rs' & Hd & Hr).
  rewrite H in Hd. injection Hd as _ <-.
  rewrite (runs_rewrite n R w buf rs Hw Hr). f_equal. f_equal.
  apply (decodes_total_length n (fun b o r => R (skipn o b) r)); auto.
  apply runs_spec in Hr. exact Hr.
Qed.

Lemma doom_things_rewrite : forall buf rest rs, doom_things_lump buf = Done rest rs ->
  flat_map write_doom_thing rs = firstn (length buf / 10 * 10) buf.
Proof.
  apply (lump_rewrite p_doom_thing 10 _ _ reads_doom_thing); [lia|apply doom_thing_rewrite|].
  intros i. eexists. reflexivity.
Qed.
Lemma doom_lines_rewrite : forall buf rest rs, doom_linedefs_lump buf = Done rest rs ->
  flat_map write_doom_line rs = firstn (length buf / 14 * 14) buf.
Proof.
  apply (lump_rewrite p_doom_line 14 _ _ reads_doom_line); [lia|apply doom_line_rewrite|].
  intros i. eexists. reflexivity.
Qed.
Lemma vertexes_rewrite : forall buf rest rs, vertexes_lump buf = Done rest rs ->
  flat_map write_vertex rs = firstn (length buf / 4 * 4) buf.
Proof.
  apply (lump_rewrite p_vertex 4 _ _ reads_vertex); [lia|apply vertex_rewrite|].
  intros i. eexists. reflexivity.
Qed.

(** ** Sides and sectors: up to the bytes after a name's NUL *)

Lemma sub_sub : forall l o n o' n', (o' + n' <= n)%nat -> sub (sub l o n) o' n' = sub l (o + o') n'.
Proof.
  intros l o n o' n' H. unfold sub. rewrite skipn_firstn_comm, firstn_firstn, skipn_skipn'.
  f_equal. lia.
Qed.

Lemma name_field_len : forall f nm, name_field f nm -> (length nm <= length f)%nat.
Proof. intros f nm (t & -> & _). rewrite app_length. lia. Qed.

Lemma side_at_valid : forall i o r, (o + 30 <= length i)%nat -> side_at i o r -> side_valid r.
Proof.
  intros i o r H (A1 & A2 & A3 & A4 & A5 & A6). unfold side_valid, is_i16.
  rewrite A1, A2, A6.
  pose proof (i16_at_range i o); pose proof (i16_at_range i (o+2)); pose proof (i16_at_range i (o+28)).
  repeat split; try lia;
    first [ apply name_field_short in A3; [apply A3|rewrite sub_length; lia]
          | apply name_field_short in A4; [apply A4|rewrite sub_length; lia]
          | apply name_field_short in A5; [apply A5|rewrite sub_length; lia] ].
Qed.
Lemma sector_at_valid : forall i o r, (o + 26 <= length i)%nat -> sector_at i o r -> sector_valid r.
Proof.
  intros i o r H (A1 & A2 & A3 & A4 & A5 & A6 & A7). unfold sector_valid, is_i16.
  rewrite A1, A2, A5, A6, A7.
  pose proof (i16_at_range i o); pose proof (i16_at_range i (o+2)); pose proof (i16_at_range i (o+20)).
  pose proof (i16_at_range i (o+22)); pose proof (i16_at_range i (o+24)).
  repeat split; try lia;
    first [ apply name_field_short in A3; [apply A3|rewrite sub_length; lia]
          | apply name_field_short in A4; [apply A4|rewrite sub_length; lia] ].
Qed.

Lemma sub_put16_here : forall z r, sub (put16 z ++ r) 0 2 = put16 z.
Proof. reflexivity. Qed.

Lemma side_canon_write : forall i o r, (o + 30 <= length i)%nat -> side_at i o r ->
  side_canon (sub i o 30) (write_side r).
Proof.
  intros i o r H Hr. pose proof (side_at_valid i o r H Hr) as (V1 & V2 & V3 & V4 & V5 & V6).
  destruct Hr as (A1 & A2 & A3 & A4 & A5 & A6). unfold side_canon, write_side.
  rewrite !sub_sub by lia.
  assert (E1 : sub (put16 (sd_x r) ++ put16 (sd_y r) ++ put_name (sd_upper r) ++ put_name (sd_lower r) ++ put_name (sd_middle r) ++ put16 (sd_sector r)) 0 4 = put16 (sd_x r) ++ put16 (sd_y r)) by reflexivity.
  rewrite E1. rewrite A1, A2, !put16_i16_at by lia. rewrite sub_cat, Nat.add_0_r. split; [reflexivity|].
  rewrite <- !put16_i16_at by lia.
  rewrite <- (app_nil_r (put16 (sd_sector r))).
  assert (NC : forall f nm, name_field f nm -> name_canon f (put_name nm)).
  { intros f nm Hf. exists nm. auto. }
  split; [|split; [|split]].
  - name_fields. apply NC. exact A3.
  - name_fields. apply NC. exact A4.
  - name_fields. apply NC. exact A5.
  - name_fields. rewrite sub_put16_here, A6, put16_i16_at by lia. reflexivity.
Qed.
Lemma sector_canon_write : forall i o r, (o + 26 <= length i)%nat -> sector_at i o r ->
  sector_canon (sub i o 26) (write_sector r).
Proof.
  intros i o r H Hr. pose proof (sector_at_valid i o r H Hr) as (V1 & V2 & V3 & V4 & V5 & V6 & V7).
  destruct Hr as (A1 & A2 & A3 & A4 & A5 & A6 & A7). unfold sector_canon, write_sector.
  rewrite !sub_sub by lia.
  assert (NC : forall f nm, name_field f nm -> name_canon f (put_name nm)).
  { intros f nm Hf. exists nm. auto. }
  split; [|split; [|split]].
  - match goal with |- ?x = _ => change x with (put16 (sc_floor r) ++ put16 (sc_ceil r)) end.
    rewrite A1, A2, !put16_i16_at by lia. rewrite sub_cat, Nat.add_0_r. reflexivity.
  - name_fields. apply NC. exact A3.
  - name_fields. apply NC. exact A4.
  - name_fields.
    match goal with |- ?x = _ => change x with (put16 (sc_light r) ++ put16 (sc_type r) ++ put16 (sc_tag r)) end.
    rewrite A5, A6, A7, !put16_i16_at by lia.
    replace (o + 24)%nat with (o + 22 + 2)%nat by lia. rewrite sub_cat.
    replace (o + 22)%nat with (o + 20 + 2)%nat by lia. rewrite sub_cat. reflexivity.
Qed.

Lemma flat_map_block : forall {A} (w : A -> bytes) n rs k r,
  (forall x, In x rs -> length (w x) = n) -> nth_error rs k = Some r ->
  sub (flat_map w rs) (k * n) n = w r.
Proof.
  intros A w n rs k r Hl Hk. rewrite flat_map_concat_map. unfold sub.
  rewrite Nat.mul_comm, (concat_blocks_skipn w n) by auto.
  rewrite (nth_error_skipn_cons _ _ _ Hk). cbn [map concat].
  apply firstn_app_exact. symmetry. apply Hl. eapply nth_error_In; eauto.
Qed.

Lemma decodes_In_valid : forall {A} n (rec : bytes -> nat -> A -> Prop) (ok : A -> Prop) buf rs,
  (forall o r, (o + n <= length buf)%nat -> rec buf o r -> ok r) ->
  decodes n rec buf rs -> Forall ok rs.
Proof.
  intros A n rec ok buf rs Hok [H1 _]. apply Forall_forall. intros r Hr.
  apply In_nth_error in Hr. destruct Hr as [k Hk]. destruct (H1 k r Hk) as [Hl Hr].
  eapply Hok; [|exact Hr]. lia.
Qed.

Lemma sides_rewrite : forall buf rest rs, sidedefs_lump buf = Done rest rs ->
  length (flat_map write_side rs) = (length rs * 30)%nat
  /\ forall k, (k < length rs)%nat ->
     side_canon (sub buf (k * 30) 30) (sub (flat_map write_side rs) (k * 30) 30).
Proof.
  intros buf rest rs H. destruct (sides_decode buf) as (rest' & rs' & Hd & Hr).
  rewrite H in Hd. injection Hd as <- <-.
  assert (V : Forall side_valid rs).
  { eapply decodes_In_valid; [|exact Hr]. intros; eapply side_at_valid; eauto. }
  rewrite Forall_forall in V.
  assert (L : forall x, In x rs -> length (write_side x) = 30%nat) by (intros; apply write_side_length; auto).
  split; [apply flat_map_length_const; auto|].
  intros k Hk. destruct (nth_error rs k) as [r|] eqn:E.
  - destruct (proj1 Hr k r E) as [Hl Ha].
    rewrite (flat_map_block write_side 30 rs k r L E). apply side_canon_write; auto. lia.
  - apply nth_error_None in E. lia.
Qed.
Lemma sectors_rewrite : forall buf rest rs, sectors_lump buf = Done rest rs ->
  length (flat_map write_sector rs) = (length rs * 26)%nat
  /\ forall k, (k < length rs)%nat ->
     sector_canon (sub buf (k * 26) 26) (sub (flat_map write_sector rs) (k * 26) 26).
Proof.
  intros buf rest rs H. destruct (sectors_decode buf) as (rest' & rs' & Hd & Hr).
  rewrite H in Hd. injection Hd as <- <-.
  assert (V : Forall sector_valid rs).
  { eapply decodes_In_valid; [|exact Hr]. intros; eapply sector_at_valid; eauto. }
  rewrite Forall_forall in V.
  assert (L : forall x, In x rs -> length (write_sector x) = 26%nat) by (intros; apply write_sector_length; auto).
  split; [apply flat_map_length_const; auto|].
  intros k Hk. destruct (nth_error rs k) as [r|] eqn:E.
  - destruct (proj1 Hr k r E) as [Hl Ha].
    rewrite (flat_map_block write_sector 26 rs k r L E). apply sector_canon_write; auto. lia.
  - apply nth_error_None in E. lia.
Qed.

(** Parsed records are in range. *)
Lemma doom_things_valid : forall buf rest rs, doom_things_lump buf = Done rest rs -> Forall thing_valid rs.
Proof.
  intros buf rest rs H. destruct (doom_things_decode buf) as (rest' & rs' & Hd & Hr).
  rewrite H in Hd. injection Hd as <- <-. eapply decodes_In_valid; [|exact Hr].
  intros o r _ ->. unfold thing_valid, is_i16, is_u16. cbn [dt_x dt_y dt_angle dt_num dt_flags].
  pose proof (i16_at_range buf o); pose proof (i16_at_range buf (o+2)); pose proof (i16_at_range buf (o+4));
  pose proof (i16_at_range buf (o+6)); pose proof (u16_at_range buf (o+8)). lia.
Qed.
Lemma doom_lines_valid : forall buf rest rs, doom_linedefs_lump buf = Done rest rs -> Forall line_valid rs.
Proof.
  intros buf rest rs H. destruct (doom_lines_decode buf) as (rest' & rs' & Hd & Hr).
  rewrite H in Hd. injection Hd as <- <-. eapply decodes_In_valid; [|exact Hr].
  intros o r _ ->. unfold line_valid, is_i16. cbn [dl_v0 dl_v1 dl_flags dl_special dl_tag dl_front dl_back].
  pose proof (i16_at_range buf o); pose proof (i16_at_range buf (o+2)); pose proof (i16_at_range buf (o+4));
  pose proof (i16_at_range buf (o+6)); pose proof (i16_at_range buf (o+8));
  pose proof (i16_at_range buf (o+10)); pose proof (i16_at_range buf (o+12)). lia.
Qed.
Lemma vertexes_valid : forall buf rest rs, vertexes_lump buf = Done rest rs -> Forall vertex_valid rs.
Proof.
  intros buf rest rs H. destruct (vertexes_decode buf) as (rest' & rs' & Hd & Hr).
  rewrite H in Hd. injection Hd as <- <-. eapply decodes_In_valid; [|exact Hr].
  intros o r _ ->. unfold vertex_valid, is_i16. cbn [vx vy].
  pose proof (i16_at_range buf o); pose proof (i16_at_range buf (o+2)). lia.
Qed.
Lemma sides_valid : forall buf rest rs, sidedefs_lump buf = Done rest rs -> Forall side_valid rs.
Proof.
  intros buf rest rs H. destruct (sides_decode buf) as (rest' & rs' & Hd & Hr).
  rewrite H in Hd. injection Hd as <- <-. eapply decodes_In_valid; [|exact Hr].
  intros; eapply side_at_valid; eauto.
Qed.
Lemma sectors_valid : forall buf rest rs, sectors_lump buf = Done rest rs -> Forall sector_valid rs.
Proof.
  intros buf rest rs H. destruct (sectors_decode buf) as (rest' & rs' & Hd & Hr).
  rewrite H in Hd. injection Hd as <- <-. eapply decodes_In_valid; [|exact Hr].
  intros; eapply sector_at_valid; eauto.
Qed.

Lemma side_valid_names : forall s, side_valid s ->
  short_name (sd_upper s) /\ short_name (sd_lower s) /\ short_name (sd_middle s).
Proof. intros s (_ & _ & H). tauto. Qed.
Lemma sector_valid_names : forall s, sector_valid s ->
  short_name (sc_floor_tex s) /\ short_name (sc_ceil_tex s).
Proof. intros s (_ & _ & H). tauto. Qed.
