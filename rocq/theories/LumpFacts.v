(** Proofs about the map lump parsers and writers. *)

From Coq Require Import String List ZArith Bool Lia ZifyBool ZifyNat ZifyN.
From Coq Require Import Strings.Byte.
From Verif Require Import Base SpecBytes BaseFacts Nom NomFacts ParseWad ArchiveWad ParseMap
  ParseTexturex SpecWad WadFacts EncodeFacts SpecLumps.
Import ListNotations.
Local Open Scope Z_scope.
Ltac Zify.zify_post_hook ::= Z.div_mod_to_equations.

Ltac solve_fixed :=
  intros i r; cbn beta; norm_at; split;
  [ intros H; decompose record H; clear H; subst; reflexivity
  | intros ->; repeat (eexists; split; [reflexivity|]); reflexivity ].

Lemma reads_doom_thing : reads p_doom_thing 10 (fun i r => doom_thing_at i 0 r).
Proof.
  eapply reads_ext; [unfold p_doom_thing; repeat reads_step | reflexivity | unfold doom_thing_at; solve_fixed].
Qed.
Lemma reads_hexen_args : reads hexen_args 5
  (fun i r => r = [u8_at i 0; u8_at i 1; u8_at i 2; u8_at i 3; u8_at i 4]).
Proof.
  eapply reads_ext; [unfold hexen_args; repeat reads_step | reflexivity | solve_fixed].
Qed.
Lemma reads_hexen_thing : reads p_hexen_thing 20 (fun i r => hexen_thing_at i 0 r).
Proof.
  eapply reads_ext;
    [unfold p_hexen_thing; repeat first [apply reads_hexen_args | reads_step] | reflexivity
    | unfold hexen_thing_at; solve_fixed].
Qed.
Lemma reads_doom_line : reads p_doom_line 14 (fun i r => doom_line_at i 0 r).
Proof.
  eapply reads_ext; [unfold p_doom_line; repeat reads_step | reflexivity | unfold doom_line_at; solve_fixed].
Qed.
Lemma reads_hexen_line : reads p_hexen_line 16 (fun i r => hexen_line_at i 0 r).
Proof.
  eapply reads_ext;
    [unfold p_hexen_line; repeat first [apply reads_hexen_args | reads_step] | reflexivity
    | unfold hexen_line_at; solve_fixed].
Qed.
Lemma reads_vertex : reads p_vertex 4 (fun i r => vertex_at i 0 r).
Proof.
  eapply reads_ext; [unfold p_vertex; repeat reads_step | reflexivity | unfold vertex_at; solve_fixed].
Qed.
Lemma reads_side : reads p_side 30 (fun i r => side_at i 0 r).
Proof.
  eapply reads_ext; [unfold p_side; repeat reads_step | reflexivity |].
  intros i r. cbn beta. unfold side_at. norm_at. split.
  - intros H; decompose record H; clear H; subst. cbn. auto 10.
  - intros (H1 & H2 & H3 & H4 & H5 & H6).
    eexists; split; [reflexivity|]. eexists; split; [reflexivity|].
    eexists; split; [exact H3|]. eexists; split; [exact H4|]. eexists; split; [exact H5|].
    eexists; split; [reflexivity|]. destruct r; cbn in *; subst; reflexivity.
Qed.
Lemma reads_sector : reads p_sector 26 (fun i r => sector_at i 0 r).
Proof.
  eapply reads_ext; [unfold p_sector; repeat reads_step | reflexivity |].
  intros i r. cbn beta. unfold sector_at. norm_at. split.
  - intros H; decompose record H; clear H; subst. cbn. auto 10.
  - intros (H1 & H2 & H3 & H4 & H5 & H6 & H7).
    eexists; split; [reflexivity|]. eexists; split; [reflexivity|].
    eexists; split; [exact H3|]. eexists; split; [exact H4|].
    eexists; split; [reflexivity|]. eexists; split; [reflexivity|]. eexists; split; [reflexivity|].
    destruct r; cbn in *; subst; reflexivity.
Qed.
Lemma reads_tex : reads texturex_lump_entry 22 (fun i r => tex_at i 0 r).
Proof.
  eapply reads_ext; [unfold texturex_lump_entry; repeat reads_step | reflexivity |].
  intros i r. cbn beta. unfold tex_at. norm_at. split.
  - intros H; decompose record H; clear H; subst. cbn. auto 10.
  - intros (H1 & H2 & H3).
    eexists; split; [exact H1|]. do 5 (eexists; split; [reflexivity|]).
    destruct r; cbn in *; subst; reflexivity.
Qed.

(** ** Lumps decode *)

Lemma lump_decodes : forall {A} (p : parser A) n (rec : bytes -> nat -> A -> Prop),
  reads p n (fun i r => rec i 0%nat r) -> (0 < n)%nat ->
  (forall l m r, rec (skipn m l) 0%nat r <-> rec l m r) ->
  forall buf, exists rest rs, many0 (complete p) buf = Done rest rs /\ decodes n rec buf rs.
Proof.
  intros A p n rec Hp Hn Hs buf. destruct (many0_reads p n _ Hp Hn buf) as (rs & Hd & Hr).
  exists (skipn (length rs * n) buf), rs. split; [exact Hd|]. apply runs_spec in Hr. destruct Hr as [H1 H2]. split.
  - intros k r Hk. destruct (H1 k r Hk) as [Ha Hb]. split; auto. apply Hs. exact Hb.
  - intros Hl r Hr. apply (H2 Hl r). apply Hs. exact Hr.
Qed.

Lemma decodes_total_length : forall {A} n (rec : bytes -> nat -> A -> Prop) buf rs,
  (0 < n)%nat -> (forall o, exists r, rec buf o r) -> decodes n rec buf rs ->
  length rs = (length buf / n)%nat.
Proof.
  intros A n rec buf rs Hn Ht [H1 H2].
  assert (Hu : (length rs * n <= length buf)%nat).
  { destruct rs as [|r rs'] eqn:E; [cbn; lia|].
    destruct (nth_error (r :: rs') (length rs')) as [x|] eqn:Ex.
    - destruct (H1 _ _ Ex) as [Ha _]. cbn [length]. lia.
    - apply nth_error_None in Ex. cbn in Ex. lia. }
  assert (Hl : (length buf < (length rs + 1) * n)%nat).
  { destruct (Nat.ltb_spec (length buf) ((length rs + 1) * n)) as [H|H]; auto.
    destruct (Ht (length rs * n)%nat) as [r Hr]. exfalso. eapply H2; eauto. }
  apply Nat.div_unique with (r := (length buf - length rs * n)%nat); nia.
Qed.

Lemma doom_thing_at_skipn : forall l m r, doom_thing_at (skipn m l) 0 r <-> doom_thing_at l m r.
Proof. intros. unfold doom_thing_at. norm_at. rewrite Nat.add_0_r. reflexivity. Qed.
Lemma hexen_thing_at_skipn : forall l m r, hexen_thing_at (skipn m l) 0 r <-> hexen_thing_at l m r.
Proof. intros. unfold hexen_thing_at. norm_at. rewrite Nat.add_0_r. reflexivity. Qed.
Lemma doom_line_at_skipn : forall l m r, doom_line_at (skipn m l) 0 r <-> doom_line_at l m r.
Proof. intros. unfold doom_line_at. norm_at. rewrite Nat.add_0_r. reflexivity. Qed.
Lemma hexen_line_at_skipn : forall l m r, hexen_line_at (skipn m l) 0 r <-> hexen_line_at l m r.
Proof. intros. unfold hexen_line_at. norm_at. rewrite Nat.add_0_r. reflexivity. Qed.
Lemma vertex_at_skipn : forall l m r, vertex_at (skipn m l) 0 r <-> vertex_at l m r.
Proof. intros. unfold vertex_at. norm_at. rewrite Nat.add_0_r. reflexivity. Qed.
Lemma side_at_skipn : forall l m r, side_at (skipn m l) 0 r <-> side_at l m r.
Proof. intros. unfold side_at. norm_at. rewrite Nat.add_0_r. reflexivity. Qed.
Lemma sector_at_skipn : forall l m r, sector_at (skipn m l) 0 r <-> sector_at l m r.
Proof. intros. unfold sector_at. norm_at. rewrite Nat.add_0_r. reflexivity. Qed.
Lemma tex_at_skipn : forall l m r, tex_at (skipn m l) 0 r <-> tex_at l m r.
Proof. intros. unfold tex_at. norm_at. rewrite Nat.add_0_r. reflexivity. Qed.

Lemma doom_things_decode : forall buf, exists rest rs,
  doom_things_lump buf = Done rest rs /\ decodes 10 doom_thing_at buf rs.
Proof. apply lump_decodes; [apply reads_doom_thing|lia|apply doom_thing_at_skipn]. Qed.
Lemma hexen_things_decode : forall buf, exists rest rs,
  hexen_things_lump buf = Done rest rs /\ decodes 20 hexen_thing_at buf rs.
Proof. apply lump_decodes; [apply reads_hexen_thing|lia|apply hexen_thing_at_skipn]. Qed.
Lemma doom_lines_decode : forall buf, exists rest rs,
  doom_linedefs_lump buf = Done rest rs /\ decodes 14 doom_line_at buf rs.
Proof. apply lump_decodes; [apply reads_doom_line|lia|apply doom_line_at_skipn]. Qed.
Lemma hexen_lines_decode : forall buf, exists rest rs,
  hexen_linedefs_lump buf = Done rest rs /\ decodes 16 hexen_line_at buf rs.
Proof. apply lump_decodes; [apply reads_hexen_line|lia|apply hexen_line_at_skipn]. Qed.
Lemma vertexes_decode : forall buf, exists rest rs,
  vertexes_lump buf = Done rest rs /\ decodes 4 vertex_at buf rs.
Proof. apply lump_decodes; [apply reads_vertex|lia|apply vertex_at_skipn]. Qed.
Lemma sides_decode : forall buf, exists rest rs,
  sidedefs_lump buf = Done rest rs /\ decodes 30 side_at buf rs.
Proof. apply lump_decodes; [apply reads_side|lia|apply side_at_skipn]. Qed.
Lemma sectors_decode : forall buf, exists rest rs,
  sectors_lump buf = Done rest rs /\ decodes 26 sector_at buf rs.
Proof. apply lump_decodes; [apply reads_sector|lia|apply sector_at_skipn]. Qed.

(** ** Round trips *)

Lemma many0_write : forall {A} (p : parser A) n (R : bytes -> A -> Prop) (w : A -> bytes) (ok : A -> Prop),
  reads p n R -> (0 < n)%nat ->
  (forall r, ok r -> length (w r) = n) ->
  (forall r rest, ok r -> R (w r ++ rest) r) ->
  (forall i a b, (n <= length i)%nat -> R i a -> R i b -> a = b) ->
  forall rs, Forall ok rs -> many0 (complete p) (flat_map w rs) = Done [] rs.
Proof.
  intros A p n R w ok Hp Hn Hw HR HU rs Hok.
  destruct (many0_reads p n R Hp Hn (flat_map w rs)) as (rs' & Hd & Hr).
  assert (rs' = rs).
  { clear Hd. revert rs' Hr. induction Hok as [|r rs Hr Hrs IH]; intros rs' Hr'.
    - destruct rs' as [|r' rs']; auto. cbn [flat_map runs] in Hr'. destruct Hr' as [H _]. cbn in H. lia.
    - cbn [flat_map] in Hr'. destruct rs' as [|r' rs']; cbn [runs] in Hr'.
      + exfalso. eapply Hr'; [|apply HR; exact Hr]. rewrite app_length, Hw; auto. lia.
      + destruct Hr' as (Hl & Ha & Hb). f_equal.
        * eapply HU; eauto.
        * apply IH. rewrite skipn_app_exact in Hb by (symmetry; apply Hw; auto). exact Hb. }
  subst rs'. rewrite Hd. f_equal.
  apply skipn_all_nil. rewrite (flat_map_length_const w n); [lia|].
  intros x Hx. rewrite Forall_forall in Hok. apply Hw; auto.
Qed.

Ltac app_at k :=
  repeat rewrite ?(i16_at_app) by reflexivity.

Ltac put_fields :=
  repeat match goal with
  | |- context [i16_at (put16 ?z ++ ?r) 0] => rewrite (i16_at_put16 z r) by lia
  | |- context [u16_at (put16 ?z ++ ?r) 0] => rewrite (u16_at_put16 z r) by lia
  | |- context [i16_at (put16 ?z ++ ?r) (S (S ?k))] =>
      change (i16_at (put16 z ++ r) (S (S k))) with (i16_at (put16 z ++ r) (2 + k));
      rewrite (i16_at_app (put16 z) r k 2 eq_refl)
  | |- context [u16_at (put16 ?z ++ ?r) (S (S ?k))] =>
      change (u16_at (put16 z ++ r) (S (S k))) with (u16_at (put16 z ++ r) (2 + k));
      rewrite (u16_at_app (put16 z) r k 2 eq_refl)
  | |- context [sub (put16 ?z ++ ?r) (S (S ?k)) ?n] =>
      change (sub (put16 z ++ r) (S (S k)) n) with (sub (put16 z ++ r) (2 + k) n);
      rewrite (sub_app (put16 z) r k 2 n eq_refl)
  end.

Lemma write_doom_thing_at : forall t rest, thing_valid t -> doom_thing_at (write_doom_thing t ++ rest) 0 t.
Proof.
  intros [x y a n f] rest. unfold thing_valid, is_i16, is_u16, doom_thing_at, write_doom_thing.
  cbn [dt_x dt_y dt_angle dt_num dt_flags Nat.add]. intros H. rewrite <- !app_assoc.
  put_fields. reflexivity.
Qed.
Lemma write_doom_line_at : forall t rest, line_valid t -> doom_line_at (write_doom_line t ++ rest) 0 t.
Proof.
  intros [a b c d e f g] rest. unfold line_valid, is_i16, is_u16, doom_line_at, write_doom_line.
  cbn [dl_v0 dl_v1 dl_flags dl_special dl_tag dl_front dl_back Nat.add]. intros H. rewrite <- !app_assoc.
  put_fields. reflexivity.
Qed.
Lemma write_vertex_at : forall t rest, vertex_valid t -> vertex_at (write_vertex t ++ rest) 0 t.
Proof.
  intros [a b] rest. unfold vertex_valid, is_i16, vertex_at, write_vertex.
  cbn [vx vy Nat.add]. intros H. rewrite <- !app_assoc. put_fields. reflexivity.
Qed.

Lemma sub_put_name_here : forall nm r, short_name nm -> sub (put_name nm ++ r) 0 8 = put_name nm.
Proof.
  intros nm r [H _]. unfold sub. cbn [skipn]. apply firstn_app_exact.
  rewrite put_name_length; auto.
Qed.
Lemma sub_put_name_after : forall nm r k n, short_name nm -> sub (put_name nm ++ r) (8 + k) n = sub r k n.
Proof. intros nm r k n [H _]. apply sub_app. rewrite put_name_length; auto. Qed.
Lemma i16_at_put_name_after : forall nm r k, short_name nm -> i16_at (put_name nm ++ r) (8 + k) = i16_at r k.
Proof. intros nm r k [H _]. apply i16_at_app. rewrite put_name_length; auto. Qed.

Ltac name_fields :=
  repeat match goal with
  | |- context [sub (put_name ?nm ++ ?r) 0 8] => rewrite (sub_put_name_here nm r) by assumption
  | |- context [sub (put_name ?nm ++ ?r) (S (S (S (S (S (S (S (S ?k)))))))) ?n] =>
      change (sub (put_name nm ++ r) (S (S (S (S (S (S (S (S k)))))))) n)
        with (sub (put_name nm ++ r) (8 + k) n);
      rewrite (sub_put_name_after nm r k n) by assumption
  | |- context [i16_at (put_name ?nm ++ ?r) (S (S (S (S (S (S (S (S ?k))))))))] =>
      change (i16_at (put_name nm ++ r) (S (S (S (S (S (S (S (S k)))))))))
        with (i16_at (put_name nm ++ r) (8 + k));
      rewrite (i16_at_put_name_after nm r k) by assumption
  | _ => progress put_fields
  end.

Lemma write_side_at : forall t rest, side_valid t -> side_at (write_side t ++ rest) 0 t.
Proof.
  intros [x y u l m s] rest. unfold side_valid, is_i16, side_at, write_side.
  cbn [sd_x sd_y sd_upper sd_lower sd_middle sd_sector Nat.add].
  intros (Hx & Hy & Hu & Hl & Hm & Hs). rewrite <- !app_assoc.
  name_fields. repeat split; auto using name_field_put.
Qed.
Lemma write_sector_at : forall t rest, sector_valid t -> sector_at (write_sector t ++ rest) 0 t.
Proof.
  intros [f c ft ct l ty tg] rest. unfold sector_valid, is_i16, sector_at, write_sector.
  cbn [sc_floor sc_ceil sc_floor_tex sc_ceil_tex sc_light sc_type sc_tag Nat.add].
  intros (Hf & Hc & Hft & Hct & Hl & Hty & Htg). rewrite <- !app_assoc.
  name_fields. repeat split; auto using name_field_put.
Qed.

Lemma write_side_length : forall s, side_valid s -> length (write_side s) = 30%nat.
Proof.
  intros s (_ & _ & [H1 _] & [H2 _] & [H3 _] & _). unfold write_side.
  rewrite !app_length, !length_put16, !put_name_length by auto. reflexivity.
Qed.
Lemma write_sector_length : forall s, sector_valid s -> length (write_sector s) = 26%nat.
Proof.
  intros s (_ & _ & [H1 _] & [H2 _] & _). unfold write_sector.
  rewrite !app_length, !length_put16, !put_name_length by auto. reflexivity.
Qed.

Lemma side_at_unique : forall i o a b, side_at i o a -> side_at i o b -> a = b.
Proof.
  intros i o [x y u l m s] [x' y' u' l' m' s'] (A1 & A2 & A3 & A4 & A5 & A6) (B1 & B2 & B3 & B4 & B5 & B6).
  cbn in *. subst. f_equal; eapply name_field_unique; eauto.
Qed.
Lemma sector_at_unique : forall i o a b, sector_at i o a -> sector_at i o b -> a = b.
Proof.
  intros i o [] [] (A1 & A2 & A3 & A4 & A5 & A6 & A7) (B1 & B2 & B3 & B4 & B5 & B6 & B7).
  cbn in *. subst. f_equal; eapply name_field_unique; eauto.
Qed.

Lemma doom_things_write : forall rs, Forall thing_valid rs ->
  doom_things_lump (flat_map write_doom_thing rs) = Done [] rs.
Proof.
  apply (many0_write _ 10 _ _ _ reads_doom_thing); [lia|reflexivity|intros; apply write_doom_thing_at; auto|].
  unfold doom_thing_at; congruence.
Qed.
Lemma doom_lines_write : forall rs, Forall line_valid rs ->
  doom_linedefs_lump (flat_map write_doom_line rs) = Done [] rs.
Proof.
  apply (many0_write _ 14 _ _ _ reads_doom_line); [lia|reflexivity|intros; apply write_doom_line_at; auto|].
  unfold doom_line_at; congruence.
Qed.
Lemma vertexes_write : forall rs, Forall vertex_valid rs ->
  vertexes_lump (flat_map write_vertex rs) = Done [] rs.
Proof.
  apply (many0_write _ 4 _ _ _ reads_vertex); [lia|reflexivity|intros; apply write_vertex_at; auto|].
  unfold vertex_at; congruence.
Qed.
Lemma sides_write : forall rs, Forall side_valid rs ->
  sidedefs_lump (flat_map write_side rs) = Done [] rs.
Proof.
  apply (many0_write _ 30 _ _ _ reads_side); [lia|apply write_side_length|intros; apply write_side_at; auto|].
  intros; eapply side_at_unique; eauto.
Qed.
Lemma sectors_write : forall rs, Forall sector_valid rs ->
  sectors_lump (flat_map write_sector rs) = Done [] rs.
Proof.
  apply (many0_write _ 26 _ _ _ reads_sector); [lia|apply write_sector_length|intros; apply write_sector_at; auto|].
  intros; eapply sector_at_unique; eauto.
Qed.
