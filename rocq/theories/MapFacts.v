(** Proofs about the in-memory map. *)

From Coq Require Import String List ZArith Bool Lia ZifyBool.
From Coq Require Import Strings.Byte.
From Verif Require Import Base BaseFacts SpecBytes ParseMap SpecLumps Float FloatFacts SpecFloat64 MapModel SpecMapModel.
Import ListNotations.
Local Open Scope Z_scope.

(** ** Exact values *)

Lemma int_float_valued : forall s p, Z.pos p < 2 ^ 53 -> int_valued (int_float s p) (signed s p).
Proof.
  intros s p Hp. pose proof (ilog_bound _ _ Hp). pose proof (ilog_nonneg p).
  unfold int_valued, int_float. cbv zeta. rewrite pshift_val by lia.
  destruct (Z.leb_spec 0 (ilog p - 52)).
  - replace (52 - ilog p) with 0 by lia. replace (ilog p - 52) with 0 by lia. change (2 ^ 0) with 1.
    destruct s; unfold signed; [change (Z.neg p) with (- Z.pos p)|]; lia.
  - replace (- (ilog p - 52)) with (52 - ilog p) by lia.
    destruct s; unfold signed; [change (Z.neg p) with (- Z.pos p)|]; lia.
Qed.

Lemma is_int_valued : forall f z, is_int f z -> int_valued f z.
Proof.
  intros f z H. destruct (is_int_cases _ _ H) as [(-> & s & ->)|(s & p & -> & -> & Hp)].
  - reflexivity.
  - apply int_float_valued, Hp.
Qed.

Lemma of_Z_valued : forall z, - 2 ^ 53 < z < 2 ^ 53 -> int_valued (f64_of_Z z) z.
Proof. intros. apply is_int_valued, is_int_of_Z; assumption. Qed.

Lemma is_int_is_f64 : forall f z, is_int f z -> is_f64 f.
Proof.
  intros f z H. destruct (is_int_cases _ _ H) as [(-> & s & ->)|(s & p & -> & -> & Hp)]; [reflexivity|].
  pose proof (ilog_bound _ _ Hp). pose proof (ilog_nonneg p).
  unfold is_f64, valid_binary, int_float, bounded, canonical_mantissa. rewrite digits_log2.
  change (Z.log2 (Z.pos (pshift p (52 - ilog p)))) with (ilog (pshift p (52 - ilog p))).
  rewrite ilog_pshift by lia. rewrite fexp_small by lia. apply andb_true_intro. split.
  - apply Zeq_is_eq_bool. lia.
  - lia.
Qed.

(** A well-formed double with a small integer value is the canonical one. *)
Lemma valued_is_int : forall f z, is_f64 f -> int_valued f z -> - 2 ^ 53 < z < 2 ^ 53 -> is_int f z.
Proof.
  intros f z Hv Hi Hz. destruct f as [s|s| |s m e]; cbn [int_valued] in Hi; try contradiction.
  - subst z. apply is_int_zero.
  - unfold is_f64, valid_binary, bounded, canonical_mantissa in Hv. apply andb_prop in Hv.
    destruct Hv as (Hc & He). apply Zeq_bool_eq in Hc. rewrite digits_log2 in Hc.
    change (Z.log2 (Z.pos m)) with (ilog m) in Hc. pose proof (ilog_nonneg m) as Hm0.
    assert (Hex : exists p, z = signed s p /\ ilog m + e = ilog p
                   /\ (if 0 <=? e then Z.pos p = Z.pos m * 2 ^ e else Z.pos m = Z.pos p * 2 ^ (- e))).
    { destruct (Z.leb_spec 0 e) as [H0|H0].
      - assert (0 < 2 ^ e) by (apply Z.pow_pos_nonneg; lia).
        exists (pshift m e). split; [|split].
        + destruct s; unfold signed; [change (Z.neg (pshift m e)) with (- Z.pos (pshift m e))|]; rewrite pshift_val; lia.
        + rewrite ilog_pshift; lia.
        + apply pshift_val; lia.
      - assert (0 < 2 ^ (- e)) by (apply Z.pow_pos_nonneg; lia).
        exists (Z.to_pos (Z.abs z)).
        assert (z <> 0) by (intros ->; destruct s; lia).
        assert (Hp : Z.pos (Z.to_pos (Z.abs z)) = Z.abs z) by (apply Z2Pos.id; lia).
        assert (HM : Z.pos m = Z.abs z * 2 ^ (- e)) by (destruct s; nia).
        split; [|split].
        + destruct s; unfold signed; [change (Z.neg (Z.to_pos (Z.abs z))) with (- Z.pos (Z.to_pos (Z.abs z)))|]; rewrite Hp; nia.
        + assert (E : m = pshift (Z.to_pos (Z.abs z)) (- e)).
          { apply Pos2Z.inj. rewrite pshift_val by lia. lia. }
          rewrite E at 1. rewrite ilog_pshift by lia. lia.
        + lia. }
    destruct Hex as (p & -> & Hl & Hval).
    assert (Hp : Z.pos p < 2 ^ 53) by (destruct s; unfold signed in Hz; lia).
    pose proof (ilog_bound _ _ Hp). pose proof (ilog_nonneg p).
    rewrite fexp_small in Hc by lia.
    assert (He2 : e = ilog p - 52) by lia.
    replace (S754_finite s m e) with (int_float s p); [apply is_int_signed, Hp|].
    unfold int_float. f_equal; [|lia].
    apply Pos2Z.inj. rewrite pshift_val by lia. destruct (Z.leb_spec 0 e).
    + assert (e = 0) by lia. replace (52 - ilog p) with 0 by lia. rewrite Hval. subst e. replace (ilog p - 52) with 0 by lia. change (2 ^ 0) with 1. lia.
    + rewrite Hval. do 2 f_equal. lia.
Qed.

(** ** from_bare *)

Lemma write_last : forall {A} (l : list A) x (f : A -> A), write_at (l ++ [x]) (zlen (l ++ [x]) - 1) f = Ok (l ++ [f x]).
Proof.
  intros A l x f. unfold write_at, zlen. rewrite app_length. cbn [length].
  replace (0 <=? Z.of_nat (length l + 1) - 1) with true by lia.
  replace (Z.to_nat (Z.of_nat (length l + 1) - 1)) with (length l) by lia.
  replace (update_nth (length l) f (l ++ [x])) with (Some (l ++ [f x])); [reflexivity|].
  symmetry. induction l as [|y l IH]; cbn; [reflexivity|]. rewrite IH. reflexivity.
Qed.

Definition conv_sector (b : bare_sector) : sector :=
  mk_msector (as_u32 (sc_tag b)) (as_u32 (sc_type b)) (sc_floor b) (sc_ceil b) (as_u8 (sc_light b)).
Definition conv_vertex (v : bare_vertex) : vertex := mk_point (f64_of_Z (vx v)) (f64_of_Z (vy v)).
Definition conv_side (b : bare_side) : side :=
  mk_mside 0 (sd_upper b) (sd_lower b) (sd_middle b) (as_usize (sd_sector b)).
Definition conv_ref (z : Z) : option Z := if negb (z =? -1) then Some (as_usize z) else None.
Definition conv_line (i : Z) (b : doom_line) : line :=
  mk_line i (as_usize (dl_v0 b)) (as_usize (dl_v1 b)) (as_u32 (dl_flags b)) (as_usize (dl_special b))
    (as_u32 (dl_tag b)) (conv_ref (dl_front b)) (conv_ref (dl_back b)).
Definition conv_thing (b : doom_thing) : thing :=
  mk_thing (mk_point (f64_of_Z (dt_x b)) (f64_of_Z (dt_y b))) (as_u32 (dt_num b)).
Fixpoint conv_lines (i : Z) (l : list doom_line) : list line :=
  match l with [] => [] | b :: l' => conv_line i b :: conv_lines (i + 1) l' end.
Definition conv_map (b : doom_map) : gmap :=
  mk_gmap (conv_lines 0 (m_lines b)) (map conv_side (m_sides b)) (map conv_sector (m_sectors b))
    (map conv_thing (m_things b)) (map conv_vertex (m_vertices b)).

Lemma fold_sectors : forall bs ln sd sc th vt,
  ofold from_bare_sector bs (mk_gmap ln sd sc th vt) = Ok (mk_gmap ln sd (sc ++ map conv_sector bs) th vt).
Proof.
  induction bs as [|b bs IH]; intros; cbn [ofold map]; [rewrite app_nil_r; reflexivity|].
  unfold from_bare_sector at 1. cbn [add_sector g_sectors]. rewrite write_last. cbn [obind g_lines g_sides g_things g_vertices].
  rewrite IH, <- app_assoc. reflexivity.
Qed.
Lemma fold_vertices : forall bs ln sd sc th vt,
  ofold from_bare_vertex bs (mk_gmap ln sd sc th vt) = Ok (mk_gmap ln sd sc th (vt ++ map conv_vertex bs)).
Proof.
  induction bs as [|b bs IH]; intros; cbn [ofold map]; [rewrite app_nil_r; reflexivity|].
  unfold from_bare_vertex at 1. cbn [add_vertex obind]. rewrite IH, <- app_assoc. reflexivity.
Qed.
Lemma fold_sides : forall bs ln sd sc th vt,
  ofold from_bare_side bs (mk_gmap ln sd sc th vt) = Ok (mk_gmap ln (sd ++ map conv_side bs) sc th vt).
Proof.
  induction bs as [|b bs IH]; intros; cbn [ofold map]; [rewrite app_nil_r; reflexivity|].
  unfold from_bare_side at 1. cbn [add_side g_sides]. rewrite write_last. cbn [obind g_lines g_sectors g_things g_vertices].
  rewrite IH, <- app_assoc. reflexivity.
Qed.
Lemma fold_lines : forall bs ln sd sc th vt,
  ofold from_bare_line bs (mk_gmap ln sd sc th vt) = Ok (mk_gmap (ln ++ conv_lines (zlen ln) bs) sd sc th vt).
Proof.
  induction bs as [|b bs IH]; intros; cbn [ofold conv_lines]; [rewrite app_nil_r; reflexivity|].
  unfold from_bare_line at 1. cbn [add_line g_lines].
  match goal with |- context[write_at (ln ++ [?x]) (zlen ln)] =>
    replace (zlen ln) with (zlen (ln ++ [x]) - 1) at 2 by (unfold zlen; rewrite app_length; cbn [length]; lia) end.
  rewrite write_last. cbn [obind g_sides g_sectors g_things g_vertices].
  rewrite IH, <- app_assoc. cbn [app].
  match goal with |- context[conv_lines (zlen (ln ++ ?y))] =>
    replace (zlen (ln ++ y)) with (zlen ln + 1) by (unfold zlen; rewrite app_length; cbn [length]; lia) end.
  reflexivity.
Qed.
Lemma fold_things : forall bs ln sd sc th vt,
  ofold from_bare_thing bs (mk_gmap ln sd sc th vt) = Ok (mk_gmap ln sd sc (th ++ map conv_thing bs) vt).
Proof.
  induction bs as [|b bs IH]; intros; cbn [ofold map]; [rewrite app_nil_r; reflexivity|].
  unfold from_bare_thing at 1. cbn [obind g_lines g_sides g_sectors g_things g_vertices]. rewrite IH, <- app_assoc. reflexivity.
Qed.

Lemma from_bare_conv : forall b, from_bare b = Ok (conv_map b).
Proof.
  intros b. unfold from_bare, map_new. rewrite fold_sectors. cbn [obind]. rewrite fold_vertices. cbn [obind].
  rewrite fold_sides. cbn [obind]. rewrite fold_lines. cbn [obind]. rewrite fold_things. reflexivity.
Qed.

Lemma pattern_mod : forall bits z, 0 <= bits -> pattern_of bits z (z mod 2 ^ bits).
Proof.
  intros bits z Hb. assert (0 < 2 ^ bits) by (apply Z.pow_pos_nonneg; lia). split.
  - apply Z.mod_pos_bound; lia.
  - exists (- (z / 2 ^ bits)). rewrite Z.mod_eq by lia. lia.
Qed.

Lemma conv_ref_as : forall z, side_ref_as z (conv_ref z).
Proof.
  intros z. unfold conv_ref. destruct (Z.eqb_spec z (-1)); cbn; [assumption|]. split; [assumption|].
  apply (pattern_mod 64). lia.
Qed.

Lemma conv_lines_nth : forall l i k,
  nth_error (conv_lines i l) k = option_map (conv_line (i + Z.of_nat k)) (nth_error l k).
Proof.
  induction l as [|b l IH]; intros i [|k]; cbn [conv_lines nth_error option_map]; try reflexivity.
  - rewrite Z.add_0_r. reflexivity.
  - rewrite IH. replace (i + 1 + Z.of_nat k) with (i + Z.of_nat (S k)) by lia. reflexivity.
Qed.
Lemma conv_lines_length : forall l i, length (conv_lines i l) = length l.
Proof. induction l; intros; cbn; auto. Qed.

Lemma conv_lines_as : forall l i, Forall2 line_as l (conv_lines i l).
Proof.
  induction l as [|b l IH]; intros i; cbn [conv_lines]; constructor; [|apply IH].
  unfold line_as. cbn [ln_start ln_end ln_flags ln_special ln_tag ln_front ln_back conv_line].
  split; [apply (pattern_mod 64); lia|]. split; [apply (pattern_mod 64); lia|].
  split; [apply (pattern_mod 32); lia|]. split; [apply (pattern_mod 64); lia|].
  split; [apply (pattern_mod 32); lia|]. split; apply conv_ref_as.
Qed.

Lemma Forall2_map_r : forall {A B} (f : A -> B) (R : A -> B -> Prop) (P : A -> Prop) l,
  Forall P l -> (forall a, P a -> R a (f a)) -> Forall2 R l (map f l).
Proof. intros A B f R P l H HR. induction H; cbn; constructor; auto. Qed.

Lemma i16_i53 : forall z, is_i16 z -> - 2 ^ 53 < z < 2 ^ 53.
Proof. unfold is_i16. lia. Qed.

Lemma from_bare_spec : forall b, map_valid b ->
  exists m, from_bare b = Ok m
    /\ Forall2 sector_as (m_sectors b) (g_sectors m)
    /\ Forall2 vertex_as (m_vertices b) (g_vertices m)
    /\ Forall2 side_as (m_sides b) (g_sides m)
    /\ Forall2 line_as (m_lines b) (g_lines m)
    /\ Forall2 thing_as (m_things b) (g_things m)
    /\ forall k l, nth_error (g_lines m) k = Some l -> ln_index l = Z.of_nat k.
Proof.
  intros b (HT & HL & HD & HV & HS). exists (conv_map b). split; [apply from_bare_conv|].
  cbn [conv_map g_sectors g_vertices g_sides g_lines g_things].
  split; [|split; [|split; [|split; [|split]]]].
  - eapply Forall2_map_r; [exact HS|]. intros a _. split; [reflexivity|]. split; [reflexivity|].
    split; [apply (pattern_mod 32); lia|]. split; [apply (pattern_mod 32); lia|apply (pattern_mod 8); lia].
  - eapply Forall2_map_r; [exact HV|]. intros a (Hx & Hy). split; apply of_Z_valued, i16_i53; assumption.
  - eapply Forall2_map_r; [exact HD|]. intros a _. do 3 (split; [reflexivity|]). apply (pattern_mod 64); lia.
  - apply conv_lines_as.
  - eapply Forall2_map_r; [exact HT|]. intros a (Hx & Hy & _).
    split; [apply of_Z_valued, i16_i53; assumption|]. split; [apply of_Z_valued, i16_i53; assumption|].
    apply (pattern_mod 32); lia.
  - intros k l H. rewrite conv_lines_nth in H. destruct (nth_error (m_lines b) k); [|discriminate].
    injection H as <-. cbn. lia.
Qed.

(** ** Line predicates *)

Lemma as_usize_val : forall z, is_i16 z -> as_usize z = if z <? 0 then z + 2 ^ 64 else z.
Proof.
  intros z H. unfold as_usize, is_i16 in *. change 18446744073709551616 with (2 ^ 64).
  destruct (Z.ltb_spec z 0).
  - symmetry. apply Z.mod_unique_pos with (-1); lia.
  - apply Z.mod_small. lia.
Qed.

Lemma conv_ref_some : forall z, is_some (conv_ref z) = negb (z =? -1).
Proof. intros z. unfold conv_ref. destruct (z =? -1); reflexivity. Qed.

Lemma line_predicates : forall b m k bl l, map_valid b -> from_bare b = Ok m ->
  nth_error (m_lines b) k = Some bl -> nth_error (g_lines m) k = Some l ->
  (is_one_sided l = true <-> (dl_front bl = -1 /\ dl_back bl <> -1) \/ (dl_front bl <> -1 /\ dl_back bl = -1))
  /\ (is_two_sided l = true <-> dl_front bl <> -1 /\ dl_back bl <> -1)
  /\ (has_special l = true <-> dl_special bl <> 0)
  /\ (blocks_player l = true <-> Z.odd (dl_flags bl) = true).
Proof.
  intros b m k bl l (_ & HL & _) Hm Hb Hl. rewrite from_bare_conv in Hm. injection Hm as <-.
  cbn [conv_map g_lines] in Hl. rewrite conv_lines_nth, Hb in Hl. injection Hl as <-.
  apply nth_error_In in Hb. rewrite Forall_forall in HL. destruct (HL _ Hb) as (_ & _ & _ & Hsp & _).
  unfold is_one_sided, is_two_sided, has_special, blocks_player, conv_line.
  cbn [ln_front ln_back ln_special ln_flags]. rewrite !conv_ref_some.
  split; [|split; [|split]].
  - destruct (Z.eqb_spec (dl_front bl) (-1)), (Z.eqb_spec (dl_back bl) (-1)); cbn; split; intuition (congruence || lia).
  - destruct (Z.eqb_spec (dl_front bl) (-1)), (Z.eqb_spec (dl_back bl) (-1)); cbn; split; intuition (congruence || lia).
  - rewrite as_usize_val by exact Hsp. unfold is_i16 in Hsp. destruct (Z.ltb_spec (dl_special bl) 0); lia.
  - change 1 with (Z.ones 1). rewrite Z.land_ones by lia. change (2 ^ 1) with 2. unfold as_u32.
    rewrite Zodd_mod. change 4294967296 with (2 * 2147483648).
    rewrite Z.rem_mul_r by lia. rewrite Z.add_mod, Z.mul_comm, Z.mod_mul, Z.add_0_r, !Z.mod_mod by lia.
    pose proof (Z.mod_pos_bound (dl_flags bl) 2). destruct (Zeq_bool (dl_flags bl mod 2) 1) eqn:E.
    + apply Zeq_bool_eq in E. lia.
    + apply Zeq_bool_neq in E. lia.
Qed.

(** ** Handles *)

Lemma index_looks_up : forall {A} (l : list A) i, looks_up l i (index l i).
Proof.
  intros A l i. unfold looks_up, index, zlen. split; intros H.
  - replace ((0 <=? i) && (i <? Z.of_nat (length l))) with true by lia.
    destruct (nth_error l (Z.to_nat i)) as [a|] eqn:E; [eauto|].
    apply nth_error_None in E. lia.
  - replace ((0 <=? i) && (i <? Z.of_nat (length l))) with false by lia. eauto.
Qed.

Lemma looks_up_i16 : forall {A} (l : list A) z, is_i16 z -> Z.of_nat (length l) <= 2 ^ 63 ->
  looks_up l z (index l (as_usize z)).
Proof.
  intros A l z Hz Hl. rewrite as_usize_val by exact Hz. unfold is_i16 in Hz. destruct (Z.ltb_spec z 0).
  - split; intros H1; [lia|]. destruct (index_looks_up l (z + 2 ^ 64)) as (_ & H2). apply H2. lia.
  - apply index_looks_up.
Qed.

Lemma conv_ref_looks_up : forall {A} (l : list A) z, is_i16 z -> Z.of_nat (length l) <= 2 ^ 63 ->
  opt_looks_up l z (oopt (index l) (conv_ref z)).
Proof.
  intros A l z Hz Hl. unfold conv_ref. split; intros H.
  - subst z. reflexivity.
  - replace (z =? -1) with false by lia. cbn [negb oopt]. exists (index l (as_usize z)).
    split; [apply looks_up_i16; assumption|reflexivity].
Qed.

Lemma bound_lookups : forall b m k bl l, map_valid b -> from_bare b = Ok m ->
  Z.of_nat (length (m_vertices b)) <= 2 ^ 63 -> Z.of_nat (length (m_sides b)) <= 2 ^ 63 ->
  nth_error (m_lines b) k = Some bl -> nth_error (g_lines m) k = Some l ->
  looks_up (g_vertices m) (dl_v0 bl) (bound_start m l)
  /\ looks_up (g_vertices m) (dl_v1 bl) (bound_end m l)
  /\ opt_looks_up (g_sides m) (dl_front bl) (bound_front m l)
  /\ opt_looks_up (g_sides m) (dl_back bl) (bound_back m l).
Proof.
  intros b m k bl l (_ & HL & _) Hm Hv Hs Hb Hl. rewrite from_bare_conv in Hm. injection Hm as <-.
  cbn [conv_map g_lines] in Hl. rewrite conv_lines_nth, Hb in Hl. injection Hl as <-.
  apply nth_error_In in Hb. rewrite Forall_forall in HL.
  destruct (HL _ Hb) as (H0 & H1 & _ & _ & _ & Hf & Hk).
  unfold bound_start, bound_end, bound_front, bound_back, map_vertex, map_side.
  cbn [conv_map conv_line g_vertices g_sides ln_start ln_end ln_front ln_back].
  split; [|split; [|split]].
  - apply looks_up_i16; [assumption|]. eapply Z.le_trans; [|exact Hv]. apply Z.eq_le_incl. f_equal. apply map_length.
  - apply looks_up_i16; [assumption|]. eapply Z.le_trans; [|exact Hv]. apply Z.eq_le_incl. f_equal. apply map_length.
  - apply conv_ref_looks_up; [assumption|]. eapply Z.le_trans; [|exact Hs]. apply Z.eq_le_incl. f_equal. apply map_length.
  - apply conv_ref_looks_up; [assumption|]. eapply Z.le_trans; [|exact Hs]. apply Z.eq_le_incl. f_equal. apply map_length.
Qed.

Lemma side_sector_lookup : forall b m k bsd s, map_valid b -> from_bare b = Ok m ->
  Z.of_nat (length (m_sectors b)) <= 2 ^ 63 ->
  nth_error (m_sides b) k = Some bsd -> nth_error (g_sides m) k = Some s ->
  looks_up (g_sectors m) (sd_sector bsd) (map_sector m (si_sector s)).
Proof.
  intros b m k bsd s (_ & _ & HD & _) Hm Hv Hb Hl. rewrite from_bare_conv in Hm. injection Hm as <-.
  cbn [conv_map g_sides g_sectors] in *. rewrite nth_error_map, Hb in Hl. injection Hl as <-.
  apply nth_error_In in Hb. rewrite Forall_forall in HD.
  destruct (HD _ Hb) as (_ & _ & _ & _ & _ & Hx). unfold map_sector. cbn [conv_side si_sector g_sectors].
  apply looks_up_i16; [assumption|]. eapply Z.le_trans; [|exact Hv]. apply Z.eq_le_incl. f_equal. apply map_length.
Qed.

(** ** Player start *)

Lemma find_first : forall {A} (f : A -> bool) l t,
  find f l = Some t <-> first_with (fun a => f a = true) l t.
Proof.
  intros A f. induction l as [|x l IH]; intros t; cbn [find].
  - split; [discriminate|]. intros ([|i] & H & _); discriminate.
  - destruct (f x) eqn:E.
    + split.
      * intros [= <-]. exists 0%nat. split; [reflexivity|]. split; [assumption|]. intros; lia.
      * intros ([|i] & H & H1 & H2); [injection H as ->; reflexivity|].
        exfalso. apply (H2 0%nat x); [lia|reflexivity|assumption].
    + rewrite IH. split; intros (i & H & H1 & H2).
      * exists (S i). split; [assumption|]. split; [assumption|]. intros [|j] u Hj Hu; [injection Hu as <-; congruence|].
        apply (H2 j u); [lia|exact Hu].
      * destruct i as [|i]; [injection H as ->; congruence|]. exists i. split; [exact H|]. split; [assumption|].
        intros j u Hj Hu. apply (H2 (S j) u); [lia|exact Hu].
Qed.

Lemma find_none_all : forall {A} (f : A -> bool) l, find f l = None <-> forall a, In a l -> f a = false.
Proof.
  intros A f l. split; [apply find_none|]. induction l as [|x l IH]; intros H; cbn; [reflexivity|].
  rewrite (H x (or_introl eq_refl)). apply IH. intros a Ha. apply H. right; assumption.
Qed.

Lemma player_start_some : forall m p, find_player_start m = Some p <->
  exists t, first_with (fun t => th_num t = 1) (g_things m) t /\ th_point t = p.
Proof.
  intros m p. unfold find_player_start. split.
  - destruct (find _ _) as [t|] eqn:E; [|discriminate]. intros [= <-]. exists t. split; [|reflexivity].
    apply find_first in E. destruct E as (i & A & B & C). exists i. split; [assumption|]. split; [lia|].
    intros j u Hj Hu. specialize (C j u Hj Hu). lia.
  - intros (t & (i & A & B & C) & <-).
    assert (E : find (fun t => th_num t =? 1) (g_things m) = Some t).
    { apply find_first. exists i. split; [assumption|]. split; [lia|]. intros j u Hj Hu. specialize (C j u Hj Hu). lia. }
    rewrite E. reflexivity.
Qed.

Lemma player_start_none : forall m, find_player_start m = None <-> forall t, In t (g_things m) -> th_num t <> 1.
Proof.
  intros m. unfold find_player_start. split.
  - destruct (find _ _) eqn:E; [discriminate|]. intros _ t Ht. pose proof (proj1 (find_none_all _ _) E t Ht). cbv beta in *. lia.
  - intros H. replace (find (fun t => th_num t =? 1) (g_things m)) with (@None thing); [reflexivity|].
    symmetry. apply find_none_all. intros a Ha. specialize (H a Ha). lia.
Qed.

Lemma player_start_bare : forall b m, map_valid b -> from_bare b = Ok m ->
  (forall p, find_player_start m = Some p <->
     exists t, first_with (fun t => dt_num t = 1) (m_things b) t
       /\ p = mk_point (f64_of_Z (dt_x t)) (f64_of_Z (dt_y t)))
  /\ (find_player_start m = None <-> forall t, In t (m_things b) -> dt_num t <> 1).
Proof.
  intros b m (HT & _) Hm. rewrite from_bare_conv in Hm. injection Hm as <-.
  assert (Hn : forall t, In t (m_things b) -> (as_u32 (dt_num t) = 1 <-> dt_num t = 1)).
  { intros t Ht. rewrite Forall_forall in HT. destruct (HT _ Ht) as (_ & _ & _ & Hn & _). unfold is_i16 in Hn.
    unfold as_u32. split; intros E.
    - pose proof (Z.div_mod (dt_num t) 4294967296). lia.
    - rewrite E. reflexivity. }
  split.
  - intros p. rewrite player_start_some. unfold conv_map. cbn [g_things]. split.
    + intros (t & (i & A & B & C) & <-). rewrite nth_error_map in A. destruct (nth_error (m_things b) i) as [u|] eqn:E; [|discriminate].
      injection A as <-. exists u. split; [|reflexivity]. exists i. split; [assumption|].
      split; [apply Hn; [eapply nth_error_In; eauto|exact B]|].
      intros j v Hj Hv Hc. apply (C j (conv_thing v) Hj); [rewrite nth_error_map, Hv; reflexivity|].
      apply Hn; [eapply nth_error_In; eauto|exact Hc].
    + intros (t & (i & A & B & C) & ->). exists (conv_thing t). split; [|reflexivity]. exists i.
      split; [rewrite nth_error_map, A; reflexivity|]. split; [apply Hn; [eapply nth_error_In; eauto|exact B]|].
      intros j v Hj Hv Hc. rewrite nth_error_map in Hv. destruct (nth_error (m_things b) j) as [u|] eqn:E; [|discriminate].
      injection Hv as <-. apply (C j u Hj E). apply Hn; [eapply nth_error_In; eauto|exact Hc].
  - rewrite player_start_none. unfold conv_map. cbn [g_things]. split; intros H t Ht.
    + intros E. apply (H (conv_thing t)); [apply in_map; assumption|]. apply Hn; assumption.
    + apply in_map_iff in Ht. destruct Ht as (u & <- & Hu). intros E. apply (H u Hu). apply Hn; assumption.
Qed.

(** ** Bounding box *)

Definition conv_point (a : Z * Z) : point := mk_point (f64_of_Z (fst a)) (f64_of_Z (snd a)).

Lemma from_points_loop_int : forall l a b c d,
  Forall (fun q => is_i16 (fst q) /\ is_i16 (snd q)) l ->
  is_i16 a -> is_i16 b -> is_i16 c -> is_i16 d ->
  exists x0 y0 x1 y1,
    from_points_loop (map conv_point l) (f64_of_Z a) (f64_of_Z b) (f64_of_Z c) (f64_of_Z d)
      = mk_rect (f64_of_Z x0) (f64_of_Z y0) (f64_sub (f64_of_Z x1) (f64_of_Z x0)) (f64_sub (f64_of_Z y1) (f64_of_Z y0))
    /\ (x0 <= a /\ y0 <= b /\ c <= x1 /\ d <= y1)
    /\ (forall q, In q l -> x0 <= fst q <= x1 /\ y0 <= snd q <= y1)
    /\ (x0 = a \/ exists q, In q l /\ fst q = x0)
    /\ (y0 = b \/ exists q, In q l /\ snd q = y0)
    /\ (x1 = c \/ exists q, In q l /\ fst q = x1)
    /\ (y1 = d \/ exists q, In q l /\ snd q = y1)
    /\ is_i16 x0 /\ is_i16 y0 /\ is_i16 x1 /\ is_i16 y1.
Proof.
  induction l as [|[u v] l IH]; intros a b c d HF Ha Hb Hc Hd.
  - exists a, b, c, d. cbn [map from_points_loop]. split; [reflexivity|]. split; [lia|]. split; [intros q []|].
    auto 10.
  - inversion HF as [|q l' (Hu & Hv) HF']; subst. cbn [fst snd] in Hu, Hv. cbn [map from_points_loop conv_point px py fst snd].
    pose proof (fun z H => is_int_of_Z z (i16_i53 z H)) as I.
    rewrite (lt_int _ _ _ _ (I u Hu) (I a Ha)), (lt_int _ _ _ _ (I v Hv) (I b Hb)).
    rewrite (gt_int _ _ _ _ (I u Hu) (I c Hc)), (gt_int _ _ _ _ (I v Hv) (I d Hd)).
    assert (IF : forall (t : bool) (p q : Z), (if t then f64_of_Z p else f64_of_Z q) = f64_of_Z (if t then p else q)) by (intros []; reflexivity).
    rewrite !IF.
    assert (IR : forall (t : bool) p q, is_i16 p -> is_i16 q -> is_i16 (if t then p else q)) by (intros []; auto).
    destruct (IH (if u <? a then u else a) (if v <? b then v else b) (if c <? u then u else c) (if d <? v then v else d) HF')
      as (x0 & y0 & x1 & y1 & E & (B1 & B2 & B3 & B4) & HQ & C1 & C2 & C3 & C4 & HR); auto.
    exists x0, y0, x1, y1. split; [exact E|].
    split; [destruct (Z.ltb_spec u a), (Z.ltb_spec v b), (Z.ltb_spec c u), (Z.ltb_spec d v); lia|].
    split.
    { intros q [<-|Hq]; [|auto]. cbn [fst snd].
      destruct (Z.ltb_spec u a), (Z.ltb_spec v b), (Z.ltb_spec c u), (Z.ltb_spec d v); lia. }
    assert (W : forall (f : Z * Z -> Z) (x z w : Z) (t : bool),
       (x = (if t then z else w) \/ exists q, In q l /\ f q = x) -> f (u, v) = z ->
       x = w \/ exists q, In q ((u, v) :: l) /\ f q = x).
    { intros f x z w t [H|(q & Hq & H)] Hz.
      - destruct t; [right; exists (u, v); split; [left; reflexivity|congruence]|left; assumption].
      - right. exists q. split; [right; assumption|assumption]. }
    split; [eapply W; [exact C1|reflexivity]|]. split; [eapply W; [exact C2|reflexivity]|].
    split; [eapply W; [exact C3|reflexivity]|]. split; [eapply W; [exact C4|reflexivity]|]. exact HR.
Qed.

Lemma from_points_int : forall q0 l,
  Forall (fun q => is_i16 (fst q) /\ is_i16 (snd q)) (q0 :: l) ->
  exists x0 y0 x1 y1,
    rect_is (from_points (map conv_point (q0 :: l))) x0 y0 x1 y1
    /\ tight fst (q0 :: l) x0 x1 /\ tight snd (q0 :: l) y0 y1
    /\ from_points (map conv_point (q0 :: l))
       = mk_rect (f64_of_Z x0) (f64_of_Z y0) (f64_of_Z (x1 - x0)) (f64_of_Z (y1 - y0))
    /\ is_i16 x0 /\ is_i16 y0 /\ is_i16 x1 /\ is_i16 y1.
Proof.
  intros [u v] l HF. inversion HF as [|q l' (Hu & Hv) HF']; subst. cbn [fst snd] in Hu, Hv.
  cbn [map from_points conv_point px py fst snd].
  destruct (from_points_loop_int l u v u v HF' Hu Hv Hu Hv)
    as (x0 & y0 & x1 & y1 & E & (B1 & B2 & B3 & B4) & HQ & C1 & C2 & C3 & C4 & (R1 & R2 & R3 & R4)).
  exists x0, y0, x1, y1. rewrite E. unfold is_i16 in R1, R2, R3, R4.
  rewrite !of_Z_sub by lia.
  split; [unfold rect_is; cbn [r_x r_y r_w r_h]; split; [|split; [|split]]; apply of_Z_valued; lia|].
  assert (W : forall (f : Z * Z -> Z) (x w : Z),
     (x = w \/ exists q, In q l /\ f q = x) -> f (u, v) = w -> exists q, In q ((u, v) :: l) /\ f q = x).
  { intros f x w [H|(q & Hq & H)] Hz; [exists (u, v)|exists q]; cbn [In]; split; auto. congruence. }
  split; [|split; [|split; [reflexivity|unfold is_i16; lia]]].
  - split; [|split; [eapply W; [exact C1|reflexivity]|eapply W; [exact C3|reflexivity]]].
    intros q [<-|Hq]; cbn [fst]; [lia|]. apply HQ in Hq. lia.
  - split; [|split; [eapply W; [exact C2|reflexivity]|eapply W; [exact C4|reflexivity]]].
    intros q [<-|Hq]; cbn [snd]; [lia|]. apply HQ in Hq. lia.
Qed.

Lemma tight_map : forall {A B} (g : A -> B) (f : B -> Z) l lo hi, tight f (map g l) lo hi <-> tight (fun a => f (g a)) l lo hi.
Proof.
  intros A B g f l lo hi. unfold tight. split; intros (H1 & H2 & H3).
  - split; [intros a Ha; apply H1, in_map, Ha|].
    split; [destruct H2 as (b & Hb & E)|destruct H3 as (b & Hb & E)];
      apply in_map_iff in Hb; destruct Hb as (a & <- & Ha); eauto.
  - split; [intros b Hb; apply in_map_iff in Hb; destruct Hb as (a & <- & Ha); auto|].
    split; [destruct H2 as (a & Ha & E)|destruct H3 as (a & Ha & E)];
      exists (g a); split; auto using in_map.
Qed.

Lemma bbox_tight : forall b m, map_valid b -> from_bare b = Ok m -> m_vertices b <> [] ->
  exists x0 y0 x1 y1, rect_is (map_bbox m) x0 y0 x1 y1
    /\ tight vx (m_vertices b) x0 x1 /\ tight vy (m_vertices b) y0 y1.
Proof.
  intros b m (_ & _ & _ & HV & _) Hm Hne. rewrite from_bare_conv in Hm. injection Hm as <-.
  unfold map_bbox, conv_map. cbn [g_vertices].
  set (g := fun v => (vx v, vy v)).
  assert (EP : map (fun v => mk_point (px v) (py v)) (map conv_vertex (m_vertices b)) = map conv_point (map g (m_vertices b)))
    by (rewrite !map_map; reflexivity).
  unfold vertex in *. rewrite EP. clear EP.
  destruct (m_vertices b) as [|v vs] eqn:Ev; [congruence|]. cbn [map].
  destruct (from_points_int (g v) (map g vs)) as (x0 & y0 & x1 & y1 & H1 & H2 & H3 & _).
  { change (g v :: map g vs) with (map g (v :: vs)). apply Forall_forall. intros q Hq. apply in_map_iff in Hq.
    destruct Hq as (w & <- & Hw). rewrite Forall_forall in HV. destruct (HV _ Hw). cbn. auto. }
  exists x0, y0, x1, y1. split; [exact H1|].
  change (g v :: map g vs) with (map g (v :: vs)) in H2, H3. rewrite tight_map in H2, H3. split; assumption.
Qed.

Lemma bbox_empty : forall b m, from_bare b = Ok m -> m_vertices b = [] -> map_bbox m = rect_zero.
Proof.
  intros b m Hm E. rewrite from_bare_conv in Hm. injection Hm as <-. unfold map_bbox, conv_map. cbn [g_vertices]. rewrite E. reflexivity.
Qed.
