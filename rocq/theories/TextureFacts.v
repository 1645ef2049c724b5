(** Proofs about [count_textures]. *)

From Coq Require Import String List ZArith Bool Lia ZifyBool.
From Verif Require Import Base BaseFacts ParseMap SpecLumps SectorPolys SpecSector SectorFacts CountTextures SpecTextures.
Import ListNotations.
Local Open Scope Z_scope.

(** ** The table *)

Definition add_all (us : list (bytes * f32)) (c : counts) : counts :=
  fold_left (fun c u => count_add c (fst u) (snd u)) us c.

Lemma bump_in : forall c tex area, NoDup (map fst c) ->
  forall k n a, In (k, (n, a)) (bump c tex area) <->
    (k <> tex /\ In (k, (n, a)) c)
    \/ (k = tex /\ ((exists n' a', In (tex, (n', a')) c /\ n = n' + 1 /\ a = f32_add a' area)
                    \/ (~ In tex (map fst c) /\ n = 1 /\ a = f32_add f32_zero area))).
Proof.
  induction c as [|[k0 [n0 a0]] c IH]; intros tex area Hnd k n a; cbn [bump In map fst].
  - split.
    + intros [[= <- <- <-]|[]]. right. split; [reflexivity|]. right. auto.
    + intros [[_ []]|[-> [(? & ? & [] & _)|(_ & -> & ->)]]]. auto.
  - inversion Hnd as [|? ? Hn Hd]; subst. destruct (bytes_eqb k0 tex) eqn:E; [apply bytes_eqb_eq in E; subst k0|apply bytes_eqb_neq in E]; cbn [In].
    + assert (Hno : forall x y, ~ In (tex, (x, y)) c) by (intros x y H; apply Hn; apply (in_map fst) in H; exact H). split.
      * intros [[= <- <- <-]|H].
        -- right. split; [reflexivity|]. left. exists n0, a0. auto.
        -- left. split; [intros ->; eapply Hno; eauto|auto].
      * intros [[Hk [H|H]]|[-> [(n' & a' & [H|H] & -> & ->)|(H & _)]]].
        -- injection H. congruence.
        -- auto.
        -- injection H as <- <-. auto.
        -- exfalso. eapply Hno; eauto.
        -- tauto.
    + rewrite IH by exact Hd. split.
      * intros [[= <- <- <-]|[[Hk H]|[-> [(n' & a' & H & -> & ->)|(H & -> & ->)]]]].
        -- left. auto.
        -- left. auto.
        -- right. split; [reflexivity|]. left. exists n', a'. auto.
        -- right. split; [reflexivity|]. right. split; [intros [?|?]; congruence|auto].
      * intros [[Hk [H|H]]|[-> [(n' & a' & [H|H] & -> & ->)|(H & -> & ->)]]].
        -- auto.
        -- auto.
        -- injection H. congruence.
        -- right. right. split; [reflexivity|]. left. exists n', a'. auto.
        -- right. right. split; [reflexivity|]. right. auto.
Qed.

Lemma bump_keys : forall c tex area k, In k (map fst (bump c tex area)) <-> k = tex \/ In k (map fst c).
Proof.
  induction c as [|[k0 [n0 a0]] c IH]; intros tex area k; cbn [bump In map fst]; [intuition|].
  destruct (bytes_eqb k0 tex) eqn:E; [apply bytes_eqb_eq in E; subst k0|]; cbn [In map fst]; [intuition|]. rewrite IH. intuition.
Qed.

Lemma bump_nodup : forall c tex area, NoDup (map fst c) -> NoDup (map fst (bump c tex area)).
Proof.
  induction c as [|[k0 [n0 a0]] c IH]; intros tex area H; cbn [bump map fst]; [repeat constructor; intros []|].
  inversion H; subst. destruct (bytes_eqb k0 tex) eqn:E; cbn [map fst]; [exact H|]. constructor; [|auto].
  rewrite bump_keys. apply bytes_eqb_neq in E. intuition.
Qed.

Lemma uses_of_app : forall tex us vs, uses_of tex (us ++ vs) = uses_of tex us ++ uses_of tex vs.
Proof. intros. unfold uses_of. rewrite filter_app, map_app. reflexivity. Qed.

Lemma uses_of_one : forall tex u, uses_of tex [u] = if bytes_eqb (fst u) tex then [snd u] else [].
Proof. intros tex u. unfold uses_of. cbn [filter]. destruct (bytes_eqb (fst u) tex); reflexivity. Qed.

Lemma total_snoc : forall l x, total (l ++ [x]) = f32_add (total l) x.
Proof. intros. unfold total. rewrite fold_left_app. reflexivity. Qed.

Lemma reports_nil : reports [] [].
Proof.
  split; [constructor|]. intros tex n a. split; [intros []|]. intros (_ & H & _). exfalso. apply H. reflexivity.
Qed.

Lemma reports_add : forall c us u, reports c us -> reports (count_add c (fst u) (snd u)) (us ++ [u]).
Proof.
  intros c us [tex area] (Hnd & Hin). cbn [fst snd]. unfold count_add. destruct (bytes_eqb tex (bs "-")) eqn:E.
  - apply bytes_eqb_eq in E. split; [exact Hnd|]. intros k n a. rewrite Hin. rewrite uses_of_app, uses_of_one. cbn [fst snd].
    destruct (bytes_eqb tex k) eqn:Ek; [apply bytes_eqb_eq in Ek; subst; intuition congruence|]. rewrite app_nil_r. reflexivity.
  - apply bytes_eqb_neq in E. split; [apply bump_nodup; exact Hnd|]. intros k n a. rewrite bump_in by exact Hnd.
    rewrite uses_of_app, uses_of_one. cbn [fst snd]. destruct (bytes_eqb tex k) eqn:Ek; [apply bytes_eqb_eq in Ek; subst k|apply bytes_eqb_neq in Ek].
    + rewrite app_length, total_snoc. cbn [length]. split.
      * intros [[? _]|[_ [(n' & a' & H & -> & ->)|(H & -> & ->)]]]; [congruence| |].
        -- apply Hin in H. destruct H as (? & ? & -> & ->). split; [assumption|]. split; [destruct (uses_of tex us); discriminate|]. split; [lia|reflexivity].
        -- assert (Hu : uses_of tex us = []).
           { destruct (uses_of tex us) as [|x xs] eqn:Eu; [reflexivity|]. exfalso. apply H.
             apply in_map_iff. eexists. split; [|apply Hin; rewrite Eu; split; [assumption|]; split; [discriminate|]; split; reflexivity]. reflexivity. }
           rewrite Hu. split; [assumption|]. split; [discriminate|]. split; reflexivity.
      * intros (_ & _ & -> & ->). right. split; [reflexivity|].
        destruct (uses_of tex us) as [|x xs] eqn:Eu.
        -- right. split; [|split; reflexivity]. intros H. apply in_map_iff in H. destruct H as ([k [n' a']] & Hk & H). cbn in Hk. subst k.
           apply Hin in H. rewrite Eu in H. intuition.
        -- left. eexists _, _. split; [apply Hin; rewrite Eu; split; [assumption|]; split; [discriminate|]; split; reflexivity|]. split; [lia|reflexivity].
    + rewrite app_nil_r, Hin. split; [intros [(_ & H)|(? & _)]; [exact H|congruence]|]. intros H. left. split; [congruence|exact H].
Qed.

Lemma reports_add_all : forall vs c us, reports c us -> reports (add_all vs c) (us ++ vs).
Proof.
  induction vs as [|v vs IH]; intros c us H; [rewrite app_nil_r; exact H|].
  change (add_all (v :: vs) c) with (add_all vs (count_add c (fst v) (snd v))).
  replace (us ++ v :: vs) with ((us ++ [v]) ++ vs) by (rewrite <- app_assoc; reflexivity). apply IH, reports_add, H.
Qed.

(** ** 16-bit arithmetic *)

Lemma sub_i16_cases : forall mode a b,
  (fits (a - b) /\ sub_i16 mode a b = Ok (a - b))
  \/ (~ fits (a - b) /\ ((mode = Checked /\ sub_i16 mode a b = Panic POverflow) \/ (mode = Wrapping /\ exists z, sub_i16 mode a b = Ok z))).
Proof.
  intros mode a b. unfold fits. destruct (in_i16 (a - b)) eqn:E; unfold in_i16 in E.
  - left. split; [lia|]. unfold sub_i16, in_i16. destruct mode; [rewrite E; reflexivity|]. f_equal. unfold wrap_i16.
    rewrite Z.mod_small by lia. lia.
  - right. split; [lia|]. unfold sub_i16, in_i16. destruct mode; [left; rewrite E; auto|right; eauto].
Qed.

Lemma neg_i16_cases : forall mode z, (z <> -32768 /\ neg_i16 mode z = Ok (- z))
  \/ (z = -32768 /\ ((mode = Checked /\ neg_i16 mode z = Panic POverflow) \/ (mode = Wrapping /\ exists y, neg_i16 mode z = Ok y))).
Proof.
  intros mode z. unfold neg_i16. destruct (Z.eqb_spec z (-32768)); [right|left; auto]. split; [assumption|].
  destruct mode; [left|right]; eauto.
Qed.

Fixpoint check (k : nat) (z : Z) (f : Z -> bool) : bool :=
  match k with O => f z | S k' => check k' z f && check k' (z + 2 ^ Z.of_nat k') f end.
Lemma check_all : forall k z f, check k z f = true -> forall y, z <= y < z + 2 ^ Z.of_nat k -> f y = true.
Proof.
  induction k as [|k IH]; intros z f H y Hy; cbn [check] in H.
  - change (2 ^ Z.of_nat 0) with 1 in Hy. replace y with z by lia. exact H.
  - apply andb_true_iff in H. destruct H as (H1 & H2). rewrite Nat2Z.inj_succ, Z.pow_succ_r in Hy by lia.
    destruct (Z_lt_dec y (z + 2 ^ Z.of_nat k)); [apply (IH z)|apply (IH (z + 2 ^ Z.of_nat k))]; auto; lia.
Qed.

Lemma f32_gt_zero : forall z, fits z -> f32_gt (f32_of_Z z) f32_zero = (0 <? z).
Proof.
  intros z Hz. apply eqb_prop.
  apply (check_all 16 (-32768) (fun z => Bool.eqb (f32_gt (f32_of_Z z) f32_zero) (0 <? z))); [vm_compute; reflexivity|].
  unfold fits in Hz. change (2 ^ Z.of_nat 16) with 65536. lia.
Qed.

(** ** One line *)

Section Lines.
  Context {L T : Type} (ops : line_ops L) (m : binary_map L T).
  Hypothesis Hm : i16_indices ops m.
  Hypothesis Hs : Z.of_nat (length (m_sectors m)) <= 2 ^ 63.

  Lemma side_index : forall id, is_i16 id ->
    match index (m_sides m) (as_usize id) with
    | Ok sd => item_at (m_sides m) id sd
        /\ match index (m_sectors m) (as_usize (sd_sector sd)) with
           | Ok sc => side_sector m id sd sc
           | Panic p => p = PIndex /\ ~ exists sd sc, side_sector m id sd sc
           | Err _ => False
           end
    | Panic p => p = PIndex /\ ~ exists sd sc, side_sector m id sd sc
    | Err _ => False
    end.
  Proof.
    intros id Hid. destruct Hm as (_ & Hsd & _ & Hlen).
    pose proof (index_i16 (m_sides m) id Hid Hlen) as H. destruct (index (m_sides m) (as_usize id)) as [sd|e|p].
    - destruct H as (H & _). split; [exact H|].
      pose proof (index_i16 (m_sectors m) (sd_sector sd) (Hsd sd (item_at_in _ _ _ H)) Hs) as H'.
      destruct (index (m_sectors m) (as_usize (sd_sector sd))) as [sc|e|p].
      + split; [exact H|apply H'].
      + exact H'.
      + destruct H' as (-> & H'). split; [reflexivity|]. intros (sd' & sc' & H1 & H2). rewrite (item_at_inj _ _ _ _ H1 H) in H2.
        apply H'. eapply item_at_has. exact H2.
    - exact H.
    - destruct H as (-> & H). split; [reflexivity|]. intros (sd & sc & H1 & _). apply H. eapply item_at_has, H1.
  Qed.

  Definition verdict (mode : build) (l : L) (c : counts) (o : outcome counts) : Prop :=
    match o with
    | Ok c' => line_indices_exist ops m l
        /\ ((exists us, line_uses ops m l us /\ c' = add_all us c) \/ (mode = Wrapping /\ forall us, ~ line_uses ops m l us))
    | Panic PIndex => ~ line_indices_exist ops m l
    | Panic POverflow => mode = Checked /\ forall us, ~ line_uses ops m l us
    | _ => False
    end.

  Lemma side_sector_inj : forall id sd sc sd' sc', side_sector m id sd sc -> side_sector m id sd' sc' -> sd = sd' /\ sc = sc'.
  Proof.
    intros id sd sc sd' sc' (H1 & H2) (H3 & H4). pose proof (item_at_inj _ _ _ _ H1 H3). subst sd'.
    split; [reflexivity|]. exact (item_at_inj _ _ _ _ H2 H4).
  Qed.

  Lemma deltas_inj : forall l dx dy dx' dy', line_deltas ops m l dx dy -> line_deltas ops m l dx' dy' -> dx = dx' /\ dy = dy'.
  Proof.
    intros l dx dy dx' dy' (a & b & Ha & Hb & -> & ->) (a' & b' & Ha' & Hb' & -> & ->).
    rewrite (item_at_inj _ _ _ _ Ha Ha'), (item_at_inj _ _ _ _ Hb Hb'). auto.
  Qed.

  (** What a line with known sides and length can have as uses. *)
  Definition fits_one dx dy (sc : bare_sector) := fits dx /\ fits dy /\ fits (sc_ceil sc - sc_floor sc).
  Definition fits_two dx dy (fs bs : bare_sector) :=
    fits dx /\ fits dy /\ fits_neg (sc_ceil fs - sc_ceil bs) /\ fits_neg (sc_floor fs - sc_floor bs)
    /\ fits (Z.min (sc_ceil fs) (sc_ceil bs) - Z.min (sc_floor fs) (sc_floor bs)).

  Lemma uses_one_only : forall l us id sd sc dx dy, id <> -1 ->
    (fst (lo_sides ops l) = id /\ snd (lo_sides ops l) = -1) \/ (fst (lo_sides ops l) = -1 /\ snd (lo_sides ops l) = id) ->
    side_sector m id sd sc -> line_deltas ops m l dx dy -> line_uses ops m l us -> fits_one dx dy sc.
  Proof.
    intros l us id sd sc dx dy Hid Hsides H1 H2 H. destruct H as [A B|id' sd' sc' dx' dy' S I A B F1 F2 F3|f fs b bs' dx' dy' A B].
    - lia.
    - assert (id' = id) by lia. subst id'. destruct (side_sector_inj _ _ _ _ _ H1 A), (deltas_inj _ _ _ _ _ H2 B). subst. repeat split; apply F1 || apply F2 || apply F3.
    - lia.
  Qed.

  Lemma uses_two_only : forall l us f fs b bs' dx dy, fst (lo_sides ops l) <> -1 -> snd (lo_sides ops l) <> -1 ->
    side_sector m (fst (lo_sides ops l)) f fs -> side_sector m (snd (lo_sides ops l)) b bs' ->
    line_deltas ops m l dx dy -> line_uses ops m l us -> fits_two dx dy fs bs'.
  Proof.
    intros l us f fs b bs' dx dy Hf Hb H1 H1' H2 H. destruct H as [A B|id' sd' sc' dx' dy' S I A B F1 F2 F3|f' fs' b' bs'' dx' dy' A B S1 S2 D F1 F2 F3 F4 top bottom F5].
    - lia.
    - lia.
    - destruct (side_sector_inj _ _ _ _ _ H1 S1), (side_sector_inj _ _ _ _ _ H1' S2), (deltas_inj _ _ _ _ _ H2 D). subst.
      unfold fits_two. auto.
  Qed.

  Lemma count_one_verdict : forall mode l c id dx dy idx idy, is_i16 id -> id <> -1 ->
    (fst (lo_sides ops l) = id /\ snd (lo_sides ops l) = -1) \/ (fst (lo_sides ops l) = -1 /\ snd (lo_sides ops l) = id) ->
    line_deltas ops m l dx dy ->
    (fits dx /\ fits dy /\ idx = dx /\ idy = dy) \/ (mode = Wrapping /\ (~ fits dx \/ ~ fits dy)) ->
    verdict mode l c (count_one_sided mode m (f32_length idx idy) id c).
  Proof.
    intros mode l c id dx dy idx idy Hi Hid Hsides Hd Hfit. unfold count_one_sided.
    pose proof (side_index id Hi) as H. destruct (index (m_sides m) (as_usize id)) as [sd|e|p]; [|contradiction|]; cbn [obind].
    2: { destruct H as (-> & H). intros [E|(_ & E)]; [lia|]. apply H, E; [|exact Hid]. lia. }
    destruct H as (_ & H). destruct (index (m_sectors m) (as_usize (sd_sector sd))) as [sc|e|p]; [|contradiction|]; cbn [obind].
    2: { destruct H as (-> & H). intros [E|(_ & E)]; [lia|]. apply H, E; [|exact Hid]. lia. }
    assert (Hex : line_indices_exist ops m l).
    { right. split; [eauto|]. intros id' Hid' Hn. assert (id' = id) by lia. subst id'. eauto. }
    destruct (sub_i16_cases mode (sc_ceil sc) (sc_floor sc)) as [(Hf & ->)|(Hf & [(-> & ->)|(-> & z & ->)])]; cbn [obind verdict].
    - split; [exact Hex|]. destruct Hfit as [(F1 & F2 & -> & ->)|(-> & Hfit)].
      + left. eexists. split; [eapply uses_one; eauto|]. reflexivity.
      + right. split; [reflexivity|]. intros us Hus. pose proof (uses_one_only _ _ _ _ _ _ _ Hid Hsides H Hd Hus) as (? & ? & ?). tauto.
    - split; [reflexivity|]. intros us Hus. pose proof (uses_one_only _ _ _ _ _ _ _ Hid Hsides H Hd Hus) as (? & ? & ?). tauto.
    - split; [exact Hex|]. right. split; [reflexivity|]. intros us Hus. pose proof (uses_one_only _ _ _ _ _ _ _ Hid Hsides H Hd Hus) as (? & ? & ?). tauto.
  Qed.

  Lemma count_two_verdict : forall mode l c dx dy idx idy,
    is_i16 (fst (lo_sides ops l)) -> is_i16 (snd (lo_sides ops l)) ->
    fst (lo_sides ops l) <> -1 -> snd (lo_sides ops l) <> -1 ->
    line_deltas ops m l dx dy ->
    (fits dx /\ fits dy /\ idx = dx /\ idy = dy) \/ (mode = Wrapping /\ (~ fits dx \/ ~ fits dy)) ->
    verdict mode l c (count_two_sided mode m (f32_length idx idy) (fst (lo_sides ops l)) (snd (lo_sides ops l)) c).
  Proof.
    intros mode l c dx dy idx idy If Ib Hf Hb Hd Hfit. unfold count_two_sided.
    set (fid := fst (lo_sides ops l)) in *. set (bid := snd (lo_sides ops l)) in *.
    pose proof (side_index fid If) as H. pose proof (side_index bid Ib) as H'.
    destruct (index (m_sides m) (as_usize fid)) as [f|e|p]; [|contradiction|]; cbn [obind].
    2: { destruct H as (-> & H). intros [E|(_ & E)]; [lia|]. apply H, E; auto. }
    destruct (index (m_sides m) (as_usize bid)) as [b|e|p]; [|contradiction|]; cbn [obind].
    2: { destruct H' as (-> & H'). intros [E|(_ & E)]; [lia|]. apply H', E; auto. }
    destruct H as (_ & H). destruct H' as (_ & H').
    destruct (index (m_sectors m) (as_usize (sd_sector f))) as [fs|e|p]; [|contradiction|]; cbn [obind].
    2: { destruct H as (-> & H). intros [E|(_ & E)]; [lia|]. apply H, E; auto. }
    destruct (index (m_sectors m) (as_usize (sd_sector b))) as [bs'|e|p]; [|contradiction|]; cbn [obind].
    2: { destruct H' as (-> & H'). intros [E|(_ & E)]; [lia|]. apply H', E; auto. }
    assert (Hex : line_indices_exist ops m l).
    { right. split; [eauto|]. intros id' [->| ->] Hn; eauto. }
    assert (Honly : forall us, line_uses ops m l us -> fits_two dx dy fs bs') by (intros us Hus; eapply uses_two_only; eauto).
    assert (Bad : ~ fits_two dx dy fs bs' -> mode = Wrapping -> forall c', verdict mode l c (Ok c')).
    { intros Hn Hw c'. cbn [verdict]. split; [exact Hex|]. right. split; [exact Hw|]. intros us Hus. apply Hn. eauto. }
    assert (Bad' : ~ fits_two dx dy fs bs' -> mode = Checked -> verdict mode l c (Panic POverflow)).
    { intros Hn Hw. cbn [verdict]. split; [exact Hw|]. intros us Hus. apply Hn. eauto. }
    (** In a wrapping build nothing below panics. *)
    assert (Hwrap : mode = Wrapping -> ~ fits_two dx dy fs bs' ->
      forall o : outcome counts, (exists c', o = Ok c') -> verdict mode l c o).
    { intros Hw Hn o (c' & ->). apply Bad; assumption. }
    assert (Hlen : mode = Checked -> fits dx /\ fits dy /\ idx = dx /\ idy = dy) by (intros ->; destruct Hfit as [F|(F & _)]; [exact F|discriminate]).
    assert (Hwsub : forall x y, exists z, sub_i16 Wrapping x y = Ok z) by (intros; eexists; reflexivity).
    assert (Hwneg : forall x, exists z, neg_i16 Wrapping x = Ok z) by (intros x; unfold neg_i16; destruct (x =? _); eauto).
    destruct (Z_le_dec (-32767) (sc_ceil fs - sc_ceil bs')) as [C1|C1]; [destruct (Z_le_dec (sc_ceil fs - sc_ceil bs') 32767) as [C2|C2]|].
    all: cycle 1.
    1,2: assert (Hn : ~ fits_two dx dy fs bs') by (unfold fits_two, fits_neg; lia).
    1,2: destruct mode; [|apply Hwrap; [reflexivity|exact Hn|]].
    all: cycle -1.
    (* ceilings fit *)
    { destruct (sub_i16_cases mode (sc_ceil fs) (sc_ceil bs')) as [(F & ->)|(F & _)]; [|unfold fits in F; lia]. cbn [obind].
      set (pr := if 0 <? sc_ceil fs - sc_ceil bs' then _ else _).
      assert (Hpr : pr = Ok (count_add c (sd_upper f) (f32_mul (f32_length idx idy) (f32_of_Z (Z.abs (sc_ceil fs - sc_ceil bs')))), Z.min (sc_ceil fs) (sc_ceil bs'))).
      { unfold pr. destruct (Z.ltb_spec 0 (sc_ceil fs - sc_ceil bs')).
        - rewrite Z.abs_eq, Z.min_r by lia. reflexivity.
        - destruct (neg_i16_cases mode (sc_ceil fs - sc_ceil bs')) as [(_ & ->)|(E & _)]; [|lia]. cbn [obind]. rewrite Z.abs_neq, Z.min_l by lia. reflexivity. }
      rewrite Hpr. clear pr Hpr. cbn [obind].
      set (c1 := count_add c _ _).
      destruct (Z_le_dec (-32767) (sc_floor fs - sc_floor bs')) as [G1|G1]; [destruct (Z_le_dec (sc_floor fs - sc_floor bs') 32767) as [G2|G2]|].
      all: cycle 1.
      1,2: assert (Hn : ~ fits_two dx dy fs bs') by (unfold fits_two, fits_neg; lia).
      1,2: destruct mode; [|apply Hwrap; [reflexivity|exact Hn|]].
      all: cycle -1.
      { destruct (sub_i16_cases mode (sc_floor fs) (sc_floor bs')) as [(F' & ->)|(F' & _)]; [|unfold fits in F'; lia]. cbn [obind].
        set (pr := if 0 <? sc_floor fs - sc_floor bs' then _ else _).
        assert (Hpr : pr = Ok (count_add c1 (sd_lower (if sc_floor bs' <? sc_floor fs then b else f))
                  (f32_mul (f32_length idx idy) (f32_of_Z (Z.abs (sc_floor fs - sc_floor bs')))), Z.min (sc_floor fs) (sc_floor bs'))).
        { unfold pr. destruct (Z.ltb_spec 0 (sc_floor fs - sc_floor bs')).
          - replace (sc_floor bs' <? sc_floor fs) with true by lia. rewrite Z.abs_eq, Z.min_r by lia. reflexivity.
          - destruct (neg_i16_cases mode (sc_floor fs - sc_floor bs')) as [(_ & ->)|(E & _)]; [|lia]. cbn [obind].
            replace (sc_floor bs' <? sc_floor fs) with false by lia. rewrite Z.abs_neq, Z.min_l by lia. reflexivity. }
        rewrite Hpr. clear pr Hpr. cbn [obind]. set (c2 := count_add c1 _ _).
        destruct (sub_i16_cases mode (Z.min (sc_ceil fs) (sc_ceil bs')) (Z.min (sc_floor fs) (sc_floor bs'))) as [(F2 & ->)|(F2 & [(-> & ->)|(-> & z & ->)])]; cbn [obind].
        - rewrite f32_gt_zero by exact F2. destruct Hfit as [(K1 & K2 & -> & ->)|(-> & Hfit)].
          + assert (Hus := uses_two ops m l f fs b bs' dx dy Hf Hb H H' Hd K1 K2 (conj C1 C2) (conj G1 G2) F2).
            cbv zeta in Hus. fold fid bid in Hus.
            replace (0 <? Z.min (sc_ceil fs) (sc_ceil bs') - Z.min (sc_floor fs) (sc_floor bs')) with
              (Z.min (sc_floor fs) (sc_floor bs') <? Z.min (sc_ceil fs) (sc_ceil bs')) by lia.
            destruct (Z.min (sc_floor fs) (sc_floor bs') <? Z.min (sc_ceil fs) (sc_ceil bs')); cbn [verdict];
              (split; [exact Hex|left; eexists; split; [exact Hus|reflexivity]]).
          + destruct (0 <? _); apply Bad; try reflexivity; unfold fits_two; tauto.
        - apply Bad'; [unfold fits_two; tauto|reflexivity].
        - destruct (f32_gt _ _); apply Bad; try reflexivity; unfold fits_two; tauto. }
      1,3: destruct (sub_i16_cases Checked (sc_floor fs) (sc_floor bs')) as [(F' & ->)|(F' & [(_ & ->)|(E & _)])]; [|cbn [obind]; apply Bad'; auto|discriminate]; cbn [obind].
      1,2: unfold fits in F'; replace (0 <? sc_floor fs - sc_floor bs') with false by lia;
           destruct (neg_i16_cases Checked (sc_floor fs - sc_floor bs')) as [(E & _)|(_ & [(_ & ->)|(E & _)])]; [lia|cbn [obind]; apply Bad'; auto|discriminate].
      all: destruct (Hwsub (sc_floor fs) (sc_floor bs')) as (z & ->); cbn [obind];
        destruct (Hwneg z) as (z' & ->); cbn [obind]; destruct (0 <? z); cbn [obind];
        match goal with |- context [sub_i16 Wrapping ?x ?y] => destruct (Hwsub x y) as (z'' & ->) end; cbn [obind]; destruct (f32_gt _ _); eauto. }
    1,3: destruct (sub_i16_cases Checked (sc_ceil fs) (sc_ceil bs')) as [(F' & ->)|(F' & [(_ & ->)|(E & _)])]; [|cbn [obind]; apply Bad'; auto|discriminate]; cbn [obind].
    1,2: unfold fits in F'; replace (0 <? sc_ceil fs - sc_ceil bs') with false by lia;
         destruct (neg_i16_cases Checked (sc_ceil fs - sc_ceil bs')) as [(E & _)|(_ & [(_ & ->)|(E & _)])]; [lia|cbn [obind]; apply Bad'; auto|discriminate].
    all: destruct (Hwsub (sc_ceil fs) (sc_ceil bs')) as (z & ->); cbn [obind];
        destruct (Hwneg z) as (z' & ->); cbn [obind]; destruct (0 <? z); cbn [obind];
        destruct (Hwsub (sc_floor fs) (sc_floor bs')) as (y & ->); cbn [obind];
        destruct (Hwneg y) as (y' & ->); cbn [obind]; destruct (0 <? y); cbn [obind];
        match goal with |- context [sub_i16 Wrapping ?x ?y] => destruct (Hwsub x y) as (z'' & ->) end; cbn [obind]; destruct (f32_gt _ _); eauto.
  Qed.

  Lemma uses_fit : forall l us dx dy, line_uses ops m l us -> line_deltas ops m l dx dy ->
    ~ (fst (lo_sides ops l) = -1 /\ snd (lo_sides ops l) = -1) -> fits dx /\ fits dy.
  Proof.
    intros l us dx dy H Hd Hn.
    destruct H as [A B|id' sd' sc' dx' dy' S I A B F1 F2 F3|f' fs' b' bs'' dx' dy' A B S1 S2 D F1 F2 F3 F4 top bottom F5].
    - tauto.
    - destruct (deltas_inj _ _ _ _ _ Hd B). subst. auto.
    - destruct (deltas_inj _ _ _ _ _ Hd D). subst. auto.
  Qed.

  Lemma count_line_verdict : forall mode l c, In l (m_lines m) -> verdict mode l c (count_line mode ops m c l).
  Proof.
    intros mode l c Hl. unfold count_line. destruct Hm as (Hli & _ & Hv & _). destruct (Hli l Hl) as (I0 & I1 & If & Ib).
    rewrite (surjective_pairing (lo_sides ops l)), (surjective_pairing (lo_vertices ops l)).
    destruct (Z.eqb_spec (fst (lo_sides ops l)) (-1)) as [Ef|Ef]; destruct (Z.eqb_spec (snd (lo_sides ops l)) (-1)) as [Eb|Eb]; cbn [andb negb].
    { cbn [verdict]. split; [left; auto|]. left. exists []. split; [constructor; assumption|reflexivity]. }
    all: pose proof (index_i16 (m_vertices m) _ I0 Hv) as H0; pose proof (index_i16 (m_vertices m) _ I1 Hv) as H1;
      destruct (index (m_vertices m) (as_usize (fst (lo_vertices ops l)))) as [v0|e|p]; [|contradiction|]; cbn [obind];
      [|destruct H0 as (-> & H0); intros [E|((dx & dy & a & b & Ha & _) & _)]; [lia|]; apply H0; eapply item_at_has; eauto];
      destruct (index (m_vertices m) (as_usize (snd (lo_vertices ops l)))) as [v1|e|p]; [|contradiction|]; cbn [obind];
      [|destruct H1 as (-> & H1); intros [E|((dx & dy & a & b & _ & Hb & _) & _)]; [lia|]; apply H1; eapply item_at_has; eauto].
    all: destruct H0 as (H0 & _); destruct H1 as (H1 & _);
      assert (Hd : line_deltas ops m l (vx v1 - vx v0) (vy v1 - vy v0)) by (exists v0, v1; auto).
    all: assert (Hno : forall us, line_uses ops m l us -> fits (vx v1 - vx v0) /\ fits (vy v1 - vy v0)) by
      (intros us Hus; apply (uses_fit l us _ _ Hus Hd); lia).
    all: destruct (sub_i16_cases mode (vx v1) (vx v0)) as [(Fx & ->)|(Fx & [(-> & ->)|(-> & ix & ->)])]; cbn [obind];
      [|cbn [verdict]; split; [reflexivity|]; intros us Hus; apply Hno in Hus; tauto|].
    all: match goal with |- context [sub_i16 ?md ?y1 ?y0] =>
        destruct (sub_i16_cases md y1 y0) as [(Fy & ->)|(Fy & [(Em & ->)|(Em & iy & ->)])]; cbn [obind] end;
      try (cbn [verdict]; split; [exact Em|]; intros us Hus; apply Hno in Hus; tauto).
    all: try subst mode.
    all: match goal with
         | |- context [count_one_sided _ _ _ _ _] => eapply count_one_verdict; eauto; try tauto
         | |- context [count_two_sided _ _ _ _ _] => eapply count_two_verdict; eauto; try tauto
         end.
  Qed.

  (** ** All lines *)

  Lemma uses_indices : forall l us, line_uses ops m l us -> line_indices_exist ops m l.
  Proof.
    intros l us H. destruct H as [A B|id' sd' sc' dx' dy' S I A B F1 F2 F3|f' fs' b' bs'' dx' dy' A B S1 S2 D F1 F2 F3 F4 top bottom F5].
    - left. auto.
    - right. split; [eauto|]. intros id Hid Hn. assert (id = id') by lia. subst. eauto.
    - right. split; [eauto|]. intros id [->| ->] Hn; eauto.
  Qed.

  Lemma uses_inj : forall l us us', line_uses ops m l us -> line_uses ops m l us' -> us = us'.
  Proof.
    intros l us us' H H'.
    destruct H as [A B|id sd sc dx dy S I A B F1 F2 F3|f fs b bs dx dy A B S1 S2 D F1 F2 F3 F4 top bottom F5];
    destruct H' as [A' B'|id' sd' sc' dx' dy' S' I' A' B' F1' F2' F3'|f' fs' b' bs' dx' dy' A' B' S1' S2' D' F1' F2' F3' F4' top' bottom' F5']; try lia.
    - reflexivity.
    - assert (id' = id) by lia. subst id'. destruct (side_sector_inj _ _ _ _ _ A A'), (deltas_inj _ _ _ _ _ B B'). subst. reflexivity.
    - destruct (side_sector_inj _ _ _ _ _ S1 S1'), (side_sector_inj _ _ _ _ _ S2 S2'), (deltas_inj _ _ _ _ _ D D'). subst. reflexivity.
  Qed.

  Lemma count_good : forall mode lines walls c us, incl lines (m_lines m) -> reports c us ->
    Forall2 (line_uses ops m) lines walls ->
    exists c', ofold (count_line mode ops m) lines c = Ok c' /\ reports c' (us ++ concat walls).
  Proof.
    intros mode. induction lines as [|l lines IH]; intros walls c us Hin Hr Hw; inversion Hw as [|? w ? ws Hl Hws]; subst; cbn [ofold concat].
    - exists c. rewrite app_nil_r. auto.
    - pose proof (count_line_verdict mode l c (Hin l (or_introl eq_refl))) as Hv.
      destruct (count_line mode ops m c l) as [c'|e|p]; cbn [obind]; [|contradiction|].
      + destruct Hv as (_ & [(us' & Hus & ->)|(_ & Hv)]); [|exfalso; eapply Hv; eauto]. rewrite (uses_inj _ _ _ Hus Hl).
        rewrite app_assoc. apply IH; [intros x Hx; apply Hin; right; exact Hx| |exact Hws]. apply reports_add_all, Hr.
      + exfalso. destruct p; try contradiction; cbn in Hv.
        * eapply Hv, uses_indices; eauto.
        * destruct Hv as (_ & Hv). eapply Hv; eauto.
  Qed.

  Lemma count_any : forall mode lines c, incl lines (m_lines m) ->
    match ofold (count_line mode ops m) lines c with
    | Ok _ => (forall l, In l lines -> line_indices_exist ops m l)
        /\ (mode = Checked -> forall l, In l lines -> exists us, line_uses ops m l us)
    | Panic PIndex => exists l, In l lines /\ ~ line_indices_exist ops m l
    | Panic POverflow => mode = Checked /\ exists l, In l lines /\ forall us, ~ line_uses ops m l us
    | _ => False
    end.
  Proof.
    intros mode. induction lines as [|l lines IH]; intros c Hin; cbn [ofold].
    - split; [intros l []|]. intros _ l [].
    - pose proof (count_line_verdict mode l c (Hin l (or_introl eq_refl))) as Hv.
      assert (Hin' : incl lines (m_lines m)) by (intros x Hx; apply Hin; right; exact Hx).
      destruct (count_line mode ops m c l) as [c'|e|p]; cbn [obind]; [|contradiction|].
      2: { destruct p; try contradiction; cbn in Hv.
           - exists l. cbn; auto.
           - destruct Hv as (-> & Hv). split; [reflexivity|]. exists l. cbn; auto. }
      destruct Hv as (Hx & Hv). specialize (IH c' Hin'). destruct (ofold (count_line mode ops m) lines c') as [c''|e|[]]; try contradiction.
      + destruct IH as (I1 & I2). split; [intros x [<-|Hx']; auto|]. intros -> x [<-|Hx']; [|auto].
        destruct Hv as [(us & Hus & _)|(E & _)]; [eauto|discriminate].
      + destruct IH as (x & I1 & I2). exists x. cbn; auto.
      + destruct IH as (-> & x & I1 & I2). split; [reflexivity|]. exists x. cbn; auto.
  Qed.
End Lines.

Lemma count_textures_good : forall {L T} mode (ops : line_ops L) (m : binary_map L T) walls,
  i16_indices ops m -> Z.of_nat (length (m_sectors m)) <= 2 ^ 63 ->
  Forall2 (line_uses ops m) (m_lines m) walls ->
  exists c, count_textures mode ops m = Ok c /\ reports c (concat walls).
Proof.
  intros L T mode ops m walls Hm Hs Hw. apply (count_good ops m Hm Hs mode (m_lines m) walls [] []); [apply incl_refl|apply reports_nil|exact Hw].
Qed.

Lemma count_textures_panics : forall {L T} (ops : line_ops L) (m : binary_map L T),
  i16_indices ops m -> Z.of_nat (length (m_sectors m)) <= 2 ^ 63 ->
  ((exists p, count_textures Checked ops m = Panic p) <-> exists l, In l (m_lines m) /\ forall us, ~ line_uses ops m l us)
  /\ ((exists p, count_textures Wrapping ops m = Panic p) <-> exists l, In l (m_lines m) /\ ~ line_indices_exist ops m l)
  /\ (forall mode e, count_textures mode ops m <> Err e).
Proof.
  intros L T ops m Hm Hs.
  pose proof (fun mode => count_any ops m Hm Hs mode (m_lines m) [] (incl_refl _)) as H. fold (count_textures Checked ops m) in H.
  unfold count_textures. split; [|split].
  - specialize (H Checked). destruct (ofold _ _ _) as [c|e|p]; [|contradiction|].
    + split; [intros (p & [=])|]. intros (l & Hl & Hn). destruct H as (_ & H). destruct (H eq_refl l Hl) as (us & Hus). exfalso. eapply Hn; eauto.
    + split; [|eauto]. intros _. destruct p; try contradiction.
      * destruct H as (l & Hl & Hn). exists l. split; [exact Hl|]. intros us Hus. apply Hn. eapply uses_indices; eauto.
      * destruct H as (_ & H). exact H.
  - specialize (H Wrapping). destruct (ofold _ _ _) as [c|e|p]; [|contradiction|].
    + split; [intros (p & [=])|]. intros (l & Hl & Hn). exfalso. apply Hn, H, Hl.
    + split; [|eauto]. intros _. destruct p; try contradiction; [exact H|]. destruct H as ([=] & _).
  - intros mode e E. specialize (H mode). rewrite E in H. contradiction.
Qed.
