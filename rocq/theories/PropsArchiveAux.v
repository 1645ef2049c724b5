(** Small corollaries used by PropsArchive.v. *)

From Coq Require Import String List ZArith Lia.
From Coq Require Import Strings.Byte.
From Verif Require Import Base SpecBytes BaseFacts ParseWad SpecWad SpecMapName MapNameFacts ArchiveWad ParseMap
  SpecArchive ArchiveFacts IterFacts ToArchiveFacts SpecMap ParseMapFacts Samples.
Import ListNotations.
Local Open Scope Z_scope.

Lemma extract_panics : forall e buf, 0 <= filepos e -> 0 <= size e ->
  (exists p, extract_slice e buf = Panic p) <-> ~ in_bounds buf e.
Proof.
  intros e buf H1 H2. destruct (extract_slice_cases e buf H1 H2) as [(Hb & d & _ & ->)|(Hn & ->)].
  - split; [intros [p H]; discriminate|contradiction].
  - split; eauto.
Qed.

Lemma between_ok : forall w b e xs, unsigned_entries w -> b <> e ->
  iter_entries_between w b e = Ok xs <-> yields w (inside (directory w) b e) xs.
Proof. intros w b e xs Hu Hbe. apply (between_general w b e _ Hu (between_ks_spec w b e Hbe)). Qed.

Lemma between_panics : forall w b e, unsigned_entries w -> b <> e ->
  (exists p, iter_entries_between w b e = Panic p) <->
  exists k d, inside (directory w) b e k /\ nth_error (directory w) k = Some d /\ ~ in_bounds (buffer w) d.
Proof. intros w b e Hu Hbe. apply (between_general w b e _ Hu (between_ks_spec w b e Hbe)). Qed.

Lemma between_same : forall w b xs, unsigned_entries w ->
  iter_entries_between w b b = Ok xs <-> yields w (inside_same (directory w) b) xs.
Proof. intros w b xs Hu. apply (between_general w b b _ Hu (between_ks_same w b)). Qed.

Lemma between_same_panics : forall w b, unsigned_entries w ->
  (exists p, iter_entries_between w b b = Panic p) <->
  exists k d, inside_same (directory w) b k /\ nth_error (directory w) k = Some d /\ ~ in_bounds (buffer w) d.
Proof. intros w b Hu. apply (between_general w b b _ Hu (between_ks_same w b)). Qed.

Lemma iter_spans : forall w, exists n, (n <= length (directory w))%nat
  /\ concat (map item_span (iter w)) = seq 0 n.
Proof. intros w. destruct (iter_spec w) as (n & H1 & H2 & _). eauto. Qed.

Lemma iter_kinds : forall w x, In x (iter w) ->
  match x with
  | WMap b => block_ok (directory w) b
  | _ => plain_item (directory w) x /\ forall k, item_entry x = Some k -> ~ marker (directory w) k
  end.
Proof.
  intros w x Hx. destruct (iter_items_ok w x Hx) as [i Hi]. destruct x; cbn in *.
  - tauto.
  - destruct Hi as (A & B & C). split; [exact A|]. intros k' E. congruence.
  - destruct Hi as (A & B & C). split; [exact A|]. intros k' E. congruence.
  - destruct Hi as (A & B & C). split; [exact A|]. intros k' E. congruence.
Qed.


(** The iteration reports exactly the entries before the first broken map. *)
Lemma iter_reach : forall w k, (k < length (directory w))%nat ->
  reported w k <-> forall i, (i <= k)%nat -> ~ (marker (directory w) i /\ broken (directory w) i).
Proof.
  intros w k Hk. destruct (iter_spec w) as (n & Hn & Hs & _ & Hno & Hstop). unfold reported. rewrite Hs, in_seq. split.
  - intros H i Hi. apply Hno. lia.
  - intros H. destruct (Nat.lt_ge_cases k n) as [L|L]; [lia|].
    destruct Hstop as [->|HB]; [lia|]. exfalso. apply (H n); auto.
Qed.

Lemma iter_complete : forall w,
  concat (map item_span (iter w)) = seq 0 (length (directory w))
  <-> forall i, ~ (marker (directory w) i /\ broken (directory w) i).
Proof.
  intros w. destruct (iter_spec w) as (n & Hn & Hs & _ & Hno & Hstop). rewrite Hs. split.
  - intros E i. assert (n = length (directory w)).
    { rewrite <- (seq_length n 0), E, seq_length. reflexivity. } subst n.
    destruct (Nat.lt_ge_cases i (length (directory w))) as [L|L]; [auto|].
    intros [(e & nm & He & _) _]. assert (i < length (directory w))%nat by (apply nth_error_Some; congruence). lia.
  - intros H. destruct Hstop as [->|HB]; [reflexivity|]. exfalso. eapply H; eauto.
Qed.

Lemma block_points : forall w b, In b (iter_maps w) -> block_ok (directory w) b.
Proof. exact iter_map_ok. Qed.

Lemma block_in_range : forall w b f k, In b (iter_maps w) -> lump_index f b = Some k ->
  named (directory w) k (lump_name f) /\ (marker_index b < k)%nat.
Proof.
  intros w b f k Hin Hk. pose proof (iter_map_ok w b Hin) as Hb.
  destruct (block_index_entry _ _ _ _ Hb Hk) as (e & He & Hn). split; [exists e; auto|].
  destruct Hb as (e' & fs & _ & _ & _ & _ & HI & _). apply HI in Hk. destruct Hk as (j & _ & ->). lia.
Qed.

Lemma block_format : forall w b, In b (iter_maps w) ->
  (b_format b = Hexen <-> behavior_index b <> None) /\ (b_format b = Doom <-> behavior_index b = None)
  /\ b_format b <> UDMF /\ textmap_index b = None.
Proof.
  intros w b Hin. destruct (iter_map_ok w b Hin) as (e & fs & He & Hd & HR & Hne & HI & HH & HD & _).
  assert (HB : In BEHAVIOR fs <-> behavior_index b <> None).
  { split.
    - intros H. apply In_nth_error in H. destruct H as [j Hj].
      assert (lump_index BEHAVIOR b = Some (S (marker_index b) + j)%nat) as E by (apply HI; eauto). cbn [lump_index] in E. congruence.
    - intros H. destruct (behavior_index b) as [k|] eqn:E; [|congruence].
      destruct (proj1 (HI BEHAVIOR k) E) as (j & Hj & _). eapply nth_error_In; eauto. }
  assert (HT : textmap_index b = None).
  { destruct (textmap_index b) as [k|] eqn:E; [|reflexivity].
    destruct (proj1 (HI TEXTMAP k) E) as (j & Hj & _). apply nth_error_In in Hj.
    destruct HR as ((Hrun & _) & _). pose proof (run_in _ _ _ Hrun Hj) as Hc.
    exfalso. cbn in Hc. intuition discriminate. }
  assert (Hdec : {In BEHAVIOR fs} + {~ In BEHAVIOR fs}).
  { apply in_dec. decide equality. }
  destruct Hdec as [Y|N].
  - rewrite (HH Y). apply HB in Y. repeat split; intros; try congruence; tauto.
  - rewrite (HD N). assert (behavior_index b = None) by (destruct (behavior_index b); [exfalso; apply N, HB; discriminate|auto]).
    repeat split; intros; try congruence.
Qed.

Lemma udmf_stops : forall w i, marker (directory w) i -> named (directory w) (S i) (lump_name TEXTMAP) ->
  forall k, reported w k -> (k < i)%nat.
Proof.
  intros w i Hm HT k Hk.
  assert (HL : (S i < length (directory w))%nat).
  { destruct HT as (e & He & _). apply nth_error_Some. congruence. }
  assert (HB : broken (directory w) i).
  { right. exists []. split; [split|].
    - split; [constructor|]. intros [|j] f H; discriminate.
    - intros f [Hr Hn]. cbn [app] in *. specialize (Hn 0%nat f eq_refl). rewrite Nat.add_0_r in Hn.
      destruct Hn as (e & He & Hf), HT as (e' & He' & Hf'). rewrite He in He'. injection He' as <-. rewrite Hf in Hf'.
      pose proof (run_in _ _ _ Hr (or_introl eq_refl)) as Hc. cbn in Hc.
      repeat (destruct Hc as [Hc|Hc]; [subst f; discriminate|]). exact Hc.
    - cbn [length]. split; [lia|]. exists THINGS. split; [left; reflexivity|intros []]. }
  destruct (Nat.lt_ge_cases k i) as [L|L]; [exact L|]. exfalso.
  assert (Hlen : (k < length (directory w))%nat).
  { destruct (iter_spans w) as (n & Hn & Hs). unfold reported in Hk. rewrite Hs, in_seq in Hk. lia. }
  exact (proj1 (iter_reach w k Hlen) Hk i L (conj Hm HB)).
Qed.


Lemma positions_of : forall dir b fs, longest_run dir (marker_index b) fs ->
  (forall f k, lump_index f b = Some k
          <-> exists j, nth_error fs j = Some f /\ k = (S (marker_index b) + j)%nat) ->
  lump_positions b = seq (S (marker_index b)) (length fs).
Proof.
  intros dir b fs ((Hrun & _) & _) HI. apply positions_seq; [exact Hrun|exact canonical_nodup| |].
  - intros j f Hj. apply HI. eauto.
  - intros f _ Hn. destruct (lump_index f b) as [k|] eqn:E; [|reflexivity].
    exfalso. apply HI in E. destruct E as (j & Hj & _). apply Hn. eapply nth_error_In; eauto.
Qed.

Lemma block_positions : forall dir b, block_ok dir b -> lump_positions b = seq (S (marker_index b)) (lump_count b).
Proof.
  intros dir b (e & fs & He & Hd & HR & Hne & HI & _).
  assert (E : lump_positions b = seq (S (marker_index b)) (length fs)) by (eapply positions_of; eauto).
  unfold lump_count. rewrite E at 2. rewrite seq_length. exact E.
Qed.

Lemma missing_required : forall w b f, In b (iter_maps w) -> required f -> lump_index f b = None ->
  (S (marker_index b) + lump_count b = length (directory w))%nat.
Proof.
  intros w b f Hin Hreq Hnone.
  apply in_maps_of in Hin. destruct (iter_spec w) as (n & Hn & Hs & Hok & Hno & Hstop).
  destruct (Hok _ Hin) as (j & Hj & Hb & Hmi).
  pose proof Hb as (e & fs & He & Hd & HR & Hne & HI & _).
  assert (E : lump_positions b = seq (S (marker_index b)) (length fs)).
  { eapply positions_of; eauto. }
  unfold lump_count. rewrite E, seq_length.
  assert (Hnot : ~ In f fs).
  { intros H. apply In_nth_error in H. destruct H as [q Hq].
    assert (lump_index f b = Some (S (marker_index b) + q)%nat) by (apply HI; eauto). congruence. }
  assert (Hle : (S (marker_index b) + length fs <= length (directory w))%nat).
  { destruct fs as [|f0 fs0] eqn:Ef; [congruence|]. rewrite <- Ef in *.
    destruct (nth_error fs (length fs - 1)) as [g|] eqn:Eg.
    - destruct HR as ((_ & HN) & _). destruct (HN _ _ Eg) as (e' & He' & _).
      assert (S (marker_index b) + (length fs - 1) < length (directory w))%nat by (apply nth_error_Some; congruence).
      assert (length fs <> 0)%nat by (rewrite Ef; discriminate). lia.
    - apply nth_error_None in Eg. rewrite Ef in Eg. cbn in Eg. lia. }
  destruct (Nat.eq_dec (S (marker_index b) + length fs) (length (directory w))) as [|Hneq]; [auto|].
  exfalso. apply (Hno j Hj). rewrite <- Hmi. split; [exists e, (b_name b); auto|].
  right. exists fs. split; [exact HR|]. split; [lia|]. exists f. auto.
Qed.

Lemma last_index_exact : forall w b, In b (iter_maps w) ->
  lump_positions b = seq (S (marker_index b)) (lump_count b) /\ (0 < lump_count b)%nat
  /\ (S (marker_index b) + lump_count b <= length (directory w))%nat
  /\ last_index b = if (S (marker_index b) + lump_count b =? length (directory w))%nat
                    then (marker_index b + lump_count b)%nat
                    else S (marker_index b + lump_count b).
Proof.
  intros w b Hin. pose proof (iter_map_ok w b Hin) as Hb. split; [eapply block_positions; eauto|].
  destruct Hb as (e & fs & He & Hd & HR & Hne & HI & _ & _ & HL1 & HL2).
  assert (E : lump_positions b = seq (S (marker_index b)) (length fs)).
  { eapply positions_of; eauto. }
  unfold lump_count. rewrite E, seq_length.
  assert (Hl : (length fs <> 0)%nat) by (destruct fs; [congruence|discriminate]).
  split; [lia|].
  assert (Hle : (S (marker_index b) + length fs <= length (directory w))%nat).
  { destruct (nth_error fs (length fs - 1)) as [g|] eqn:Eg.
    - destruct HR as ((_ & HN) & _). destruct (HN _ _ Eg) as (e' & He' & _).
      assert (S (marker_index b) + (length fs - 1) < length (directory w))%nat by (apply nth_error_Some; congruence). lia.
    - apply nth_error_None in Eg. lia. }
  split; [exact Hle|]. destruct (Nat.eqb_spec (S (marker_index b) + length fs) (length (directory w))) as [L|L].
  - apply HL2. lia.
  - rewrite HL1 by lia. lia.
Qed.

Lemma archive_first_some : forall a nm en, archive_first_entry a nm = Some en <-> first_plain (contents a) nm en.
Proof. intros a nm en. apply first_plain_some. Qed.
Lemma archive_first_none : forall a nm, archive_first_entry a nm = None <->
  forall en, In (IEntry en) (contents a) -> en_name en <> nm.
Proof. intros a nm. apply first_plain_none. Qed.
