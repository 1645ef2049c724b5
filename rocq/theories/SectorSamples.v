(** The sample map with a pillar meets the hypotheses of the outline theorems. *)

From Coq Require Import String List ZArith Lia.
From Verif Require Import Base ParseMap Float MapModel SectorPolys SpecLumps SpecMapModel SpecSector SectorFacts MapSectorFacts Samples.
Import ListNotations.
Local Open Scope Z_scope.

Ltac each H := cbn in H; repeat (destruct H as [<-|H]); try contradiction.

Lemma pillar_i16 : i16_indices doom_line_ops pillar_map.
Proof.
  split; [|split; [|cbn; lia]].
  - intros l Hl. each Hl; cbn; unfold is_i16; lia.
  - intros l Hl. each Hl; cbn; unfold is_i16; lia.
Qed.

Lemma pillar_side : forall id sd, item_at (m_sides pillar_map) id sd -> 0 <= id < 12 /\ sd_sector sd = (if 7 <=? id then if id <=? 9 then 1 else 0 else 0).
Proof.
  intros id sd (H0 & H). assert (Hl : (Z.to_nat id < 12)%nat) by (change 12%nat with (length (m_sides pillar_map)); apply nth_error_Some; congruence).
  assert (Hr : 0 <= id < 12) by lia. split; [exact Hr|].
  assert (C : id = 0 \/ id = 1 \/ id = 2 \/ id = 3 \/ id = 4 \/ id = 5 \/ id = 6 \/ id = 7 \/ id = 8 \/ id = 9 \/ id = 10 \/ id = 11) by lia.
  decompose [or] C; subst id; cbn in H; injection H as <-; reflexivity.
Qed.

Lemma pillar_in : forall id, side_in pillar_map 0 id <-> 0 <= id < 12 /\ (if 7 <=? id then if id <=? 9 then 1 else 0 else 0) = 0.
Proof.
  intros id. split.
  - intros (sd & H & (_ & k & Hk)). apply pillar_side in H. destruct H as (H & E). split; [exact H|]. rewrite <- E.
    destruct (7 <=? id), (id <=? 9); lia.
  - intros (H & E).
    destruct (nth_error (m_sides pillar_map) (Z.to_nat id)) as [sd|] eqn:En; [|apply nth_error_None in En; cbn in En; lia].
    assert (Hi : item_at (m_sides pillar_map) id sd) by (split; [lia|exact En]).
    exists sd. split; [exact Hi|]. apply pillar_side in Hi. destruct Hi as (_ & ->). rewrite E. split; [lia|]. exists 0. lia.
Qed.

Lemma pillar_same : forall l, same_sector_both_sides doom_line_ops pillar_map l <->
  0 <= dl_front l < 12 /\ 0 <= dl_back l < 12 /\
  (if 7 <=? dl_front l then if dl_front l <=? 9 then 1 else 0 else 0) = (if 7 <=? dl_back l then if dl_back l <=? 9 then 1 else 0 else 0).
Proof.
  intros l. split.
  - intros (f & b & Hf & Hb & E). apply pillar_side in Hf, Hb. cbn in Hf, Hb. destruct Hf as (? & Ef), Hb as (? & Eb). split; [lia|]. split; [lia|]. congruence.
  - intros (Hf & Hb & E).
    destruct (nth_error (m_sides pillar_map) (Z.to_nat (dl_front l))) as [f|] eqn:En; [|apply nth_error_None in En; cbn in En; lia].
    destruct (nth_error (m_sides pillar_map) (Z.to_nat (dl_back l))) as [b|] eqn:En'; [|apply nth_error_None in En'; cbn in En'; lia].
    exists f, b. assert (Hif : item_at (m_sides pillar_map) (dl_front l) f) by (split; [lia|exact En]).
    assert (Hib : item_at (m_sides pillar_map) (dl_back l) b) by (split; [lia|exact En']).
    split; [exact Hif|]. split; [exact Hib|]. apply pillar_side in Hif, Hib. lia.
Qed.

Definition pillar_border := firstn 7 (m_lines pillar_map).

Lemma pillar_borders : forall l, borders doom_line_ops pillar_map 0 l <-> In l pillar_border.
Proof.
  intros l. unfold borders. rewrite pillar_same, !pillar_in. split.
  - intros (Hl & Hin & Hs). each Hl; cbn in *; auto 10. exfalso. apply Hs. lia.
  - intros Hl. split; [cbn in Hl; each Hl; cbn; auto 10|]. each Hl; cbn; split; lia.
Qed.

Lemma pillar_indices : i16_indices doom_line_ops pillar_map /\ indices_exist doom_line_ops pillar_map 0.
Proof.
  split; [exact pillar_i16|]. split.
  - intros l id Hl Hid. unfold has_item. cbn [pillar_map m_sides length]. each Hl; cbn in Hid; lia.
  - intros v (l & Hl & Hv). apply pillar_borders in Hl. unfold has_item. cbn [pillar_map m_vertices length]. each Hl; cbn in Hv; lia.
Qed.

Ltac split_lines n1 n2 :=
  let ls := eval cbv [pillar_map m_lines] in (m_lines pillar_map) in
  exists (firstn n1 ls), (nth n1 ls (mk_dline 0 0 0 0 0 0 0)), (firstn (n2 - n1 - 1) (skipn (S n1) ls)), (nth n2 ls (mk_dline 0 0 0 0 0 0 0)), (skipn (S n2) ls);
  split; [reflexivity|]; split; [split; [apply pillar_borders; cbn; auto 10|cbn; auto]|];
  split; [split; [apply pillar_borders; cbn; auto 10|cbn; auto]|];
  let l := fresh in let H := fresh in let Hb := fresh in let Hv := fresh in
  intros l H (Hb & Hv); apply pillar_borders in Hb; each Hb; cbn in H, Hv; try lia; intuition discriminate.

Lemma pillar_simple : simple_border doom_line_ops pillar_map 0.
Proof.
  split.
  - intros v (l & Hl & Hv). apply pillar_borders in Hl.
    assert (C : v = 0 \/ v = 1 \/ v = 2 \/ v = 3 \/ v = 4 \/ v = 5 \/ v = 6) by (each Hl; cbn in Hv; lia).
    clear l Hl Hv. decompose [or] C; subst v; unfold two_borders_at, borders_at.
    + split_lines 0%nat 3%nat.
    + split_lines 0%nat 1%nat.
    + split_lines 1%nat 2%nat.
    + split_lines 2%nat 3%nat.
    + split_lines 4%nat 6%nat.
    + split_lines 4%nat 5%nat.
    + split_lines 5%nat 6%nat.
  - intros l Hl. apply pillar_borders in Hl. each Hl; cbn; lia.
Qed.

Definition pillar_mem : gmap :=
  Eval vm_compute in match from_bare pillar_map with Ok m => m | _ => mk_gmap [] [] [] [] [] end.

Lemma pillar_mem_of : from_bare pillar_map = Ok pillar_mem.
Proof. vm_compute. reflexivity. Qed.

Lemma pillar_mside : forall id sd, item_at (g_sides pillar_mem) id sd -> 0 <= id < 12 /\ si_sector sd = (if 7 <=? id then if id <=? 9 then 1 else 0 else 0).
Proof.
  intros id sd (H0 & H). assert (Hl : (Z.to_nat id < 12)%nat) by (change 12%nat with (length (g_sides pillar_mem)); apply nth_error_Some; congruence).
  assert (Hr : 0 <= id < 12) by lia. split; [exact Hr|].
  assert (C : id = 0 \/ id = 1 \/ id = 2 \/ id = 3 \/ id = 4 \/ id = 5 \/ id = 6 \/ id = 7 \/ id = 8 \/ id = 9 \/ id = 10 \/ id = 11) by lia.
  decompose [or] C; subst id; cbn in H; injection H as <-; reflexivity.
Qed.

Definition pillar_of (id : Z) : Z := if 7 <=? id then if id <=? 9 then 1 else 0 else 0.

Lemma pillar_mitem : forall id, 0 <= id < 12 -> exists sd, item_at (g_sides pillar_mem) id sd /\ si_sector sd = pillar_of id.
Proof.
  intros id H. destruct (nth_error (g_sides pillar_mem) (Z.to_nat id)) as [sd|] eqn:En; [|apply nth_error_None in En; cbn in En; lia].
  exists sd. assert (Hi : item_at (g_sides pillar_mem) id sd) by (split; [lia|exact En]). split; [exact Hi|]. apply pillar_mside in Hi. apply Hi.
Qed.

Lemma pillar_m_in : forall o, m_side_in pillar_mem 0 o <-> exists h, o = Some h /\ 0 <= h < 12 /\ pillar_of h = 0.
Proof.
  intros o. split.
  - intros (h & sd & -> & H & E). exists h. apply pillar_mside in H. destruct H as (H & E'). split; [reflexivity|]. split; [exact H|]. exact (eq_trans (eq_sym E') E).
  - intros (h & -> & H & E). destruct (pillar_mitem h H) as (sd & Hs & Es). exists h, sd. rewrite Es. auto.
Qed.

Lemma pillar_m_same : forall l, m_same_sector pillar_mem l <->
  exists h k, ln_front l = Some h /\ ln_back l = Some k /\ 0 <= h < 12 /\ 0 <= k < 12 /\ pillar_of h = pillar_of k.
Proof.
  intros l. split.
  - intros (h & k & f & b & Hh & Hk & Hf & Hb & E). exists h, k. apply pillar_mside in Hf, Hb. destruct Hf as (? & Ef), Hb as (? & Eb).
    repeat (split; [assumption|]). exact (eq_trans (eq_sym Ef) (eq_trans E Eb)).
  - intros (h & k & Hh & Hk & Lh & Lk & E). destruct (pillar_mitem h Lh) as (f & Hf & Ef), (pillar_mitem k Lk) as (b & Hb & Eb).
    exists h, k, f, b. repeat (split; [assumption|]). congruence.
Qed.

Definition pillar_mborder : list line := Eval vm_compute in firstn 7 (g_lines pillar_mem).

Lemma pillar_m_borders : forall l, In l (g_lines pillar_mem) -> (m_borders pillar_mem 0 l <-> In l pillar_mborder).
Proof.
  intros l Hl. unfold m_borders. rewrite pillar_m_same, !pillar_m_in. split.
  - intros (Hin & Hs). each Hl; cbn in *; auto 10. exfalso. apply Hs. exists 10, 11. repeat split; lia.
  - intros Hb. each Hb; cbn; (split; [first [left; eexists; split; [reflexivity|split; [lia|reflexivity]] | right; eexists; split; [reflexivity|split; [lia|reflexivity]]]|]);
      intros (h & k & Eh & Ek & _ & _ & E); try discriminate; injection Eh as <-; injection Ek as <-; discriminate.
Qed.

Ltac msplit_lines n1 n2 :=
  let ls := eval cbv [pillar_mem g_lines] in (g_lines pillar_mem) in
  let d := eval cbn in (hd (mk_line 0 0 0 0 0 0 None None) ls) in
  let A := eval cbn in (firstn n1 ls) in let l1 := eval cbn in (nth n1 ls d) in
  let B := eval cbn in (firstn (n2 - n1 - 1) (skipn (S n1) ls)) in let l2 := eval cbn in (nth n2 ls d) in
  let C := eval cbn in (skipn (S n2) ls) in
  exists A, l1, B, l2, C;
  split; [reflexivity|]; split; [split; [apply pillar_m_borders; cbn; auto 10|cbn; auto]|];
  split; [split; [apply pillar_m_borders; cbn; auto 10|cbn; auto]|];
  let l := fresh in let H := fresh in let Hb := fresh in let Hv := fresh in
  intros l H (Hb & Hv);
  assert (In l (g_lines pillar_mem)) by (change (g_lines pillar_mem) with (A ++ l1 :: B ++ l2 :: C); rewrite !in_app_iff; cbn [In]; rewrite in_app_iff; cbn [In]; tauto);
  apply pillar_m_borders in Hb; [|assumption]; each Hb; cbn in H, Hv; try lia; intuition discriminate.

Lemma pillar_m_simple : exists m, from_bare pillar_map = Ok m /\ m_indices_exist m 0 /\ m_simple_border m 0.
Proof.
  exists pillar_mem. split; [exact pillar_mem_of|]. split; [split|split; [|split]].
  - intros l h Hl Hh. unfold has_item. change (length (g_sides pillar_mem)) with 12%nat.
    each Hl; cbn in Hh; destruct Hh as [Hh|Hh]; try discriminate Hh; injection Hh as <-; lia.
  - intros l Hl Hb. apply pillar_m_borders in Hb; [|exact Hl]. unfold has_item. change (length (g_vertices pillar_mem)) with 7%nat. each Hb; cbn; lia.
  - intros l v Hl (Hb & Hv). apply pillar_m_borders in Hb; [|exact Hl].
    assert (C : v = 0 \/ v = 1 \/ v = 2 \/ v = 3 \/ v = 4 \/ v = 5 \/ v = 6) by (each Hb; cbn in Hv; lia).
    clear l Hl Hb Hv. decompose [or] C; subst v; unfold m_two_borders_at, m_at.
    + msplit_lines 0%nat 3%nat.
    + msplit_lines 0%nat 1%nat.
    + msplit_lines 1%nat 2%nat.
    + msplit_lines 2%nat 3%nat.
    + msplit_lines 4%nat 6%nat.
    + msplit_lines 4%nat 5%nat.
    + msplit_lines 5%nat 6%nat.
  - intros l Hl Hb. apply pillar_m_borders in Hb; [|exact Hl]. each Hb; cbn; discriminate.
  - intros l l' v v' p p' Hl Hl' (Hb & Hv) (Hb' & Hv') (P0 & P1) (P0' & P1').
    apply pillar_m_borders in Hb; [|exact Hl]. apply pillar_m_borders in Hb'; [|exact Hl'].
    assert (C : v = 0 \/ v = 1 \/ v = 2 \/ v = 3 \/ v = 4 \/ v = 5 \/ v = 6) by (each Hb; cbn in Hv; lia).
    assert (C' : v' = 0 \/ v' = 1 \/ v' = 2 \/ v' = 3 \/ v' = 4 \/ v' = 5 \/ v' = 6) by (each Hb'; cbn in Hv'; lia).
    clear l l' Hl Hl' Hb Hb' Hv Hv'.
    decompose [or] C; subst v; cbn in P1; injection P1 as <-; decompose [or] C'; subst v'; cbn in P1'; injection P1' as <-; vm_compute; split; congruence.
Qed.
