(** Sample maps for the texture counts; the actor table. *)

From Coq Require Import String List ZArith Bool Lia ZifyBool Permutation.
From Verif Require Import Base BaseFacts ParseMap SpecLumps SectorPolys SpecSector SectorFacts CountTextures SpecTextures TextureFacts Actors Samples.
Import ListNotations.
Local Open Scope Z_scope.

Ltac at_index := split; [cbn; lia|reflexivity].

Lemma step_map_ok : i16_indices doom_line_ops step_map /\ Z.of_nat (length (m_sectors step_map)) <= 2 ^ 63
  /\ exists walls, Forall2 (line_uses doom_line_ops step_map) (m_lines step_map) walls.
Proof.
  split; [|split; [cbn; lia|]].
  - split; [|split; [|cbn; lia]]; intros x Hx; cbn in Hx; repeat (destruct Hx as [<-|Hx]; [cbn; unfold is_i16; lia|]); contradiction.
  - eexists. cbn [step_map m_lines]. repeat apply Forall2_cons; [| | |apply Forall2_nil].
    + eapply (uses_two doom_line_ops step_map _ _ _ _ _ 30 40); cbn.
      * discriminate.
      * discriminate.
      * split; at_index.
      * split; at_index.
      * exists (mk_vertex 0 0), (mk_vertex 30 40). repeat split; cbn; lia.
      * unfold fits; lia.
      * unfold fits; lia.
      * unfold fits_neg; cbn; lia.
      * unfold fits_neg; cbn; lia.
      * unfold fits; cbn; lia.
    + eapply (uses_one doom_line_ops step_map _ 1 _ _ (-30) (-40)); cbn.
      * left. auto.
      * discriminate.
      * split; at_index.
      * exists (mk_vertex 30 40), (mk_vertex 0 0). repeat split; cbn; lia.
      * unfold fits; lia.
      * unfold fits; lia.
      * unfold fits; cbn; lia.
    + apply uses_none; reflexivity.
Qed.

Definition has_num (n : Z) (a : actor) : bool := match a_doomednum a with Some den => den =? n | None => false end.

Definition numbers : list (option Z) := map a_doomednum doom2_actors.

(** No two entries of the table have the same editor number. *)
Fixpoint distinct (l : list (option Z)) : bool :=
  match l with
  | [] => true
  | None :: l' => distinct l'
  | Some n :: l' => forallb (fun o => match o with Some k => negb (k =? n) | None => true end) l' && distinct l'
  end.

Lemma distinct_nth : forall l, distinct l = true -> forall i j n, nth_error l i = Some (Some n) -> nth_error l j = Some (Some n) -> i = j.
Proof.
  induction l as [|o l IH]; intros H i j n Hi Hj; [destruct i; discriminate|].
  assert (Hd : distinct l = true) by (destruct o; [apply andb_true_iff in H; apply H|exact H]).
  assert (Hno : forall k, o = Some n -> nth_error l k <> Some (Some n)).
  { intros k -> Hk. cbn in H. apply andb_true_iff in H. destruct H as (H & _). rewrite forallb_forall in H.
    apply nth_error_In in Hk. specialize (H _ Hk). cbn in H. rewrite Z.eqb_refl in H. discriminate. }
  destruct i as [|i], j as [|j]; cbn in Hi, Hj; [reflexivity| | |f_equal; eapply IH; eauto].
  - injection Hi as ->. exfalso. eapply Hno; eauto.
  - injection Hj as ->. exfalso. eapply Hno; eauto.
Qed.

Lemma doomednum_unique : forall i j a b n, nth_error doom2_actors i = Some a -> nth_error doom2_actors j = Some b ->
  a_doomednum a = Some n -> a_doomednum b = Some n -> i = j.
Proof.
  intros i j a b n Hi Hj Ha Hb. apply (distinct_nth numbers) with (n := n); [vm_compute; reflexivity| |];
    unfold numbers; rewrite nth_error_map; [rewrite Hi|rewrite Hj]; cbn; congruence.
Qed.

Lemma lookup_iff : forall n a, lookup_thing_type n = Some a <-> In a doom2_actors /\ a_doomednum a = Some n.
Proof.
  intros n a. unfold lookup_thing_type. split.
  - intros H. apply find_some in H. destruct H as (H & E). split; [exact H|]. destruct (a_doomednum a) as [d|]; [|discriminate]. f_equal. lia.
  - intros (H & E). destruct (find _ doom2_actors) as [b|] eqn:F.
    + apply find_some in F. destruct F as (F & Eb). destruct (a_doomednum b) as [d|] eqn:Ed; [|discriminate].
      assert (d = n) by lia. subst d. destruct (In_nth_error _ _ H) as (i & Hi), (In_nth_error _ _ F) as (j & Hj).
      rewrite (doomednum_unique i j a b n Hi Hj E Ed) in Hi. congruence.
    + exfalso. pose proof (find_none _ _ F _ H) as Hn. cbn beta in Hn. rewrite E in Hn. lia.
Qed.

(** A line whose front ceiling is lower than the back one. *)
Definition low_map : doom_map :=
  mk_bmap [mk_vertex 0 0; mk_vertex 0 1]
    [mk_sector 0 128 (bs "FLAT1") (bs "CEIL1_1") 160 0 0; mk_sector 24 200 (bs "FLAT1") (bs "CEIL1_1") 160 0 0]
    [mk_side 0 0 (bs "UPF") (bs "LOWF") (bs "-") 0; mk_side 0 0 (bs "UPB") (bs "LOWB") (bs "GRATE") 1]
    [mk_dline 0 1 4 0 0 0 1] [].

Lemma low_map_sane : i16_indices doom_line_ops low_map.
Proof. split; [|split; [|cbn; lia]]; intros x Hx; cbn in Hx; repeat (destruct Hx as [<-|Hx]; [cbn; unfold is_i16; lia|]); contradiction. Qed.

Lemma low_map_visible : visible_uses doom_line_ops low_map (mk_dline 0 1 4 0 0 0 1)
  [(bs "UPB", 72); (bs "LOWF", 24); (bs "-", 104); (bs "GRATE", 104)].
Proof.
  do 4 eexists. split; [split; at_index|]. split; [split; at_index|]. reflexivity.
Qed.

Lemma visible_refuted : exists m : doom_map, exists l us c tex h,
  i16_indices doom_line_ops m /\ m_lines m = [l] /\ visible_uses doom_line_ops m l us
  /\ In (tex, h) us /\ tex <> bs "-" /\ 0 < h
  /\ count_textures Checked doom_line_ops m = Ok c /\ ~ In tex (map fst c).
Proof.
  exists low_map, (mk_dline 0 1 4 0 0 0 1), [(bs "UPB", 72); (bs "LOWF", 24); (bs "-", 104); (bs "GRATE", 104)].
  eexists. exists (bs "UPB"), 72. split; [exact low_map_sane|]. split; [reflexivity|]. split; [exact low_map_visible|].
  split; [left; reflexivity|]. split; [discriminate|]. split; [lia|]. split; [vm_compute; reflexivity|].
  vm_compute. intuition discriminate.
Qed.

Lemma middle_refuted : exists m : doom_map, exists l us c tex h,
  i16_indices doom_line_ops m /\ m_lines m = [l] /\ visible_uses doom_line_ops m l us
  /\ filter (fun u => bytes_eqb (fst u) tex) us = [(tex, h)] /\ line_deltas doom_line_ops m l 0 1
  /\ count_textures Checked doom_line_ops m = Ok c /\ In (tex, (1, f32_of_Z (h + 24))) c.
Proof.
  exists low_map, (mk_dline 0 1 4 0 0 0 1), [(bs "UPB", 72); (bs "LOWF", 24); (bs "-", 104); (bs "GRATE", 104)].
  eexists. exists (bs "GRATE"), 104. split; [exact low_map_sane|]. split; [reflexivity|]. split; [exact low_map_visible|].
  split; [vm_compute; reflexivity|]. split; [exists (mk_vertex 0 0), (mk_vertex 0 1); repeat split; cbn; lia|]. split; [vm_compute; reflexivity|].
  vm_compute. auto.
Qed.

Lemma visible_when : forall {L T} (ops : line_ops L) (m : binary_map L T) l us vs f fs b bs dx dy,
  fst (lo_sides ops l) <> -1 -> snd (lo_sides ops l) <> -1 ->
  side_sector m (fst (lo_sides ops l)) f fs -> side_sector m (snd (lo_sides ops l)) b bs ->
  sc_floor fs = sc_floor bs -> sc_ceil bs <= sc_ceil fs -> line_deltas ops m l dx dy ->
  line_uses ops m l us -> visible_uses ops m l vs ->
  exists zero, (forall u, In u zero -> snd u = area dx dy 0) /\ Permutation us (map (fun v => (fst v, area dx dy (snd v))) vs ++ zero).
Proof.
  intros L T ops m l us vs f fs b bs' dx dy Nf Nb Hf Hb Efl Ece Hd Hus (f1 & fs1 & b1 & bs1 & Hf1 & Hb1 & Ev).
  destruct (side_sector_inj m _ _ _ _ _ Hf Hf1), (side_sector_inj m _ _ _ _ _ Hb Hb1). subst f1 fs1 b1 bs1.
  destruct Hus as [A B|id' sd' sc' dx' dy' S I A B F1 F2 F3|f' fs' b' bs'' dx' dy' A B S1 S2 D F1 F2 F3 F4 top bottom F5]; [lia|lia|].
  destruct (side_sector_inj m _ _ _ _ _ Hf S1), (side_sector_inj m _ _ _ _ _ Hb S2), (deltas_inj ops m _ _ _ _ _ Hd D). subst f' fs' b' bs'' dx' dy'.
  cbv zeta in Ev. unfold top, bottom. rewrite Efl in *. rewrite Z.max_id in Ev. rewrite Z.min_id. rewrite Z.eqb_refl in Ev. rewrite Z.sub_diag, Z.ltb_irrefl in *.
  cbn [Z.abs app] in *. rewrite Z.min_r in * by lia. subst vs.
  set (mid := if sc_floor bs' <? sc_ceil bs' then _ else []) at 1.
  set (rest := if sc_floor bs' <? sc_ceil bs' then [(sd_middle f, sc_ceil bs' - sc_floor bs'); _] else []).
  assert (Hmr : mid = map (fun v => (fst v, area dx dy (snd v))) rest) by (unfold mid, rest; destruct (_ <? _); reflexivity).
  clearbody mid rest. subst mid.
  destruct (Z.eqb_spec (sc_ceil fs) (sc_ceil bs')) as [E|E].
  - exists [(sd_upper f, area dx dy 0); (sd_lower f, area dx dy 0)]. split; [intros u [<-|[<-|[]]]; reflexivity|].
    rewrite E, Z.sub_diag. cbn [Z.abs app]. apply Permutation_app_comm with (l := [_; _]).
  - exists [(sd_lower f, area dx dy 0)]. split; [intros u [<-|[]]; reflexivity|].
    replace (sc_ceil bs' <? sc_ceil fs) with true by lia. cbn [app map fst snd]. constructor. apply Permutation_app_comm with (l := [_]).
Qed.
