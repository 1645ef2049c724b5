(** Small corollaries used by PropsLumps.v. *)

From Coq Require Import String List ZArith Lia.
From Coq Require Import Strings.Byte.
From Verif Require Import Base Nom SpecBytes BaseFacts NomFacts ParseMap SpecLumps LumpFacts LumpFacts2 Samples.
Import ListNotations.
Local Open Scope Z_scope.

Lemma sides_names_short : forall buf rest rs s, sidedefs_lump buf = Done rest rs -> In s rs ->
  short_name (sd_upper s) /\ short_name (sd_lower s) /\ short_name (sd_middle s).
Proof.
  intros buf rest rs s H Hs. apply side_valid_names. apply sides_valid in H.
  rewrite Forall_forall in H. auto.
Qed.
Lemma sectors_names_short : forall buf rest rs s, sectors_lump buf = Done rest rs -> In s rs ->
  short_name (sc_floor_tex s) /\ short_name (sc_ceil_tex s).
Proof.
  intros buf rest rs s H Hs. apply sector_valid_names. apply sectors_valid in H.
  rewrite Forall_forall in H. auto.
Qed.

Lemma decodes_fixed : forall {A} n (rec : bytes -> nat -> A -> Prop) buf rs,
  (0 < n)%nat -> (forall o, exists r, rec buf o r) -> decodes n rec buf rs ->
  length rs = (length buf / n)%nat /\ forall k r, nth_error rs k = Some r -> rec buf (k * n)%nat r.
Proof.
  intros A n rec buf rs Hn Ht Hd. split; [eapply decodes_total_length; eauto|].
  intros k r Hk. apply (proj1 Hd) in Hk. apply Hk.
Qed.

Ltac fixed L :=
  intros buf; destruct (L buf) as (rest & rs & E & D); exists rest, rs; split; [exact E|];
  eapply decodes_fixed; [lia| |exact D]; intros o; eexists; reflexivity.

Lemma vertexes_fixed : forall buf, exists rest rs, vertexes_lump buf = Done rest rs
  /\ length rs = (length buf / 4)%nat
  /\ forall k r, nth_error rs k = Some r -> vertex_at buf (k * 4) r.
Proof. fixed vertexes_decode. Qed.
Lemma doom_lines_fixed : forall buf, exists rest rs, doom_linedefs_lump buf = Done rest rs
  /\ length rs = (length buf / 14)%nat
  /\ forall k r, nth_error rs k = Some r -> doom_line_at buf (k * 14) r.
Proof. fixed doom_lines_decode. Qed.
Lemma hexen_lines_fixed : forall buf, exists rest rs, hexen_linedefs_lump buf = Done rest rs
  /\ length rs = (length buf / 16)%nat
  /\ forall k r, nth_error rs k = Some r -> hexen_line_at buf (k * 16) r.
Proof. fixed hexen_lines_decode. Qed.
Lemma doom_things_fixed : forall buf, exists rest rs, doom_things_lump buf = Done rest rs
  /\ length rs = (length buf / 10)%nat
  /\ forall k r, nth_error rs k = Some r -> doom_thing_at buf (k * 10) r.
Proof. fixed doom_things_decode. Qed.
Lemma hexen_things_fixed : forall buf, exists rest rs, hexen_things_lump buf = Done rest rs
  /\ length rs = (length buf / 20)%nat
  /\ forall k r, nth_error rs k = Some r -> hexen_thing_at buf (k * 20) r.
Proof. fixed hexen_things_decode. Qed.

Lemma samples_valid :
  thing_valid sample_thing /\ line_valid sample_line /\ vertex_valid sample_vertex
  /\ side_valid sample_side /\ sector_valid sample_sector.
Proof.
  unfold thing_valid, line_valid, vertex_valid, side_valid, sector_valid, is_i16, is_u16, short_name.
  repeat split; cbn; try lia; repeat constructor; vm_compute; discriminate.
Qed.
