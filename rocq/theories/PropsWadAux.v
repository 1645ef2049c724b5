(** Small corollaries used by PropsWad.v. *)

From Coq Require Import String List ZArith Lia.
From Coq Require Import Strings.Byte.
From Verif Require Import Base Nom SpecBytes BaseFacts NomFacts ParseWad SpecWad WadFacts EncodeFacts LumpFacts2 Samples.
Import ListNotations.
Local Open Scope Z_scope.

Lemma parse_wad_accepts : forall buf,
  (exists w, parse_wad buf = Ok w)
  <-> (exists t, has_header buf t) /\ directory_inside buf /\ ~ bad_directory_name buf.
Proof.
  intros buf. split.
  - intros [w H]. apply (parse_wad_ok_iff true) in H.
    split; [|split].
    + exists (identification (header w)). apply H.
    + apply H.
    + eapply wad_layout_not_bad; eauto.
  - intros ([t Ht] & Hd & Hb). pose proof (parse_wad_cases true buf) as HC.
    destruct (headers_exclusive buf) as (_ & X1 & X2 & _).
    fold (parse_wad buf) in HC.
    inversion HC as [w' Hw' E|Hc E|Hm E|t' Ht' Hd' E|t' Ht' Hd' Hb' E]; eauto; exfalso; eauto.
    + eapply X1; eauto.
    + eapply X2; eauto.
Qed.

Lemma parse_wad_names_short : forall buf w e,
  parse_wad buf = Ok w -> In e (directory w) -> short_name (name e).
Proof.
  intros buf w e H He. apply (parse_wad_ok_iff true) in H.
  destruct H as (_ & _ & _ & _ & Hd & Hl & Hk).
  apply In_nth_error in He. destruct He as [k He]. pose proof (Hk k e He) as (_ & _ & Hn).
  assert (k < length (directory w))%nat by (apply nth_error_Some; congruence).
  eapply name_field_short in Hn; [exact Hn|].
  pose proof (u32_at_range buf 8). pose proof (u32_at_range buf 4).
  unfold directory_inside in Hd. rewrite sub_length; [lia|]. unfold entry_offset. lia.
Qed.

Lemma small_dir_encodable : Forall entry_encodable small_dir
  /\ parse_wad (encode_wad PWAD small_body small_dir) = Ok small_wad.
Proof.
  split; [|vm_compute; reflexivity].
  repeat constructor; vm_compute; try discriminate; try lia.
Qed.

Lemma never_invalid_magic : forall buf, parse_wad buf <> Err InvalidMagic.
Proof. intros buf H. apply parse_wad_error_kinds in H. intuition discriminate. Qed.

Lemma wrong_magic_refuted : exists buf, wrong_magic buf /\ parse_wad buf <> Err InvalidMagic.
Proof.
  exists (bs "XWAD12345678"). split.
  - intros []; vm_compute; discriminate.
  - vm_compute. discriminate.
Qed.
