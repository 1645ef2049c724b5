(** A counterexample for the info command (C93). *)

From Coq Require Import String List ZArith Lia Permutation.
From Coq Require Import Strings.Byte.
From Verif Require Import Base ParseWad ArchiveWad ParseMap ParseTexturex SpecArchive SpecLumps Universe Info SpecInfo InfoFacts InfoSamples.
Import ListNotations.
Local Open Scope Z_scope.

Lemma two_textures_unsigned : unsigned_entries two_textures_wad.
Proof. unfold unsigned_entries. repeat constructor; vm_compute; discriminate. Qed.

Lemma info_texture2_ignored : exists w, unsigned_entries w
  /\ forall order, (forall l, Permutation l (order l)) -> exists o, do_info order w = (o, Ok tt) /\ ~ lists_new w o.
Proof.
  exists two_textures_wad. split; [exact two_textures_unsigned|]. intros order HO.
  pose proof (info_runs (fun l => l) _ two_textures_unsigned (fun l => Permutation_refl l)) as R.
  destruct (info_determined order _ _ _ two_textures_unsigned HO R) as [E P].
  exists (fst (do_info order two_textures_wad)). split.
  - rewrite (surjective_pairing (do_info order two_textures_wad)), E. reflexivity.
  - intros H. specialize (H (bs "TEXTURE2") (textures "MYDOOR")).
    destruct (parse_texturex_names (textures "MYDOOR")) as [ts|e|p] eqn:Ep; [|discriminate Ep|discriminate Ep].
    assert (T : exists t, In t ts /\ tx_name t = bs "MYDOOR").
    { vm_compute in Ep. injection Ep as <-. eexists. split; [left; reflexivity|reflexivity]. }
    destruct T as (t & Ht & Hn). specialize (H ts t (or_intror eq_refl)).
    assert (L : lump_is two_textures_wad (bs "TEXTURE2") (textures "MYDOOR")).
    { exists 1%nat, (mk_entry 72 60 (bs "TEXTURE2")). split; [split|split].
      - exists (mk_entry 72 60 (bs "TEXTURE2")). split; reflexivity.
      - intros [|[|k]] Hk (e & He & Hm); [|lia|lia]. vm_compute in He. injection He as <-. discriminate Hm.
      - reflexivity.
      - split; [vm_compute; discriminate|vm_compute; reflexivity]. }
    specialize (H L eq_refl Ht). rewrite Hn in H.
    assert (S : ~ In (bs "MYDOOR") DOOM2_TEXTURES).
    { rewrite <- stock_iff. vm_compute. discriminate. }
    specialize (H S). apply (Permutation_in _ (Permutation_sym P)) in H. vm_compute in H.
    repeat (destruct H as [H|H]; [discriminate H|]). destruct H.
Qed.
