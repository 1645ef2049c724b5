(** Properties of the info command: C92, C93. *)

From Coq Require Import String List ZArith Permutation.
From Coq Require Import Strings.Byte.
From Verif Require Import Base ParseWad ArchiveWad ParseMap ParseTexturex SpecArchive SpecLumps Universe Info SpecInfo InfoFacts InfoRefuted
  InfoSamples Samples.
Import ListNotations.
Local Open Scope Z_scope.

(** C92. Whatever the iteration order of hash sets, the command prints the header, the items
    in order, the flats, and the textures that Doom 2 does not have, or stops at the first
    thing that cannot be read. *)
Theorem C92_info : forall order w, unsigned_entries w -> (forall l, Permutation l (order l)) ->
  info_run w (fst (do_info order w)) (snd (do_info order w)).
Proof. exact info_runs. Qed.
Print Assumptions C92_info.

(** There is only one such run, up to the order of the lines. *)
Theorem C92_determined : forall order w o r, unsigned_entries w -> (forall l, Permutation l (order l)) -> info_run w o r ->
  snd (do_info order w) = r /\ Permutation o (fst (do_info order w)).
Proof. exact info_determined. Qed.
Print Assumptions C92_determined.

Example C92_example :
  do_info (@rev _) info_wad
  = ([TType IWAD; THeader IWAD 20 535; TLump (bs "D_RUNNIN"); TBlank; TMap (MAPxx 1) Doom; TMap (ExMy 1 2) Hexen;
      TLump (bs "FLAT1"); TLump (bs "D_RUNNIN"); TLump (bs "TEXTURE2"); TName (bs "FLAT1"); TRule; TName (bs "MYWALL")], Ok tt)
  /\ do_info (@rev _) cut_map_wad = ([TType PWAD; THeader PWAD 4 198], Err (MissingMapLump "VERTEXES"))
  /\ do_info (@rev _) far_vertexes_wad = ([TType PWAD; THeader PWAD 6 12], Panic PSlice)
  /\ do_info (@rev _) far_texture_wad
     = ([TType PWAD; THeader PWAD 7 72; TLump (bs "TEXTURE1"); TName (bs "FLAT1"); TRule], Panic PSlice).
Proof. vm_compute. repeat split; reflexivity. Qed.
Example C92_order : forall l : list bytes, Permutation l (rev l).
Proof. exact (@Permutation_rev _). Qed.

(** C93. Every texture of the WAD that Doom 2 does not have is listed. False: TEXTURE2 is
    ignored if there is a TEXTURE1. *)
Theorem C93_refuted : exists w, unsigned_entries w
  /\ forall order, (forall l, Permutation l (order l)) -> exists o, do_info order w = (o, Ok tt) /\ ~ lists_new w o.
Proof. exact info_texture2_ignored. Qed.
Print Assumptions C93_refuted.

(** True with only one of the two lumps. *)
Theorem C93_single : forall order w o, unsigned_entries w -> (forall l, Permutation l (order l)) -> do_info order w = (o, Ok tt) ->
  no_lump w (bs "TEXTURE1") \/ no_lump w (bs "TEXTURE2") -> lists_new w o.
Proof. exact info_lists_new. Qed.
Print Assumptions C93_single.

Example C93_example : snd (do_info (@rev _) info_wad) = Ok tt /\ forall e, In e (directory info_wad) -> name e <> bs "TEXTURE1".
Proof.
  split; [vm_compute; reflexivity|]. intros e He. vm_compute in He.
  repeat (destruct He as [<-|He]; [discriminate|]). destruct He.
Qed.
