(** Properties of the flip command: C28-C31. *)

From Coq Require Import String List ZArith.
From Coq Require Import Strings.Byte.
From Verif Require Import Base SpecBytes ParseWad SpecWad ArchiveWad ParseMap SpecLumps SpecArchive SpecMap
  Flip SpecFlip FlipFacts Samples.
Import ListNotations.
Local Open Scope Z_scope.

(** C28. The output is a valid PWAD: six entries per Doom-format map, lumps
    inside the file, before the directory, in order and without overlap. *)
Theorem C28_valid_output : forall mode buf w out,
  parse_wad buf = Ok w -> do_flip mode w = Ok out -> Z.of_nat (length out) < 2 ^ 32 ->
  exists ms w', reads_as w ms /\ parse_wad out = Ok w' /\ identification (header w') = PWAD
    /\ map name (directory w') = flat_map (fun a => map_entry_names (fst a)) ms
    /\ (forall e, In e (directory w') -> 12 <= filepos e /\ 0 <= size e
          /\ filepos e + size e <= infotableofs (header w'))
    /\ (forall j k a b, (j < k)%nat -> nth_error (directory w') j = Some a ->
          nth_error (directory w') k = Some b -> filepos a + size a <= filepos b)
    /\ infotableofs (header w') + 16 * Z.of_nat (length (directory w')) = Z.of_nat (length out).
Proof. exact flip_valid_wad. Qed.
Print Assumptions C28_valid_output.

(** C29. Reading the output gives the flipped Doom-format maps, nothing else. *)
Theorem C29_flipped_content : forall mode buf w out,
  parse_wad buf = Ok w -> do_flip mode w = Ok out -> Z.of_nat (length out) < 2 ^ 32 ->
  exists ms ms' w', reads_as w ms /\ Forall2 flipped_named ms ms'
    /\ parse_wad out = Ok w' /\ reads_as w' ms' /\ length (iter_maps w') = length ms'.
Proof. exact flip_content. Qed.
Print Assumptions C29_flipped_content.

(** The 16-bit negation is the ordinary one except for -32768. *)
Theorem C29_negation : forall a b, is_i16 a -> negated a b -> b = if a =? - 2 ^ 15 then a else - a.
Proof. exact negated_value. Qed.
Print Assumptions C29_negation.

Theorem C29_maps_unique : forall w rs a b, doom_maps_of w rs a -> doom_maps_of w rs b -> a = b.
Proof. exact doom_maps_unique. Qed.
Print Assumptions C29_maps_unique.

Example C28_C29_example :
  (let* out := do_flip Checked full_wad in let* w' := parse_wad out in
   Ok (map name (directory w'), map (parse_doom_map w') (iter_maps w'), zlen out <? 2 ^ 32))
  = Ok ([bs "MAP01"; bs "THINGS"; bs "LINEDEFS"; bs "SIDEDEFS"; bs "VERTEXES"; bs "SECTORS"],
        [Ok (BMDoom flipped_room)], true).
Proof. vm_compute. reflexivity. Qed.

(** C30. Flipping twice. *)
Theorem C30_flip_twice : forall mode buf w out,
  parse_wad buf = Ok w -> do_flip mode w = Ok out -> Z.of_nat (length out) < 2 ^ 32 ->
  exists ms w' out' w'', reads_as w ms /\ parse_wad out = Ok w' /\ do_flip mode w' = Ok out'
    /\ parse_wad out' = Ok w'' /\ reads_as w'' ms /\ length (iter_maps w'') = length ms
    /\ do_flip mode w'' = Ok out.
Proof. exact flip_twice. Qed.
Print Assumptions C30_flip_twice.

Example C30_example :
  (let* out := do_flip Wrapping min_wad in let* w' := parse_wad out in
   let* out' := do_flip Wrapping w' in let* w'' := parse_wad out' in
   Ok (map (parse_doom_map w'') (iter_maps w'')))
  = Ok (map (parse_doom_map min_wad) (iter_maps min_wad)).
Proof. vm_compute. reflexivity. Qed.

(** C31. When flipping succeeds, fails, panics. *)
Theorem C31_succeeds : forall mode w,
  (exists out, do_flip mode w = Ok out) <-> forall r, In r (iter_maps w) -> can_flip mode w r.
Proof. exact do_flip_succeeds. Qed.
Print Assumptions C31_succeeds.

Theorem C31_errors : forall mode w e,
  do_flip mode w = Err e <-> exists r, first_unflippable mode w r /\ parse_doom_map w r = Err e.
Proof. exact do_flip_error. Qed.
Print Assumptions C31_errors.

Theorem C31_panics : forall mode w,
  (exists p, do_flip mode w = Panic p) <->
  exists r, first_unflippable mode w r
    /\ ((exists p, parse_doom_map w r = Panic p)
        \/ (mode = Checked /\ exists m, parse_doom_map w r = Ok (BMDoom m) /\ has_minimum m)).
Proof. exact do_flip_panics. Qed.
Print Assumptions C31_panics.

Theorem C31_checked_negations_exact : forall buf w out,
  parse_wad buf = Ok w -> do_flip Checked w = Ok out ->
  exists ms, reads_as w ms /\ Forall (fun a => ~ has_minimum (snd a)) ms.
Proof. exact flip_checked_exact. Qed.
Print Assumptions C31_checked_negations_exact.

Example C31_example : do_flip Checked min_wad = Panic POverflow
  /\ (exists out, do_flip Wrapping min_wad = Ok out)
  /\ do_flip Checked cut_map_wad = Err (MissingMapLump "VERTEXES").
Proof. split; [vm_compute; reflexivity|]. split; [eexists|]; vm_compute; reflexivity. Qed.
