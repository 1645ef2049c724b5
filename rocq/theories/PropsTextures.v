(** C39, C40, C66: texture counts and the actor table. *)

From Coq Require Import String List ZArith.
From Verif Require Import Base ParseMap SectorPolys SpecLumps SpecSector CountTextures SpecTextures TextureFacts TextureAux Actors Samples.
Import ListNotations.
Local Open Scope Z_scope.

(** C39. [count_textures] reports, for every texture but "-", its number of uses
    and total area; in either build. *)
Theorem C39_reports : forall {L T} mode (ops : line_ops L) (m : binary_map L T) walls,
  i16_indices ops m -> Z.of_nat (length (m_sectors m)) <= 2 ^ 63 ->
  Forall2 (line_uses ops m) (m_lines m) walls ->
  exists c, count_textures mode ops m = Ok c /\ reports c (concat walls).
Proof. exact @count_textures_good. Qed.
Print Assumptions C39_reports.

(** C39. A checked build panics iff some line has an index that does not exist or
    a difference that overflows; a wrapping build iff some line has an index that
    does not exist. *)
Theorem C39_panics : forall {L T} (ops : line_ops L) (m : binary_map L T),
  i16_indices ops m -> Z.of_nat (length (m_sectors m)) <= 2 ^ 63 ->
  ((exists p, count_textures Checked ops m = Panic p) <-> exists l, In l (m_lines m) /\ forall us, ~ line_uses ops m l us)
  /\ ((exists p, count_textures Wrapping ops m = Panic p) <-> exists l, In l (m_lines m) /\ ~ line_indices_exist ops m l)
  /\ (forall mode e, count_textures mode ops m <> Err e).
Proof. exact @count_textures_panics. Qed.
Print Assumptions C39_panics.

Example C39_hypotheses : i16_indices doom_line_ops step_map /\ Z.of_nat (length (m_sectors step_map)) <= 2 ^ 63
  /\ exists walls, Forall2 (line_uses doom_line_ops step_map) (m_lines step_map) walls.
Proof. exact step_map_ok. Qed.
Example C39_example :
  count_textures Checked doom_line_ops step_map =
    Ok [(bs "UPF", (1, f32_of_Z (50 * 72))); (bs "LOWF", (1, f32_of_Z (50 * 24))); (bs "GRATE", (2, f32_of_Z (50 * 128 + 50 * 176)))]
  /\ count_textures Checked doom_line_ops (mk_bmap [mk_vertex (-20000) 0; mk_vertex 20000 0] (m_sectors step_map) (m_sides step_map) (m_lines step_map) [] : doom_map) = Panic POverflow.
Proof. vm_compute. auto. Qed.

(** C40. [lookup_thing_type]. *)
Theorem C40_lookup : forall n a,
  lookup_thing_type n = Some a <-> In a doom2_actors /\ a_doomednum a = Some n.
Proof. exact lookup_iff. Qed.
Print Assumptions C40_lookup.

Theorem C40_unique : forall i j a b n, nth_error doom2_actors i = Some a -> nth_error doom2_actors j = Some b ->
  a_doomednum a = Some n -> a_doomednum b = Some n -> i = j.
Proof. exact doomednum_unique. Qed.
Print Assumptions C40_unique.

Example C40_example : option_map a_class (lookup_thing_type 3004) = Some "ZombieMan"%string /\ lookup_thing_type 1 = None.
Proof. vm_compute. auto. Qed.

(** C66. The uses reported for a two-sided line are the wall parts the textures
    are visible on: false of the upper texture of a lower front ceiling (the front
    side's is counted instead of the back side's), and of the height of the middle
    textures (measured from the lower floor). *)
Theorem C66_visible_refuted : exists m : doom_map, exists l us c tex h,
  i16_indices doom_line_ops m /\ m_lines m = [l] /\ visible_uses doom_line_ops m l us
  /\ In (tex, h) us /\ tex <> bs "-" /\ 0 < h
  /\ count_textures Checked doom_line_ops m = Ok c /\ ~ In tex (map fst c).
Proof. exact visible_refuted. Qed.
Print Assumptions C66_visible_refuted.

Theorem C66_middle_height_refuted : exists m : doom_map, exists l us c tex h,
  i16_indices doom_line_ops m /\ m_lines m = [l] /\ visible_uses doom_line_ops m l us
  /\ filter (fun u => bytes_eqb (fst u) tex) us = [(tex, h)] /\ line_deltas doom_line_ops m l 0 1
  /\ count_textures Checked doom_line_ops m = Ok c /\ In (tex, (1, f32_of_Z (h + 24))) c.
Proof. exact middle_refuted. Qed.
Print Assumptions C66_middle_height_refuted.

(** C66. Where front and back floors agree and the front ceiling is at least as
    high, the reported uses of a two-sided line are the visible ones plus at most
    uses of area 0. *)
Theorem C66_visible_when : forall {L T} (ops : line_ops L) (m : binary_map L T) l us vs f fs b bs dx dy,
  fst (lo_sides ops l) <> -1 -> snd (lo_sides ops l) <> -1 ->
  side_sector m (fst (lo_sides ops l)) f fs -> side_sector m (snd (lo_sides ops l)) b bs ->
  sc_floor fs = sc_floor bs -> sc_ceil bs <= sc_ceil fs -> line_deltas ops m l dx dy ->
  line_uses ops m l us -> visible_uses ops m l vs ->
  exists zero, (forall u, In u zero -> snd u = area dx dy 0) /\ Permutation.Permutation us (map (fun v => (fst v, area dx dy (snd v))) vs ++ zero).
Proof. exact @visible_when. Qed.
Print Assumptions C66_visible_when.
