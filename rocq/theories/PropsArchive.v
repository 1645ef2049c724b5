(** Properties of lump lookup, WAD iteration, archives and map reading:
    C06-C17, C24, C25. *)

From Coq Require Import String List ZArith.
From Coq Require Import Strings.Byte.
From Verif Require Import Base SpecBytes ParseWad SpecWad SpecMapName ArchiveWad ParseMap SpecLumps
  SpecArchive SpecMap ArchiveFacts IterFacts ToArchiveFacts ParseMapFacts Samples PropsArchiveAux.
Import ListNotations.
Local Open Scope Z_scope.

(** C06. Extraction returns exactly the described bytes, or panics. The fields
    are u32, hence non-negative; every parsed WAD satisfies it. *)
Theorem C06_extract_exact : forall e buf d, 0 <= filepos e -> 0 <= size e ->
  extract_slice e buf = Ok d <-> entry_data buf e d.
Proof. exact extract_slice_ok. Qed.
Print Assumptions C06_extract_exact.

Theorem C06_extract_panics : forall e buf, 0 <= filepos e -> 0 <= size e ->
  (exists p, extract_slice e buf = Panic p) <-> ~ in_bounds buf e.
Proof. exact extract_panics. Qed.
Print Assumptions C06_extract_panics.

Theorem C06_entry_slice_exact : forall w i d, unsigned_entries w ->
  entry_slice w i = Ok d
  <-> exists e, nth_error (directory w) i = Some e /\ entry_data (buffer w) e d.
Proof. exact entry_slice_ok. Qed.
Print Assumptions C06_entry_slice_exact.

Theorem C06_entry_slice_panics : forall w i, unsigned_entries w ->
  (exists p, entry_slice w i = Panic p)
  <-> (forall e, nth_error (directory w) i = Some e -> ~ in_bounds (buffer w) e).
Proof. exact entry_slice_panic. Qed.
Print Assumptions C06_entry_slice_panics.

Theorem C06_parsed_unsigned : forall buf w, parse_wad buf = Ok w -> unsigned_entries w.
Proof. exact parse_wad_unsigned. Qed.
Print Assumptions C06_parsed_unsigned.

Example C06_example : entry_slice small_wad 0 = Ok [x01; x02; x03].
Proof. vm_compute. reflexivity. Qed.
(** A WAD that parses but whose lump cannot be extracted. *)
Example C06_parse_does_not_check :
  parse_wad (buffer far_lump_wad) = Ok far_lump_wad /\ entry_slice far_lump_wad 0 = Panic PSlice.
Proof. vm_compute. auto. Qed.

(** C07. first_entry. *)
Theorem C07_none : forall w nm, unsigned_entries w ->
  first_entry w nm = Ok None <-> forall k, ~ named (directory w) k nm.
Proof. exact first_entry_none. Qed.
Print Assumptions C07_none.

Theorem C07_some : forall w nm d, unsigned_entries w ->
  first_entry w nm = Ok (Some d)
  <-> exists k e, first_named (directory w) nm k /\ nth_error (directory w) k = Some e
        /\ entry_data (buffer w) e d.
Proof. exact first_entry_some. Qed.
Print Assumptions C07_some.

Theorem C07_panics : forall w nm, unsigned_entries w ->
  (exists p, first_entry w nm = Panic p)
  <-> exists k e, first_named (directory w) nm k /\ nth_error (directory w) k = Some e
        /\ ~ in_bounds (buffer w) e.
Proof. exact first_entry_panic. Qed.
Print Assumptions C07_panics.

Example C07_example : first_entry full_wad (bs "D_RUNNIN") = Ok (Some [x4d; x55; x53])
  /\ first_entry full_wad (bs "NOSUCH") = Ok None.
Proof. vm_compute. auto. Qed.

(** C08. iter_entries_between. *)
Theorem C08_between : forall w b e xs, unsigned_entries w -> b <> e ->
  iter_entries_between w b e = Ok xs <-> yields w (inside (directory w) b e) xs.
Proof. exact between_ok. Qed.
Print Assumptions C08_between.

Theorem C08_between_panics : forall w b e, unsigned_entries w -> b <> e ->
  (exists p, iter_entries_between w b e = Panic p)
  <-> exists k d, inside (directory w) b e k /\ nth_error (directory w) k = Some d
        /\ ~ in_bounds (buffer w) d.
Proof. exact between_panics. Qed.
Print Assumptions C08_between_panics.

Theorem C08_same_marker : forall w b xs, unsigned_entries w ->
  iter_entries_between w b b = Ok xs <-> yields w (inside_same (directory w) b) xs.
Proof. exact between_same. Qed.
Print Assumptions C08_same_marker.

Theorem C08_same_marker_panics : forall w b, unsigned_entries w ->
  (exists p, iter_entries_between w b b = Panic p)
  <-> exists k d, inside_same (directory w) b k /\ nth_error (directory w) k = Some d
        /\ ~ in_bounds (buffer w) d.
Proof. exact between_same_panics. Qed.
Print Assumptions C08_same_marker_panics.

Example C08_example :
  iter_entries_between full_wad (bs "F_START") (bs "F_END") = Ok [mk_wad_entry (bs "FLAT1") [x01; x02]]
  /\ iter_entries_between full_wad (bs "F_END") (bs "NOSUCH") = Ok [mk_wad_entry (bs "D_RUNNIN") [x00]]
  /\ omap (fun x => Ok (we_name x)) match iter_entries_between full_wad (bs "F_START") (bs "F_START") with Ok xs => xs | _ => [] end
     = Ok [bs "FLAT1"; bs "F_END"; bs "D_RUNNIN"].
Proof. vm_compute. auto. Qed.

(** C09. The reported items cover a prefix of the directory, each entry once and
    in order; each single-entry item has the right kind. *)
Theorem C09_consecutive : forall w, exists n, (n <= length (directory w))%nat
  /\ concat (map item_span (iter w)) = seq 0 n.
Proof. exact iter_spans. Qed.
Print Assumptions C09_consecutive.

Theorem C09_kinds : forall w x, In x (iter w) ->
  match x with
  | WMap b => block_ok (directory w) b
  | _ => plain_item (directory w) x /\ forall k, item_entry x = Some k -> ~ marker (directory w) k
  end.
Proof. exact iter_kinds. Qed.
Print Assumptions C09_kinds.

Example C09_example : map item_span (iter full_wad)
  = [[0]; [1; 2; 3; 4; 5; 6]; [7; 8; 9; 10; 11; 12; 13; 14]; [15]; [16]; [17]; [18]]%nat.
Proof. vm_compute. reflexivity. Qed.

(** C10. How far the iteration reaches. *)
Theorem C10_reach : forall w k, (k < length (directory w))%nat ->
  reported w k
  <-> forall i, (i <= k)%nat -> ~ (marker (directory w) i /\ broken (directory w) i).
Proof. exact iter_reach. Qed.
Print Assumptions C10_reach.

Theorem C10_complete : forall w,
  concat (map item_span (iter w)) = seq 0 (length (directory w))
  <-> forall i, ~ (marker (directory w) i /\ broken (directory w) i).
Proof. exact iter_complete. Qed.
Print Assumptions C10_complete.

Example C10_example : iter broken_map_wad = [WEntry 0 (mk_entry 12 3 (bs "D_RUNNIN"))]
  /\ length (directory broken_map_wad) = 8%nat.
Proof. vm_compute. auto. Qed.

(** C64. Where the iterator stands after [next] has returned [None]: a caller that
    goes on resumes right after the lumps of the broken map. *)
Theorem C64_resume : forall dir i it, (i < length dir)%nat -> at_index dir i it -> fst (wad_next it) = None ->
  exists fs, longest_run dir i fs /\ at_index dir (S i + length fs) (snd (wad_next it)).
Proof. exact next_resume. Qed.
Print Assumptions C64_resume.

Example C64_example :
  let it := tl (enumerate_from 0 (directory broken_map_wad)) in
  fst (wad_next it) = None /\ map fst (snd (wad_next it)) = [3; 4; 5; 6; 7]%nat.
Proof. vm_compute. auto. Qed.

(** C11. The indices of a reported map. *)
Theorem C11_block : forall w b, In b (iter_maps w) -> block_ok (directory w) b.
Proof. exact block_points. Qed.
Print Assumptions C11_block.

Theorem C11_lumps_named : forall w b f k, In b (iter_maps w) -> lump_index f b = Some k ->
  named (directory w) k (lump_name f) /\ (marker_index b < k)%nat.
Proof. exact block_in_range. Qed.
Print Assumptions C11_lumps_named.

Example C11_example : map (fun b => (b_name b, marker_index b, sectors_index b, behavior_index b))
  (iter_maps full_wad) = [(MAPxx 1, 1, Some 6, None); (ExMy 1 2, 7, Some 12, Some 14)]%nat.
Proof. vm_compute. reflexivity. Qed.

(** C12. Format detection. *)
Theorem C12_format : forall w b, In b (iter_maps w) ->
  (b_format b = Hexen <-> behavior_index b <> None) /\ (b_format b = Doom <-> behavior_index b = None)
  /\ b_format b <> UDMF /\ textmap_index b = None.
Proof. exact block_format. Qed.
Print Assumptions C12_format.

Theorem C12_udmf_ends_iteration : forall w i,
  marker (directory w) i -> named (directory w) (S i) (lump_name TEXTMAP) ->
  forall k, reported w k -> (k < i)%nat.
Proof. exact udmf_stops. Qed.
Print Assumptions C12_udmf_ends_iteration.

Example C12_example : map b_format (iter_maps full_wad) = [Doom; Hexen]
  /\ length (iter udmf_wad) = 1%nat /\ length (directory udmf_wad) = 8%nat.
Proof. vm_compute. auto. Qed.

(** C13. Not every reported map has its required lumps ... *)
Theorem C13_required_lumps_refuted :
  exists w b f, parse_wad (buffer w) = Ok w /\ In b (iter_maps w) /\ required f /\ lump_index f b = None.
Proof.
  exists cut_map_wad. eexists. exists SECTORS.
  split; [vm_compute; reflexivity|]. split; [vm_compute; left; reflexivity|].
  split; [vm_compute; auto 12|vm_compute; reflexivity].
Qed.
Print Assumptions C13_required_lumps_refuted.

(** ... but the only way to miss one is that the directory ends. *)
Theorem C13_missing_only_at_end : forall w b f,
  In b (iter_maps w) -> required f -> lump_index f b = None ->
  (S (marker_index b) + lump_count b = length (directory w))%nat.
Proof. exact missing_required. Qed.
Print Assumptions C13_missing_only_at_end.

(** C14. last_index is one past the map's lumps ... *)
Theorem C14_last_index_refuted :
  exists w b, parse_wad (buffer w) = Ok w /\ In b (iter_maps w)
    /\ ~ In (last_index b) (item_span (WMap b)).
Proof.
  exists full_wad. eexists. split; [vm_compute; reflexivity|].
  split; [vm_compute; left; reflexivity|]. vm_compute. intuition discriminate.
Qed.
Print Assumptions C14_last_index_refuted.

(** ... unless the directory ends there. *)
Theorem C14_last_index_exact : forall w b, In b (iter_maps w) ->
  lump_positions b = seq (S (marker_index b)) (lump_count b) /\ (0 < lump_count b)%nat
  /\ (S (marker_index b) + lump_count b <= length (directory w))%nat
  /\ last_index b = if (S (marker_index b) + lump_count b =? length (directory w))%nat
                    then (marker_index b + lump_count b)%nat
                    else S (marker_index b + lump_count b).
Proof. exact last_index_exact. Qed.
Print Assumptions C14_last_index_exact.

Example C14_example : map last_index (iter_maps full_wad) = [7; 15]%nat
  /\ map last_index (iter_maps cut_map_wad) = [3]%nat.
Proof. vm_compute. auto. Qed.

(** C15. to_archive. *)
Theorem C15_to_archive : forall w a, unsigned_entries w ->
  to_archive w = Ok a
  <-> wadtype a = identification (header w)
      /\ exists parts, Forall2 (archived w) (iter w) parts /\ contents a = concat parts.
Proof. exact to_archive_ok. Qed.
Print Assumptions C15_to_archive.

Theorem C15_panics : forall w, unsigned_entries w ->
  (exists p, to_archive w = Panic p) <-> exists x, In x (iter w) /\ ~ item_in_bounds w x.
Proof. exact to_archive_panic. Qed.
Print Assumptions C15_panics.

Example C15_example : exists a m1 m2, to_archive full_wad = Ok a /\ wadtype a = IWAD
  /\ contents a = [IEntry (mk_arch_entry (bs "D_RUNNIN") [x4d; x55; x53] NsUnknown); IMap m1; IMap m2;
                   IEntry (mk_arch_entry (bs "FLAT1") [x01; x02] NsUnknown);
                   IEntry (mk_arch_entry (bs "D_RUNNIN") [x00] NsUnknown)]
  /\ a_reject m2 = Some (mk_arch_entry (bs "REJECT") [x00] NsMap).
Proof. do 3 eexists. vm_compute. repeat split. Qed.
Example C15_panic_example : to_archive far_lump_wad = Panic PSlice.
Proof. vm_compute. reflexivity. Qed.

(** C16. WADArchive::first_entry. *)
Theorem C16_some : forall a nm en,
  archive_first_entry a nm = Some en <-> first_plain (contents a) nm en.
Proof. exact archive_first_some. Qed.
Print Assumptions C16_some.

Theorem C16_none : forall a nm,
  archive_first_entry a nm = None <-> forall en, In (IEntry en) (contents a) -> en_name en <> nm.
Proof. exact archive_first_none. Qed.
Print Assumptions C16_none.

Theorem C16_agrees_with_bare : forall w a nm,
  unsigned_entries w -> to_archive w = Ok a -> ordinary_name nm ->
  (forall k, ~ (marker (directory w) k /\ broken (directory w) k)) ->
  first_entry w nm = Ok (option_map en_data (archive_first_entry a nm)).
Proof. exact archive_first_agrees. Qed.
Print Assumptions C16_agrees_with_bare.

Example C16_example : exists a, to_archive full_wad = Ok a
  /\ archive_first_entry a (bs "D_RUNNIN") = Some (mk_arch_entry (bs "D_RUNNIN") [x4d; x55; x53] NsUnknown)
  /\ archive_first_entry a (bs "THINGS") = None /\ archive_first_entry a (bs "F_START") = None.
Proof. eexists. vm_compute. repeat split. Qed.

(** C17. Maps parse alike from the archive and from the WAD. *)
Theorem C17_archive_parse : forall w a, unsigned_entries w -> to_archive w = Ok a ->
  (forall m, In (IMap m) (contents a) ->
     exists b, In b (iter_maps w) /\ archived_map w b m
       /\ parse_doom_map_from_archive m = parse_doom_map w b)
  /\ (forall b, In b (iter_maps w) ->
     exists m, In (IMap m) (contents a) /\ archived_map w b m
       /\ parse_doom_map_from_archive m = parse_doom_map w b).
Proof. exact archive_maps_parse. Qed.
Print Assumptions C17_archive_parse.

Example C17_example :
  map (fun b => let* m := convert_map full_wad b in parse_doom_map_from_archive m) (firstn 1 (iter_maps full_wad))
  = [Ok (BMDoom room_map)].
Proof. vm_compute. reflexivity. Qed.

(** C24. The outcome of parse_doom_map. *)
Theorem C24_ok : forall w b bm, unsigned_entries w ->
  parse_doom_map w b = Ok bm <-> map_decoded w b bm.
Proof. exact parse_doom_map_ok. Qed.
Print Assumptions C24_ok.

Theorem C24_missing : forall w b e, unsigned_entries w ->
  parse_doom_map w b = Err e
  <-> exists f, first_unreadable_lump w b f /\ lump_index f b = None
        /\ e = MissingMapLump (lump_string f).
Proof. exact parse_doom_map_err. Qed.
Print Assumptions C24_missing.

Theorem C24_panics : forall w b, unsigned_entries w ->
  (exists p, parse_doom_map w b = Panic p)
  <-> exists f, first_unreadable_lump w b f /\ lump_index f b <> None.
Proof. exact parse_doom_map_panic. Qed.
Print Assumptions C24_panics.

Example C24_example :
  map (parse_doom_map cut_map_wad) (iter_maps cut_map_wad) = [Err (MissingMapLump "VERTEXES")]
  /\ map (parse_doom_map far_vertexes_wad) (iter_maps far_vertexes_wad) = [Panic PSlice].
Proof. vm_compute. auto. Qed.

(** C25. Reported maps in bounds parse. *)
Theorem C25_reported_maps_parse : forall w b, unsigned_entries w ->
  (forall e, In e (directory w) -> in_bounds (buffer w) e) -> In b (iter_maps w) ->
  (forall f, In f reading_order -> lump_index f b <> None) <-> exists bm, parse_doom_map w b = Ok bm.
Proof. exact parse_reported_map. Qed.
Print Assumptions C25_reported_maps_parse.

Example C25_example : map (parse_doom_map full_wad) (firstn 1 (iter_maps full_wad)) = [Ok (BMDoom room_map)]
  /\ forallb (fun e => filepos e + size e <=? Z.of_nat (length (buffer full_wad))) (directory full_wad) = true.
Proof. vm_compute. auto. Qed.
