(** Properties of the in-memory map: C32-C36. *)

From Coq Require Import String List ZArith.
From Coq Require Import Strings.Byte.
From Verif Require Import Base ParseWad ArchiveWad ParseMap SpecLumps Float SpecFloat64 MapModel SpecMapModel
  FlipFacts MapFacts Samples.
Import ListNotations.
Local Open Scope Z_scope.

(** C32. [Map::from_bare] succeeds and keeps everything. *)
Theorem C32_from_bare : forall b, map_valid b ->
  exists m, from_bare b = Ok m
    /\ Forall2 sector_as (m_sectors b) (g_sectors m)
    /\ Forall2 vertex_as (m_vertices b) (g_vertices m)
    /\ Forall2 side_as (m_sides b) (g_sides m)
    /\ Forall2 line_as (m_lines b) (g_lines m)
    /\ Forall2 thing_as (m_things b) (g_things m)
    /\ forall k l, nth_error (g_lines m) k = Some l -> ln_index l = Z.of_nat k.
Proof. exact from_bare_spec. Qed.
Print Assumptions C32_from_bare.

(** Every map the parser returns meets the hypothesis of C32-C36. *)
Theorem C32_parsed_maps_valid : forall w r m, parse_doom_map w r = Ok (BMDoom m) -> map_valid m.
Proof. exact parsed_map_valid. Qed.
Print Assumptions C32_parsed_maps_valid.

Example C32_example : exists m, from_bare room_map = Ok m
  /\ nth_error (g_lines m) 1 = Some (mk_line 1 1 2 1 0 0 (Some 1) None)
  /\ g_vertices m <> [] /\ map_valid room_map.
Proof.
  eexists. split; [vm_compute; reflexivity|]. split; [reflexivity|]. split; [discriminate|].
  eapply (C32_parsed_maps_valid full_wad (nth 0 (iter_maps full_wad) (new_block (MAPxx 1) 0))). vm_compute. reflexivity.
Qed.

(** C33. Line predicates. *)
Theorem C33_line_predicates : forall b m k bl l, map_valid b -> from_bare b = Ok m ->
  nth_error (m_lines b) k = Some bl -> nth_error (g_lines m) k = Some l ->
  (is_one_sided l = true <-> (dl_front bl = -1 /\ dl_back bl <> -1) \/ (dl_front bl <> -1 /\ dl_back bl = -1))
  /\ (is_two_sided l = true <-> dl_front bl <> -1 /\ dl_back bl <> -1)
  /\ (has_special l = true <-> dl_special bl <> 0)
  /\ (blocks_player l = true <-> Z.odd (dl_flags bl) = true).
Proof. exact line_predicates. Qed.
Print Assumptions C33_line_predicates.

Definition odd_lines : doom_map := mk_bmap [] [] []
  [mk_dline 0 0 (-1) (-5) 0 (-1) (-1); mk_dline 0 0 (-2) 0 0 (-2) 0; mk_dline 0 0 1 256 0 (-1) 3] [].
Example C33_example :
  match from_bare odd_lines with
  | Ok m => map (fun l => (is_one_sided l, is_two_sided l, has_special l, blocks_player l)) (g_lines m)
  | _ => []
  end = [(false, false, true, true); (false, true, false, false); (true, false, true, true)].
Proof. vm_compute. reflexivity. Qed.

(** C34. Handles resolve iff the bare index is valid. *)
Theorem C34_bound_lines : forall b m k bl l, map_valid b -> from_bare b = Ok m ->
  Z.of_nat (length (m_vertices b)) <= 2 ^ 63 -> Z.of_nat (length (m_sides b)) <= 2 ^ 63 ->
  nth_error (m_lines b) k = Some bl -> nth_error (g_lines m) k = Some l ->
  looks_up (g_vertices m) (dl_v0 bl) (bound_start m l)
  /\ looks_up (g_vertices m) (dl_v1 bl) (bound_end m l)
  /\ opt_looks_up (g_sides m) (dl_front bl) (bound_front m l)
  /\ opt_looks_up (g_sides m) (dl_back bl) (bound_back m l).
Proof. exact bound_lookups. Qed.
Print Assumptions C34_bound_lines.

Theorem C34_side_sectors : forall b m k bsd s, map_valid b -> from_bare b = Ok m ->
  Z.of_nat (length (m_sectors b)) <= 2 ^ 63 ->
  nth_error (m_sides b) k = Some bsd -> nth_error (g_sides m) k = Some s ->
  looks_up (g_sectors m) (sd_sector bsd) (map_sector m (si_sector s)).
Proof. exact side_sector_lookup. Qed.
Print Assumptions C34_side_sectors.

Example C34_example :
  match from_bare odd_lines with
  | Ok m => map (fun l => (bound_start m l, bound_front m l)) (g_lines m)
  | _ => []
  end = [(Panic PIndex, Ok None); (Panic PIndex, Panic PIndex); (Panic PIndex, Ok None)].
Proof. vm_compute. reflexivity. Qed.

(** C35. Bounding box. *)
Theorem C35_bbox_tight : forall b m, map_valid b -> from_bare b = Ok m -> m_vertices b <> [] ->
  exists x0 y0 x1 y1, rect_is (map_bbox m) x0 y0 x1 y1
    /\ tight vx (m_vertices b) x0 x1 /\ tight vy (m_vertices b) y0 y1.
Proof. exact bbox_tight. Qed.
Print Assumptions C35_bbox_tight.

Theorem C35_bbox_empty : forall b m, from_bare b = Ok m -> m_vertices b = [] -> map_bbox m = rect_zero.
Proof. exact bbox_empty. Qed.
Print Assumptions C35_bbox_empty.

Example C35_example :
  match from_bare room_map with
  | Ok m => map_bbox m
  | _ => rect_zero
  end = mk_rect f64_zero f64_zero (f64_of_Z 64) (f64_of_Z 64).
Proof. vm_compute. reflexivity. Qed.

(** C36. Player start. *)
Theorem C36_player_start : forall b m, map_valid b -> from_bare b = Ok m ->
  (forall p, find_player_start m = Some p <->
     exists t, first_with (fun t => dt_num t = 1) (m_things b) t
       /\ p = mk_point (f64_of_Z (dt_x t)) (f64_of_Z (dt_y t)))
  /\ (find_player_start m = None <-> forall t, In t (m_things b) -> dt_num t <> 1).
Proof. exact player_start_bare. Qed.
Print Assumptions C36_player_start.

Example C36_example :
  match from_bare (mk_bmap [] [] [] [] [mk_dthing 5 6 0 2 7; mk_dthing 8 (-9) 0 1 7; mk_dthing 1 1 0 1 7] : doom_map) with
  | Ok m => find_player_start m
  | _ => None
  end = Some (mk_point (f64_of_Z 8) (f64_of_Z (-9))).
Proof. vm_compute. reflexivity. Qed.
