{
 "claims": [
  {
   "property": "C01",
   "status": "proved",
   "theorems": [
    "C01_parse_wad_never_panics"
   ],
   "note": ""
  },
  {
   "property": "C02",
   "status": "proved",
   "theorems": [
    "C02_parse_wad_exact",
    "C02_decoding_unique",
    "C02_parse_wad_accepts"
   ],
   "note": ""
  },
  {
   "property": "C03",
   "status": "proved",
   "theorems": [
    "C03_encode_parse"
   ],
   "note": ""
  },
  {
   "property": "C04",
   "status": "proved",
   "theorems": [
    "C04_truncated_header",
    "C04_truncated_index",
    "C04_parse_error",
    "C04_no_other_error"
   ],
   "note": ""
  },
  {
   "property": "C05",
   "status": "proved",
   "theorems": [
    "C05_side_names",
    "C05_sector_names",
    "C05_texture_names",
    "C05_directory_names"
   ],
   "note": ""
  },
  {
   "property": "C06",
   "status": "proved",
   "theorems": [
    "C06_extract_exact",
    "C06_extract_panics",
    "C06_entry_slice_exact",
    "C06_entry_slice_panics",
    "C06_parsed_unsigned"
   ],
   "note": ""
  },
  {
   "property": "C07",
   "status": "proved",
   "theorems": [
    "C07_none",
    "C07_some",
    "C07_panics"
   ],
   "note": ""
  },
  {
   "property": "C08",
   "status": "proved",
   "theorems": [
    "C08_between",
    "C08_between_panics",
    "C08_same_marker",
    "C08_same_marker_panics"
   ],
   "note": ""
  },
  {
   "property": "C09",
   "status": "proved",
   "theorems": [
    "C09_consecutive",
    "C09_kinds"
   ],
   "note": ""
  },
  {
   "property": "C10",
   "status": "proved",
   "theorems": [
    "C10_reach",
    "C10_complete"
   ],
   "note": ""
  },
  {
   "property": "C11",
   "status": "proved",
   "theorems": [
    "C11_block",
    "C11_lumps_named"
   ],
   "note": ""
  },
  {
   "property": "C12",
   "status": "proved",
   "theorems": [
    "C12_format",
    "C12_udmf_ends_iteration"
   ],
   "note": ""
  },
  {
   "property": "C13",
   "status": "partial",
   "theorems": [
    "C13_required_lumps_refuted",
    "C13_missing_only_at_end"
   ],
   "note": "Refuted (finding): a map whose lumps run into the end of the directory is reported even when required lumps are missing. C13_missing_only_at_end proves this is the only way."
  },
  {
   "property": "C14",
   "status": "partial",
   "theorems": [
    "C14_last_index_refuted",
    "C14_last_index_exact"
   ],
   "note": "Refuted (finding): last_index is one past the map's last lump unless the directory ends there. C14_last_index_exact gives the exact value."
  },
  {
   "property": "C15",
   "status": "proved",
   "theorems": [
    "C15_to_archive",
    "C15_panics"
   ],
   "note": ""
  },
  {
   "property": "C16",
   "status": "proved",
   "theorems": [
    "C16_some",
    "C16_none",
    "C16_agrees_with_bare"
   ],
   "note": ""
  },
  {
   "property": "C17",
   "status": "proved",
   "theorems": [
    "C17_archive_parse"
   ],
   "note": ""
  },
  {
   "property": "C18",
   "status": "proved",
   "theorems": [
    "C18_marker_recognition",
    "C18_recognised_in_range"
   ],
   "note": ""
  },
  {
   "property": "C19",
   "status": "proved",
   "theorems": [
    "C19_print_parse"
   ],
   "note": ""
  },
  {
   "property": "C20",
   "status": "proved",
   "theorems": [
    "C20_vertexes",
    "C20_doom_lines",
    "C20_hexen_lines",
    "C20_doom_things",
    "C20_hexen_things"
   ],
   "note": ""
  },
  {
   "property": "C21",
   "status": "proved",
   "theorems": [
    "C21_sidedefs",
    "C21_sectors"
   ],
   "note": ""
  },
  {
   "property": "C22",
   "status": "proved",
   "theorems": [
    "C22_write_parse_things",
    "C22_write_parse_lines",
    "C22_write_parse_vertexes",
    "C22_write_parse_sides",
    "C22_write_parse_sectors"
   ],
   "note": ""
  },
  {
   "property": "C23",
   "status": "proved",
   "theorems": [
    "C23_parse_write_things",
    "C23_parse_write_lines",
    "C23_parse_write_vertexes",
    "C23_parse_write_sides",
    "C23_parse_write_sectors"
   ],
   "note": ""
  },
  {
   "property": "C24",
   "status": "proved",
   "theorems": [
    "C24_ok",
    "C24_missing",
    "C24_panics"
   ],
   "note": ""
  },
  {
   "property": "C25",
   "status": "proved",
   "theorems": [
    "C25_reported_maps_parse"
   ],
   "note": ""
  },
  {
   "property": "C26",
   "status": "proved",
   "theorems": [
    "C26_texturex_exact",
    "C26_negative_offset"
   ],
   "note": ""
  },
  {
   "property": "C27",
   "status": "partial",
   "theorems": [
    "C27_no_panic_refuted",
    "C27_panics_iff"
   ],
   "note": "Refuted (finding): an offset past the end of the lump panics (slice out of range). C27_panics_iff says exactly when."
  },
  {
   "property": "C28",
   "status": "proved",
   "theorems": [
    "C28_valid_output"
   ],
   "note": ""
  },
  {
   "property": "C29",
   "status": "proved",
   "theorems": [
    "C29_flipped_content",
    "C29_negation",
    "C29_maps_unique"
   ],
   "note": ""
  },
  {
   "property": "C30",
   "status": "proved",
   "theorems": [
    "C30_flip_twice"
   ],
   "note": ""
  },
  {
   "property": "C31",
   "status": "proved",
   "theorems": [
    "C31_succeeds",
    "C31_errors",
    "C31_panics",
    "C31_checked_negations_exact"
   ],
   "note": ""
  },
  {
   "property": "C32",
   "status": "proved",
   "theorems": [
    "C32_from_bare",
    "C32_parsed_maps_valid"
   ],
   "note": ""
  },
  {
   "property": "C33",
   "status": "proved",
   "theorems": [
    "C33_line_predicates"
   ],
   "note": ""
  },
  {
   "property": "C34",
   "status": "proved",
   "theorems": [
    "C34_bound_lines",
    "C34_side_sectors"
   ],
   "note": ""
  },
  {
   "property": "C35",
   "status": "proved",
   "theorems": [
    "C35_bbox_tight",
    "C35_bbox_empty"
   ],
   "note": ""
  },
  {
   "property": "C36",
   "status": "proved",
   "theorems": [
    "C36_player_start"
   ],
   "note": ""
  },
  {
   "property": "C37",
   "status": "proved",
   "theorems": [
    "C37_outlines"
   ],
   "note": ""
  },
  {
   "property": "C38",
   "status": "proved",
   "theorems": [
    "C38_outlines"
   ],
   "note": ""
  },
  {
   "property": "C39",
   "status": "proved",
   "theorems": [
    "C39_reports",
    "C39_panics"
   ],
   "note": ""
  },
  {
   "property": "C40",
   "status": "proved",
   "theorems": [
    "C40_lookup",
    "C40_unique"
   ],
   "note": ""
  },
  {
   "property": "C41",
   "status": "proved",
   "theorems": [
    "C41_segments"
   ],
   "note": ""
  },
  {
   "property": "C42",
   "status": "proved",
   "theorems": [
    "C42_bbox",
    "C42_empty"
   ],
   "note": ""
  },
  {
   "property": "C43",
   "status": "proved",
   "theorems": [
    "C43_set_clockwise",
    "C43_set_counterclockwise",
    "C43_change",
    "C43_orientation",
    "C43_reversed"
   ],
   "note": ""
  },
  {
   "property": "C44",
   "status": "partial",
   "theorems": [
    "C44_refuted",
    "C44_fixed_points"
   ],
   "note": "Refuted (finding): add() does not reset the cached orientation, so clockwise() can report the orientation of earlier points. C44_fixed_points: for integer contours of non-zero area it is right through every history without add()."
  },
  {
   "property": "C45",
   "status": "proved",
   "theorems": [
    "C45_area"
   ],
   "note": ""
  },
  {
   "property": "C46",
   "status": "proved",
   "theorems": [
    "C46_overlap"
   ],
   "note": ""
  },
  {
   "property": "C47",
   "status": "proved",
   "theorems": [
    "C47_new"
   ],
   "note": ""
  },
  {
   "property": "C48",
   "status": "proved",
   "theorems": [
    "C48_insert",
    "C48_remove",
    "C48_insert_neighbors",
    "C48_remove_neighbors",
    "C48_previous",
    "C48_history"
   ],
   "note": ""
  },
  {
   "property": "C49",
   "status": "proved",
   "theorems": [
    "C49_value",
    "C49_total_preorder",
    "C49_doubles_refuted"
   ],
   "note": ""
  },
  {
   "property": "C50",
   "status": "proved",
   "theorems": [
    "C50_antisymmetric",
    "C50_bottom_to_top",
    "C50_doubles_refuted",
    "C50_transitive_refuted"
   ],
   "note": ""
  },
  {
   "property": "C51",
   "status": "proved",
   "theorems": [
    "C51_std_laws_hold",
    "C51_sources"
   ],
   "note": ""
  },
  {
   "property": "C52",
   "status": "proved",
   "theorems": [
    "C52_neighbors"
   ],
   "note": ""
  },
  {
   "property": "C53",
   "status": "proved",
   "theorems": [
    "C53_holes"
   ],
   "note": ""
  },
  {
   "property": "C54",
   "status": "proved",
   "theorems": [
    "C54_vertices"
   ],
   "note": ""
  },
  {
   "property": "C55",
   "status": "partial",
   "theorems": [
    "C55_refuted",
    "C55_ignored"
   ],
   "note": "Refuted (finding): the operation argument is never read; two rectangles apart have a non-empty intersection (C55_refuted), every operation gives the same result (C55_ignored)."
  },
  {
   "property": "C56",
   "status": "proved",
   "theorems": [
    "C56_tracing_finishes",
    "C56_fuel_irrelevant"
   ],
   "note": ""
  },
  {
   "property": "C57",
   "status": "proved",
   "theorems": [
    "C57_hole_forest"
   ],
   "note": ""
  },
  {
   "property": "C58",
   "status": "proved",
   "theorems": [
    "C58_queue"
   ],
   "note": ""
  },
  {
   "property": "C59",
   "status": "proved",
   "theorems": [
    "C59_start",
    "C59_flood",
    "C59_ends",
    "C59_route"
   ],
   "note": ""
  },
  {
   "property": "C60",
   "status": "proved",
   "theorems": [
    "C60_dilation"
   ],
   "note": ""
  },
  {
   "property": "C61",
   "status": "partial",
   "theorems": [
    "C61_wrong_magic_reported_refuted",
    "C61_never_invalid_magic",
    "C61_simple_errors_would_report"
   ],
   "note": "Refuted (finding): with nom's verbose-errors feature (enabled in Cargo.toml) return_error! yields a list context, so InvalidMagic is never produced; with simple errors it would be produced exactly for wrong magics."
  },
  {
   "property": "C62",
   "status": "partial",
   "theorems": [
    "C62_prints_as_original_refuted",
    "C62_prints_as_original_iff"
   ],
   "note": "Refuted (finding): u8::from_str accepts a plus sign, so MAP+5 is recognised as map 5 and prints as MAP05. C62_prints_as_original_iff says exactly which names print as themselves."
  },
  {
   "property": "C63",
   "status": "proved",
   "theorems": [
    "C63_loops"
   ],
   "note": ""
  },
  {
   "property": "C64",
   "status": "proved",
   "theorems": [
    "C64_resume"
   ],
   "note": ""
  },
  {
   "property": "C65",
   "status": "proved",
   "theorems": [
    "C65_loops"
   ],
   "note": ""
  },
  {
   "property": "C66",
   "status": "partial",
   "theorems": [
    "C66_visible_refuted",
    "C66_middle_height_refuted",
    "C66_visible_when"
   ],
   "note": "Refuted (finding): when the back ceiling is higher the front side's upper texture is counted instead of the back side's, and middle textures are measured from the lower floor. C66_visible_when gives the case where the report is right."
  },
  {
   "property": "C67",
   "status": "proved",
   "theorems": [
    "C67_next"
   ],
   "note": ""
  },
  {
   "property": "C68",
   "status": "proved",
   "theorems": [
    "C68_crossing"
   ],
   "note": ""
  },
  {
   "property": "C69",
   "status": "partial",
   "theorems": [
    "C69_refuted"
   ],
   "note": "Refuted (finding): two triangles, each a proper polygon with small integer coordinates, make contour tracing run out of endpoints and panic."
  },
  {
   "property": "C70",
   "status": "partial",
   "theorems": [
    "C70_refuted"
   ],
   "note": "Refuted (finding): when the left end of the first segment is not itself included the trace starts at the wrong endpoint, giving contours whose first edge (even whose only vertex) is not on any input edge. C54_vertices proves all other edges are right."
  },
  {
   "property": "C71",
   "status": "partial",
   "theorems": [
    "C71_refuted"
   ],
   "note": "Refuted (finding): two triangles that touch in one point; the second is reported as lying in both."
  },
  {
   "property": "C73",
   "status": "partial",
   "theorems": [
    "C73_refuted"
   ],
   "note": "Refuted (finding): contours are seeded by bounding box, so a room in whose angle the player's room lies gets distance 1 and the player's own room a later number. The true characterisation is C59 (reached)."
  },
  {
   "property": "C74",
   "status": "partial",
   "theorems": [
    "C74_refuted",
    "C74_completes"
   ],
   "note": "Refuted (finding): a contour in no sector whose first line blocks the player leaves no floor height to take the maximum of, and the unwrap panics. C74_completes proves it whenever every contour lies in a sector."
  },
  {
   "property": "C75",
   "status": "proved",
   "theorems": [
    "C75_chart"
   ],
   "note": ""
  },
  {
   "property": "C76",
   "status": "proved",
   "theorems": [
    "C76_view",
    "C76_view_empty"
   ],
   "note": ""
  },
  {
   "property": "C77",
   "status": "partial",
   "theorems": [
    "C77_refuted"
   ],
   "note": "Refuted (finding): the view box is computed from vertices only; a thing outside them is not visible. C76 states what the view is."
  },
  {
   "property": "C78",
   "status": "proved",
   "theorems": [
    "C78_bare_chart",
    "C78_parsed",
    "C78_hexen_classes",
    "C78_doom_classes"
   ],
   "note": ""
  },
  {
   "property": "C79",
   "status": "partial",
   "theorems": [
    "C79_refuted"
   ],
   "note": "Refuted (finding): i16 overflow in the width. C78 gives the exact condition under which the chart is right."
  },
  {
   "property": "C80",
   "status": "proved",
   "theorems": [
    "C80_none",
    "C80_first_map",
    "C80_error"
   ],
   "note": ""
  },
  {
   "property": "C81",
   "status": "partial",
   "theorems": [
    "C81_refuted",
    "C81_never_green"
   ],
   "note": "Refuted (finding): the actor table has no PlayerStart entry, so starts are gray; proved that nothing is ever drawn in green."
  },
  {
   "property": "C82",
   "status": "proved",
   "theorems": [
    "C82_apart",
    "C82_in_line"
   ],
   "note": ""
  },
  {
   "property": "C83",
   "status": "partial",
   "theorems": [
    "C83_crossing_refuted",
    "C83_apart_refuted",
    "C83_opposite_refuted"
   ],
   "note": "Refuted (finding): near-parallel crossings are missed, parallel segments a unit apart reported as overlapping, and collinear segments of opposite directions sharing an end reported as disjoint. C68 and C82 prove the cases in which it is right."
  },
  {
   "property": "C84",
   "status": "proved",
   "theorems": [
    "C84_disjoint",
    "C84_meet",
    "C84_overlap",
    "C84_same_polygon"
   ],
   "note": ""
  },
  {
   "property": "C85",
   "status": "proved",
   "theorems": [
    "C85_bbox",
    "C85_touches"
   ],
   "note": ""
  },
  {
   "property": "C86",
   "status": "proved",
   "theorems": [
    "C86_outlines"
   ],
   "note": ""
  },
  {
   "property": "C87",
   "status": "partial",
   "theorems": [
    "C87_next_refuted",
    "C87_outlines_refuted"
   ],
   "note": "Refuted (finding): the rounded cosines of two nearly equal directions tie and the first candidate is kept, for lines from about 7600 units. C67 and C86 prove that the leftmost turn is taken for lines up to 4000 units."
  },
  {
   "property": "C88",
   "status": "proved",
   "theorems": [
    "C88_drawing",
    "C88_only",
    "C88_hues",
    "C88_distinct",
    "C88_view",
    "C88_view_empty"
   ],
   "note": ""
  },
  {
   "property": "C89",
   "status": "partial",
   "theorems": [
    "C89_refuted",
    "C89_never_red"
   ],
   "note": "Refuted (finding): distances start at 0 and only grow, so the branch for -1 is never taken; contours that are not reached are dark red (C88) and none is ever red."
  },
  {
   "property": "C90",
   "status": "partial",
   "theorems": [
    "C90_refuted",
    "C90_route_refuted"
   ],
   "note": "Refuted (finding): the parent of a hole is the contour to the left of the segment below, which is the hole below if there is one. Such holes are not drawn and what is inside them is not reached."
  },
  {
   "property": "C91",
   "status": "proved",
   "theorems": [
    "C91_route",
    "C91_cases"
   ],
   "note": ""
  },
  {
   "property": "C92",
   "status": "proved",
   "theorems": [
    "C92_info",
    "C92_determined"
   ],
   "note": ""
  },
  {
   "property": "C93",
   "status": "partial",
   "theorems": [
    "C93_refuted",
    "C93_single"
   ],
   "note": "Refuted (finding): with both TEXTURE1 and TEXTURE2 only the new textures of TEXTURE1 are listed. C93_single proves it for WADs with at most one of the lumps."
  },
  {
   "property": "C94",
   "status": "proved",
   "theorems": [
    "C94_same",
    "C94_reference"
   ],
   "note": ""
  },
  {
   "property": "C95",
   "status": "proved",
   "theorems": [
    "C95_sides",
    "C95_faces",
    "C95_finishes",
    "C95_sort_free"
   ],
   "note": ""
  },
  {
   "property": "C96",
   "status": "proved",
   "theorems": [
    "C96_completes",
    "C96_covers"
   ],
   "note": ""
  },
  {
   "property": "C97",
   "status": "proved",
   "theorems": [
    "C97_directions"
   ],
   "note": ""
  },
  {
   "property": "C98",
   "status": "proved",
   "theorems": [
    "C98_regions",
    "C98_places"
   ],
   "note": ""
  },
  {
   "property": "C99",
   "status": "proved",
   "theorems": [
    "C99_sides",
    "C99_from"
   ],
   "note": ""
  },
  {
   "property": "C100",
   "status": "proved",
   "theorems": [
    "C100_neighbours"
   ],
   "note": ""
  },
  {
   "property": "C101",
   "status": "proved",
   "theorems": [
    "C101_nesting",
    "C101_reference"
   ],
   "note": ""
  },
  {
   "property": "C102",
   "status": "partial",
   "theorems": [
    "C102_joined_refuted"
   ],
   "note": "Refuted (finding): of two squares above each other with a common edge, listed from top to bottom, the upper becomes a hole of the lower. C101 proves it for contours that touch only in corners."
  },
  {
   "property": "C103",
   "status": "proved",
   "theorems": [
    "C103_episodes",
    "C103_numbers",
    "C103_injective"
   ],
   "note": ""
  },
  {
   "property": "C104",
   "status": "proved",
   "theorems": [
    "C104_area",
    "C104_length",
    "C104_straight"
   ],
   "note": ""
  },
  {
   "property": "C105",
   "status": "proved",
   "theorems": [
    "C105_quarters"
   ],
   "note": ""
  },
  {
   "property": "C106",
   "status": "partial",
   "theorems": [
    "C106_refuted"
   ],
   "note": "Refuted (finding): a crossing at height 1 is reported at 0.9999999999999999; the rounding of almost-integers only catches results slightly above an integer."
  },
  {
   "property": "C107",
   "status": "proved",
   "theorems": [
    "C107_calls",
    "C107_usage",
    "C107_saves"
   ],
   "note": ""
  },
  {
   "property": "C108",
   "status": "partial",
   "theorems": [
    "C108_refuted",
    "C108_always"
   ],
   "note": "Refuted (finding): every run that reports an error ends with status 0."
  },
  {
   "property": "C109",
   "status": "partial",
   "theorems": [
    "C109_refuted",
    "C109_always"
   ],
   "note": "Refuted (finding): flip is not declared to clap, so no call ever writes a flipped WAD."
  },
  {
   "property": "C110",
   "status": "partial",
   "theorems": [
    "C110_refuted",
    "C110_always"
   ],
   "note": "Refuted (finding): chart and route panic when the output cannot be written."
  },
  {
   "property": "C111",
   "status": "proved",
   "theorems": [
    "C111_rooms"
   ],
   "note": ""
  },
  {
   "property": "C112",
   "status": "proved",
   "theorems": [
    "C112_fill"
   ],
   "note": ""
  },
  {
   "property": "C113",
   "status": "partial",
   "theorems": [
    "C113_only_the_sector_refuted"
   ],
   "note": "Refuted (finding): a room inside a secret room is filled as secret too when its lines face inwards."
  },
  {
   "property": "C114",
   "status": "proved",
   "theorems": [
    "C114_split"
   ],
   "note": ""
  },
  {
   "property": "C115",
   "status": "proved",
   "theorems": [
    "C115_pieces"
   ],
   "note": ""
  },
  {
   "property": "C116",
   "status": "partial",
   "theorems": [
    "C116_all_swept_refuted"
   ],
   "note": "Refuted (finding): three small integer triangles leave an edge in the sweep line; compute then panics."
  },
  {
   "property": "C117",
   "status": "proved",
   "theorems": [
    "C117_turns",
    "C117_determined"
   ],
   "note": ""
  },
  {
   "property": "C118",
   "status": "proved",
   "theorems": [
    "C118_order_free"
   ],
   "note": ""
  },
  {
   "property": "C119",
   "status": "proved",
   "theorems": [
    "C119_ascending"
   ],
   "note": ""
  },
  {
   "property": "C120",
   "status": "proved",
   "theorems": [
    "C120_parent"
   ],
   "note": ""
  },
  {
   "property": "C121",
   "status": "proved",
   "theorems": [
    "C121_again",
    "C121_beside"
   ],
   "note": ""
  },
  {
   "property": "C122",
   "status": "partial",
   "theorems": [
    "C122_refuted"
   ],
   "note": "Refuted (finding): a square with a square hole and, below the hole, a bar in mode RemoveEdges; compute panics (unwrap of a contour id that removed edges do not have), though it completes if the bar's mode is Normal."
  },
  {
   "property": "C123",
   "status": "partial",
   "theorems": [
    "C123_refuted"
   ],
   "note": "Refuted (finding): (0,0)(2,0)(0,1), (1,1)(1,-1)(0,0), (1,-1)(1,3)(-2,1), (-2,3)(2,-1)(-1,-1): after 52 events the sweep repeats four events for ever, adding four segments each time. Proved by an invariant over the whole infinite run."
  },
  {
   "property": "C124",
   "status": "proved",
   "theorems": [
    "C124_cut"
   ],
   "note": ""
  },
  {
   "property": "C125",
   "status": "proved",
   "theorems": [
    "C125_completes",
    "C125_covers",
    "C125_places"
   ],
   "note": ""
  },
  {
   "property": "C126",
   "status": "proved",
   "theorems": [
    "C126_directions",
    "C126_regions",
    "C126_sides",
    "C126_neighbours",
    "C126_turns"
   ],
   "note": ""
  },
  {
   "property": "C127",
   "status": "proved",
   "theorems": [
    "C127_order_free"
   ],
   "note": ""
  },
  {
   "property": "C128",
   "status": "partial",
   "theorems": [
    "C128_refuted"
   ],
   "note": "Refuted (finding): the rectangles (0,31)-(2,32), (0,0)-(1,39), (1,31)-(2,32); compute panics, whatever the operation, though it completes for any two of them."
  },
  {
   "property": "C129",
   "status": "proved",
   "theorems": [
    "C129_cut",
    "C129_covers",
    "C129_crossable"
   ],
   "note": ""
  },
  {
   "property": "C130",
   "status": "partial",
   "theorems": [
    "C130_refuted"
   ],
   "note": "Refuted (finding): the overlay of two rectangles with integer corners has the corner (0, 14.999999999999998); only coordinates just above an integer are rounded to it."
  },
  {
   "property": "C131",
   "status": "proved",
   "theorems": [
    "C131_covers",
    "C131_crossable"
   ],
   "note": ""
  },
  {
   "property": "C132",
   "status": "proved",
   "theorems": [
    "C132_parent",
    "C132_again"
   ],
   "note": ""
  },
  {
   "property": "C133",
   "status": "proved",
   "theorems": [
    "C133_reordered"
   ],
   "note": ""
  },
  {
   "property": "C134",
   "status": "proved",
   "theorems": [
    "C134_cut",
    "C134_covers",
    "C134_crossable",
    "C134_upright"
   ],
   "note": ""
  },
  {
   "property": "C135",
   "status": "partial",
   "theorems": [
    "C135_refuted"
   ],
   "note": "Refuted (finding): C135_refuted gives polygons that touch in one corner of one of them and make compute panic; positive counterparts: C124, C134 (a second edge comes from the left to each point cut)."
  },
  {
   "property": "C136",
   "status": "proved",
   "theorems": [
    "C136_divides",
    "C136_counts",
    "C136_removes",
    "C136_rects"
   ],
   "note": ""
  },
  {
   "property": "C137",
   "status": "proved",
   "theorems": [
    "C137_covers",
    "C137_crossable",
    "C137_areas"
   ],
   "note": ""
  },
  {
   "property": "C138",
   "status": "proved",
   "theorems": [
    "C138_rooms",
    "C138_loaded"
   ],
   "note": ""
  },
  {
   "property": "C139",
   "status": "proved",
   "theorems": [
    "C139_order_free"
   ],
   "note": ""
  },
  {
   "property": "C140",
   "status": "proved",
   "theorems": [
    "C140_tidy",
    "C140_crossing"
   ],
   "note": ""
  },
  {
   "property": "C141",
   "status": "partial",
   "theorems": [
    "C141_refuted"
   ],
   "note": "Refuted (finding): three rectangles on which compute panics, but not once they are moved up by 2; positive counterpart: C140."
  },
  {
   "property": "C142",
   "status": "proved",
   "theorems": [
    "C142_skewed",
    "C142_crossing"
   ],
   "note": ""
  },
  {
   "property": "C143",
   "status": "proved",
   "theorems": [
    "C143_beside",
    "C143_crossing"
   ],
   "note": ""
  },
  {
   "property": "C144",
   "status": "proved",
   "theorems": [
    "C144_copies"
   ],
   "note": ""
  },
  {
   "property": "C145",
   "status": "proved",
   "theorems": [
    "C145_joined"
   ],
   "note": ""
  }
 ]
}