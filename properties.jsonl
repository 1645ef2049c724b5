{"id": "C01", "title": "parse_wad never panics", "statement": "parse_wad called on any byte slice returns Ok or Err; it never indexes out of range, overflows or hits another panic, including in the error-reporting path (nom_to_result prints the first byte of the failing position).", "quantifier": "every finite byte buffer (64-bit usize)", "why_tests_cant": "The input space is all byte strings; a crash may hide behind any combination of length, offset and count.", "anchors": ["src/parse/wad.rs: parse_wad, wad_header, wad_directory, wad_entry", "src/errors.rs: nom_to_result"]}
{"id": "C02", "title": "parse_wad accepts exactly the well-formed WADs and decodes them faithfully", "statement": "parse_wad succeeds if and only if the buffer has at least 12 bytes, starts with IWAD or PWAD, its directory (numlumps x 16 bytes at infotableofs) lies inside the buffer, and every 8-byte directory name is printable ASCII up to the first NUL. On success the WAD type, numlumps, infotableofs and every directory entry (in order) are exactly the little-endian fields at their documented offsets, and the buffer is returned unchanged.", "quantifier": "every byte buffer", "why_tests_cant": "An iff over all byte strings, with all 2^32 offsets and counts.", "anchors": ["src/parse/wad.rs: parse_wad, wad_directory", "src/parse/util.rs: fixed_length_ascii"]}
{"id": "C03", "title": "Encoding a WAD and parsing it gives the same WAD back", "statement": "For any WAD type, any body bytes and any list of directory entries with 32-bit positions/sizes and names of at most 8 printable characters, the file header + body + directory laid out as WAD parses to exactly that type and that directory.", "quantifier": "every type, body and directory that fits in 32-bit offsets", "why_tests_cant": "Round-trip over unbounded lists.", "anchors": ["src/parse/wad.rs: parse_wad"]}
{"id": "C04", "title": "parse_wad classifies failures", "statement": "A buffer that ends inside the 12-byte header, or whose directory reaches past the end of the buffer, fails with TruncatedData naming the stage; a bad name byte in the directory fails with ParseError.", "quantifier": "every byte buffer that parse_wad rejects", "why_tests_cant": "Needs every rejected buffer to be considered.", "anchors": ["src/parse/wad.rs: parse_wad, wad_header", "src/errors.rs: nom_to_result", "Cargo.toml: nom features"]}
{"id": "C05", "title": "Every name handed out is short printable ASCII", "statement": "Every string produced from untrusted bytes (directory names, side/sector texture names, TEXTUREx names) is at most 8 bytes long and consists only of bytes 32..126; hence it is valid UTF-8 and the unchecked conversion is sound, and it equals the field cut at its first NUL.", "quantifier": "every byte buffer and every string returned by any of the parsers", "why_tests_cant": "Memory-safety of from_utf8_unchecked depends on all inputs, not samples.", "anchors": ["src/parse/util.rs: fixed_length_ascii", "src/parse/map.rs: sidedefs_lump, sectors_lump", "src/parse/texturex.rs"]}
{"id": "C06", "title": "Lump extraction returns exactly the described bytes or panics", "statement": "entry_slice / extract_slice return exactly size bytes of the buffer starting at filepos when filepos+size is within the buffer; otherwise they panic. parse_wad's success does not imply that extraction is safe.", "quantifier": "every buffer, entry and index", "why_tests_cant": "All 2^64 position/size pairs; the second half is a statement about what parsing does not check.", "anchors": ["src/archive/wad.rs: BareWAD::entry_slice, BareWADDirectoryEntry::extract_slice"]}
{"id": "C07", "title": "first_entry finds the first lump of that name", "statement": "BareWAD::first_entry(name) is None iff no directory entry has that name; otherwise it is the data of the lowest-numbered entry with that name (later duplicates are ignored).", "quantifier": "every WAD and every name", "why_tests_cant": "Names can repeat arbitrarily; quantifies over all directories.", "anchors": ["src/archive/wad.rs: BareWAD::first_entry"]}
{"id": "C08", "title": "iter_entries_between yields exactly the entries inside marker sections", "statement": "iter_entries_between(begin,end) with begin<>end yields, in directory order and each once, exactly the entries k that are not named end and for which some earlier entry is named begin with no entry named end in between (so repeated sections are concatenated, an unterminated section runs to the end of the directory, and a repeated begin inside a section is itself yielded); with begin=end the sections alternate. Each yielded item carries the entry's name and data.", "quantifier": "every directory, every pair of marker names", "why_tests_cant": "Interleavings of repeated/nested/unterminated markers are unbounded.", "anchors": ["src/archive/wad.rs: BareWADBetweenIterator::next, iter_entries_between"]}
{"id": "C09", "title": "iter reports each directory entry once and in order", "statement": "Collecting iter() gives items whose directory index ranges are consecutive and start at entry 0: no entry is skipped, duplicated or reordered before the point where iteration stops.", "quantifier": "every directory", "why_tests_cant": "Statement about all directories of all lengths.", "anchors": ["src/archive/wad.rs: WADIterator::next, BareWAD::iter"]}
{"id": "C10", "title": "iter reaches the end unless it meets a broken map", "statement": "iter() covers the whole directory iff no map marker in it starts a broken map; it stops early exactly at the first map marker which is the last entry of the directory or whose following lumps miss a required lump (THINGS, LINEDEFS, SIDEDEFS, VERTEXES, SECTORS) before the directory ends; everything after that point is silently not reported.", "quantifier": "every directory", "why_tests_cant": "The stop condition depends on arbitrary lump sequences.", "anchors": ["src/archive/wad.rs: WADIterator::next, MAP_LUMP_ORDER"]}
{"id": "C11", "title": "Map blocks point at the right lumps", "statement": "In every map block reported by iter/iter_maps, the marker index names a vanilla map marker, each lump index that is set is in range and names the lump it claims to be, the set indices are consecutive starting right after the marker, and follow the canonical lump order.", "quantifier": "every directory, every reported map", "why_tests_cant": "All directories, all lump subsets.", "anchors": ["src/archive/wad.rs: WADIterator::next, WADMapEntryBlock"]}
{"id": "C12", "title": "Map format detection", "statement": "A reported map block has format Hexen iff it has a BEHAVIOR lump and Doom otherwise; UDMF is never reported (a TEXTMAP map ends the iteration) and textmap is never set.", "quantifier": "every directory, every reported map", "why_tests_cant": "All lump sequences.", "anchors": ["src/archive/wad.rs: WADIterator::next"]}
{"id": "C13", "title": "A reported map has all required lumps", "statement": "Every map block reported by iter has all of THINGS, LINEDEFS, SIDEDEFS, VERTEXES and SECTORS.", "quantifier": "every directory, every reported map", "why_tests_cant": "False only for a map cut short by the end of the directory, an easily missed boundary.", "anchors": ["src/archive/wad.rs: WADIterator::next (FIXME line 425)"]}
{"id": "C14", "title": "last_index is the map's last lump", "statement": "last_index of a reported map block is the index of the last lump belonging to that map.", "quantifier": "every directory, every reported map", "why_tests_cant": "Depends on what follows the map in the directory.", "anchors": ["src/archive/wad.rs: WADIterator::next (range.last_index = i)"]}
{"id": "C15", "title": "to_archive copies every reported item", "statement": "to_archive succeeds iff every lump of every reported map and every reported plain entry lies inside the buffer (it panics otherwise); its contents are the reported maps and plain entries in order, with names and data copied exactly, map lumps in namespace Map, other entries in namespace Unknown, _START/_END markers dropped, and the WAD type kept.", "quantifier": "every WAD", "why_tests_cant": "All directories and buffers.", "anchors": ["src/archive/wad.rs: WADArchive::from_bare, BareWAD::to_archive"]}
{"id": "C16", "title": "WADArchive::first_entry ignores maps and markers", "statement": "WADArchive::first_entry(name) is the first plain (non-map, non-marker) entry of that name, None if there is none; when the name is no map lump/marker name it agrees with BareWAD::first_entry.", "quantifier": "every archive, every name", "why_tests_cant": "Quantifies over archives with repeated names.", "anchors": ["src/archive/wad.rs: WADArchive::first_entry"]}
{"id": "C17", "title": "Parsing a map from the archive equals parsing it from the WAD", "statement": "For every map reported by iter, parse_doom_map on the bare WAD and parse_doom_map_from_archive on the corresponding archive map block return the same result.", "quantifier": "every WAD for which to_archive succeeds, every reported map", "why_tests_cant": "Two independent code paths must agree on every input.", "anchors": ["src/parse/map.rs: parse_doom_map, parse_doom_map_from_archive", "src/archive/wad.rs: from_bare"]}
{"id": "C18", "title": "Map marker recognition", "statement": "A lump name is recognised as a map marker iff it is E<digit>M<digit> or MAP followed by two characters that denote a number 1..32 (two digits, or a plus sign and a digit); the recognised episode/map numbers are the denoted ones.", "quantifier": "every byte string", "why_tests_cant": "All byte strings, including non-ASCII and too long/short ones.", "anchors": ["src/parse/mod.rs: vanilla_map_name, exmy_map_name, mapxx_map_name"]}
{"id": "C19", "title": "Printing and parsing map names", "statement": "Printing ExMy (digits 0-9) or MAPxx (1-32) and parsing gives the same map name back.", "quantifier": "every valid MapName", "why_tests_cant": "Round trip over the whole domain.", "anchors": ["src/map.rs: Display for MapName", "src/parse/mod.rs: vanilla_map_name"]}
{"id": "C20", "title": "Fixed-size lumps decode record by record", "statement": "Parsing VERTEXES (4 bytes), Doom/Hexen LINEDEFS (14/16) and Doom/Hexen THINGS (10/20) never fails; it yields floor(len/size) records and the i-th record's fields are the little-endian values at offset i*size; trailing bytes are ignored.", "quantifier": "every byte buffer", "why_tests_cant": "All buffers and all lengths.", "anchors": ["src/parse/map.rs: vertexes_lump, doom_linedefs_lump, hexen_linedefs_lump, doom_things_lump, hexen_things_lump"]}
{"id": "C21", "title": "SIDEDEFS and SECTORS decode up to the first bad name", "statement": "Parsing SIDEDEFS (30 bytes) or SECTORS (26 bytes) never fails; it yields exactly the records before the first record that is incomplete or has a texture name with a non-printable byte before its NUL, so corrupt input silently truncates the list.", "quantifier": "every byte buffer", "why_tests_cant": "All buffers; the silent truncation is only visible for malformed input.", "anchors": ["src/parse/map.rs: sidedefs_lump, sectors_lump"]}
{"id": "C22", "title": "Writing records and parsing the lump is the identity", "statement": "For every list of in-range Doom things, lines, vertices, sides and sectors (texture names at most 8 printable characters), the concatenation of write_to outputs parses to exactly that list.", "quantifier": "every list of records", "why_tests_cant": "Round trip over unbounded lists.", "anchors": ["src/parse/map.rs: write_to of BareDoomThing, BareDoomLine, BareSide, BareVertex, BareSector"]}
{"id": "C23", "title": "Parsing a lump and writing it reproduces the bytes", "statement": "For THINGS, LINEDEFS and VERTEXES, writing the parsed records reproduces the lump up to its last complete record, byte for byte; for SIDEDEFS and SECTORS it reproduces the parsed records up to the bytes after a name's NUL.", "quantifier": "every byte buffer", "why_tests_cant": "All buffers.", "anchors": ["src/parse/map.rs: *_lump parsers and write_to"]}
{"id": "C24", "title": "parse_doom_map outcome", "statement": "parse_doom_map fails with MissingMapLump naming the first missing lump in the order VERTEXES, SECTORS, SIDEDEFS, LINEDEFS, THINGS and otherwise returns a Doom map for format Doom and a Hexen map for every other format whose lists are the decodings of the respective lumps; the only panic is a lump outside the buffer.", "quantifier": "every WAD and map block", "why_tests_cant": "All blocks (any subset of lumps) and buffers.", "anchors": ["src/parse/map.rs: parse_doom_map"]}
{"id": "C25", "title": "Reported maps with lumps in bounds parse", "statement": "If a WAD parses and all its lumps are in bounds, parse_doom_map of every reported map with all five required lumps returns Ok, never an error or panic.", "quantifier": "every WAD, every reported map", "why_tests_cant": "End-to-end over the parser, iterator and lump decoders.", "anchors": ["src/parse/map.rs: parse_doom_map", "src/archive/wad.rs: iter_maps"]}
{"id": "C26", "title": "parse_texturex_names decodes every texture", "statement": "parse_texturex_names returns Ok iff the count and offset table are complete, every offset is non-negative, and 22 bytes with a printable name exist at every offset; entry i then carries the name, width and height stored at offset i. A negative offset yields NegativeOffset with its position and value.", "quantifier": "every byte buffer", "why_tests_cant": "All offsets and tables.", "anchors": ["src/parse/texturex.rs: parse_texturex_names"]}
{"id": "C27", "title": "parse_texturex_names never panics", "statement": "parse_texturex_names returns Ok or Err on every byte slice.", "quantifier": "every byte buffer", "why_tests_cant": "Fails only for an offset past the end of the lump.", "anchors": ["src/parse/texturex.rs: parse_texturex_names line 46"]}
{"id": "C28", "title": "The flip command writes a valid WAD", "statement": "Whenever flip succeeds (and the output is below 4 GiB), the bytes it writes parse as a PWAD whose directory has six entries per Doom-format map (marker, THINGS, LINEDEFS, SIDEDEFS, VERTEXES, SECTORS), with every lump inside the file, before the directory, and non-overlapping.", "quantifier": "every input WAD", "why_tests_cant": "End-to-end over the encoder and parser, unbounded map lists.", "anchors": ["programs/src/idchoppers.rs: do_flip"]}
{"id": "C29", "title": "The flip command flips exactly what it should", "statement": "Re-reading flip's output gives the Doom-format maps of the input, in order and under the same marker names, with every thing's y and angle and every vertex's y negated, every line's two vertices swapped, and all other fields unchanged; Hexen maps are dropped.", "quantifier": "every input WAD", "why_tests_cant": "End-to-end semantic property of a whole program run.", "anchors": ["programs/src/idchoppers.rs: do_flip"]}
{"id": "C30", "title": "Flipping twice gives the same maps", "statement": "When flip succeeds, its output can be read and flipped again; the maps in that second output are equal, item by item, to the Doom-format maps of the input, and flipping a third time gives, byte for byte, the file of the first flip.", "quantifier": "every input WAD on which flip succeeds with an output under 4 GiB, in both build modes", "why_tests_cant": "Involution over all maps.", "anchors": ["programs/src/idchoppers.rs: do_flip"]}
{"id": "C31", "title": "Flip fails only for missing lumps, out-of-bounds lumps or -32768", "statement": "flip never panics on negation unless some thing y/angle or vertex y of a Doom-format map is -32768 (in overflow-checked builds); unchecked builds leave such a value unchanged.", "quantifier": "every input WAD, both build modes", "why_tests_cant": "Single-value boundary in three fields over all maps.", "anchors": ["programs/src/idchoppers.rs: do_flip lines 527-528, 563"]}
{"id": "C32", "title": "Map::from_bare preserves the map", "statement": "Map::from_bare succeeds on every Doom-format bare map and keeps the number and order of sectors, vertices, sides, lines and things; coordinates are exact; heights keep their value; tags, specials and flags are sign-extended; light keeps its low 8 bits; side index -1 (and only -1) becomes no side; line i has index i.", "quantifier": "every bare Doom map", "why_tests_cant": "All field values (2^16 each) and all list lengths.", "anchors": ["src/map.rs: Map::from_bare, iter_lines, iter_sectors, iter_things"]}
{"id": "C33", "title": "Line predicates agree with the bare data", "statement": "is_one_sided holds iff exactly one side is -1, is_two_sided iff none is; has_special iff the bare special is non-zero; blocks_player iff bit 0 of the bare flags is set.", "quantifier": "every bare line", "why_tests_cant": "All 16-bit values including negatives.", "anchors": ["src/map.rs: Line::is_one_sided, is_two_sided, has_special, blocks_player"]}
{"id": "C34", "title": "Handles resolve exactly when the bare indices are valid", "statement": "For a Map built from a bare map, line.start/end/front/back and the side's sector lookup return the element with the bare index and panic iff that index is negative (other than -1 for sides) or not below the count.", "quantifier": "every bare map and every line", "why_tests_cant": "All index values.", "anchors": ["src/map.rs: BoundLine::start,end,front,back; Map::vertex, side, sector"]}
{"id": "C35", "title": "Map::bbox is the tight bounding box", "statement": "Map::bbox of a map with vertices contains every vertex and each of its four sides touches a vertex; of a map without vertices it is the zero rectangle.", "quantifier": "every map", "why_tests_cant": "All vertex lists.", "anchors": ["src/map.rs: Map::bbox"]}
{"id": "C36", "title": "find_player_start finds the first player-1 start", "statement": "find_player_start is the position of the first thing with type 1, None iff there is none.", "quantifier": "every map", "why_tests_cant": "All thing lists.", "anchors": ["src/map.rs: Map::find_player_start"]}
{"id": "C37", "title": "BareBinaryMap::sector_to_polygons lists each border vertex once", "statement": "It terminates; if all indices used are valid it does not panic; the outlines together contain each vertex that is an end of a line bordering the sector (exactly one side in it) exactly once and no other vertex; no outline is empty; consecutive vertices of an outline are joined by such a line.", "quantifier": "every bare map and sector number", "why_tests_cant": "Graph algorithm on arbitrary (even malformed) maps.", "anchors": ["src/parse/map.rs: BareBinaryMap::sector_to_polygons"]}
{"id": "C38", "title": "Map::sector_to_polygons walks border lines", "statement": "It terminates; if all indices used are valid it does not panic; every outline has at least 3 points, consecutive points are joined by a line bordering the sector, and no line side is used twice over all outlines.", "quantifier": "every map and sector number", "why_tests_cant": "Graph walk with floating-point choices on arbitrary maps.", "anchors": ["src/map.rs: Map::sector_to_polygons"]}
{"id": "C39", "title": "count_textures counts each visible texture use", "statement": "count_textures never reports '-' or a zero count; the number reported for a texture is the number of uses the code attributes to it per line (upper, lower, middle of both sides for two-sided lines, middle for one-sided ones), and lines without sides contribute nothing.", "quantifier": "every bare map without 16-bit overflow", "why_tests_cant": "Accumulation over arbitrary maps.", "anchors": ["src/parse/map.rs: BareBinaryMap::count_textures"]}
{"id": "C40", "title": "lookup_thing_type", "statement": "lookup_thing_type(n) returns an actor iff the table has one with editor number n, and that actor is unique.", "quantifier": "every 32-bit number", "why_tests_cant": "Needs all 2^32 queries and uniqueness of the table.", "anchors": ["src/universe.rs: lookup_thing_type", "src/vanilladoom.rs: DOOM2_ACTORS"]}
{"id": "C41", "title": "Contour segments form the closed cycle", "statement": "The segments of a contour with n points are exactly n: (p0,p1),(p1,p2),...,(p(n-1),p0); none for the empty contour.", "quantifier": "every contour", "why_tests_cant": "All lengths.", "anchors": ["src/shapeops.rs: Contour::iter_segments, ContourSegments::next"]}
{"id": "C42", "title": "Contour::bbox contains every point", "statement": "For a contour without NaN coordinates, the bounding box's origin is the componentwise minimum and its extent is computed from the componentwise maximum, so every point is at or right/above of the origin and at most the maximum; the empty contour has the zero box.", "quantifier": "every contour (all f64 coordinates)", "why_tests_cant": "Floating-point min/max over unbounded lists.", "anchors": ["src/shapeops.rs: Contour::bbox"]}
{"id": "C43", "title": "Orientation setters", "statement": "After set_clockwise (set_counterclockwise), clockwise() is true (false); change_orientation reverses the points and toggles the reported orientation once it has been computed; for integer coordinates reversing a contour of non-zero area flips its computed orientation.", "quantifier": "every non-empty contour", "why_tests_cant": "All point lists; interplay with the cached value.", "anchors": ["src/shapeops.rs: Contour::clockwise, change_orientation, set_clockwise, set_counterclockwise"]}
{"id": "C44", "title": "clockwise() reflects the current points", "statement": "clockwise() always equals the orientation of the contour's current points.", "quantifier": "every sequence of contour operations", "why_tests_cant": "Needs histories: the cached orientation is not invalidated by add().", "anchors": ["src/shapeops.rs: Contour::add, clockwise (_is_clockwise cache)"]}
{"id": "C45", "title": "Signed area is antisymmetric and exact on integer coordinates", "statement": "For integer coordinates of magnitude up to 2^24 triangle_signed_area is exactly the determinant: positive iff counter-clockwise, zero iff collinear, negated by swapping two points.", "quantifier": "all triples of points with bounded integer coordinates", "why_tests_cant": "Floating-point exactness over a huge domain.", "anchors": ["src/shapeops.rs: triangle_signed_area"]}
{"id": "C46", "title": "check_span_overlap", "statement": "For spans u0<=u1, v0<=v1 without NaN, check_span_overlap returns None iff they are disjoint and otherwise exactly the intersection [max(u0,v0), min(u1,v1)].", "quantifier": "all f64 quadruples", "why_tests_cant": "All doubles.", "anchors": ["src/shapeops.rs: check_span_overlap"]}
{"id": "C47", "title": "SweepSegment::new orders its endpoints", "statement": "For points without NaN: construction panics iff the points are equal; otherwise the segment has the same two endpoints, left lexicographically (x, then y) before right, and faces_outwards tells whether they were swapped.", "quantifier": "all pairs of points", "why_tests_cant": "All doubles.", "anchors": ["src/shapeops.rs: SweepSegment::new"]}
{"id": "C48", "title": "The sweep-line container behaves like an ordered set", "statement": "For any lawful total order, any sequence of SweepLine2 operations (insert, remove, insert_and_get_neighbors, remove_and_get_neighbors, get_previous) behaves like the corresponding operations on a mathematical ordered set: membership, returned neighbours (predecessor/successor) and found flags agree, and the vector stays strictly sorted.", "quantifier": "every operation sequence", "why_tests_cant": "History quantification; binary search on all lengths.", "anchors": ["src/shapeops.rs: SweepLine2"]}
{"id": "C49", "title": "Sweep events are totally ordered", "statement": "SweepEndpoint's ordering is a total preorder (antisymmetric up to ties, transitive) on segments with bounded integer coordinates; for arbitrary doubles it is not.", "quantifier": "all triples of segment endpoints", "why_tests_cant": "Transitivity over all triples.", "anchors": ["src/shapeops.rs: Ord for SweepEndpoint"]}
{"id": "C50", "title": "Segment order: antisymmetric, bottom to top", "statement": "SweepSegment's ordering satisfies cmp(a,b) = reverse(cmp(b,a)) and is never Equal for distinct segments with integer coordinates up to 2^24, and orders a segment that passes below another (where the later of the two starts) before it; with fractional coordinates, as splits produce, antisymmetry fails, and even on integers the order is not transitive on arbitrary triples.", "quantifier": "all pairs (triples) of segments", "why_tests_cant": "All pairs; counterexamples are numerically delicate.", "anchors": ["src/shapeops.rs: Ord for SweepSegment"]}
{"id": "C51", "title": "compute never returns removed interiors", "statement": "No contour returned by compute reports coming from a polygon whose mode is RemoveInterior, and every contour reports at least one originating polygon.", "quantifier": "every list of polygons and modes on which compute returns", "why_tests_cant": "Whole-algorithm invariant over all inputs.", "anchors": ["src/shapeops.rs: compute"]}
{"id": "C52", "title": "compute's neighbour relation is symmetric", "statement": "In compute's result, contour j is a neighbour of i iff i is a neighbour of j; every neighbour set has one bit per result contour; neighbours run along a common (piece of an) edge of an input polygon whose edges are kept, in opposite directions.", "quantifier": "every input on which compute returns", "why_tests_cant": "Whole-algorithm invariant.", "anchors": ["src/shapeops.rs: compute lines 1714-1728"]}
{"id": "C53", "title": "compute's hole structure is consistent", "statement": "In compute's result every hole index is a valid contour that comes no earlier than its parent, each contour is a hole of at most one contour, a contour is non-external iff it is listed as a hole, and every listed hole is clockwise.", "quantifier": "every input on which compute returns", "why_tests_cant": "Whole-algorithm invariant.", "anchors": ["src/shapeops.rs: compute lines 1698-1711"]}
{"id": "C54", "title": "compute only outputs edges of kept polygons", "statement": "Every vertex of every contour returned by compute is an end of a piece of an edge (cut at intersections) of an input polygon whose mode is not RemoveEdges, and every edge of the contour but the first is such a piece.", "quantifier": "every input on which compute returns", "why_tests_cant": "Whole-algorithm invariant through arbitrarily many splits.", "anchors": ["src/shapeops.rs: compute, is_in_result"]}
{"id": "C55", "title": "compute honours the requested boolean operation", "statement": "The result of compute depends on the operation argument (intersection, union, difference, xor give the respective point sets).", "quantifier": "all inputs and operations", "why_tests_cant": "Semantic property over all polygons.", "anchors": ["src/shapeops.rs: compute (parameter operation)"]}
{"id": "C56", "title": "Contour tracing terminates", "statement": "Everything in compute but the sweep terminates for every input: contour tracing and joining never loop, so with any bound on the number of sweep events compute fails to finish only if that many events were processed with more still queued; and its result does not depend on the bound.", "quantifier": "every set of swept segments", "why_tests_cant": "Termination over all inputs.", "anchors": ["src/shapeops.rs: compute, find_next_segment"]}
{"id": "C57", "title": "compute_holes builds a hole forest", "statement": "After compute_holes: every contour listed as a hole is non-external and vice versa, hole lists contain valid indices, each contour is a hole of at most one contour, the relation has no cycles, the points of every contour are the original points possibly reversed, external contours are counterclockwise and holes turn the other way than their parent.", "quantifier": "every polygon on which compute_holes returns", "why_tests_cant": "Whole-algorithm invariant.", "anchors": ["src/shapeops.rs: Polygon::compute_holes"]}
{"id": "C58", "title": "The event queue returns the least event", "statement": "For any lawful total preorder, BinaryHeap-of-Reverse pops a minimal element each time; any interleaving of pushes and pops returns exactly the pushed elements.", "quantifier": "every sequence of pushes and pops", "why_tests_cant": "History quantification.", "anchors": ["src/shapeops.rs: compute endpoint_queue"]}
{"id": "C59", "title": "Route flood fill partitions the reachable contours", "statement": "The flood fill of the route command ends for every contour graph. A contour gets distance k+1 exactly when it is in chunk number k (so chunks are disjoint), and is in some chunk exactly when it can be reached, through neighbours of contours and of their holes, from a contour whose bounding box has the start in it. All of a chunk can be walked to from one contour of it, where walking means stepping to a neighbour with the same set of sector tags (0 and 13 aside), not kept out by a blocking line and with its highest floor at most 24 units away; and walking never leads from a chunk to a later one. For integer contours the start is in the bounding box iff there are points of the contour on all four sides of it; it may be level with those to its left and below, not with those to its right and above.", "quantifier": "every map with 16-bit floor heights, every set of contours and every start", "why_tests_cant": "Graph algorithm over all graphs; the tests have no case for it.", "anchors": ["programs/src/idchoppers.rs: route_map_as_svg lines 842-1077"]}
{"id": "C60", "title": "Line dilation is the exact blocked area", "statement": "The hexagon the route command builds around a line is the set of points within 16 units (in both coordinates) of some point of the line: exactly the player centres at which the player touches the line.", "quantifier": "all pairs of integer vertices of at most 2^52 in magnitude, all rational points", "why_tests_cant": "Geometric identity over all coordinates.", "anchors": ["programs/src/idchoppers.rs: lines 806-836"]}
{"id": "C61", "title": "A wrong magic is reported as InvalidMagic", "statement": "parse_wad fails with InvalidMagic whenever the first four bytes of the buffer are neither IWAD nor PWAD (and no proper prefix question arises because at least four bytes are present).", "quantifier": "every byte buffer of at least 4 bytes", "why_tests_cant": "Depends on how the error travels through the parser library and its feature flags.", "anchors": ["src/parse/wad.rs: wad_header", "src/errors.rs: nom_to_result", "Cargo.toml: nom features"]}
{"id": "C62", "title": "A recognised map name prints as the original lump name", "statement": "If vanilla_map_name recognises a lump name then printing the recognised MapName gives that lump name back.", "quantifier": "every byte string", "why_tests_cant": "Fails only on an obscure input (a plus sign accepted by integer parsing).", "anchors": ["src/map.rs: Display for MapName", "src/parse/mod.rs: mapxx_map_name"]}
{"id": "C63", "title": "Loops of a sector are its outlines (bare map)", "statement": "If exactly two border lines of the sector meet at every border vertex and no border line starts where it ends, BareBinaryMap::sector_to_polygons returns closed loops: each outline has at least two vertices, cyclically consecutive vertices are joined by a border line, and the ends of every border line are cyclically consecutive in some outline.", "quantifier": "every bare map, sector number and loop structure of its border", "why_tests_cant": "Needs all maps with simple borders, in any line order and direction.", "anchors": ["src/parse/map.rs: BareBinaryMap::sector_to_polygons"]}
{"id": "C64", "title": "Map iteration resumes after a broken map", "statement": "When WadMapIterator::next returns None at a broken map, calling next again scans on from the lump right after those the broken map consumed: no lump is skipped or read twice.", "quantifier": "every archive and every call", "why_tests_cant": "Needs callers that keep going after None and archives broken at every place.", "anchors": ["src/archive/wad.rs: WadMapIterator::next"]}
{"id": "C65", "title": "Loops of a sector are its outlines (in-memory map)", "statement": "If exactly two border lines of the sector meet at every border vertex, no border line starts where it ends, and different border vertices are at different points, Map::sector_to_polygons returns closed loops of at least three points, each border line is used at most once, and a border line is left out only if another border line joins the same two vertices.", "quantifier": "every map and sector whose border is a set of disjoint loops", "why_tests_cant": "Needs all maps with simple borders, in any line order and direction, with float comparisons.", "anchors": ["src/map.rs: Map::sector_to_polygons"]}
{"id": "C66", "title": "count_textures attributes wall parts to the textures visible on them", "statement": "For a two-sided line count_textures attributes the upper part to the side with the higher ceiling, the lower part to the side with the lower floor, and to both middle textures the opening between the higher floor and the lower ceiling.", "quantifier": "every two-sided line", "why_tests_cant": "Needs the relation of both sectors' heights; wrong only for some height orders.", "anchors": ["src/parse/map.rs: BareBinaryMap::count_textures lines 628-667"]}
{"id": "C67", "title": "Contour tracing takes the leftmost turn", "statement": "With integer segments at most 4000 long in each direction, find_next_segment returns, of the endpoints at the point reached that are not processed and not on the segment it came along, one that turns at least as far left as every other (any left turn beats straight on and any right turn; turning right back is last). If there is none it panics.", "quantifier": "For all packets, all current endpoints and all lists of endpoints in which those at one point are next to each other.", "why_tests_cant": "The choice compares rounded quotients of dot products and lengths; a wrong choice shows only for particular nearby directions and orders.", "anchors": ["src/shapeops.rs:1253-1337"]}
{"id": "C68", "title": "Clearly crossing segments meet where intersect_segments says", "statement": "For segments with integer ends of at most 2^24 in magnitude whose directions are not nearly parallel (squared sine of the angle above 1.001e-7): intersect_segments never reports an overlap; if it reports no intersection the segments have no common point; if it reports a point there is a common point, less than 2^-24 away in each coordinate, and if that is an end of one of the segments the reported point is exactly that end.", "quantifier": "For all four ends with integer coordinates up to 2^24 in magnitude, for all directions outside the tolerance of the code's parallel test.", "why_tests_cant": "A statement with rounding about four points; there are about 2^200 inputs, and the errors that matter are in the last bits.", "anchors": ["src/shapeops.rs:66-172"]}
{"id": "C69", "title": "compute handles two simple triangles", "statement": "compute never panics when given two triangles of non-zero area with small integer coordinates.", "quantifier": "all pairs of integer triangles of non-zero area", "why_tests_cant": "The failing configurations are a few percent of pairs and depend on a vertex of one lying on an edge of the other; the unit tests only overlay axis-parallel squares.", "anchors": ["src/shapeops.rs:860-1320"]}
{"id": "C70", "title": "Every edge of the result is a kept edge", "statement": "Every edge of every contour returned by compute is a piece of an edge of a polygon whose edges are kept.", "quantifier": "every input on which compute returns", "why_tests_cant": "Only shows when removed edges and removed interiors meet at a vertex.", "anchors": ["src/shapeops.rs:1195-1320"]}
{"id": "C71", "title": "Contours only report polygons they can lie in", "statement": "A contour returned by compute reports polygon i as a source only if its vertices lie within the bounding box of polygon i.", "quantifier": "every input of Normal polygons on which compute returns", "why_tests_cant": "Needs a vertex of one polygon exactly on an edge of another, which the axis-parallel test squares never have.", "anchors": ["src/shapeops.rs:940-1180"]}
{"id": "C73", "title": "Route starts from where the player is", "statement": "The route flood fill gives distance 1 only to contours that are connected to the contour the player starts in.", "quantifier": "every map", "why_tests_cant": "Needs a room in the angle of another one; found by comparing the bounding-box seeding with containment.", "anchors": ["programs/src/idchoppers.rs: lines 849-853"]}
{"id": "C74", "title": "Route completes when the overlay does", "statement": "For a map whose sides and sectors exist, if overlaying its sectors and lines succeeds then so does the flood fill.", "quantifier": "every map with 16-bit floor heights", "why_tests_cant": "Needs contours that lie in no sector; maps with unclosed sectors are not in the tests.", "anchors": ["programs/src/idchoppers.rs: lines 940-1077"]}
{"id": "C75", "title": "The chart of a Doom map draws every line, thing and sector", "statement": "map_as_svg on the in-memory form of a parsed Doom map returns a document iff every line's vertices exist, every two-sided line's sides and their sectors exist and (when there are sectors) every side a line names exists; otherwise it panics with an index error. The document's shapes are, in this order, one line per linedef between its two vertices, one square per thing, centred on it and sized and coloured by its actor's radius and category (8 and gray for unknown types), and one path per sector whose strokes are exactly the closed loops returned by sector_to_polygons. Classes are exact: zero/one/two-sided, has-special iff the special is not 0, blocking iff flag bit 0 is set, step iff the line is two-sided, its sectors' floors differ by at most 24 and the opening is at least 56 high; sectors are secret iff of type 9, carry their tag iff it is not 0, and are implicit-tag iff some untagged special line has its back to them.", "quantifier": "For all parsed Doom maps (any vertices, lines, sides, sectors, things) with vectors shorter than 2^63.", "why_tests_cant": "The combinations of sides, specials, flags, heights and thing types cannot be enumerated, nor can the dangling indices that make it panic.", "anchors": ["programs/src/idchoppers.rs:393-510", "src/map.rs:73-380"]}
{"id": "C76", "title": "The view box of a Doom chart is the bounding box of the vertices, upside down", "statement": "The view box of the document is the smallest box around the vertices after the group's scale(1, -1): x from the least to the greatest x, y from minus the greatest y to minus the least. So every vertex is inside the view, for all coordinates. Without vertices it is 0 0 0 0.", "quantifier": "For all parsed Doom maps for which a document is produced.", "why_tests_cant": "Sampled maps do not cover all signs and extremes of coordinates; sign mistakes show only for some of them.", "anchors": ["programs/src/idchoppers.rs:393-396", "programs/src/idchoppers.rs:503-509", "src/map.rs:190-194"]}
{"id": "C77", "title": "Every thing of a charted Doom map is in view (false)", "statement": "Each thing's position is inside the document's view box. False: the box is computed from vertices alone, so a thing outside them (for instance one at (1000, 1000) next to a 64 by 64 room) is cut off. Proved by a witness.", "quantifier": "For all parsed Doom maps with existing indices.", "why_tests_cant": "Ordinary maps have all things inside the walls, so tests on them pass.", "anchors": ["programs/src/idchoppers.rs:393-396", "src/map.rs:190-194"]}
{"id": "C78", "title": "The chart of a bare map draws every line with the space around it, every thing and every sector", "statement": "bare_map_as_svg completes iff the vertices of all lines exist, the sides they name exist (when there are sectors) and, in builds that check overflow, everything fits: line ends at least 16 away from the i16 limits, things their radius away from the lower limits, the extent at most 32767 and the top not -32768. Otherwise it panics (index or overflow). When everything fits, the shapes are, per line, the line with exact classes and a path around it covering exactly the points where a 32 by 32 square touches the line; then the squares of things; then one path per sector stroking exactly the loops of sector_to_polygons. The view box is tight around all vertices and things, and each of these is inside it.", "quantifier": "For all maps of either format with 16-bit fields and both build modes; Hexen maps read from archives are among them.", "why_tests_cant": "The space around a line is a statement about infinitely many points for each of all possible lines; overflow conditions depend on extreme coordinates.", "anchors": ["programs/src/idchoppers.rs:220-391"]}
{"id": "C79", "title": "Every bare map with valid indices is charted correctly (false)", "statement": "bare_map_as_svg succeeds on every Hexen map whose indices exist and shows all of it. False: a line from (-20000, 0) to (20000, 0) makes the width overflow i16. Builds that check overflow panic, others write a negative width, with which nothing is visible. Proved by a witness.", "quantifier": "For all Hexen maps with 16-bit fields and existing indices.", "why_tests_cant": "Only maps more than 32767 units wide or high, or near the coordinate limits, fail.", "anchors": ["programs/src/idchoppers.rs:284-307", "programs/src/idchoppers.rs:351-352", "programs/src/idchoppers.rs:383-388"]}
{"id": "C80", "title": "The chart command charts the first map of the archive and nothing else", "statement": "do_chart writes nothing and succeeds iff the archive has no map marker, or the map at the first marker is broken (an entry other than its lumps follows before its required lumps are complete, or nothing follows). Otherwise it charts the map at the first marker: the decoding of its lumps, via the in-memory map for the Doom format and directly for Hexen. It returns an error iff the first of that map's lumps that cannot be read is missing, and the error names that lump.", "quantifier": "For all archives with unsigned directory entries (all parsed ones) and buffers up to 2^63 bytes.", "why_tests_cant": "Depends on the whole directory: markers, order of lumps, formats and missing lumps.", "anchors": ["programs/src/idchoppers.rs:199-218", "src/archive/wad.rs: WADIterator::next, BareWAD::iter_maps"]}
{"id": "C81", "title": "Player starts are drawn in green (false)", "statement": "The chart draws player starts (things of type 1) in green, as the PlayerStart arm of the colour table says. False: no actor in the table has the category PlayerStart and type 1 is not in the table, so player starts are drawn as unknown things, gray squares of radius 8. Proved by a witness, and proved that no chart of any archive contains a green square.", "quantifier": "For all archives and both build modes.", "why_tests_cant": "A test looking at the picture of one map would only show one gray square; that no archive can ever give a green one is a claim about all of them.", "anchors": ["programs/src/idchoppers.rs:335-349", "programs/src/idchoppers.rs:441-455", "src/universe.rs:1-180"]}
{"id": "C82", "title": "Parallel segments meet where intersect_segments says", "statement": "For parallel segments with integer ends of at most 2^24 in magnitude: if they are clearly apart (the angle between the first segment and the vector between the starts is outside the tolerance) no intersection is reported and there is none. If they lie on one line and have the same direction, no intersection is reported only if there is none; a point is reported only if it is the one common point, and it is exactly that end; an overlap is reported only if there are two different common points, and it starts exactly where reported.", "quantifier": "For all four ends with integer coordinates up to 2^24 in magnitude.", "why_tests_cant": "Whether the ends land inside, on or outside depends on exact comparisons of rounded quotients.", "anchors": ["src/shapeops.rs:66-172"]}
{"id": "C83", "title": "intersect_segments finds the intersection of all integer segments (false)", "statement": "For all segments with integer ends, intersect_segments reports nothing iff the segments are disjoint. False in three ways, each with a witness: segments crossing at a small angle are taken to be parallel and no intersection is reported; parallel segments one unit apart are reported as overlapping; segments on one line going opposite ways that share an end are reported as disjoint.", "quantifier": "For all four ends with integer coordinates up to 2^24 in magnitude.", "why_tests_cant": "The failing inputs are long segments at tiny angles or opposite collinear ones, which ordinary cases do not have.", "anchors": ["src/shapeops.rs:66-172"]}
{"id": "C84", "title": "The sweep splits neighbouring segments exactly where they meet", "statement": "For two sweep segments with integer ends up to 2^24 whose lines are not nearly parallel or nearly the same, handle_intersections changes nothing if they are disjoint or only share their left or only their right ends; otherwise, if they meet in one point, each is split there (within 2^-24, exactly if the other ends there) unless that is one of its own ends. If they overlap and belong to different polygons: with the same left end, the first becomes non-contributing, the second same or different transition depending on whether the sides agree (unless already non-contributing), the longer is split at the other's right end and nothing else changes; with different left ends the one starting first is split at the other's start. If they overlap and belong to the same polygon it panics.", "quantifier": "For all pairs of segments with integer ends up to 2^24 in magnitude, all packets.", "why_tests_cant": "Covers all relative positions of two segments, including rounding of the meeting point.", "anchors": ["src/shapeops.rs:1099-1250"]}
{"id": "C85", "title": "The bounding box of a polygon is the smallest one around all its points", "statement": "bbox of a non-empty polygon whose contours each have at least two different points, with integer coordinates up to 2^24, is exactly the smallest box around all points of all contours. Two such boxes touch (MapRectX::touches) iff they have a point in common, borders included.", "quantifier": "For all polygons with such contours.", "why_tests_cant": "Any number of contours in any position; the union is folded over them and must not lose one.", "anchors": ["src/shapeops.rs:438-453", "src/shapeops.rs:609-618", "src/shapeops.rs:40-50"]}
{"id": "C86", "title": "Sector outlines are the left walks around the sector", "statement": "Map::sector_to_polygons on a sector whose border has integer corners and lines at most 4000 long in each direction, none of length 0: starting each time along the first border line not followed yet, and always taking the leftmost line not followed yet until the walk is back at the place it started from or no line is open, gives walks that together cover the border; the outlines are, in order, the vertices of those walks that pass three vertices or more.", "quantifier": "For all maps whose indices exist and whose sector has such a border, whether or not the border is made of closed loops.", "why_tests_cant": "Quantifies over all graphs a border can form, including ones that touch themselves, overlap or do not close.", "anchors": ["src/map.rs:202-379"]}
{"id": "C87", "title": "Tracing takes the leftmost turn for all integer lines (false)", "statement": "The turn taken by find_next_segment and by Map::sector_to_polygons is the leftmost for all integer segments with coordinates up to 2^14. False: two lines of length about 9000 whose directions differ by less than the rounding of the cosine; both functions then take the first rather than the leftmost.", "quantifier": "For all integer segments with coordinates up to 2^14.", "why_tests_cant": "Needs two directions that differ by about 1e-8 and are almost straight on; no ordinary test has them.", "anchors": ["src/map.rs:313-359", "src/shapeops.rs:1253-1337"]}
{"id": "C88", "title": "The drawing of the route command shows every line and every region", "statement": "If the flood fill succeeds, route_map_as_svg returns a document with one line per linedef (between its vertices, with classes line and zero-/one-/two-sided), and one path per contour of the overlay that is not a hole, in order. The path draws exactly the edges of the contour and of its holes, data-origin lists the sectors and lines the contour comes from, the fill is darkred iff the contour is not reached from the player's start, and otherwise hsl with hue 330(k+1)/(n+1) up to 2^-40 for chunk k of n, so that two contours have the same hue iff they are in the same chunk. The view box is the bounding box of the vertices with a margin of 32. It returns a document only if the flood fill succeeds.", "quantifier": "For all maps with 16-bit floor heights, any number of chunks below 2^40, every lawful sort and ordered set, both kinds of build.", "why_tests_cant": "Quantifies over all maps and overlays; distinctness of hues is a statement about rounding for all numbers of chunks.", "anchors": ["programs/src/idchoppers.rs:748-804", "programs/src/idchoppers.rs:842-860", "programs/src/idchoppers.rs:1079-1148"]}
{"id": "C89", "title": "Contours that are not reached are drawn in red (false)", "statement": "route_map_as_svg has a branch that fills contours whose distance is -1 in red. False for every map: distances start at 0 and only grow, so contours that are not reached are darkred and nothing is ever red.", "quantifier": "For all maps.", "why_tests_cant": "A branch that is never taken shows in no output.", "anchors": ["programs/src/idchoppers.rs:1120-1132"]}
{"id": "C90", "title": "Holes belong to contours that are not holes (false)", "statement": "In the result of shapeops::compute, a contour listed as a hole of another is listed with the contour it is cut out of. False: with two holes one above the other the upper one is listed as a hole of the lower one. In the route command such a hole is then not drawn, and regions inside it that the player can step into are not reached.", "quantifier": "For all inputs of compute.", "why_tests_cant": "Needs at least two separate holes in one region, one above the other.", "anchors": ["src/shapeops.rs:1688-1712", "programs/src/idchoppers.rs:988-1000", "programs/src/idchoppers.rs:1079-1105"]}
{"id": "C91", "title": "The route command draws the first map after MAP14", "statement": "do_route looks at the first map, in directory order, that is not one of MAP01 to MAP14, if the iteration gets there. It saves the drawing of that map, and nothing if there is no such map or if it is a Hexen map; if the first lump it cannot read is missing the error names it, and if that lump lies outside the file it panics.", "quantifier": "For all parsed WADs.", "why_tests_cant": "Quantifies over all directories, with broken maps and unusual names at any place.", "anchors": ["programs/src/idchoppers.rs:711-740"]}
{"id": "C92", "title": "The info command lists the WAD's items, flats and new textures, or stops at the first thing it cannot read", "statement": "For every WAD and every iteration order of hash sets, the info command first prints the type and header. If a lump of an item is outside the file it panics there. Otherwise it prints the items in order, two lines for a Doom map, one for a Hexen map and one for a plain lump, and nothing for markers; a map with a missing lump ends the run with an error naming the first missing lump. It then prints the names between F_START and F_END, a rule, and each texture name of TEXTURE1 (or TEXTURE2 if there is no TEXTURE1) that Doom 2 does not have, once. It panics at the first flat outside the file, or if the first TEXTURE1 or TEXTURE2 lump is outside the file, and fails with the error of the texture lump. The lines are determined up to the order of the texture names.", "quantifier": "all WADs with unsigned directory entries, all iteration orders of the hash set", "why_tests_cant": "Which lumps are listed depends on the position of markers, broken maps and lumps outside the file, and the order of the textures changes from run to run.", "anchors": ["programs/src/idchoppers.rs:90-197", "src/universe.rs:127-180"]}
{"id": "C93", "title": "The info command lists every texture that Doom 2 does not have (refuted)", "statement": "If the info command succeeds, every texture in TEXTURE1 or TEXTURE2 that Doom 2 does not have is listed. This is false: TEXTURE2 is not looked at if there is a TEXTURE1. It holds for WADs that have at most one of the two lumps.", "quantifier": "all WADs with unsigned directory entries, all iteration orders of the hash set", "why_tests_cant": "A test with one texture lump passes.", "anchors": ["programs/src/idchoppers.rs:176-194"]}
{"id": "C94", "title": "The overlay does not depend on how the standard library sorts", "statement": "For any two implementations of sort and BTreeSet that sort correctly, compute returns the same result, provided the ends of the pieces left by the sweep can be arranged in strictly increasing order. The counterexamples for C69 to C71, C73, C74, C89 and C90 are stated for every such implementation.", "quantifier": "all polygons, all operations, all pairs of lawful standard libraries", "why_tests_cant": "A test runs one standard library.", "anchors": ["src/shapeops.rs:1339-1731"]}
{"id": "C95", "title": "Overlaying tidy polygons keeps exactly the right sides of the edges", "statement": "For polygons with integer corners of magnitude up to 2^24 whose edges meet only in common corners or coincide with an edge of another polygon from end to end (tidy polygons), shapeops::compute splits no edge and handles each edge once. A side of an edge goes into the result exactly if the edge's polygon keeps its edges, no later polygon has the same edge, and the place next to that side is inside at least one polygon and inside none with mode RemoveInterior, where inside is the even-odd rule over all contours of a polygon. The sides noted with the edges that are kept name exactly the polygons there. The sweep takes at most two steps per edge, and the result does not depend on how the standard library sorts.", "quantifier": "all lists of polygons (any number of contours and corners, any modes) with integer corners that are tidy, all interior points of all edges, all implementations of sorting and ordered sets satisfying the stated laws", "why_tests_cant": "The unit tests overlay a handful of axis-parallel squares; they check no arbitrary polygons, no even-odd depth, no coincident edges of several polygons, and no sweep of more than a dozen edges.", "anchors": ["src/shapeops.rs:1376-1631", "src/shapeops.rs:998-1097", "src/shapeops.rs:1099-1251"]}
{"id": "C96", "title": "Overlaying tidy polygons completes, and the contours cover each kept place once", "statement": "For polygons with integer corners whose edges meet only in common corners or coincide with an edge of another polygon from end to end (tidy polygons, C95), with edges of at most 4000 units along either axis, corners near enough to the origin for areas to be exact in doubles, and polygons in mode RemoveEdges only where each of their edges is also one of a later polygon, shapeops::compute returns a polygon: it does not panic, loop, or lose its way between contours. For any choice P of sets of polygons, the contours whose from_polygons is in P together wind exactly once around every place that is kept (inside some polygon and none in mode RemoveInterior, by the even-odd rule) and whose set of surrounding polygons is in P, and zero times in total around any other place.", "quantifier": "all lists of such polygons (any number of contours and corners, any modes, with RemoveEdges only for polygons whose edges later ones cover), all places with rational coordinates, all implementations of sorting and ordered sets satisfying the stated laws", "why_tests_cant": "Tests compare a few outputs with stored pictures; whether every place of the plane is covered exactly once, by contours with the right sources, is a statement about infinitely many points of unboundedly many inputs.", "anchors": ["src/shapeops.rs:1339-1731", "src/shapeops.rs:1253-1337"]}
{"id": "C97", "title": "The contours of an overlay have the right direction and wind at most once", "statement": "For the same polygons as in C96, a contour with external() true has positive area and winding number 0 or 1 around every place, and one with external() false has negative area and winding number 0 or -1.", "quantifier": "all lists of such polygons (any number of contours and corners, any modes, with RemoveEdges only for polygons whose edges later ones cover), all places with rational coordinates, all implementations of sorting and ordered sets satisfying the stated laws", "why_tests_cant": "The unit tests never look at external() or at the direction of the contours of a result.", "anchors": ["src/shapeops.rs:1646-1712", "src/shapeops.rs:457-469"]}
{"id": "C98", "title": "An overlay divides the kept places into regions", "statement": "For the same polygons as in C96, every contour of the result is reached through hole lists from exactly one external contour. The contours reached from an external contour bound a region: they have the same from_polygons, and together wind 0 or 1 times around every place. Every kept place is in exactly one region, every place in a region is kept, and the from_polygons of a region are exactly the polygons that its places are inside.", "quantifier": "all lists of such polygons (any number of contours and corners, any modes, with RemoveEdges only for polygons whose edges later ones cover), all places with rational coordinates, all implementations of sorting and ordered sets satisfying the stated laws", "why_tests_cant": "Whether hole lists and contours describe disjoint regions that fill the kept part of the plane cannot be seen from finitely many sample points, let alone for all inputs.", "anchors": ["src/shapeops.rs:1646-1712"]}
{"id": "C99", "title": "The sides of the contours of an overlay are exactly the kept sides of the edges", "statement": "For the same polygons as in C96, the directed sides of all contours of the result are distinct, and are exactly: from the left to the right end of each edge (the last of coincident ones) above which a kept place begins, and from the right to the left end of each edge below which one begins. The from_polygons of a contour are the polygons to the left of each of its sides.", "quantifier": "all lists of such polygons (any number of contours and corners, any modes, with RemoveEdges only for polygons whose edges later ones cover), all places with rational coordinates, all implementations of sorting and ordered sets satisfying the stated laws", "why_tests_cant": "Tests count contours of small examples; no test checks that no side is lost, invented or used twice.", "anchors": ["src/shapeops.rs:1597-1686"]}
{"id": "C100", "title": "Contours of an overlay are neighbours exactly if they share an edge", "statement": "For the same polygons as in C96, contour j is set in the neighbors of contour i exactly if some side of i is, in the other direction, a side of j.", "quantifier": "all lists of such polygons (any number of contours and corners, any modes, with RemoveEdges only for polygons whose edges later ones cover), all places with rational coordinates, all implementations of sorting and ordered sets satisfying the stated laws", "why_tests_cant": "No test looks at neighbors; the converse direction needs that coincident edges and holes never mix up contour ids, for all inputs.", "anchors": ["src/shapeops.rs:1714-1729"]}
{"id": "C101", "title": "compute_holes finds exactly which contours lie directly inside which", "statement": "For contours with integer corners (up to 2^24, small enough for exact areas) whose edges meet only in common corners, each going round no place twice, any two of them nested or separate, compute_holes completes; the holes of each contour are exactly the contours directly inside it, each listed once; external are exactly those that lie inside none; and each contour keeps its points, reversed if need be so that contours inside an even number of others go against the clock and the others with it.", "quantifier": "all polygons of any number of contours and corners, in any order and direction, all implementations of sorting and ordered sets satisfying the stated laws", "why_tests_cant": "The existing tests have at most one hole; the property is about arbitrary nesting, touching corners and every order and direction of the contours.", "anchors": ["src/shapeops.rs:626-739"]}
{"id": "C102", "title": "compute_holes works for contours that share edges", "statement": "The same as C101 for contours of which edges of different ones may also coincide.", "quantifier": "all polygons of any number of contours and corners, in any order and direction, all implementations of sorting and ordered sets satisfying the stated laws", "why_tests_cant": "No test has contours of one polygon that share an edge; whether it goes wrong depends on the order in which they are listed.", "anchors": ["src/shapeops.rs:626-739", "src/shapeops.rs:268-353"]}
{"id": "C103", "title": "Map names print in decimal, and different ones differently", "statement": "Display of MapName prints ExMy(x, y) as E, x in decimal, M, y in decimal, and MAPxx(x) as MAP and x in decimal with at least two digits, for all u8 values; no two different map names print the same.", "quantifier": "all MapName values, including those no marker has", "why_tests_cant": "MapName's fields are public u8 values; tests would have to go through all 65792 values and pairs of them.", "anchors": ["src/map.rs:24-31"]}
{"id": "C104", "title": "Reported texture areas are near the true ones", "statement": "The area that count_textures adds for a part of a wall is a finite f32: the correctly rounded product of the height and the f32 length, itself the correctly rounded root of the rounded sum of rounded squares; the relative error is at most 5/2^24 (length: 3/2^24), and for lines along an axis whose area has 24 binary digits it is exact.", "quantifier": "all coordinate differences and heights that fit 16 bits", "why_tests_cant": "The error bound is over 2^48 combinations of real-valued roots; tests compare a few values.", "anchors": ["src/parse/map.rs:595-690"]}
{"id": "C105", "title": "The shapeops command draws the quarters of its square", "statement": "do_shapeops completes, and draws exactly four closed paths: the quarters of the square of side 64 into which the three fixed rectangles divide it, each numbered beside its first corner, in a view box with a margin of 16.", "quantifier": "all implementations of sorting and ordered sets satisfying the stated laws", "why_tests_cant": "The outcome depends on how the standard library sorts and stores; a test sees one implementation. The command only writes a file and is not tested.", "anchors": ["programs/src/idchoppers.rs:610-708"]}
{"id": "C106", "title": "Overlaying integer rectangles invents no coordinates", "statement": "Every vertex of the contours computed from two axis-parallel rectangles with integer corners has the height of one of their corners.", "quantifier": "all pairs of rectangles, all operations, all implementations of sorting and ordered sets satisfying the stated laws", "why_tests_cant": "REFUTED: a crossing is computed as p0 + d0 * (a / b); the rounding of almost-integers (lines 129-134) looks at the fractional part, so it repairs results slightly above an integer but not slightly below, and 0.9999999999999999 survives. The comment there asks for a simple test case; the existing tests use crossings that happen to come out exactly.", "anchors": ["src/shapeops.rs:92-137", "src/shapeops.rs:940-1180"]}
{"id": "C107", "title": "The program reads the WAD, runs one command and writes at most one file", "statement": "Called as `FILE`, `FILE info`, `FILE chart OUT`, `FILE shapeops` or `FILE route OUT` (FILE not being the name of a command), the program reads FILE, or standard input for `-`; if it cannot be read, is empty or is not a WAD, it only reports the error. Otherwise it prints what info prints and nothing else, saves the chart or the route under OUT or the drawing of shapeops under idchoppers-shapeops.svg, or for no command prints ????. A missing map saves nothing. Any other arguments give the usage message and status 1. A file is written only by a run that does nothing else, ends with status 0, and names that file.", "quantifier": "all argument lists without options, all contents of files and standard input, all sets of writable files, all implementations of sorting and hashing, both overflow modes", "why_tests_cant": "The program has no tests; every combination of readable, valid and writable files with every command would have to be run as a process.", "anchors": ["programs/src/idchoppers.rs:22-88", "programs/src/idchoppers.rs:199-216", "programs/src/idchoppers.rs:705", "programs/src/idchoppers.rs:709-736", "src/input_buffer.rs:25-53"]}
{"id": "C108", "title": "A reported error shows in the exit status", "statement": "If the program reports an error its exit status is not 0.", "quantifier": "all arguments, all contents of files", "why_tests_cant": "REFUTED: main drops the error after printing it (22-29), so every run that reports an error ends with status 0; a caller (a script, a test) cannot tell. The existing tests never start the program.", "anchors": ["programs/src/idchoppers.rs:22-41"]}
{"id": "C109", "title": "The flip command writes the flipped WAD", "statement": "Called with a readable WAD and `flip`, the program writes the flipped WAD to flipped.wad.", "quantifier": "all files, all WADs", "why_tests_cant": "REFUTED: flip is dispatched (81) but not declared to clap (46-64), so the arguments are always rejected and no call ever writes a flipped WAD; do_flip is dead code. No test calls the program.", "anchors": ["programs/src/idchoppers.rs:45-85"]}
{"id": "C110", "title": "An output file that cannot be written is reported", "statement": "If OUT cannot be written, chart and route report an error like shapeops does.", "quantifier": "all files, all WADs with a map", "why_tests_cant": "REFUTED: the result of svg::save is unwrapped (206, 211, 726), so the program panics; shapeops passes the same error on (705). A test would have to name an output file in a missing directory.", "anchors": ["programs/src/idchoppers.rs:206", "programs/src/idchoppers.rs:211", "programs/src/idchoppers.rs:705", "programs/src/idchoppers.rs:726"]}
{"id": "C111", "title": "Overlaying the sectors of a well drawn map gives back its rooms", "statement": "For a map whose border lines have integer corners, form closed borders and meet only in common vertices, Map::sector_to_polygons and compute end without a panic when the outlines of each sector are overlaid as one polygon. Every place in some sector (odd number of its border lines below) is in exactly one region of the result; a place in a region is in a sector and from_polygons of the region lists exactly the sectors the place is in. The contours run exactly once along each side of a border line that has a sector there and along nothing else, and two contours are neighbours iff they run along the two sides of one line.", "quantifier": "all maps with lines at most 4000 long, all operations, all lawful standard libraries", "why_tests_cant": "Combines two algorithms (tracing outlines by leftmost turn, plane sweep) over all maps; the tests overlay only two or three fixed rectangles and never a map.", "anchors": ["src/map.rs:213-373", "src/shapeops.rs:1339-1731"]}
{"id": "C112", "title": "The chart fills the places of each sector", "statement": "For a map whose border lines have integer corners, form closed borders and meet only in common vertices: if map_as_svg returns a document, the paths of the sectors come last, one per sector in order; the path of a sector goes round a place an odd number of times iff the place is in the sector (odd number of its border lines below), so by SVG's nonzero rule every place of the sector is filled. If moreover the border lines of the sector follow each other head to tail, all with the sector on their right or all with it on their left, only places of the sector are filled.", "quantifier": "all maps with lines at most 4000 long, all sectors, all places with rational coordinates", "why_tests_cant": "Needs winding numbers at every point of the plane for outlines traced on any map; a test renders one picture.", "anchors": ["programs/src/idchoppers.rs:393-510", "programs/src/map-svg.css", "src/map.rs:213-373"]}
{"id": "C113", "title": "The chart fills only the sector (refuted)", "statement": "The path that map_as_svg draws for a sector is filled only at places of the sector. False: sector_to_polygons starts each outline along the direction of its first line, and the style sheet leaves fill-rule at nonzero; so the outline of a room inside a secret room runs the same way round as that of the secret room when its lines face inwards, and the inner room is filled as secret too.", "quantifier": "some map, sector and place", "why_tests_cant": "The picture looks plausible; one needs a map with a nested sector whose lines face inwards.", "anchors": ["programs/src/idchoppers.rs:449-505", "programs/src/map-svg.css", "src/map.rs:213-373"]}
{"id": "C114", "title": "Splitting a segment", "statement": "When the sweep of BooleanOp::compute splits a segment s at a point pt (which differs from both its ends), exactly two new segments come into being, numbered after all others and belonging to s's polygon: one from s's left end to pt, one from pt to s's right end. The first takes s's place in the sweep line and has s's data; the other has the same polygon, mode and facing polygons but otherwise fresh data. The queue gains exactly the right end of the first and both ends of the second; every other segment's data stays as it is, except that those that lie directly above s now lie above its left part; the swept segments and the rest of the sweep line, with its order, stay the same.", "quantifier": "for all sweep states whose segments are filed by number, all segments and all points for which the split completes", "why_tests_cant": "The packets of other segments, stale queue entries and pointers to split segments show only in rare later events; a test of the output cannot see a wrong field that no later event happens to read.", "anchors": ["src/shapeops.rs:1420-1503", "src/shapeops.rs:786-821"]}
{"id": "C115", "title": "Every piece of every edge is accounted for", "statement": "When the sweep of BooleanOp::compute ends, every edge of the input polygons (of nonzero length) has been cut into an unbroken chain of segments of that polygon from its one end to the other, each link having two different ends; and the segments swept, together with those still in the sweep line, are exactly the links of these chains, each once. So a piece can only get lost by being stuck in the sweep line, whatever rounding does.", "quantifier": "for all input polygons (crossing, overlapping, degenerate, with any coordinates) and all numbers of events, whenever the sweep ends", "why_tests_cant": "Whether pieces vanish depends on rounding of intersections and on the order in the sweep line; tests try a few inputs, the theorem covers inconsistent orders too.", "anchors": ["src/shapeops.rs:1388-1408", "src/shapeops.rs:1420-1503", "src/shapeops.rs:1507-1588"]}
{"id": "C116", "title": "Every piece is swept (refuted)", "statement": "When the sweep of BooleanOp::compute ends, the sweep line is empty, so that every piece of every edge is considered for the result. False: for three triangles with corners among the integers from 0 to 4, rounding leaves the order of the sweep line inconsistent, the binary search for an edge that ends does not find it, and the edge stays in the sweep line and is left out; tracing the contours then panics with an index out of bounds.", "quantifier": "refuted by one input of three triangles", "why_tests_cant": "The failure needs an inconsistent order in the middle of the sweep; about one in 6000 random triples of such triangles shows it.", "anchors": ["src/shapeops.rs:918-926", "src/shapeops.rs:1525-1549"]}
{"id": "C117", "title": "Contours of an overlay are followed by leftmost turns", "statement": "In the result of overlaying tidy polygons (whole-number corners, edges meeting only in common ends or coinciding, edges removed only where a later polygon has the same edge), each contour starts in its leftmost corner, the lowest of those, and passes that corner only once; in every other corner it takes, of all kept sides starting there except the way back, the one furthest to the left, strictly so; the contours are listed in the order of where they start (and of their first sides, if they start in the same corner). Together with the kept sides of C99 this determines the contours completely: any list of lines that passes exactly the kept sides, each once, and follows these rules is the list of contours of the result.", "quantifier": "all overlayable inputs, all sorting functions meeting the specification, all operations, all contours and corners", "why_tests_cant": "A test can compare the contours of chosen maps with expected ones; it cannot show that the rule for choosing the next side holds at every corner of every overlay, nor that the outcome is the only one possible.", "anchors": ["src/shapeops.rs:1253-1337", "src/shapeops.rs:1647-1712"]}
{"id": "C118", "title": "Overlaying does not depend on the order or direction in which polygons are given", "statement": "Overlaying the same tidy polygons listed in another order, with contours that start at another corner, run in the other direction, or are divided differently into contours, gives exactly the same contours with the same corners in the same order, the same lists of holes, the same outer/hole marks and the same neighbour sets; the only difference is that the bits saying which polygons a contour is made of are renumbered accordingly.", "quantifier": "all pairs of overlayable inputs describing the same polygons, any renumbering of the polygons, any operations, any two correct sorting functions", "why_tests_cant": "The number of ways to write down the same polygons grows factorially; tests try a few. The code depends on the order internally: of coinciding edges, it keeps the one of the last polygon.", "anchors": ["src/shapeops.rs:1339-1731"]}
{"id": "C119", "title": "Hole lists are in ascending order", "statement": "Whatever the polygons, if the overlay yields a result then the holes listed with each contour are in strictly ascending order of their contour numbers.", "quantifier": "all inputs, all operations, all contours of the result", "why_tests_cant": "Tests see the lists of a few results; the claim is about every result.", "anchors": ["src/shapeops.rs:1693-1712"]}
{"id": "C120", "title": "A hole is listed with the contour straight below it", "statement": "In the overlay of polygons with integer corners whose edges only meet in common ends (or coincide), a contour h is among the holes listed with contour c exactly if h runs clockwise and c is what one first sees looking straight down from the side with which h returns to its first corner, close to that corner: a side of c going left to right, with no edge of any polygon in between.", "quantifier": "all such lists of polygons (any number, edges removed only where a later polygon has the same edge, any operation), all pairs of contours of the result, every standard library meeting the stated laws", "why_tests_cant": "Which contour is next below depends on all edges at once; tests place a few holes in a few outlines.", "anchors": ["src/shapeops.rs:1693-1712", "src/shapeops.rs:998-1064"]}
{"id": "C121", "title": "Overlaying the regions of an overlay changes nothing", "statement": "Take the overlay of polygons with integer corners whose edges only meet in common ends (or coincide). Make each region of the result (an outer contour, its holes, the holes of those and so on, in any order) a polygon of its own and overlay those, in any order. The result has the same contours with the same corners in the same order, the same lists of holes, the same outer contours and the same neighbours, and each contour is made of exactly the one polygon whose region it belongs to.", "quantifier": "all such lists of polygons (any number, edges removed only where a later polygon has the same edge), all orders of the regions and of the contours in them, all modes of the second overlay that remove nothing, any two operations, every two standard libraries meeting the stated laws", "why_tests_cant": "Idempotence relates two runs of the whole sweep for every possible input; a test can only compare a few overlays, and a rare region whose boundary is traced differently goes unnoticed.", "anchors": ["src/shapeops.rs:1339-1757"]}
{"id": "C122", "title": "Polygons whose edges are removed do not make an overlay fail", "statement": "If shapeops::compute completes for polygons with integer corners whose edges meet only in common corners or coincide (tidy polygons, C95), it also completes when the mode of one of them is changed to RemoveEdges. (False: where a hole begins above an edge that is removed, that edge is taken for one of the contour that the hole is in; it belongs to no contour, and unwrap panics. The check that would skip such edges, `! is_in_result(below)`, is commented out.)", "quantifier": "all lists of tidy polygons, any mode of the other polygons", "why_tests_cant": "The tests never combine removed edges with holes; the panic needs a hole whose first corner lies above a removed edge with nothing in between.", "anchors": ["src/shapeops.rs:1041-1047", "src/shapeops.rs:1693-1712"]}
{"id": "C123", "title": "Overlaying polygons ends", "statement": "shapeops::compute returns (or panics) after finitely many events for any polygons with small integer corners. (False: for four triangles with corners among the integers from -2 to 3 the sweep never ends. A crossing that should be at x = 1 is computed just left of it and not rounded, so cutting an edge there puts its lower part before its own left end; the remaining part is then found to overlap a neighbour, is cut back to where the edge began, and the two cuts alternate for ever, with four new segments every four events. Memory grows until it runs out.)", "quantifier": "all lists of polygons with integer corners", "why_tests_cant": "No test can observe that a program never ends; the tests overlay a few polygons, none of which touch at a computed crossing on a vertical edge.", "anchors": ["src/shapeops.rs:1507-1588", "src/shapeops.rs:1420-1503", "src/shapeops.rs:93-172"]}
{"id": "C124", "title": "Overlaying crossing polygons is overlaying them cut at the crossings", "statement": "Take polygons with integer corners of magnitude up to 2^24 and mark integer points on their sides such that, with these points as corners, the polygons are tidy (C95); any parts of two sides between such points coincide, are apart, or cross in a point that intersect_segments computes exactly, whichever of them comes first; and at each marked point at least two of the parts end from the left. Then shapeops::compute returns exactly the same for the polygons as given and for the polygons with the marked points inserted as corners: the same contours, points, sources, holes and neighbours, in the same order. The sweep finds every crossing, splits both edges there, and files the pieces correctly, however many crossings a side has and whatever order they are found in; it takes at most three steps per piece.", "quantifier": "all lists of polygons (any number of contours and corners, any modes) with such marks, all boolean operations, all implementations of sorting and ordered sets satisfying the stated laws", "why_tests_cant": "The tests overlay a few axis-parallel squares with one or two crossings; the claim is about every arrangement of crossings along every side, every order in which the sweep discovers them, and bit-for-bit equality of the whole result.", "anchors": ["src/shapeops.rs:1507-1588", "src/shapeops.rs:1420-1503", "src/shapeops.rs:93-172", "src/shapeops.rs:1239-1420"]}
{"id": "C125", "title": "Overlaying crossing polygons completes, and the contours cover each kept place once", "statement": "For polygons that cross as in C124, with pieces of at most 4000 units along either axis, corners near enough to the origin for areas to be exact, and mode RemoveEdges only where later polygons cover the pieces, shapeops::compute returns a polygon without a panic or endless loop. For any choice P of sets of polygons, the contours whose from_polygons is in P wind exactly once around every place that is inside some polygon as given and none in mode RemoveInterior (even-odd rule) and whose set of surrounding polygons is in P, and zero times around any other place. Every kept place is in exactly one region, and each region names exactly the polygons around it.", "quantifier": "all lists of such polygons, all places with rational coordinates, all implementations of sorting and ordered sets satisfying the stated laws", "why_tests_cant": "Tests compare a few results with expected contours; no test can compare infinitely many places of infinitely many crossing polygons with the even-odd rule.", "anchors": ["src/shapeops.rs:1239-1420", "src/shapeops.rs:1593-1760"]}
{"id": "C126", "title": "The contours of crossing polygons are oriented, disjoint, and turn left", "statement": "In the results of C125 outer contours run against the clock and holes with it, no contour goes round a place twice, each contour belongs to the region of exactly one outer contour and shares its from_polygons, the contours run along exactly the kept sides of the pieces, each once, two contours are neighbours exactly if they run along the two sides of a piece, and each contour starts in its leftmost lowest corner and turns as far left as possible everywhere else.", "quantifier": "all lists of polygons as in C125, all contours of the result, all places with rational coordinates, all implementations of sorting and ordered sets satisfying the stated laws", "why_tests_cant": "The tests check the corners of a handful of outputs, none the orientation, regions, neighbours or turn choice for arbitrary crossings.", "anchors": ["src/shapeops.rs:1593-1760", "src/shapeops.rs:1683-1716", "src/shapeops.rs:1719-1760"]}
{"id": "C127", "title": "Overlaying crossing polygons does not depend on how they are written down", "statement": "If the polygons of C125 are given in another order, with contours that start at another corner, go round the other way or are put together from the same pieces differently, shapeops::compute returns the same contours in the same order with the same holes and neighbours, and with from_polygons renumbered accordingly.", "quantifier": "all pairs of such lists of polygons, all permutations of the polygons, all implementations (two different ones, too) of sorting and ordered sets satisfying the stated laws", "why_tests_cant": "A test can try a few orders of a few polygons; the sweep's internal order of events, splits and priority of edges differ in each.", "anchors": ["src/shapeops.rs:1239-1420", "src/shapeops.rs:1593-1760"]}
{"id": "C128", "title": "Axis-parallel rectangles can be overlaid", "statement": "shapeops::compute returns without a panic for any axis-parallel rectangles with integer corners, whatever the operation. (False: for the rectangles from (0,31) to (2,32), from (0,0) to (1,39) and from (1,31) to (2,32) it panics at (couldn't find a segment that ought to exist), though any two of them can be overlaid. The crossing (1, 31) is computed as (1, 30.999999999999996); coordinates are rounded only if they are slightly above an integer, because the fractional part of one slightly below is near 1. The side of the third rectangle that begins at (1, 31) is then cut at that point, which is before its left end, so the sweep line is no longer in order.)", "quantifier": "all lists of axis-parallel rectangles with integer corners, all operations", "why_tests_cant": "The unit tests overlay axis-parallel squares, but only ones whose crossings come out exact; the failure needs a ratio such as 31/39 whose rounded product falls below the integer, and a third side beginning there.", "anchors": ["src/shapeops.rs:93-172", "src/shapeops.rs:1420-1503", "src/shapeops.rs:1551-1587"]}
{"id": "C129", "title": "Upright polygons on a grid are overlaid exactly", "statement": "Take polygons whose sides are horizontal or vertical, whose corners are on a grid of 2^g units (g up to 14) at most 1000 steps from the origin, and whose sides are at most 21 steps long, with the points where sides cross marked: cut there, the edges share only ends or are the same edges of different polygons, parts of different sides overlap only if they are the same, and at each marked point at least two of the parts end from the left. Then shapeops::compute returns exactly the same for the polygons as given and with the marked points inserted as corners. On a grid of up to 128 units and with at most 200000 parts it completes without a panic, its corners are integers, and for any choice of sets of polygons the contours made of these wind exactly once around each kept place inside such a set of polygons and zero times around any other. Nothing is assumed about floating-point results: the crossings of such sides are computed exactly.", "quantifier": "all lists of such polygons (any number of contours and corners, any modes, RemoveEdges where covered), all grids, all operations, all places with rational coordinates, all implementations of sorting and ordered sets satisfying the stated laws", "why_tests_cant": "The tests overlay squares with corners at a handful of coordinates; whether the computed crossing is exact depends on every quotient of side lengths, and the claim is about every arrangement of such sides.", "anchors": ["src/shapeops.rs:93-172", "src/shapeops.rs:1239-1420", "src/shapeops.rs:1420-1503", "src/shapeops.rs:1507-1588"]}
{"id": "C130", "title": "Overlaying axis-parallel rectangles with integer corners gives integer corners", "statement": "When shapeops::compute returns for two axis-parallel rectangles with integer corners, all corners of the result are integers. (False: for the square from (0,0) to (22,22) and the rectangle from (-5,15) to (5,30) the result has the corner (0, 14.999999999999998) where the sides cross at (0,15). The code rounds coordinates whose fractional part is below 1e-9, which misses those just below an integer. A side of 22 steps is the shortest that can be crossed so: see C129.)", "quantifier": "all pairs of axis-parallel rectangles with integer corners, all operations", "why_tests_cant": "The unit tests overlay squares whose crossings come out exact; the failure needs a side of at least 22 units crossed at a ratio such as 15/22 whose rounded product falls below the integer.", "anchors": ["src/shapeops.rs:121-135"]}
{"id": "C131", "title": "Rectangles with sides on different lines of a grid are overlaid exactly", "statement": "Take polygons whose contours are axis-parallel rectangles with corners on a grid of 2^g units (g up to 7), at most 1000 steps from the origin and at most 21 steps long and high, such that no two of the rectangles have a side on the same line, in modes Normal and RemoveInterior. However they cross, shapeops::compute returns without a panic or endless loop, all corners of the result are integers, and for any choice P of sets of polygons the contours whose from_polygons is in P wind exactly once around every place that is inside some polygon and none in mode RemoveInterior (even-odd rule) and whose set of surrounding polygons is in P, and zero times around any other place. The sweep takes at most 252 steps per rectangle. The regions, directions, sides, neighbours and turns are as in C125-C127.", "quantifier": "all lists of polygons made of any number of such rectangles, all grids, all operations, all places with rational coordinates, all implementations of sorting and ordered sets satisfying the stated laws", "why_tests_cant": "The unit tests overlay two or three squares; the claim is about every number and arrangement of rectangles, every way in which their sides cross, and infinitely many places.", "anchors": ["src/shapeops.rs:93-172", "src/shapeops.rs:1239-1420", "src/shapeops.rs:1420-1503", "src/shapeops.rs:1507-1588", "src/shapeops.rs:1593-1760"]}
{"id": "C132", "title": "A hole of crossing polygons is listed with the contour straight below it, and overlaying the regions again changes nothing", "statement": "For polygons that cross as in C125: a contour h of the result is among the holes listed with contour c exactly if h runs clockwise and c is what one first sees looking straight down from the side with which h returns to its first corner, close to that corner, with no side of the polygons as given in between. And if each region of the result (an outer contour, its holes, the holes of those and so on) is made a polygon of its own and these are overlaid, in any order and in modes that remove nothing, the result has the same contours in the same order with the same holes and neighbours, each made of exactly the one polygon whose region it belongs to.", "quantifier": "all lists of polygons as in C125, all pairs of contours of the result, all orders of the regions and of the contours in them, any two operations, every two standard libraries meeting the stated laws", "why_tests_cant": "The tests overlay no polygons whose holes come about by crossings, and feed no output back in; which contour lies below depends on all sides and crossings at once.", "anchors": ["src/shapeops.rs:1693-1712", "src/shapeops.rs:998-1064", "src/shapeops.rs:1239-1420"]}
{"id": "C133", "title": "Overlaying rectangles does not depend on their order", "statement": "Take the rectangles of C131 and give the polygons in another order, each with its rectangles in another order. shapeops::compute completes on both and returns the same contours with the same corners in the same order, the same holes, outer contours and neighbours, and with from_polygons renumbered accordingly.", "quantifier": "all lists of polygons made of such rectangles, all permutations of the polygons and of the rectangles in them, all modes but RemoveEdges, any two operations, every two standard libraries meeting the stated laws", "why_tests_cant": "The order of events, of splits and of the edges on the sweep line differs with every permutation; tests try one order.", "anchors": ["src/shapeops.rs:1239-1420", "src/shapeops.rs:1507-1588", "src/shapeops.rs:1593-1760"]}
{"id": "C134", "title": "Polygons with sides of any slope on a grid are overlaid exactly", "statement": "Polygons whose corners are points of a grid of 2^g units, whose sides have any slope and reach at most 21 steps of the grid across and up, and whose sides cross only in points of the grid, are overlaid as if those points were corners. On a grid of at most 128 units the overlay also comes to an end without a panic, all its corners are whole numbers, and the contours made of given sets of polygons go once round each place that is kept and is inside exactly such a set, and not round any other.", "quantifier": "For all such polygons (any number, with holes, any modes allowed by the cover condition), grids of up to 2^14 units, distances R from the origin and slopes p/q with R^2 * (p^2 + q^2) <= 1248751, operations, and library implementations obeying the stated laws.", "why_tests_cant": "Whether the crossing of two sides is found exactly depends on two roundings for every pair of directions, and the overlay on every arrangement of the crossings; tests see a few of them.", "anchors": ["src/shapeops.rs:93-172", "src/shapeops.rs:1239-1420", "src/shapeops.rs:1420-1503", "src/shapeops.rs:1507-1588"]}
{"id": "C135", "title": "A corner touching the side of another polygon does not make an overlay fail", "statement": "If shapeops::compute completes for polygons, it also completes when a corner that touches a straight side of another polygon is not a corner of that polygon too. (False: for the square from (0,0) to (10,10) and the triangle with the corners (5,10), (9,12) and (9,14), which touches the top side of the square from outside, it panics. Edges that begin on a side are put below it in the sweep line before the side is cut there, and what they are inside of is worked out from the edge below, so the triangle's lower edge is taken to be inside the square. With (5,10) as a corner of the square there is no panic. So the hypothesis of C124 that a second edge comes from the left to each point where a side is cut cannot be left out.)", "quantifier": "All polygons with integer corners, all operations, all library implementations obeying the stated laws.", "why_tests_cant": "Needs a polygon that begins, seen from the left, exactly on a side of another; the maps at hand have vertices wherever lines meet.", "anchors": ["src/shapeops.rs:1507-1588", "src/shapeops.rs:1420-1503", "src/shapeops.rs:998-1097"]}
{"id": "C136", "title": "The parts of overlaid polygons have the areas of the polygons", "statement": "When polygons that go round no place twice are overlaid with no insides removed, the contours made of a polygon have exactly its area together, and the contours, each counted once for every polygon it is made of, have the areas of all polygons together. Removing the insides of some polygons instead takes away exactly the area of the contours made of them. A rectangle among rectangles on different grid lines is divided into contours with the area of its width times its height.", "quantifier": "For all crossable polygons (any number, with holes, crossing sides), in either direction, all operations, fuel beyond three times the edges, and library implementations obeying the stated laws.", "why_tests_cant": "An overlay that drops a sliver, or returns a part twice, gives plausible contours on most inputs; tests compare a few drawn pictures and no areas.", "anchors": ["src/shapeops.rs:1239-1420", "src/shapeops.rs:1420-1503", "src/shapeops.rs:1507-1588", "src/shapeops.rs:836-987"]}
{"id": "C137", "title": "Polygons that cross in points of a grid are overlaid exactly", "statement": "Take polygons with corners on a grid of 2^g units and sides of any slope that reach at most 21 steps of it across and up. Any two sides have only ends in common, cross in a point of the grid, or are the same side of two polygons that nothing crosses. Then the overlay comes to an end without a panic, all its corners are whole numbers, and the contours made of given sets of polygons go once round each place that is kept and is inside exactly such a set, and not round any other. The contours made of a polygon that goes round no place twice have its area together. Nothing need be said about where the sides cross or in which order.", "quantifier": "For all such polygons (any number, with holes, all modes but removal of edges, at most 9000 sides), grids of at most 2^7 units, distances R from the origin and slopes p/q with R^2 * (p^2 + q^2) <= 1248751, operations, and library implementations obeying the stated laws.", "why_tests_cant": "The condition is one on the polygons as given; that it is enough depends on every way the crossings can follow each other along the sides, with every order in which the sweep finds them.", "anchors": ["src/shapeops.rs:93-172", "src/shapeops.rs:1239-1420", "src/shapeops.rs:1420-1503", "src/shapeops.rs:1507-1588"]}
{"id": "C138", "title": "Overlaying the sectors of a map whose lines cross on a grid gives its rooms", "statement": "For a map whose border lines form closed borders, have their ends on a grid of 2^g units, are at most 21 steps of it long each way, and share only ends or cross in points of the grid (lines between two sectors are not crossed), Map::sector_to_polygons and compute end without a panic when the outlines of each sector are overlaid as one polygon. Every place in some sector is in exactly one region of the result; a place in a region is in a sector, and from_polygons of the region lists exactly the sectors the place is in, several where sectors overlap. The contours run along border lines only and along no way twice, and two contours are neighbours iff they run along the two sides of the same stretch.", "quantifier": "all such maps of at most 4500 lines, grids of 1 to 128 units, distances R from the origin and slopes p/q with R^2 * (p^2 + q^2) <= 1248751, all operations, all lawful standard libraries", "why_tests_cant": "Combines tracing outlines through vertices with an overlay that finds crossings the tracing does not know of, over all maps; the tests never overlay a map.", "anchors": ["src/map.rs:213-373", "src/shapeops.rs:93-172", "src/shapeops.rs:1239-1731"]}
{"id": "C139", "title": "Polygons whose sides cross on a grid are overlaid the same in any order", "statement": "Overlaying polygons on a grid of 2^g units whose sides share only ends, cross in points of the grid, or coincide between polygons uncrossed gives the same contours, corner for corner and in the same order, with the same holes, outer flags and neighbours, whatever order the polygons and the lines of each are given in, whichever corner each line starts at, whichever way round it goes, whichever operation is named and whichever standard library sorts. from_polygons names the same polygons under their new numbers.", "quantifier": "all such polygons of at most 9000 sides and all their reorderings, grids of 1 to 128 units, distances R from the origin and slopes p/q with R^2 * (p^2 + q^2) <= 1248751, all modes but RemoveEdges, all lawful standard libraries", "why_tests_cant": "Compares two runs that cut different sides at different times at crossings neither was told of, over all inputs and permutations; the tests run each input in one order.", "anchors": ["src/shapeops.rs:520-660", "src/shapeops.rs:1239-1731"]}
{"id": "C140", "title": "Polygons moved elsewhere are overlaid the same", "statement": "Overlaying polygons moved by (dx, dy) gives the contours overlaying them in the first place gives, each corner moved by exactly (dx, dy), in the same order, with the same holes, outer flags, neighbours and from_polygons, whichever operation is named and whichever standard library sorts. This holds of tidy polygons (sides share only ends or coincide) moved by any whole numbers as long as they are tidy and compact in both places, and of polygons whose sides cross in points of a grid moved by steps of the grid as long as they stay within the distance R of the origin.", "quantifier": "all tidy polygons and all whole distances; all polygons of at most 9000 sides that cross on grids of 1 to 128 units, with R^2 * (p^2 + q^2) <= 1248751; all lawful standard libraries", "why_tests_cant": "Compares two runs over different floating-point numbers, where every crossing, area and angle is computed from other operands, for all inputs and distances; the tests run each input in one place.", "anchors": ["src/shapeops.rs:217-330", "src/shapeops.rs:520-660", "src/shapeops.rs:1239-1731"]}
{"id": "C141", "title": "Moving polygons does not change whether they can be overlaid", "statement": "If shapeops::compute returns for polygons with integer corners moved by some whole distance, it returns for them where they were. (False: for the rectangles from (0,31) to (2,32), from (0,0) to (1,39) and from (1,31) to (2,32) it panics, whatever the operation; for the same rectangles moved up by 2 it returns four contours. A crossing is computed by adding a rounded distance to the start of a side; with the start at height 0 the sum is 30.999999999999996, with the start at height 2 it rounds to 33. C140 gives conditions under which moving changes nothing.)", "quantifier": "all lists of polygons with integer corners, all whole distances, all operations", "why_tests_cant": "The tests run each input in one place; whether a sum rounds to the integer depends on the magnitudes of its operands.", "anchors": ["src/shapeops.rs:121-135", "src/shapeops.rs:1420-1503", "src/shapeops.rs:1551-1587"]}
{"id": "C142", "title": "Polygons stretched and skewed are overlaid the same", "statement": "Overlaying tidy polygons after mapping every corner (x, y) to (a*x + dx, b*y + c*x + dy), with a and b positive, gives the contours overlaying them as they were gives, every corner mapped alike, in the same order, with the same holes, outer flags, neighbours and from_polygons, whichever operation is named and whichever standard library sorts, as long as the polygons are tidy (sides share only ends or coincide) and compact before and after. The same holds of polygons whose sides cross in points of a grid, made larger by a power of two, lifted by whole steps for each step across, and moved.", "quantifier": "all tidy polygons, all integers a, b > 0, c, dx, dy, all operations, all lawful standard libraries; and all lists of polygons crossing on a grid", "why_tests_cant": "Compares two runs whose slopes, angles and areas are all different floating-point numbers; that the sweep and the walk round the contours depend only on order and orientation, not on sizes and angles, cannot be seen from single runs.", "anchors": ["src/shapeops.rs:217-330", "src/shapeops.rs:520-660", "src/shapeops.rs:1239-1731"]}
{"id": "C143", "title": "Polygons beside each other are overlaid separately", "statement": "If all sides of some polygons (tidy ones, or ones whose sides cross in points of a grid) lie to the right of all sides of others, overlaying all of them gives the contours of the first alone followed by those of the others alone: the same corners in the same order, the same outer flags, the same holes (numbered on), the same neighbours within each group and none between the groups, and from_polygons that name the same polygons and none of the other group.", "quantifier": "all pairs of lists of tidy, compact polygons or polygons crossing on a grid, one of which is to the right of the other, all modes and operations, all lawful standard libraries", "why_tests_cant": "A bug that leaks state between parts of the sweep (an edge left in the sweep line, a wrong edge below, a bit set of another polygon) shows only in inputs with several separate parts; the tests compare no run with runs of its parts.", "anchors": ["src/shapeops.rs:217-330", "src/shapeops.rs:520-660", "src/shapeops.rs:1239-1731"]}
{"id": "C144", "title": "Polygons given more than once change nothing", "statement": "Overlaying tidy polygons some of which are given more than once, in any order, gives the contours that overlaying each once gives: the same corners in the same order, the same holes, outer flags and neighbours, and from_polygons in which each copy is set exactly where the polygon it is a copy of is set, whichever operation is named and whichever standard library sorts, as long as copies remove interiors exactly if what they are copies of do. Whether copies are to have their edges removed makes no difference as long as later polygons cover those edges.", "quantifier": "all lists of tidy, compact polygons, all lists of copies of them that contain each at least once, all modes and operations, all lawful standard libraries", "why_tests_cant": "Coincident sides take the merging paths of the sweep (which edge of a stack is kept, how from_polygons are handed down a stack of any height), which tests with pairs of polygons reach only for stacks of two.", "anchors": ["src/shapeops.rs:217-330", "src/shapeops.rs:520-660", "src/shapeops.rs:1239-1731"]}
{"id": "C145", "title": "Polygons that do not overlap may be given as one", "statement": "Overlaying tidy polygons gives the same contours whether polygons whose insides do not overlap are given separately or put together as one polygon of all their contours: the same corners in the same order, the same holes, outer flags and neighbours, and from_polygons in which the polygon put together is set exactly where one of its parts is, whichever operation is named and whichever standard library sorts, as long as parts that remove interiors are put together only with each other and both inputs are tidy and compact.", "quantifier": "all lists of tidy, compact polygons, all ways to put those together whose insides share no point, all modes and operations, all lawful standard libraries", "why_tests_cant": "Which polygon a side belongs to decides how the sweep counts insides and merges edges; tests use polygons of one contour each and compare no run with one in which the same contours are grouped otherwise.", "anchors": ["src/shapeops.rs:217-330", "src/shapeops.rs:520-660", "src/shapeops.rs:1239-1731"]}
