# Formal model of idchoppers in Rocq: design

Source: `/repo` (eevee/idchoppers, pinned commit), read as text only. Nothing was
built or run; the link between code and model is the line citation at every
definition. Properties: `properties.jsonl` (ids `C01`...). Status per property:
`MANIFEST.json`. Experiments with wrong programs: `seeded/LOG.jsonl`.

## Layout of `rocq/theories`

| layer | files | content |
|---|---|---|
| model | see "What is modelled" | computable Gallina functions, one per Rust function, each citing file and lines |
| specification | `Spec*` | declarative definitions (positions in buffers, exact integers and rationals, relations), used by the statements instead of the model's helpers |
| proofs | `*Facts*`, `*Refuted`, `Props*Aux` | lemmas and counterexamples |
| samples | `*Samples`, `TextureAux` | concrete inputs of the examples |
| theorems | `Props*` (not `Props*Aux`) | only theorems `Cnn_...`, each `exact lemma`, with `Print Assumptions`, and Examples that the hypotheses can be met |

Build: `coq_makefile -f _CoqProject -o Makefile && make -j4` in `rocq`.

## Conventions of the model

* `u8` is `Coq.Init.Byte.byte`; slices, `&str`, `String` and `Vec` are lists. A
  `&str` is the list of its bytes.
* Integers are `Z`; every cast, wrap and overflow the code performs is explicit.
  `usize` is 64-bit.
* A computation that can fail is `outcome A := Ok a | Err e | Panic p`. Panics
  (slice or index out of range, overflow in checked builds, `unwrap`, `assert`,
  `panic!`) are values.
* Overflow: where the code may overflow the model takes `mode : build`
  (`Checked` panics as in debug builds, `Wrapping` as in release builds).
* Loops without a structural measure take fuel and return `Panic PFuel` without
  it. `PFuel` is excluded by the statements, or proved unreachable (`C56`, the
  outline functions).
* `f64` and `f32` are `Coq.Floats.SpecFloat` values (binary64, binary32, round to
  nearest even, one NaN) with the standard library's Gallina operations. No
  primitive floats. The link to real numbers (rounding errors) goes through
  Flocq's theorems about the same operations.
* Segments of the sweep are compared by index where the code compares addresses.
* The standard library's `sort` and `BTreeSet` are a parameter `std` of the model.
  Theorems assume `std_laws std` (`SpecCompute.v`): sorting permutes and only
  fails with a comparison, a set holds only what was put in, `range(..x).last()`
  returns a member that `x` compares greater than. No theorem assumes the
  order to be consistent, because it is not (`C49_doubles_refuted`). Counterexamples
  hold for every `std` with `std_laws` and `sorts` (if a strictly increasing
  arrangement exists, sort returns it). C101 assumes `sorts` and `set_laws`
  (`SpecHoles.v`): in a set that is strictly ordered, insertion, removal and
  `range(..x).last()` do what they should. `std_ref` (`StdRef.v`) is proved to meet
  all three.
* SVG documents (`Chart.v`, `RouteDraw.v`) and printed lines (`Info.v`) are
  structured data, in order.

## Trusted base

1. Coq 8.16.1's kernel.
2. What `Print Assumptions` lists under each theorem: of the theorems in `Props*.v`
   all are "Closed under the global context" except

   | theorems | axioms (all from Coq's standard library) |
   |---|---|
   | `C67_next`, `C68_crossing`, `C82_apart`, `C82_in_line`, `C84_disjoint`, `C84_meet`, `C84_overlap`, `C84_same_polygon`, `C86_outlines`, `C88_hues`, `C88_distinct`, `C95_sides`, `C95_faces`, `C95_finishes`, `C95_sort_free`, `C96_completes`, `C96_covers`, `C97_directions`, `C98_regions`, `C98_places`, `C99_sides`, `C99_from`, `C100_neighbours`, `C104_area`, `C104_length`, `C104_straight`, `C111_rooms`, `C112_fill`, `C117_turns`, `C117_determined`, `C118_order_free`, `C120_parent`, `C121_again`, `C121_beside`, `C122_refuted`, `C124_cut`, `C125_completes`, `C125_covers`, `C125_places`, `C126_directions`, `C126_regions`, `C126_sides`, `C126_neighbours`, `C126_turns`, `C127_order_free`, `C129_cut`, `C129_covers`, `C129_crossable`, `C131_covers`, `C131_crossable`, `C132_parent`, `C132_again`, `C133_reordered`, `C134_cut`, `C134_covers`, `C134_crossable`, `C136_divides`, `C136_counts`, `C136_removes`, `C136_rects`, `C137_covers`, `C137_crossable`, `C137_areas`, `C138_rooms`, `C139_order_free`, `C140_tidy`, `C140_crossing`, `C142_skewed`, `C142_crossing`, `C143_beside`, `C143_crossing`, `C144_copies`, `C145_joined` | `ClassicalDedekindReals.sig_not_dec`, `ClassicalDedekindReals.sig_forall_dec`, `FunctionalExtensionality.functional_extensionality_dep`, `Classical_Prop.classic` |

   They come with Coq's real numbers, which Flocq is about. No axioms, no
   parameters, no admitted proofs, no functors of our own.
3. That the model says what the Rust code does (citations), with the behaviour of
   libraries below.

### Behaviour of libraries assumed

* nom 4.0 as configured in `Cargo.toml` (verbose errors): `tag!`, `alt!`,
  `do_parse!`, `many0!`, `complete!`, `count!`, `verify!`, `map_res!`, `take!`,
  `return_error!`, `le_*` as written in `Nom.v`. `count!` is taken not to
  allocate the whole count in advance; with a version that does, a huge count
  in TEXTUREx could abort for lack of memory instead of reporting truncated data.
  Theorems about TEXTUREx ask for buffers shorter than 2^63.
* Rust std: slicing, `str::from_utf8`, `u8::from_str` (accepts a leading `+`),
  the `binary_search_by` of 2018, the sift operations of `BinaryHeap`, stable
  `sort`, integer and float casts, float `min`/`max`/`round`.
* `HashSet`/`HashMap`: iteration order is a parameter where it can be observed
  (`Info.v`); elsewhere sets are lists used only for membership, and the order in
  which the route command visits contours does not matter to the theorems.
* euclid 0.16 (vectors, `Rect::from_points`, `union`, `contains`), bit-vec 0.4,
  typed_arena, byteorder.
* Memory allocation and printing never fail; writing a file can fail only in `Program.v`.

## What is modelled

| source | model | not modelled |
|---|---|---|
| `src/parse/util.rs`, `parse/wad.rs`, `parse/mod.rs`, `errors.rs` 37-74 | `Nom.v`, `ParseWad.v` | texts of errors and debug prints; `display_error` |
| `src/archive/wad.rs` | `ArchiveWad.v` | stubs without a body (`iter_entry`, `iter_between`, `diagnose`) |
| `src/parse/map.rs` | `ParseMap.v` (records, writers, `parse_doom_map*`), `SectorPolys.v` (`sector_to_polygons`), `CountTextures.v` | |
| `src/parse/texturex.rs` | `ParseTexturex.v` | |
| `src/map.rs` | `MapModel.v`, `SectorPolys.v` | `Debug` output |
| `src/universe.rs`, `src/vanilladoom.rs` | `Universe.v`, `Actors.v` (every actor with all its fields) | the unused sprite table |
| `src/shapeops.rs` | `Geometry.v`, `Sweep.v`, `Contours.v`, `Compute.v` | the unused `_move_by`, `_join`, `SweepLine` over `BTreeSet` (864-907), the packet fields `contour_id` and `result_in_out` (never read), debug SVG files and prints; the address comparison in `SweepEndpoint`'s order (equal addresses compare equal anyway) |
| `programs/src/idchoppers.rs` | `Info.v` (info), `Chart.v` (chart), `Flip.v` (flip), `Route.v`, `RouteDraw.v` (route), `Demo.v` (shapeops), `Program.v` (main, run) | options, style sheets, writing SVG as text, prints of flip, shapeops and route |
| `src/input_buffer.rs` | `Program.v` | |
| `src/util.rs`, `src/geom.rs`, `src/lib.rs` | types only | |

`RepoTests.v` runs the tests of `src/shapeops.rs` (all the repository has) on the model; they
pass.

Simplifications inside the model:

* References to vertices, lines and segments are indices; the code only compares
  or hashes their addresses.
* `RefCell` borrows: a double borrow is `Panic PAssert`; packets are kept in a list
  by segment index.
* `Map::from_bare` cannot fail in the code; the model returns an `outcome` and the
  proofs show it is `Ok`.
* Sector outlines: hash maps from vertices are association lists in order of
  insertion; the code looks keys up and never iterates over them.
* The route's `HashSet`s are lists without order assumptions.
* The program (`Program.v`): argument lists without options; clap 2 looks for a command
  name before it takes a positional argument; mapping an empty file fails (memmap 0.6);
  a file is written completely or not at all; standard input can be read.
* The text of `MapName`'s `Display` is modelled as bytes (C19, C62).

## Which statements are limited, and why

* Integer coordinates. C45, C49, C50, C60, C67, C68, C82-C86, C95-C101, C117, C118, C120-C122, C124-C127, C129, C131-C134, C136-C145 speak about points
  whose coordinates are integers within a stated range (up to 2^24, 2^52, or 2^13
  for the turn choice): this is what maps have. On arbitrary doubles the orders are
  inconsistent (`C49_doubles_refuted` and the examples beside C50), so nothing
  of the kind can hold.
* `compute` as a whole. On arbitrary input what it returns is constrained by
  C51-C54, C70, C119 (vertices and edges come from kept pieces, sources, neighbours,
  holes), and the sweep by C114 and C115 (each piece is joined up and filed, none
  disappears, though some may never be swept, C116); it is not characterised as the exact overlay; it cannot be, since it panics
  (C69) or returns wrong sources (C71) or never ends (C123) on simple inputs where edges cross or end on
  other edges. C94 and C56 make it independent of sort and fuel.
* Tidy polygons (C95): integer corners, edges that meet only in common corners or
  coincide from end to end. For these the classification of all edges by the
  even-odd rule is proved, from the input to the choice of the sides kept. Where
  edges of several polygons coincide only that of the last one is kept, so its mode
  alone decides about `RemoveEdges`.
* The exact overlay (C96-C100): for tidy polygons, with `RemoveEdges` only
  where every edge of the polygon is also one of a later polygon, with edges
  short enough to compare directions (4000) and areas exact in doubles, `compute`
  is characterised completely: it ends, its contours run along exactly the kept sides,
  bound disjoint regions that fill the kept places, name the right polygons, and are
  neighbours exactly along common edges. C117 adds how the sides are put together to
  contours, which makes the list of contours unique, C118 that it does not depend on
  how the polygons are written down, C120 which contour each hole is listed with,
  and C121 that overlaying the regions once more changes nothing. With other uses of `RemoveEdges` contours do not
  close (C70's counterexample) or `compute` panics (C122). `SpecOverlay.v` holds the vocabulary (winding numbers,
  regions); "inside" is the even-odd rule along a ray straight down, with a fixed
  side for points on edges.
* Sides that cross (C124-C127): `SpecCross.v` describes polygons by their corners and, for each
  side, the points marked on it (`mark`, `plain`, `marked`, `cut_well`). If the polygons are tidy with
  these points as corners, if `intersect_segments` finds exactly these points for all parts of
  sides that cross, and if a second edge comes from the left to each of them, then `compute` does the same
  as with these points as corners, so all of the above holds, with "inside" meaning inside the
  polygons as they were given. That `intersect_segments` finds the point is a hypothesis on the
  input, which can be checked by computation (`cut_wellb`); for crossings that doubles cannot represent it is
  false, and C69, C71, C116 and C123 are what happens then. A corner that touches a side from the right
  is not covered: it is cut at another time than the same point as a corner would be met, and `compute` can panic (C135).
* Holes of crossing polygons (C132): C120 and C121 carried over by C124. The points of a side are those of the parts it is cut
  into, so what is straight below a hole can be told from the polygons as given.
* Upright polygons on a grid (C129): where sides are horizontal or vertical, on a grid of `2^g` units and at most 21 steps
  long, `intersect_segments` is proved to find each crossing exactly, so C124-C127 hold of them
  without a hypothesis on doubles (`SpecGrid.v`, `grid_cut`). 21 is the limit: `n * (k / n)` is exact in doubles for all
  `k <= n <= 21`, and a side of 22 steps crossed at 15 is the first that is not (C130). That quotients come out exact is
  checked by computing all of them, which is a complete proof since there are finitely many.
  For rectangles with sides on different lines (C131) the points where they cross need not be given: `GridRects.v`
  constructs them; their overlay does not depend on the order they are given in (C133). With sides on the same line `compute` can panic (C128 needs a side of 39 units, though).
* Sides of any slope on a grid (C134): the same for sides that are not upright, as long as they reach at most 21 steps each
  way and cross in points of the grid (`SpecSlope.v`, `slope_cut`). A crossing `k / n` of the way along a side is computed
  for each coordinate as the same quotient an upright side of that extent gives, so the limit of 21 is the same. That
  `intersect_segments` tells parallel sides from those in line needs the bound on distance and slope together
  (`R * R * D <= 1248751`): its test for parallels is relative to the distance of the sides. Sides that cross off the grid
  are not covered: their crossing is a fraction in general.
  C137 says the same in terms of the polygons as given (`SpecMesh.v`): `MeshCut.v` constructs the points where the sides
  cross and proves that they follow each other as `slope_cut` demands. A side shared by two polygons must not be crossed, and sides that
  overlap in part are excluded. C139 asks only that the polygons are a `mesh` in the first order; that they are one in the other follows.
* Moving (C140): `SpecMove.v` moves corners by whole numbers. The conditions on the distance from the origin keep what is
  computed exact, so the theorems ask for them in both places.
* Stretching and skewing (C142): `SpecSkew.v` maps (x, y) to (a x + dx, b y + c x + dy) with a, b > 0. These are the maps of the plane that
  keep the order of points the sweep goes by and which way a triangle turns. `C142_skewed` covers
  tidy polygons. `C142_crossing` covers polygons whose sides cross on a grid, made larger by a power of two (any other stretching moves their
  crossings off the grids of C137), lifted by whole steps and moved; the grid, the reach and the slopes must be allowed before and after.
* Polygons beside each other (C143): `SpecBeside.v` says that all sides of one list are left of all sides of the other. Tidy polygons and
  polygons whose sides cross on a grid (`mesh`, as in C137) are covered. Polygons above each other share the sweep line; nothing is claimed of them here.
* Polygons given more than once (C144): `SpecCopies.v` says which polygon each is a copy of. Only tidy polygons are covered, since sides that lie on each
  other may not be crossed (see C137).
* Polygons put together (C145): `SpecJoin.v` asks that the edges are those of the parts and that no point, and no place just above an edge, is inside
  two parts of the same polygon. Only tidy polygons are covered.
* Rooms of a map (C111, C138): the outlines `Map::sector_to_polygons` traces, overlaid. C111 asks that lines meet only in vertices, C138 lets them
  cross on a grid (`SpecCrossMap.v`), so that sectors may overlap. It also asks that the vertices are the doubles nearest to integers, which
  excludes a coordinate of -0; loading a map never makes one.
* Areas (C136): `SpecParts.v` has twice the signed area of closed lines by the shoelace formula of `SpecShape.v`, which shares
  nothing with the winding numbers C125 is stated in. That the one settles the other is `windings_area` in `WindArea.v`:
  sides are cut into strips one unit wide, and in each strip the steps up and down add up to nothing. The theorems exclude
  polygons that go round a place twice, since the overlay fills those by the even-odd rule.
* What the chart fills (C112): exactly the sector only where its border lines follow each
  other with the sector on one hand; otherwise a place can be wound round twice (C113).
  The rule by which SVG fills a path is part of the specification (`painted`).
* The holes (C101): for contours that meet only in common corners, `compute_holes` is
  characterised completely. Contours that share edges go wrong (C102).
* Termination of the sweep is claimed for tidy polygons and those of C125 only: in general it is false
  (C123), and C56 says that lack of fuel means that many events were processed.

## Findings

Properties that a reader of the code would expect and that are false of the model
keep their id, with a theorem `..._refuted` and, where there is one, the true
characterisation. Status "partial" in the manifest.

| id | finding |
|---|---|
| C13 | a map whose lumps are cut off by the end of the directory is reported though required lumps are missing |
| C14 | `last_index` is one past the last lump unless the directory ends there |
| C27 | a texture offset past the end of the lump panics |
| C44 | `Contour::add` keeps the cached orientation |
| C49, C50 | events and segments with arbitrary doubles are not ordered consistently |
| C55 | `compute` never looks at the operation |
| C61 | a wrong magic is never reported as `InvalidMagic` (verbose errors) |
| C62 | `MAP+5` is map 5 |
| C66 | texture counts use the wrong side's upper texture and the wrong height of middle textures |
| C69 | two integer triangles make `compute` panic |
| C70 | a contour's first edge can be one that no polygon has |
| C71 | a contour can be attributed to a polygon it is not in |
| C73 | the route starts from every contour whose bounding box has the player in it |
| C74 | the route panics if a contour is in no sector and its first line blocks |
| C77 | things outside the bounding box of the vertices are outside the chart |
| C79 | the chart of a Hexen map overflows `i16` on wide maps |
| C81 | player starts are never green |
| C83 | near-parallel, almost collinear or opposite collinear segments are intersected wrongly |
| C87 | rounded cosines tie for lines from about 7600 units, and the wrong turn is taken |
| C89 | no contour is ever drawn red |
| C90 | a hole above another hole is made a hole of that hole; it is not drawn, and what is in it not reached |
| C93 | with TEXTURE1 present TEXTURE2 is not looked at by the info command |
| C102 | a contour that shares an edge with the one below it, and is listed first, is made a hole of it |
| C106 | crossings slightly below an integer are not rounded to it: overlaying integer rectangles gives a vertex at 0.9999999999999999 |
| C108 | the program ends with status 0 after every error it reports |
| C109 | `flip` is dispatched but not declared to clap: it cannot be called |
| C110 | chart and route panic when the output file cannot be written |
| C113 | the chart fills a room inside a secret room as secret too if its lines face inwards (outlines wind the same way, `fill-rule` is nonzero) |
| C116 | three triangles with corners among the integers 0 to 4: an edge stays in the sweep line (its order is inconsistent, the binary search misses it) and is left out; `compute` then panics |
| C122 | a hole that begins above an edge in mode `RemoveEdges` makes `compute` panic: the answer to the FIXME at src/shapeops.rs:1042 ("why did i comment out this middle bit? is it necessary??") is yes |
| C123 | four triangles with corners among the integers -2 to 3 on which the sweep of `compute` never ends: a crossing computed just left of a vertical edge makes two cuts undo each other for ever, and memory grows without bound |
| C128 | three axis-parallel rectangles, (0,31)-(2,32), (0,0)-(1,39) and (1,31)-(2,32), on which `compute` panics, though it copes with any two of them: the crossing (1, 31) is computed as (1, 30.999999999999996) and a side is cut below its own left end |
| C130 | two axis-parallel rectangles, (0,0)-(22,22) and (-5,15)-(5,30), whose overlay has the corner (0, 14.999999999999998): the rounding of almost-integers (lines 129-134) misses those just below an integer |
| C135 | a square, (0,0)-(10,10), and a triangle, (5,10) (9,12) (9,14), that touches its top side from outside: `compute` panics, because an edge that begins on a side is put below it before the side is cut there (lines 1507-1588) and is taken to be inside; with (5,10) as a corner of the square too all is well |
| C141 | the rectangles of C128 moved up by 2: `compute` returns four contours, because 2 + 30.999999999999996 rounds to 33; so whether polygons can be overlaid depends on where they are |

## Experiments with wrong programs

Each line of `seeded/LOG.jsonl` is an edit of one model definition made in a scratch
copy, with the theorems that no longer hold. Where none failed although the English
claim was broken, the theorem was tightened or a new one added (field `tightened`),
and the edit tried again.
