# river: formal model and proofs in Coq 8.16

## How the model is organised

The C++ is modelled function by function as total Gallina functions.

* `Num.v`: every function that touches a `double` is written once, over an abstract
  record of operations (`Num T`).  Two instances are used:
  * `R_num`: exact real arithmetic.  Geometric theorems (shape of curves, roots,
    intersections) are proved here.  Rounding is *not* covered by those theorems.
  * `B64 lm`: IEEE-754 binary64 built on the standard library's `SpecFloat`
    (round-to-nearest-even, NaN, infinities, signed zeros), parametrised by an
    arbitrary record `lm` of libm functions (cbrt, cos, atan ...), which the C++
    standard does not specify.  Refutations are computed here, i.e. with the
    arithmetic the program really uses.
  Theorems that need no arithmetic facts are stated for *every* `Num T`, so they
  cover binary64 with NaN as well.
* `Outcome.v`: results are `Ok x`, `UB reason` (null dereference, out-of-bounds
  access, ...), `NoFuel` (a loop did not finish within the supplied bound) or
  `Throw`.  Undefined behaviour is thus never confused with a value.
* Pointers into `boost::object_pool`s become indices into append-only lists
  (the pools never free before the clipper is destroyed).

## Properties

| id | what is modelled | how it is proved |
|----|------------------|------------------|
| C01-C03 | `path` as two arrays, `traverse` as a cursor machine with out-of-bounds outcome | induction on the call list, any `Num`-free coordinate type |
| C04-C05 | the Spirit grammar of `make_path` on character lists, incl. `qi::double_` | induction over rendered command lists / strings |
| C06-C08 | `rect` | case analysis on order; R instance; refutation for `inflated` |
| C09-C10 | `bezier_cubic::split` (both) | ring identities; induction on the parameter list |
| C11-C12 | `split_y`, `get_boundary` | calculus on R (extremum has zero derivative), refutation of root order / tolerance |
| C13-C14 | quadratic and cubic solver | field/trigonometry on R |
| C15,C18,C39 | `point_at_y`, `curr_x`, line/cubic intersection | via C13-C14 |
| C16-C17,C40 | segment intersection and helpers | field on R; refutation in binary64 |
| C19 | subdivision loop | measure for termination, convex-hull argument for completeness |
| C20 | scan line | invariant over sorted events, arbitrary iteration order of the set |
| C21-C23 | vertex rings on the heap | refinement to lists |
| C24-C25 | doubly linked AEL | representation predicate, refinement to list insertion/removal |
| C26-C28 | winding counts, classification | induction along the AEL |
| C29-C30 | main loop | potential argument / invariant |
| C31-C33 | output | invariants |
| C34-C35 | whole pipeline | computed witnesses in binary64; two counterclockwise rectangles: see below |
| C36,C38,C41 | segments, arcs, circle | field / interval reasoning |
| C37 | dcel | representation invariants |
| C42-C43 | whole pipeline | see below |
| C44 | `is_same` | case analysis on R; refutation for swapped control points |
| C45 | output pieces | invariant that edges are tied to a segment of the broken contours, for every function of the sweep |
| C46-C53 | whole pipeline | see below |
| C54-C56 | dcel as a drawing | see below |
| C57 | dcel processed again | invariants kept by every call; computed witnesses for the refutations |
| C58 | whole pipeline | see below |
| C59 | half-edge structure | see below |
| C60 | whole pipeline | see below |
| C61 | dcel: which half edges there are | see below |
| C62 | dcel: size | see below |
| C63 | process_intersect: size | see below |
| C64 | process: edges and ends made | see below |

*Two rectangles* (`Equi*.v`, `Box*.v`).  In exact arithmetic a run on axis-parallel outlines only
compares and copies coordinates, so a strictly increasing map of the coordinates in x and in y carries a run
over integers to a run over reals (`EquiRun.process_image`).  Every pair of rectangles in
general position is such an image of a pair on a small grid; those finitely many pairs are
computed inside Coq (`BoxTab.v`), with all start corners and orders of adding, for one layout
of memory; by C46 the layout does not matter.  The theorems are therefore about all real rectangles in general position.
In `R`, division by zero is 0, which the model meets in `chord_x` of a level edge;
coordinates lie strictly between -DBL_MAX and DBL_MAX; the iteration order is some
permutation and different vertices have different addresses.

*Polygons with axis-parallel edges* (`Stretch*.v`).  The same argument without a table: any number
of outlines, and both runs over the reals.

*One polygon with a single minimum* (`Lens*.v`).  The sweep is followed step by step for a
contour of any length that rises on both sides from one minimum to one maximum
(`Lens.climb_all`, by induction on the vertices still above the scan line, in any ordered
arithmetic).  Over the reals the ring is found to have this form, no edge is broken, and
the output is the contour itself, traced from its lowest vertex.

*Layout of memory* (`Ren*.v`, `Layout*.v`).  The records of crossings are sorted by address and
parameter, so another layout breaks the contours in another order and numbers the new vertices
differently.  Everything after that commutes with renaming vertices (`RenMap.finish_rn`), and the records
found in another order of the set are a permutation of the same records.

*Listing of contours* (`List*.v`).  Two listings of the same polygons give the same vertices under
other numbers.  The sets of crossings are the same for all pairs of sides whatever the order of the pair
(`ListBreak.broken_at`), so the broken contours agree up to numbers, and the sorted local minima
agree because no two of them are at one place.

*Active edges* (`Span*.v`).  Each side of a broken contour belongs to one bound, a chain of sides that
rises from a local minimum.  The invariant of the sweep (`SpanRun.ready`, `SpanRun.ended`) says that every
minimum below the line has been taken, that each of its two bounds has one active edge or is finished,
and that the active edge is the side of the bound that the line meets; the scan line queue holds
the tops of all active edges.

*Order and winding numbers* (`Plane*.v`).  For polygons in general position the broken contours meet
only at corners (`PlaneInput.input_plane`), so between two scan lines the active edges do not cross.  The
invariant (`PlaneScan.swept`) adds to the one above that they are ordered just above the line and counted
right.  Both hold at the next line because edges that meet there end there and are sorted again, and
because every edge whose left neighbours changed is at an x marked as changed (`PlaneCount.beam_count`).
The sum over the edges left of a point is the winding number of the broken contours
(`PlaneWind.wind_prefix`), which is that of the polygons as drawn (`PlaneInput.input_winding`).

*What is drawn* (`Out*.v`).  The result is defined from the winding numbers of the polygons as given
(`OutSpec.result`).  If it follows the winding numbers (`OutSpec.consistent`), the kept edges run up and
down in turn (`OutStep.ow_alt`), so every two neighbours that `update_output_bound` pairs have opposite
directions.  The invariant (`OutStep.inv`) ties the output bounds to the kept edges one to one and in order, gives each unfinished
contour two ends that lie on its two bounds (`OutPath.paths`), and says that the lines drawn so far,
with the segments from each bound's last point to its current edge, pass each point
as often as the result asks.  `OutClose` and `OutLink` follow `close_output` and `update_output_bound`;
both are shown to end without undefined behaviour (`OutAlt.runs`), because there are at most twice as many bounds as
vertices and their links form a list.

*Other sorts* (`Sort*.v`, `VSort.v`).  `VSort` is the clipper with an arbitrary function in place of
`std::sort`; `SortSpec.sorts` is what the language promises of it.  Where equivalent elements are equal in all
that is used of them, two sorted lists are the same or lead to the same result after `std::unique`
(`SortRun`).

*A processor used again* (`ShiftMap.v`, `Reuse*.v`).  Edges, bounds and contours of earlier runs stay in
the state; `ShiftMap.sh` puts them in front and shifts all indices, and every function of the sweep is
shown to commute with that.  What remains is that the second run finds the contours already broken
(`ReuseSpec.quiet`), which `ReusePoly.polygons_quiet` proves for polygons in general position.

*Half edges as a drawing* (`DcelLay*.v`, `DcelKept.v`, `DcelPieces.v`, `DcelCut.v`).  `DcelKept` shows that sorting,
linking and splitting faces change neither the ends nor the types of half edges, and that twins add each of them
turned round.  `DcelCut` says at which points a line is broken: common points with another line that are crossings
or ends, and at least all crossings with lines not parallel to it.  `DcelPieces` gives the half edges
after breaking as a list of consecutive break points, `DcelLay` that these are in order along the line.

*Moved and scaled polygons* (`Affine*.v`).  `EquiMap` shows for every function of the sweep that it commutes with maps
of the coordinates that keep comparisons, provided the abscissa of an edge moves along; for axis-parallel edges
every increasing map does that, for others multiplication and shift do.  `AffineBreak` does the same for the search of
crossings.  The sentinels +-DBL_MAX do not move: `AffineFirst` shows that all a run compares with them
lies among the corners of the polygons, strictly between them.

*Moved and scaled half-edge structures* (`DcelMove*.v`).  The same for every function of the half-edge structure:
each commutes with `moved_dcel`, which moves the points and the recorded crossings and leaves everything else.  The
directions at a point are compared as angles, so one scale is used for both coordinates: the angles are then
unchanged (`atan2_scaled`), also where the code compares them with a rounded constant for pi.

*Subject and clip exchanged* (`Swap*.v`).  Sides and outlines stay, the winding numbers of the two types change
places, so C51 applies to both runs.  `C60_self_refuted` shows what the order by type does to edges in one place.

*Neighbours* (`DcelNext*.v`).  Every node on a line is an end or a break point of it, unless lines overlap, and the
pieces lie between consecutive ones; so the half edges with length are given by the set of lines alone (C61).

*Size* (`DcelCount.v`, `DcelSize*.v`).  A pair of lines is intersected once (C20) and gives each of the two at most two
break points; each break point makes one more piece, at most one more point, and each piece one twin.  Without overlap
a pair gives each line at most one.

*Size of the contours* (`BreakCount.v`, `BreakLoad.v`, `BreakSize*.v`).  A pair of segments is intersected once (C20).  Two lines give
one crossing, a record on each, or ends of one on the other, at most two records in all, since 0 and 1 are not inside;
any other pair gives at most nine results (C18, C19).  Each record makes one new vertex (C63).

*Edges and ends* (`EdgeCount.v`, `BoundCount.v`, `EdgeCases.v`).  Edges are made in `insert_local_minima_to_ael` only, two at a time,
and the index of the next minimum goes up by one; bounds are made in `new_output` only, two with each polygon (C64).

## Trusted base

1. Coq 8.16.1's kernel (including `vm_compute`, used for the computed examples
   and refutations).
2. The standard library's axioms that `Print Assumptions` lists, and nothing else.
   Each property theorem is followed by `Print Assumptions` in its `Props_*.v`
   file; the output is:
   * *Closed under the global context* (no axiom):
     C01_move_constructor C01_path_roundtrip C01_path_roundtrip_recorded
     C02_null_callbacks C02_traverse_from C03_traverse_bounds C03_traverse_safe
     C04_make_path_roundtrip C05_make_path_total C06_rect_from_least C07_intersect_exact
     C07_intersect_symmetric C08_inflated_refuted_b64 C11_split_y_params
     C13_quadratic_count C14_cubic_count C14_cubic_refuted C15_curr_x_refuted
     C17_degenerate_refuted C17_underflow_refuted C18_line_cubic_safe C19_cubics_count
     C19_cubics_terminate C20_each_pair_once C21_add_path C21_no_moveto_refuted
     C22_extrema C23_drawn_rings C23_line_curve_records C23_process C23_rings C24_delete
     C24_history C24_history_ends C24_insert C24_insert_left C24_resort C24_run C24_take
     C25_insert C25_insert_left_partial C25_insert_minimum_refuted C25_resort C26_calc
     C26_recalc_partial C26_run_refuted C27_boundary C27_coincide C27_collect C27_parity
     C28_difference_refuted C28_oriented_partial C28_union_refuted C29_answer_partial
     C29_apart_partial C29_endless_refuted C29_valleys_partial C30_none_empty C31_spelled
     C31_well_formed C32_closed_refuted C33_overloads_agree C34_none_partial
     C34_prefix_partial C34_repeat_refuted C35_clockwise_refuted C35_difference_refuted
     C35_union_refuted C36_copies C36_reverse_twice C37_calls C37_points_unique
     C37_process C37_process_ends C37_process_points C37_split_face C38_clamp_refuted
     C40_distance_degenerate_refuted C41_circle_loop C42_end_deref_refuted
     C42_none_partial C42_null_deref_refuted C42_oob_write_refuted C42_places_partial
     C45_sources C46_addresses_double C46_orders_double_partial C46_orders_refuted
     C48_apart_partial C48_lowest_refuted C52_breaks_refuted C52_minima_refuted
     C53_again_partial C53_double_refuted C54_apart_refuted C55_refuted C56_face_refuted
     C56_left_refuted C56_type_refuted C57_doubled C57_partial C57_refuted
     C57_twice_refuted C58_curve_refuted C58_double_refuted C59_double_refuted
     C60_self_refuted C61_lap_refuted C62_any C63_boxes C63_lines C63_lines_binary64
     C63_loaded C64_edges C64_ends
   * `ClassicalDedekindReals.sig_forall_dec`, `FunctionalExtensionality.functional_extensionality_dep`:
     C36_reverse_traces C47_flat_refuted C47_order_refuted C47_shared_refuted
     C47_start_refuted
   * `ClassicalDedekindReals.sig_forall_dec`, `ClassicalDedekindReals.sig_not_dec`, `Classical_Prop.classic`, `FunctionalExtensionality.functional_extensionality_dep`:
     C08_inflated_partial C08_inflated_refuted C09_split_traces C10_split_many
     C10_split_many_cover C11_monotone_pieces_partial C11_monotone_pieces_refuted
     C12_boundary_band_refuted C12_boundary_contains_partial C12_boundary_near_partial
     C12_boundary_tight C13_quadratic_band C13_quadratic_band_refuted C13_quadratic_roots
     C14_cubic_roots_exact_partial C14_cubic_roots_three_partial C15_curr_x_cubic_partial
     C15_curr_x_cubic_three_partial C15_curr_x_line C15_curr_x_several
     C16_collinear_partial C16_collinear_refuted C16_lines_complete C16_lines_sound
     C17_lines_in_buffer_partial C18_line_cubic_exact_partial
     C18_line_cubic_three_partial C19_cubics_candidates C19_cubics_complete
     C19_cubics_sound C23_chains_trace C23_line_curve_exact_partial C23_pieces_trace
     C23_polygons C29_boxes_partial C29_monotone_partial C29_polygons_partial
     C35_boxes_otherwise_partial C35_boxes_partial C35_monotone_partial C37_process_exact
     C38_arc_end C38_arc_end_rad_refuted C38_arc_reverse_refuted C38_clamp_range
     C39_line_equation C39_line_equation_exact C40_distance_to_line_refuted
     C40_distance_to_segment C40_projection_partial C40_projection_refuted
     C41_circle_radius C42_none_polygons_partial C42_polygons_partial C43_moved C44_found
     C44_same_partial C44_swapped_refuted C46_addresses C46_orders_partial C46_polygons
     C47_listing_partial C48_polygons_partial C49_order_partial C50_counts_partial
     C50_inside_partial C51_consistent C51_inside C51_winding C52_curves_partial
     C52_polygons_partial C53_polygons C53_results C53_twice C54_apart_partial C54_cover
     C54_points C55_corner C55_partial C56_type_partial C58_moved C59_moved
     C60_swap_partial C60_together_partial C61_next_partial C61_order_partial C62_apart
     C63_drawn C63_whole
   These four axioms are those of the standard library's real numbers; they come
   in with `Reals`.  No axiom is declared here, no plugin is used, no library other
   than the standard one is imported.
3. The model itself: that the Gallina definitions say what the C++ does.  Every
   definition cites the lines it stands for.  The next sections list what is and
   what is not modelled.

## Which code is modelled

| source | model | not modelled |
|--------|-------|--------------|
| `src/include/river.h`, `src/src/path.cpp` | `Path.v` | - |
| `src/src/river.cpp` (`make_path`) | `Parse.v` | the conversion of a decimal literal to `double` inside Qi is a parameter of the model (`conv`) |
| `src/include/rmath.h`, `src/src/rmath.cpp` | `Rmath.v`, `Arc.v` | `arc_split_y` (its result is discarded, its method is empty); `vec2` operators and `rect` members nobody calls |
| `src/src/segment.h`, `segment.cpp` | `Segment.v` | - |
| `src/src/scan_line.h` | `ScanLine.v` | - |
| `src/src/vatti.h`, `vatti.cpp` | `VState.v`, `VPath.v`, `VBreak.v`, `VAel.v`, `VOut.v`, `VMain.v` | `set_direction`, `get_direction`, `set_windcount_closed` (no callers); `read_arcto` (empty body); debug drawing under `RIVER_GRAPHICS_DEBUG` |
| `src/src/processor.cpp` | `VMain.v` | memory management of the private object |
| `src/src/dcel.h`, `decl.cpp` | `Dcel.v` | debug drawing; `add_arc`, `add_cubic` (declared, never defined) |
| `src/src/util.*`, `debug_util/`, `test/`, `src/test/` | none | Qt and curl debugging aids, test programs |

## Simplifications

* *Arithmetic.*  See `Num.v` above.  Theorems over exact reals say nothing about
  rounding.  `int` winding counts are unbounded integers; `size_t` is `nat`.
* *Pointers* are indices into append-only lists; `delete` (only in the half-edge
  structure) leaves a tombstone and later access is `UB Dangling`.  Leaks are not
  modelled.
* *Loops* whose bound is not structural carry fuel; running out is `NoFuel`, which
  no theorem counts as an answer.  Where a theorem speaks of an answer, it holds for
  every amount of fuel.
* *Unspecified order.*  `std::sort` is a stable insertion sort: the order of
  equivalent elements, which C++ leaves open, is fixed in the model.  `VSort.process_by`
  takes any sorting function instead; C52 says for which input that makes no
  difference.  The iteration
  order of sets of pointers and the addresses of vertices and half edges are
  parameters (`env`, `denv`), so theorems hold for every choice.
* *Sets and priority queues* are sorted lists.  That is what the containers do when
  the comparison is a strict weak order; with a NaN coordinate it is not, the C++
  behaviour is then undefined, and the model just computes something.  Theorems about
  these containers therefore either exclude NaN (`nvalid`) or do not depend on it.
* *`arc_to`* callbacks are never made by `path::traverse` and have an empty body in
  the clipper; there is no arc input.
* *Memory exhaustion and exceptions of the allocator* are not modelled.

## What `proved` and `partial` mean in MANIFEST.json

`proved`: the listed theorems together give the English property for all inputs it
quantifies over.  `partial`: the property is false of the code or only part of it is
proved.  A false property has a theorem ending in `_refuted` with a concrete
counterexample, and, where there is one, a theorem with the hypotheses under which
it does hold.

## Mutation tests

`seeded/LOG.jsonl` has one line per wrong program tried: the definition edited, the
edit, the claim it breaks, the property theorems whose proof no longer goes through
(directly or through a lemma) and the theorems tightened because of it.  A failed proof
script does not show by itself that the statement is false of the edited program, so
the log can overstate what a theorem detects; a theorem that still proves is exact
evidence that it does not see the edit.
