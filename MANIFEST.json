{
 "claims": [
  {
   "property": "C01",
   "status": "proved",
   "theorems": [
    "C01_path_roundtrip",
    "C01_path_roundtrip_recorded",
    "C01_move_constructor"
   ],
   "note": "any callbacks, any coordinate type; also the move constructor"
  },
  {
   "property": "C02",
   "status": "proved",
   "theorems": [
    "C02_traverse_from",
    "C02_null_callbacks"
   ],
   "note": "start points chain; null callbacks only suppress their own events; holds for arbitrary arrays that traverse reads in bounds"
  },
  {
   "property": "C03",
   "status": "proved",
   "theorems": [
    "C03_traverse_safe",
    "C03_traverse_bounds"
   ],
   "note": "API-built paths are safe; exact in-bounds condition for hand-edited arrays"
  },
  {
   "property": "C04",
   "status": "proved",
   "theorems": [
    "C04_make_path_roundtrip"
   ],
   "note": "any white space, any decimal literal; conversion of a literal to double is a parameter"
  },
  {
   "property": "C05",
   "status": "proved",
   "theorems": [
    "C05_make_path_total"
   ],
   "note": "result is that of a well-formed prefix; undefined if the first drawing command is not a move"
  },
  {
   "property": "C06",
   "status": "proved",
   "theorems": [
    "C06_rect_from_least"
   ],
   "note": "any arithmetic with the order laws, in particular binary64 without NaN"
  },
  {
   "property": "C07",
   "status": "proved",
   "theorems": [
    "C07_intersect_exact",
    "C07_intersect_symmetric"
   ],
   "note": "any arithmetic with the order laws, in particular binary64"
  },
  {
   "property": "C08",
   "status": "partial",
   "theorems": [
    "C08_inflated_refuted",
    "C08_inflated_refuted_b64",
    "C08_inflated_partial"
   ],
   "note": "the property is false of the code: the upper corner is computed from the lower one; the original is contained exactly when neither side is longer than the amount"
  },
  {
   "property": "C09",
   "status": "proved",
   "theorems": [
    "C09_split_traces"
   ],
   "note": "exact real arithmetic"
  },
  {
   "property": "C10",
   "status": "proved",
   "theorems": [
    "C10_split_many",
    "C10_split_many_cover"
   ],
   "note": "exact real arithmetic"
  },
  {
   "property": "C11",
   "status": "partial",
   "theorems": [
    "C11_split_y_params",
    "C11_monotone_pieces_partial",
    "C11_monotone_pieces_refuted"
   ],
   "note": "parameter count and range in any arithmetic; pieces monotone unless the leading coefficient is positive and there are two cuts, where the cuts come in the wrong order and the claim is false"
  },
  {
   "property": "C12",
   "status": "partial",
   "theorems": [
    "C12_boundary_contains_partial",
    "C12_boundary_tight",
    "C12_boundary_near_partial",
    "C12_boundary_band_refuted"
   ],
   "note": "exact real arithmetic; containment when the derivative coefficients are not inside the 1e-8 band; inside the band it is false: a curve leaves its box, but, for every cubic, by at most 1e-8"
  },
  {
   "property": "C13",
   "status": "proved",
   "theorems": [
    "C13_quadratic_roots",
    "C13_quadratic_count",
    "C13_quadratic_band",
    "C13_quadratic_band_refuted"
   ],
   "note": "exact real arithmetic outside the tolerance band, as the property says; behaviour inside the band also described"
  },
  {
   "property": "C14",
   "status": "partial",
   "theorems": [
    "C14_cubic_roots_exact_partial",
    "C14_cubic_roots_three_partial",
    "C14_cubic_count",
    "C14_cubic_refuted"
   ],
   "note": "exact for up to two different roots, 1e-10 relative for three; missing the case of three roots with q=0 (arctangent of an infinity) and the case p=0, q>0 in which the code divides zero by zero (refuted in binary64)"
  },
  {
   "property": "C15",
   "status": "partial",
   "theorems": [
    "C15_curr_x_line",
    "C15_curr_x_cubic_partial",
    "C15_curr_x_cubic_three_partial",
    "C15_curr_x_several",
    "C15_curr_x_refuted"
   ],
   "note": "exact real arithmetic; lines completely; cubics unless the solver hits p=0, q>0, where the code answers with the chord (refuted in binary64)"
  },
  {
   "property": "C16",
   "status": "partial",
   "theorems": [
    "C16_lines_sound",
    "C16_lines_complete",
    "C16_collinear_partial",
    "C16_collinear_refuted"
   ],
   "note": "sound and complete for non-parallel segments; collinear overlaps found only if the first point lies on the second segment, otherwise false"
  },
  {
   "property": "C17",
   "status": "partial",
   "theorems": [
    "C17_lines_in_buffer_partial",
    "C17_degenerate_refuted",
    "C17_underflow_refuted"
   ],
   "note": "false of the code: a zero-length segment writes a third entry, and so do two crossing segments of non-zero length in doubles when products underflow. Proved over the reals for segments of non-zero length"
  },
  {
   "property": "C18",
   "status": "partial",
   "theorems": [
    "C18_line_cubic_safe",
    "C18_line_cubic_exact_partial",
    "C18_line_cubic_three_partial"
   ],
   "note": "count, curve parameter range and point on the curve in any arithmetic; over the reals exactness of the line side when the equation has at most two different real solutions, and to 1e-10 of the spread of the solutions when it has three (the line side is then only as good as the parameter)"
  },
  {
   "property": "C19",
   "status": "proved",
   "theorems": [
    "C19_cubics_terminate",
    "C19_cubics_count",
    "C19_cubics_sound",
    "C19_cubics_complete",
    "C19_cubics_candidates"
   ],
   "note": "termination and count in any arithmetic; soundness with explicit error and completeness of the candidates (and of the answer, if fewer than nine results) in exact arithmetic"
  },
  {
   "property": "C20",
   "status": "proved",
   "theorems": [
    "C20_each_pair_once"
   ],
   "note": "any arithmetic with a total order on the values involved (no NaN), any iteration order of the active set"
  },
  {
   "property": "C21",
   "status": "partial",
   "theorems": [
    "C21_add_path",
    "C21_no_moveto_refuted"
   ],
   "note": "every list of paths drawn as contours, any arithmetic, any clipper; false of the code for a path whose first call is not moveto: null dereference"
  },
  {
   "property": "C22",
   "status": "proved",
   "theorems": [
    "C22_extrema"
   ],
   "note": "every list of paths drawn as contours whose vertices have ordinary y, in any arithmetic whose comparison is an order (reals, binary64)"
  },
  {
   "property": "C23",
   "status": "proved",
   "theorems": [
    "C23_rings",
    "C23_process",
    "C23_drawn_rings",
    "C23_pieces_trace",
    "C23_chains_trace",
    "C23_polygons",
    "C23_line_curve_records",
    "C23_line_curve_exact_partial"
   ],
   "note": "rings, flags and pieces: every set of rings and records, any arithmetic; tracing: over the reals, for records that lie on their segment (always so for polygons; the cubic/cubic intersection only approximates)"
  },
  {
   "property": "C24",
   "status": "proved",
   "theorems": [
    "C24_insert",
    "C24_insert_left",
    "C24_take",
    "C24_delete",
    "C24_resort",
    "C24_history",
    "C24_history_ends",
    "C24_run"
   ],
   "note": "any arithmetic, any history of list operations, and any run of the clipper from any state"
  },
  {
   "property": "C25",
   "status": "partial",
   "theorems": [
    "C25_insert",
    "C25_insert_left_partial",
    "C25_resort",
    "C25_insert_minimum_refuted"
   ],
   "note": "insertion from the front and re-sorting keep the order in any arithmetic without NaN; the second edge of a local minimum is searched from the left neighbour of the first and can end up right of larger x: false of the code there"
  },
  {
   "property": "C26",
   "status": "partial",
   "theorems": [
    "C26_calc",
    "C26_recalc_partial",
    "C26_run_refuted"
   ],
   "note": "one edge, and the whole recalculation of an ordered list whose stale edges are all at a changed x, any arithmetic without NaN; false of the code when the list is out of order: a counterexample run leaves an active edge with count 0"
  },
  {
   "property": "C27",
   "status": "proved",
   "theorems": [
    "C27_boundary",
    "C27_parity",
    "C27_collect",
    "C27_coincide"
   ],
   "note": "every list, fill rule and operation, given right counts (C26); the list the output is built from has lost neighbouring coinciding edges, and no two such neighbours are left"
  },
  {
   "property": "C28",
   "status": "partial",
   "theorems": [
    "C28_oriented_partial",
    "C28_difference_refuted",
    "C28_union_refuted"
   ],
   "note": "holds for union and intersection with the positive and negative rules; false of the code for difference and for non_zero"
  },
  {
   "property": "C29",
   "status": "partial",
   "theorems": [
    "C29_endless_refuted",
    "C29_answer_partial",
    "C29_valleys_partial",
    "C29_apart_partial",
    "C29_polygons_partial",
    "C29_boxes_partial",
    "C29_monotone_partial"
   ],
   "note": "false of the code: a rectangle and an overlapping square whose union never ends (cyclic output bounds in close_output). Proved: an answer does not depend on the loop bound; for all polygons over the reals, and for all contours without crossings in any ordered arithmetic, the scan lines increase and are at most as many as the vertices, and the only loops that can fail to end are the two walks along the output bounds, which do end when the operation is none. Over the reals they also end for any two counterclockwise rectangles in general position and for one counterclockwise y-monotone polygon of any size, and for any number of polygons in general position if the result follows the winding numbers (C51). Missing: a condition under which those two walks end for the other operations on other input"
  },
  {
   "property": "C30",
   "status": "proved",
   "theorems": [
    "C30_none_empty"
   ],
   "note": "any arithmetic, any input loaded through add_path; on a processor used before, old contours are emitted again (see C34)"
  },
  {
   "property": "C31",
   "status": "proved",
   "theorems": [
    "C31_well_formed",
    "C31_spelled"
   ],
   "note": "any arithmetic; well-formedness for any state, not only reachable ones; for runs on drawn contours the calls spell the closed polygons piece by piece"
  },
  {
   "property": "C32",
   "status": "partial",
   "theorems": [
    "C32_closed_refuted",
    "C35_boxes_partial",
    "C35_boxes_otherwise_partial",
    "C35_monotone_partial"
   ],
   "note": "the property is false of the code: a difference of two rectangles emits an open contour. For two counterclockwise rectangles in general position over the reals it is known exactly when the run is free of open contours, diagonal lines and undefined behaviour together; one counterclockwise polygon with any number of vertices that level lines cut at most twice, and no level edge, always gives a closed contour; so does any number of polygons in general position if the result follows the winding numbers (C51)"
  },
  {
   "property": "C33",
   "status": "proved",
   "theorems": [
    "C33_overloads_agree"
   ],
   "note": "any arithmetic, any state, any prior vector; also the same undefined behaviour and exceptions"
  },
  {
   "property": "C34",
   "status": "partial",
   "theorems": [
    "C34_repeat_refuted",
    "C34_prefix_partial",
    "C34_none_partial"
   ],
   "note": "the property is false of the code: output_list is never cleared. Proved instead, in any arithmetic and for any history of add_path and process: every later call emits the earlier contours first, unchanged and in order, and with the operation none it emits nothing else; for which input each later call then emits what a new processor would is C53"
  },
  {
   "property": "C35",
   "status": "partial",
   "theorems": [
    "C35_difference_refuted",
    "C35_union_refuted",
    "C35_clockwise_refuted",
    "C35_boxes_partial",
    "C35_boxes_otherwise_partial",
    "C35_monotone_partial"
   ],
   "note": "the property is false of the code. Over the reals, for any two counterclockwise rectangles without (nearly) collinear sides, any start corners, order of adding, fill rule and addresses: intersection and union are right at every point; difference and xor are right at every point exactly when a stated condition on the order of the coordinates holds, and otherwise give undefined behaviour, an open contour or a diagonal line. Clockwise rectangles: intersection is refuted in doubles. One counterclockwise polygon with any number of vertices and no level edge that level lines cut at most twice, against an empty operand: the polygon itself or nothing, as it should be. Any number of polygons in general position: right at every point if the result follows the winding numbers (C51). Missing: rectangles with sides on one line, other inputs, rounding"
  },
  {
   "property": "C36",
   "status": "proved",
   "theorems": [
    "C36_reverse_twice",
    "C36_reverse_traces",
    "C36_copies"
   ],
   "note": "arcs are modelled in segment.h terms only: reversal of an arc segment copies the centre, its points are not specified by the code"
  },
  {
   "property": "C37",
   "status": "proved",
   "theorems": [
    "C37_calls",
    "C37_points_unique",
    "C37_process_points",
    "C37_process",
    "C37_process_ends",
    "C37_process_exact",
    "C37_split_face"
   ],
   "note": "every history of set_current_path_type and add_line calls, then process; structure in any arithmetic, uniqueness of points in any arithmetic whose comparison is an order; add_arc and add_cubic are declared but not defined in the sources"
  },
  {
   "property": "C38",
   "status": "partial",
   "theorems": [
    "C38_clamp_range",
    "C38_clamp_refuted",
    "C38_arc_end",
    "C38_arc_end_rad_refuted",
    "C38_arc_reverse_refuted"
   ],
   "note": "normalisation holds in exact arithmetic but not for binary64 minus zero; the end point is right, the end angle and the reversal are not"
  },
  {
   "property": "C39",
   "status": "proved",
   "theorems": [
    "C39_line_equation",
    "C39_line_equation_exact"
   ],
   "note": "exact real arithmetic"
  },
  {
   "property": "C40",
   "status": "partial",
   "theorems": [
    "C40_distance_to_segment",
    "C40_distance_to_line_refuted",
    "C40_distance_degenerate_refuted",
    "C40_projection_partial",
    "C40_projection_refuted"
   ],
   "note": "distance is to the segment, not the line; the projection test misses the lower end"
  },
  {
   "property": "C41",
   "status": "proved",
   "theorems": [
    "C41_circle_loop",
    "C41_circle_radius"
   ],
   "note": "loop in any arithmetic, radius bound in exact arithmetic"
  },
  {
   "property": "C42",
   "status": "partial",
   "theorems": [
    "C42_null_deref_refuted",
    "C42_end_deref_refuted",
    "C42_oob_write_refuted",
    "C42_places_partial",
    "C42_polygons_partial",
    "C42_none_partial",
    "C42_none_polygons_partial",
    "C35_boxes_partial",
    "C35_monotone_partial"
   ],
   "note": "false of the code: null pointer, end iterator and a write past a two-element array on valid input. Proved, in any arithmetic and for all drawn contours: nothing is thrown and only two places can go wrong, the result array of two crossing lines and the links of the output bounds; over the reals polygons leave only the latter; with the operation none nothing goes wrong once the crossings are found. For two counterclockwise rectangles in general position over the reals a sufficient condition is proved (C35_boxes_partial), and a single y-monotone polygon never goes wrong (C35_monotone_partial). Any number of polygons in general position never goes wrong if the result follows the winding numbers (C51). Missing: a condition under which the output bounds stay linked for other input"
  },
  {
   "property": "C43",
   "status": "proved",
   "theorems": [
    "C43_moved"
   ],
   "note": "exact real arithmetic; any number of polygons, operation, fill rule, loop bound, iteration order and addresses; edges parallel to the axes, no two on one line, no edge met within a millionth of its length from its ends"
  },
  {
   "property": "C44",
   "status": "partial",
   "theorems": [
    "C44_found",
    "C44_same_partial",
    "C44_swapped_refuted"
   ],
   "note": "exact real arithmetic: edges along the same curve are recognised; false of the code for two cubics in the same direction with swapped control points, which is the only exception (such curves meet half way, so edges broken at all crossings do not show it)"
  },
  {
   "property": "C45",
   "status": "proved",
   "theorems": [
    "C45_sources"
   ],
   "note": "any arithmetic"
  },
  {
   "property": "C46",
   "status": "partial",
   "theorems": [
    "C46_addresses",
    "C46_addresses_double",
    "C46_polygons",
    "C46_orders_partial",
    "C46_orders_double_partial",
    "C46_orders_refuted"
   ],
   "note": "vertex addresses never matter, in exact arithmetic and in binary64. The order of the set of scan line objects does not matter for polygons in exact arithmetic, nor for curves or in binary64 when no segment has two different records at one parameter; otherwise the property is false of the code: three triangles whose union is found or ends in undefined behaviour, depending on the order"
  },
  {
   "property": "C47",
   "status": "partial",
   "theorems": [
    "C47_listing_partial",
    "C47_order_refuted",
    "C47_start_refuted",
    "C47_shared_refuted",
    "C47_flat_refuted"
   ],
   "note": "proved for any number of polygons in exact arithmetic when no two corners are at one place and no two sides overlap, together with any change of memory layout; false of the code in binary64: the order of two polygons changes the number of calls, the first corners change the calls, and with a common lowest corner or a triangle without area the order decides whether the intersection is empty"
  },
  {
   "property": "C48",
   "status": "partial",
   "theorems": [
    "C48_apart_partial",
    "C48_polygons_partial",
    "C48_lowest_refuted"
   ],
   "note": "proved in any ordered arithmetic for contours in which no crossing is found, and for all polygons over the reals, if no vertex is at the height -DBL_MAX; false of the code for a vertex at that height: no contour is swept and the output is empty. Not covered: curves with crossings"
  },
  {
   "property": "C49",
   "status": "partial",
   "theorems": [
    "C49_order_partial"
   ],
   "note": "proved over the reals for any number of polygons in general position: no side level, no corner at another corner or on another side, crossings not within a millionth of the length from an end of either side; any operation, fill rule and layout of memory. Not covered: other polygons, curves, doubles (false there: C25_insert_minimum_refuted)"
  },
  {
   "property": "C50",
   "status": "partial",
   "theorems": [
    "C50_counts_partial",
    "C50_inside_partial"
   ],
   "note": "as C49: any number of polygons in general position over the reals, all operations and fill rules; the winding numbers are those of the polygons as given, not of the broken contours. False of the code for doubles in general (C26_run_refuted)"
  },
  {
   "property": "C51",
   "status": "proved",
   "theorems": [
    "C51_winding",
    "C51_inside",
    "C51_consistent"
   ],
   "note": "exact real arithmetic; general position as in C49 (no side level, no corner at another corner or on another side, crossings not within a millionth of the length from an end), no corner at -DBL_MAX; the operations left out are those for which C28, C32 and C35 are refuted. In doubles it is false (C26_run_refuted, C35_clockwise_refuted)"
  },
  {
   "property": "C52",
   "status": "partial",
   "theorems": [
    "C52_polygons_partial",
    "C52_curves_partial",
    "C52_breaks_refuted",
    "C52_minima_refuted"
   ],
   "note": "false of the code in doubles: three triangles with sides through one point give 19 or 14 calls, and with a common lowest corner the sort decides whether the intersection is empty. Proved over the reals: for polygons of which no two corners are at one place the run is the same step by step, whatever the sort; for curves too if no segment is recorded twice at one parameter with different points and no two local minima are at one place"
  },
  {
   "property": "C53",
   "status": "partial",
   "theorems": [
    "C53_again_partial",
    "C53_polygons",
    "C53_results",
    "C53_twice",
    "C53_double_refuted"
   ],
   "note": "proved for any number of polygons in general position over the reals (C53_polygons, C53_results, C53_twice), and in any ordered arithmetic, doubles included, for all drawn contours that have no more crossings once they are broken (C53_again_partial). Without that it is false in doubles: three triangles are broken anew in the second run, which writes 42 calls instead of 36 (C53_double_refuted). No contours are added between the runs"
  },
  {
   "property": "C54",
   "status": "partial",
   "theorems": [
    "C54_cover",
    "C54_points",
    "C54_apart_partial",
    "C54_apart_refuted"
   ],
   "note": "exact real arithmetic, coordinates within the range of double, any layout and iteration order. The covered points and the points of the structure are proved for all lines. That half edges have only ends in common is proved if lines on one straight line have only ends in common; otherwise false of the code: a short line on a long one leaves both as they are"
  },
  {
   "property": "C55",
   "status": "partial",
   "theorems": [
    "C55_partial",
    "C55_corner",
    "C55_refuted"
   ],
   "note": "false of the code: a crossing is recorded on both lines even at their ends, so every corner of a contour gets half edges without length. Proved over the reals: they are only at ends of lines that lie on another line, and they are at every such end if the two lines are not parallel"
  },
  {
   "property": "C56",
   "status": "partial",
   "theorems": [
    "C56_type_partial",
    "C56_type_refuted",
    "C56_face_refuted",
    "C56_left_refuted"
   ],
   "note": "false of the code: pieces and twins get the type that was set last, the last half edge of each walk gets no face, and the walk turns right instead of left. Proved over the reals: the type is the one set last, or the half edge is a line given with its type"
  },
  {
   "property": "C57",
   "status": "partial",
   "theorems": [
    "C57_partial",
    "C57_doubled",
    "C57_refuted",
    "C57_twice_refuted"
   ],
   "note": "false of the code: process gives every half edge a new twin, those with twins included, and after a crossing with a line given later, or for two lines with a common end, the second process reads half edges it has deleted. Proved in any arithmetic: whenever the calls are answered the set and the lists of the points are right, every half edge has a twin, and a process leaves at least twice as many half edges as it found"
  },
  {
   "property": "C58",
   "status": "partial",
   "theorems": [
    "C58_moved",
    "C58_double_refuted",
    "C58_curve_refuted"
   ],
   "note": "proved in exact real arithmetic for all polygons, shared and overlapping edges included, whose coordinates lie strictly between -DBL_MAX and DBL_MAX before and after (C58_moved). False in doubles, because crossings are rounded differently: the union of three triangles with small integer corners has 18 calls, one unit further 19 (C58_double_refuted). With curves the unit matters even where nothing is rounded: an arch scaled by 2^-40 comes out as a triangle, because a fixed bound of 1e-8 decides whether a curve turns (C58_curve_refuted)"
  },
  {
   "property": "C59",
   "status": "partial",
   "theorems": [
    "C59_moved",
    "C59_double_refuted"
   ],
   "note": "proved in exact real arithmetic for all lines, with process called any number of times, one scale for x and y, coordinates within the range of double before and after (C59_moved). False in doubles: the diagonals of a unit square at distance 2^52 from the origin have four points instead of five (C59_double_refuted). Different scales for x and y are not covered"
  },
  {
   "property": "C60",
   "status": "partial",
   "theorems": [
    "C60_swap_partial",
    "C60_together_partial",
    "C60_self_refuted"
   ],
   "note": "false of the code: the intersection of a triangle with itself is empty or the triangle, depending on which is given first, subject or clip, because edges in one place are ordered by type. Proved over the reals for any number of polygons in general position when the result follows the winding numbers (as in C51), any layout of memory in each of the runs"
  },
  {
   "property": "C61",
   "status": "partial",
   "theorems": [
    "C61_next_partial",
    "C61_order_partial",
    "C61_lap_refuted"
   ],
   "note": "proved over the reals for lines of which those on one straight line have no more than ends in common. False for lines that overlap: a half edge goes past an end of a shorter line that lies on it (C61_lap_refuted)"
  },
  {
   "property": "C62",
   "status": "proved",
   "theorems": [
    "C62_any",
    "C62_apart"
   ],
   "note": "C62_any: any arithmetic whose comparison is an order, binary64 included; C62_apart: the smaller bound over the reals, reached by two lines across each other"
  },
  {
   "property": "C63",
   "status": "proved",
   "theorems": [
    "C63_lines",
    "C63_lines_binary64",
    "C63_boxes",
    "C63_drawn",
    "C63_loaded",
    "C63_whole"
   ],
   "note": "C63_lines, C63_boxes: any arithmetic whose comparison is an order; C63_lines assumes that 0 and 1 are not inside a segment, which C63_lines_binary64 does not need; C63_drawn: over the reals no box is inverted, so nothing is assumed of the coordinates; C63_loaded: any arithmetic and any paths; C63_whole joins the two over the reals"
  },
  {
   "property": "C64",
   "status": "proved",
   "theorems": [
    "C64_edges",
    "C64_ends"
   ],
   "note": "any arithmetic and any clipper to begin with, if the run ends; that every minimum is taken is not claimed here"
  }
 ]
}