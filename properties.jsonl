{"id": "C01", "title": "Path container round trip", "statement": "Replaying a path with traverse delivers exactly the moveto/lineto/cubicto calls that built it, in order, with bit-identical coordinates, and nothing else.", "quantifier": "every finite sequence of moveto/lineto/cubicto calls and every coordinate value (including NaN and infinities)", "why_tests_cant": "the sequence length and interleaving of element kinds is unbounded; the packed data array is indexed by a running cursor", "anchors": ["src/src/path.cpp: path::moveto/lineto/cubicto/traverse", "src/include/river.h: struct path"]}
{"id": "C02", "title": "Traversal hands each callback the right start point and tolerates missing callbacks", "statement": "The 'from' of every callback is the end point of the element just before it (the origin for the first), and leaving a callback null only suppresses that kind of event: all other events are delivered unchanged.", "quantifier": "every path built through the API and each of the subsets of null callbacks", "why_tests_cant": "ranges over all paths and callback subsets", "anchors": ["src/src/path.cpp: path::traverse", "src/include/river.h: path_traverse_funcs"]}
{"id": "C03", "title": "Traversal never reads outside a path built through the API", "statement": "No path built with moveto/lineto/cubicto makes traverse (or the clipper reading it) read past the coordinate array; hand-edited paths whose arrays disagree do read out of bounds.", "quantifier": "every call sequence; every pair of arrays for the converse", "why_tests_cant": "memory-safety must hold for all histories", "anchors": ["src/src/path.cpp: path::traverse"]}
{"id": "C04", "title": "make_path reads back what was written", "statement": "For every list of commands whose first is a move, rendering it in the m/l/c text syntax and calling make_path returns exactly those contours with the written numbers.", "quantifier": "every command list, every decimal literal of the accepted form, every amount of whitespace between tokens", "why_tests_cant": "unbounded strings and literals", "anchors": ["src/src/river.cpp: make_path"]}
{"id": "C05", "title": "make_path on malformed text", "statement": "make_path never fails: it keeps the longest well-formed prefix of commands and silently ignores the rest; arc commands are accepted and dropped; a draw command before the first move is undefined behaviour.", "quantifier": "every input string", "why_tests_cant": "quantifies over all strings", "anchors": ["src/src/river.cpp: make_path, writer::lineto, writer::arcto"]}
{"id": "C06", "title": "rect::from is the least enclosing box", "statement": "The rectangle built from a list of points contains each of them and is contained in every rectangle that does.", "quantifier": "every non-empty list of finite points", "why_tests_cant": "unbounded list of points", "anchors": ["src/include/rmath.h: rect::from"]}
{"id": "C07", "title": "Box overlap test is exact", "statement": "For well-formed boxes intersect answers true exactly when the two closed boxes share a point; it is symmetric.", "quantifier": "every pair of boxes", "why_tests_cant": "all boxes, including touching ones", "anchors": ["src/src/rmath.cpp: rect::intersect"]}
{"id": "C08", "title": "Inflating a box", "statement": "Inflating a box by a non-negative amount should yield a box containing the original.", "quantifier": "every box and amount", "why_tests_cant": "universally quantified", "anchors": ["src/include/rmath.h: rect::inflated"]}
{"id": "C09", "title": "Splitting a cubic at t preserves its shape", "statement": "The two curves produced by split(t) trace exactly the parameter ranges [0,t] and [t,1] of the original; they share their joint and keep the original end points.", "quantifier": "every cubic and every t", "why_tests_cant": "continuum of curves and parameters", "anchors": ["src/src/rmath.cpp: bezier_cubic::split(double,...)", "bezier_cubic::point_at"]}
{"id": "C10", "title": "Splitting a cubic at many parameters preserves its shape", "statement": "Splitting at an increasing list of parameters in (0,1) yields the consecutive sub-curves, joined end to end, together covering the original.", "quantifier": "every cubic, every increasing list of any length", "why_tests_cant": "unbounded lists", "anchors": ["src/src/rmath.cpp: bezier_cubic::split(const double*,...)"]}
{"id": "C11", "title": "Cubics are cut into y-monotone pieces", "statement": "split_y returns at most two parameters, each in (0,1); cutting an input cubic there yields pieces on which y is monotone.", "quantifier": "every cubic", "why_tests_cant": "continuum; depends on root ordering", "anchors": ["src/src/rmath.cpp: bezier_cubic::split_y", "src/src/vatti.cpp: read_cubicto"]}
{"id": "C12", "title": "Bounding box of a cubic contains the curve", "statement": "get_boundary returns a box containing every point of the curve (and no larger than needed).", "quantifier": "every cubic and every parameter in [0,1]", "why_tests_cant": "continuum", "anchors": ["src/src/rmath.cpp: bezier_cubic::get_boundary"]}
{"id": "C13", "title": "Quadratic solver", "statement": "resolv_quad_equa returns exactly the real roots of the equation (when coefficients and discriminant are not in the tolerance band), never more than two.", "quantifier": "every coefficient triple", "why_tests_cant": "continuum", "anchors": ["src/src/rmath.cpp: resolv_quad_equa"]}
{"id": "C14", "title": "Cubic solver", "statement": "resolv_cubic_equa returns only real roots of the cubic, and all of them, never more than three.", "quantifier": "every coefficient quadruple", "why_tests_cant": "continuum; trigonometric case", "anchors": ["src/src/rmath.cpp: resolv_cubic_equa"]}
{"id": "C15", "title": "Abscissa of a boundary at a given height", "statement": "For a height strictly inside a segment's y-range, curr_x is the x of the point of the segment at that height (lines and cubics with a single crossing).", "quantifier": "every segment and height", "why_tests_cant": "continuum", "anchors": ["src/src/segment.h: seg_lineto::curr_x", "src/src/segment.cpp: seg_cubicto::curr_x", "src/src/rmath.cpp: bezier_cubic::point_at_y"]}
{"id": "C16", "title": "Segment/segment intersection is sound and complete", "statement": "Every reported intersection lies on both segments at the reported parameters; two non-parallel segments that meet are reported with exactly one point; overlapping collinear ones by end points inside the other.", "quantifier": "every pair of segments", "why_tests_cant": "continuum, degenerate configurations", "anchors": ["src/src/rmath.cpp: intersect(p0,p1,p2,p3)"]}
{"id": "C17", "title": "Segment/segment intersection stays inside its result buffer", "statement": "At most two intersections are written to the two-element result.", "quantifier": "every pair of segments including degenerate ones", "why_tests_cant": "memory-safety on every input", "anchors": ["src/src/rmath.cpp: intersect(p0,p1,p2,p3)", "src/include/rmath.h: line_intersect_result"]}
{"id": "C18", "title": "Line/cubic intersection", "statement": "At most three intersections are reported; each lies on the curve at the reported curve parameter in [0,1] and on the line segment at the reported line parameter in [0,1].", "quantifier": "every segment and cubic", "why_tests_cant": "continuum", "anchors": ["src/src/rmath.cpp: intersect(line,bezier_cubic)", "line::general_from"]}
{"id": "C19", "title": "Cubic/cubic intersection", "statement": "The subdivision terminates, reports at most nine results, each with parameters in [0,1] and its point on the first curve; every true intersection of the two curves survives in some candidate cell.", "quantifier": "every pair of cubics and every precision", "why_tests_cant": "continuum; recursion depth", "anchors": ["src/src/rmath.cpp: intersect(bezier_cubic,bezier_cubic,int)"]}
{"id": "C20", "title": "Sweep reports every overlapping pair exactly once", "statement": "Every unordered pair of added segments whose boxes overlap is handed to the intersection callback exactly once, no other pair is, and no segment is paired with itself.", "quantifier": "every multiset of boxes and every iteration order of the active set", "why_tests_cant": "all insertion histories and address orders", "anchors": ["src/src/scan_line.h: scan_line::add_segment/process"]}
{"id": "C21", "title": "add_path builds a closed, linked contour", "statement": "After add_path every accepted contour is a cyclic doubly linked list of vertices in input order, each segment ends at the next vertex, closed with a straight segment if needed, zero-length lines removed.", "quantifier": "every path", "why_tests_cant": "unbounded contours", "anchors": ["src/src/vatti.cpp: add_path, read_moveto, read_lineto, read_cubicto, insert_vertex_list, set_segment"]}
{"id": "C22", "title": "Local extrema of a contour are found", "statement": "For a contour that is not completely horizontal, exactly the local minima (one per horizontal run) are queued, minima and maxima alternate around the contour and are equally many.", "quantifier": "every cyclic sequence of vertices", "why_tests_cant": "unbounded cyclic sequences with horizontal runs", "anchors": ["src/src/vatti.cpp: insert_vertex_list, add_local_min"]}
{"id": "C23", "title": "Inserting intersection points keeps the contour", "statement": "Breaking segments at intersection parameters keeps every ring closed and linked, keeps every original vertex with its extremum flags, and each new chain traces the broken segment.", "quantifier": "every set of contours and break records", "why_tests_cant": "unbounded", "anchors": ["src/src/vatti.cpp: process_intersect"]}
{"id": "C24", "title": "Active edge list integrity", "statement": "Every insertion, removal and re-sort keeps the active edge list a well-formed doubly linked list and changes only the membership it should.", "quantifier": "every sequence of AEL operations", "why_tests_cant": "all histories", "anchors": ["src/src/vatti.cpp: insert_into_ael, take_from_ael, delete_active_edge, resort_ael"]}
{"id": "C25", "title": "Active edge list is ordered", "statement": "Inserting into a list ordered by current x keeps it ordered.", "quantifier": "every list and newcomer", "why_tests_cant": "all histories", "anchors": ["src/src/vatti.cpp: is_valid_ael_order, insert_into_ael"]}
{"id": "C26", "title": "Winding counts are the true winding numbers", "statement": "After recalculation each edge's wind_cnt is the winding number of its own polygon type on its more deeply wound side and wind_cnt2 the winding number (parity under even-odd) of the other type there.", "quantifier": "every active edge list, every fill rule", "why_tests_cant": "all lists", "anchors": ["src/src/vatti.cpp: calc_windcnt, recalc_windcnt"]}
{"id": "C27", "title": "Edge classification computes the boolean operation", "statement": "An edge is kept as an output boundary exactly when crossing it changes membership in the result region for the chosen operation and fill rule; hence a point is inside the result iff an odd number of kept edges lie to its left.", "quantifier": "every active edge list, 4 fill rules, 5 operations", "why_tests_cant": "all lists", "anchors": ["src/src/vatti.cpp: is_contributing, update_ouput_bound"]}
{"id": "C28", "title": "Paired output boundaries run in opposite directions", "statement": "The two edges that bound a piece of output have opposite direction (the code's stated precondition of new_output).", "quantifier": "every active edge list, fill rule and operation", "why_tests_cant": "all lists", "anchors": ["src/src/vatti.cpp: new_output, update_ouput_bound"]}
{"id": "C29", "title": "Clipping terminates", "statement": "process finishes: the number of scan beams is bounded by the number of input vertices and intersections; scan lines are visited once each in increasing order.", "quantifier": "every input", "why_tests_cant": "all inputs; liveness", "anchors": ["src/src/vatti.cpp: process, pop_scanline, do_top_of_scanbeam, insert_local_minima_to_ael"]}
{"id": "C30", "title": "clip_type::none yields nothing", "statement": "Processing with clip_type::none emits no contour.", "quantifier": "every input and fill rule", "why_tests_cant": "all inputs", "anchors": ["src/src/vatti.cpp: process, is_contributing"]}
{"id": "C31", "title": "Output stream is well formed", "statement": "Every emitted contour is one moveto followed by at least one lineto/cubicto, each starting where the previous one ended.", "quantifier": "every processor state", "why_tests_cant": "all runs", "anchors": ["src/src/vatti.cpp: build_output, write_path"]}
{"id": "C32", "title": "Output contours are closed", "statement": "Every emitted contour ends at its moveto point.", "quantifier": "every history of output-building steps", "why_tests_cant": "all histories of open/extend/join operations", "anchors": ["src/src/vatti.cpp: new_output, update_bound, join_output, do_top_of_scanbeam, build_output"]}
{"id": "C33", "title": "The two process overloads agree", "statement": "process(..., paths&) appends to the vector exactly the contours the callback overload would emit.", "quantifier": "every processor state and every prior content of the vector", "why_tests_cant": "all states", "anchors": ["src/src/vatti.cpp: process, write_moveto/write_lineto/write_cubicto"]}
{"id": "C34", "title": "process can be repeated", "statement": "Calling process again on the same processor yields the same contours.", "quantifier": "every processor and operation", "why_tests_cant": "all histories of process calls", "anchors": ["src/src/vatti.cpp: process, reset, build_output"]}
{"id": "C35", "title": "Boolean operations are correct on simple inputs", "statement": "Intersection, union, difference and xor of two overlapping rectangles describe the set-theoretic result.", "quantifier": "all operations and inputs", "why_tests_cant": "all inputs", "anchors": ["src/src/vatti.cpp"]}
{"id": "C36", "title": "Reversing a segment", "statement": "Reversing a segment traces the same points backwards, and reversing twice restores it.", "quantifier": "every segment", "why_tests_cant": "continuum", "anchors": ["src/src/segment.h: reverse", "src/src/vatti.cpp: copy_seg"]}
{"id": "C37", "title": "Half-edge structure integrity", "statement": "Points are unique by coordinate; every half edge gets a twin with swapped ends; splitting a face keeps next/prev inverse to each other.", "quantifier": "every history of add_line calls", "why_tests_cant": "all histories", "anchors": ["src/src/decl.cpp", "src/src/dcel.h"]}
{"id": "C38", "title": "Angle normalisation and arcs", "statement": "clamp_0_2pi returns an equivalent angle in [0,2pi); an arc's end angle and reversal are consistent with its end points.", "quantifier": "every angle and arc", "why_tests_cant": "continuum", "anchors": ["src/src/rmath.cpp: clamp_0_2pi, arc"]}
{"id": "C39", "title": "Implicit line equation", "statement": "general_from gives a non-trivial line equation satisfied by both end points.", "quantifier": "every pair of points", "why_tests_cant": "continuum", "anchors": ["src/src/rmath.cpp: line::general_from"]}
{"id": "C40", "title": "Point/line distance and projection helpers", "statement": "dist2_point_line is the squared distance its documentation promises and point_project_in_segment answers whether the projection falls inside the segment.", "quantifier": "every point and segment", "why_tests_cant": "continuum", "anchors": ["src/src/rmath.cpp: dist2_point_line, point_project_in_segment"]}
{"id": "C41", "title": "Circle approximation", "statement": "circle produces four cubics forming a closed loop through the four axis points, every point of which is within 0.03% of the radius.", "quantifier": "every centre, radius and parameter", "why_tests_cant": "continuum", "anchors": ["src/src/rmath.cpp: bezier_cubic::circle"]}
{"id": "C42", "title": "Clipping has no undefined behaviour", "statement": "process dereferences no null pointer, no end iterator and reads no vector out of range.", "quantifier": "every loaded processor, operation and fill rule", "why_tests_cant": "all inputs", "anchors": ["src/src/vatti.cpp: process, update_ouput_bound"]}
{"id": "C43", "title": "Only the order of the coordinates matters", "statement": "For polygons whose edges are parallel to the axes, strictly increasing changes of the x and of the y coordinates do not change how process ends, and the output is the old output with its coordinates changed in the same way.", "quantifier": "every set of such polygons without edges on a common line, every pair of increasing maps, operation and fill rule", "why_tests_cant": "all inputs and all maps", "anchors": ["src/src/vatti.cpp: process, process_intersect, reset, scanbeam loop"]}
{"id": "C44", "title": "Edges taken for coinciding are the same curve", "statement": "is_same answers true exactly for two active edges that run along the same curve.", "quantifier": "every pair of active edges, lines and cubics, drawn in either direction", "why_tests_cant": "continuum", "anchors": ["src/src/vatti.cpp: is_same, get_seg"]}
{"id": "C45", "title": "The output is made of pieces of the input", "statement": "Every contour of the output starts at a vertex of the contours broken at their crossings; every curve of the output is one of the segments of the broken contours, in one direction or the other; every straight piece ends at the height of one of their vertices.", "quantifier": "every set of drawn contours, operation and fill rule", "why_tests_cant": "all inputs", "anchors": ["src/src/vatti.cpp: copy_seg, do_top_of_scanbeam, new_output, update_bound, join_output, write_path"]}
{"id": "C46", "title": "The answer does not depend on the layout of memory", "statement": "How process ends and the calls that it makes do not depend on the addresses of vertices (by which intersections are sorted) or of scan line objects (in whose order a std::set of pointers is run through).", "quantifier": "every set of drawn contours, every pair of layouts, operation and fill rule", "why_tests_cant": "one allocator only ever shows one layout", "anchors": ["src/src/vatti.cpp: process_intersect", "src/src/scan_line.h: process"]}
{"id": "C47", "title": "The answer does not depend on how the contours are listed", "statement": "How process ends and the calls that it makes do not depend on the order in which contours are added nor on the corner from which each is drawn.", "quantifier": "every two listings of the same polygons, every layout of memory, operation and fill rule", "why_tests_cant": "n contours of k corners have n! * k^n listings, and a difference shows only for special positions", "anchors": ["src/src/vatti.cpp: process", "src/src/vatti.cpp: line_to", "src/src/vatti.cpp: process_intersect", "src/src/scan_line.h: process"]}
{"id": "C48", "title": "The active edges are the sides that the scan line meets", "statement": "When the work at a scan line is done, the active edge list holds exactly the sides of the broken contours that start at or below the line and end above it, each once and from its lower corner to its upper one.", "quantifier": "every list of drawn contours, operation, fill rule, layout of memory and scan line", "why_tests_cant": "contours have any number of corners in any position, and a side missed or left over for one beam only shows in the output if it bounds the result there", "anchors": ["src/src/vatti.cpp: insert_local_minima_to_ael", "src/src/vatti.cpp: do_top_of_scanbeam", "src/src/vatti.cpp: pop_scanline", "src/src/vatti.cpp: process"]}
{"id": "C49", "title": "Active edges stand from left to right", "statement": "When the work at a scan line is done, the active edge list is ordered by the abscissae of the edges at every height up to the next scan line.", "quantifier": "every list of drawn contours, operation, fill rule, layout of memory and scan line", "why_tests_cant": "any number of corners and crossings in any position; an order that is wrong for one beam need not show in the output", "anchors": ["src/src/vatti.cpp: is_valid_ael_order", "src/src/vatti.cpp: insert_local_minima_to_ael", "src/src/vatti.cpp: resort_ael", "src/src/vatti.cpp: do_top_of_scanbeam"]}
{"id": "C50", "title": "The sweep tells the inside of the result from the outside", "statement": "Between two scan lines the stored counts are the winding numbers of the polygons as drawn, and a point has an odd number of kept edges to its left exactly if it belongs to the result of the operation under the fill rule.", "quantifier": "every list of drawn contours, operation, fill rule, layout of memory, scan line and point above it", "why_tests_cant": "a statement about every point of the plane and every configuration of crossings", "anchors": ["src/src/vatti.cpp: recalc_windcnt", "src/src/vatti.cpp: calc_windcnt", "src/src/vatti.cpp: is_contributing", "src/src/vatti.cpp: process"]}
{"id": "C51", "title": "Polygons in general position are clipped correctly when the result follows the winding numbers", "statement": "For polygons in general position and an operation whose result at any one height is entered only where a winding number grows (or only where one falls), which are union and intersection under the rules positive and negative, under the other rules if all polygons are drawn the same way round, and the difference if the clipping polygons are drawn the other way round: process ends without undefined behaviour, draws closed contours of straight lines only, and what it draws has winding number one (or minus one) at every point of the result and nought at every other point.", "quantifier": "every number of polygons with every number of corners in general position, operation, fill rule, layout of memory, loop bound and point of the plane", "why_tests_cant": "any number of corners and crossings in any position, and every point of the plane; a contour joined at the wrong end for one arrangement of minima and maxima shows only there", "anchors": ["src/src/vatti.cpp: process", "src/src/vatti.cpp: update_output_bound", "src/src/vatti.cpp: close_output", "src/src/vatti.cpp: new_output", "src/src/vatti.cpp: join_output", "src/src/vatti.cpp: build_output"]}
{"id": "C52", "title": "The answer does not depend on how std::sort orders equivalent elements", "statement": "std::sort may leave elements that do not precede each other in any order; whichever order it leaves them in, process draws the same.", "quantifier": "every list of drawn contours, operation, fill rule, layout of memory, loop bound and every function that sorts as the language asks", "why_tests_cant": "a test runs with the one std::sort of the library at hand", "anchors": ["src/src/vatti.cpp: process_intersect", "src/src/vatti.cpp: reset", "src/src/vatti.cpp: recalc_windcnt", "src/src/vatti.cpp: resort_ael"]}
{"id": "C53", "title": "Each further run of a processor adds what a new processor would draw", "statement": "When one processor is used for several operations one after the other, each run writes all the contours of the runs before it and then exactly those which a new processor with the same contours would write; so the same run twice draws every contour twice, and by the even-odd rule nothing.", "quantifier": "every list of drawn contours, every sequence of operations and fill rules, layout of memory and loop bound", "why_tests_cant": "all histories of process calls on all input; the edges, bounds and contours of earlier runs stay in the processor and could be reached again", "anchors": ["src/src/vatti.cpp: process", "src/src/vatti.cpp: reset", "src/src/vatti.cpp: process_intersect", "src/src/vatti.cpp: build_output"]}
{"id": "C54", "title": "The half edges draw the lines given", "statement": "After process, the points that lie on half edges are exactly the points that lie on the lines given; the points of the structure are exactly the ends of the lines and the crossings of lines that are not parallel; and two half edges have at most ends in common, unless they join the same two points.", "quantifier": "every history of set_current_path_type and add_line calls, layout of memory, iteration order and point of the plane", "why_tests_cant": "any number of lines in any position; a crossing that is missed or a piece in the wrong order shows only for some arrangement of lines", "anchors": ["src/src/decl.cpp: process_break", "src/src/decl.cpp: intersect", "src/src/decl.cpp: process_break_point", "src/src/decl.cpp: build_twin", "src/src/decl.cpp: find_or_add_point"]}
{"id": "C55", "title": "No half edge joins a point to itself", "statement": "add_line refuses lines from a point to itself; after process no half edge starts and ends at the same point.", "quantifier": "every history of set_current_path_type and add_line calls, layout of memory and iteration order", "why_tests_cant": "whether a crossing coincides with an end of a line depends on the arrangement; the extra half edges are invisible unless they are looked for", "anchors": ["src/src/decl.cpp: intersect", "src/src/decl.cpp: process_break_point", "src/src/decl.cpp: add_line"]}
{"id": "C56", "title": "Each half edge has the type of its line and the face on its left", "statement": "After process each half edge has the type of a line given of which it is a part, knows a face, and its next is the half edge with which the face on its left goes on.", "quantifier": "every history of set_current_path_type and add_line calls, layout of memory and iteration order", "why_tests_cant": "types and faces of all half edges for all arrangements of lines", "anchors": ["src/src/dcel.h: half_edge", "src/src/decl.cpp: new_line_edge", "src/src/decl.cpp: build_twin", "src/src/decl.cpp: build_face", "src/src/decl.cpp: get_next"]}
{"id": "C57", "title": "A half-edge structure can be processed again", "statement": "A dcel may be given more lines and processed again: the calls are defined, the set of half edges and the lists of the points stay right, every half edge has a twin, and half edges that already have a twin are not doubled.", "quantifier": "every sequence of set_current_path_type, add_line and process calls, layout of memory and iteration order", "why_tests_cant": "any number of calls in any order; stale pointers to deleted half edges often still read plausible values", "anchors": ["src/src/dcel.h: dcel", "src/src/decl.cpp: process", "src/src/decl.cpp: process_break_point", "src/src/decl.cpp: build_twin", "src/src/decl.cpp: build_face"]}
{"id": "C58", "title": "Moving or scaling the drawing moves or scales the result", "statement": "If every coordinate of the outlines given is multiplied by a positive number and shifted, with its own numbers for x and for y, then every boolean operation ends in the same way as before, and its output is the output of the original outlines, call by call, with every point multiplied and shifted in the same way. The result does not depend on where the origin is or on the unit.", "quantifier": "any number of outlines of lines and curves with crossing, shared, overlapping, level or degenerate edges, all coordinates within the range of double, all operations and fill rules, positive scales and shifts, addresses and iteration orders", "why_tests_cant": "a statement about pairs of inputs, one of them transformed by arbitrary real numbers; a test can only compare a few pairs", "anchors": ["src/src/vatti.cpp: process", "src/src/vatti.cpp: do_top_of_scanbeam", "src/src/vatti.cpp: resort_ael", "src/src/rmath.cpp: intersect"]}
{"id": "C59", "title": "The half-edge structure does not depend on the origin or the unit", "statement": "If every coordinate given to add_line is multiplied by one positive number and shifted, then every sequence of calls, process included, ends in the same way as before, and the structure is the same except that its points are multiplied and shifted: the same half edges with the same ends, twins, successors, predecessors, types and faces in the same order.", "quantifier": "every sequence of set_current_path_type, add_line and process calls with coordinates within the range of double, every positive scale, every shift, layout of memory and iteration order", "why_tests_cant": "a statement about pairs of inputs, one of them transformed by arbitrary numbers; a test can only compare a few pairs", "anchors": ["src/src/decl.cpp: add_line", "src/src/decl.cpp: process_break", "src/src/decl.cpp: process_break_point", "src/src/decl.cpp: get_sort_data", "src/src/decl.cpp: build_face", "src/src/rmath.cpp: intersect"]}
{"id": "C60", "title": "Union and intersection are symmetric and fit together", "statement": "Union, intersection and xor describe the same set of points when subject and clip are exchanged; in particular it does not matter which of the two is given first if they are the same polygon. What is drawn for the intersection lies within what is drawn for the union, and the two together cover every point as often as subject and clip do.", "quantifier": "every number of polygons, every fill rule, layout of memory, loop bound and point of the plane", "why_tests_cant": "relates several runs at every point of the plane, for any number of corners and crossings in any position", "anchors": ["src/src/vatti.cpp: process", "src/src/vatti.cpp: is_valid_ael_order", "src/src/vatti.cpp: is_contributing", "src/src/vatti.cpp: calc_windcnt"]}
{"id": "C61", "title": "Half edges join neighbouring points, in whatever order the lines come", "statement": "Call the ends of the lines and the crossings of lines that are not parallel nodes. After process, two different nodes that are neighbours on a line given are joined by exactly one half edge in each direction, and no other two different points are joined. Hence the order in which the lines are given, their direction, their type and the layout of memory change neither the points nor which of them are joined.", "quantifier": "every history of set_current_path_type and add_line calls, every order, direction and type of the lines, layout of memory, iteration order and pair of points of the plane", "why_tests_cant": "any number of lines in any position, every order of them; a missing or an extra half edge shows only where the lines happen to meet", "anchors": ["src/src/decl.cpp: process_break", "src/src/decl.cpp: process_break_point", "src/src/decl.cpp: intersect", "src/src/decl.cpp: build_twin"]}
{"id": "C62", "title": "The half-edge structure stays quadratic", "statement": "n lines of nonzero length make at most 2n(2n-1) half edges and 2n^2 points, in any arithmetic, overlapping lines included. In exact arithmetic, if lines on one straight line have no more than ends in common, there are at most 2n^2 half edges.", "quantifier": "every history of set_current_path_type and add_line calls with finite coordinates, layout of memory and iteration order", "why_tests_cant": "a bound for every number of lines in every position, rounding included", "anchors": ["src/src/decl.cpp: process_break", "src/src/decl.cpp: intersect", "src/src/decl.cpp: build_twin", "src/src/scan_line.h: process"]}
{"id": "C63", "title": "Breaking contours stays quadratic", "statement": "process_intersect adds at most m(m-1) vertices to contours of m lines, and at most 9m(m-1) to contours of m lines and curves. Adding paths makes at most one vertex for each point or line and three for each curve.", "quantifier": "every set of closed contours of lines with finite coordinates, in any arithmetic whose comparison is an order; of lines and curves whose boxes are not inverted; every set of contours drawn, over the reals; every path added; every layout of memory and iteration order", "why_tests_cant": "a bound for every number of segments in every position, rounding included", "anchors": ["src/src/vatti.cpp: process_intersect", "src/src/vatti.cpp: intersect", "src/src/vatti.cpp: add_path", "src/src/scan_line.h: process", "src/src/rmath.cpp: intersect"]}
{"id": "C64", "title": "Edges and ends made by the sweep", "statement": "process makes exactly two active edges for each local minimum it takes and takes each minimum at most once; it keeps the list of minima up to order. It makes exactly two output bounds for each polygon it begins.", "quantifier": "every clipper, whatever was done with it before, every operation and fill rule, any arithmetic, every layout of memory and iteration order, every run that ends", "why_tests_cant": "an exact count over every run, rounding and degenerate positions included", "anchors": ["src/src/vatti.cpp: insert_local_minima_to_ael", "src/src/vatti.cpp: new_output", "src/src/vatti.cpp: reset", "src/src/vatti.cpp: process"]}
