{"id": "C01", "title": "Executing with no contributing rings gives the empty multipolygon", "statement": "If nothing that was added to a Wagyu object contributed (or nothing was added, or it was cleared), execute/intersect/subtract/symmetric_subtract/unite return an empty Multipolygon, raise nothing and leave the object unchanged, for each operation and each pair of fill rules. Conversely, as soon as one ring contributed, the sweep is run.", "quantifier": "every Wagyu object built by any sequence of additions and clears, every operation, every subject and clip fill rule", "why_tests_cant": "The set of add/clear histories and of degenerate rings is infinite.", "anchors": ["wagyu/wagyu.py:Wagyu.execute", "wagyu/wagyu.py:Wagyu.clear", "wagyu/local_minimum.py:LocalMinimumList.add_linear_ring"]}
{"id": "C02", "title": "add_polygon is the sequence of its rings", "statement": "add_polygon(polygon, kind) leaves the object in exactly the state that adding its linear rings one after another would, and returns True iff at least one of those additions returned True; an empty polygon returns False and changes nothing.", "quantifier": "every Wagyu object, every polygon, both polygon kinds", "why_tests_cant": "Any number of rings with any mix of contributing and degenerate ones.", "anchors": ["wagyu/wagyu.py:Wagyu.add_polygon", "wagyu/wagyu.py:Wagyu.add_linear_ring"]}
{"id": "C03", "title": "LinearRing.edges is a closed chain", "statement": "The edges of a linear ring, in order, form a closed polygonal chain: there are vertices v0..vk-1 such that the i-th edge joins v(i) and v(i+1 mod k).", "quantifier": "every linear ring (any list of integer points, closed or not, with repeats, spikes, collinear runs)", "why_tests_cant": "Rings of every length with every pattern of duplicates; the loop keeps two cursors with wrap-around.", "anchors": ["wagyu/linear_ring.py:LinearRing.edges"]}
{"id": "C04", "title": "LinearRing.edges removes degenerate vertices", "statement": "No edge of LinearRing.edges has zero length, and no two cyclically adjacent edges are collinear; the result is empty or has at least three edges.", "quantifier": "every linear ring of integer points", "why_tests_cant": "Every pattern of collinear points, spikes and repeated points, including at the wrap-around.", "anchors": ["wagyu/linear_ring.py:LinearRing.edges", "wagyu/edge.py:are_edges_slopes_equal"]}
{"id": "C05", "title": "LinearRing.edges always terminates and never raises", "statement": "Computing the edges of any linear ring terminates without an exception whenever the coordinates fit the float range used for slopes.", "quantifier": "every linear ring with coordinates of absolute value below 2^1000", "why_tests_cant": "The back-tracking loop has no syntactic bound; index arithmetic uses negative indices.", "anchors": ["wagyu/linear_ring.py:LinearRing.edges"]}
{"id": "C06", "title": "LinearRing.edges invents no vertices", "statement": "Both end points of every edge of LinearRing.edges are points of the ring.", "quantifier": "every linear ring", "why_tests_cant": "All rings.", "anchors": ["wagyu/linear_ring.py:LinearRing.edges"]}
{"id": "C07", "title": "LinearRing.edges preserves the winding number", "statement": "Dropping duplicates, spikes and collinear points does not change the region described by the ring: the winding number of every point of the plane (half-open crossing convention) and the signed area are the same for the ring and for the chain of its edges.", "quantifier": "every linear ring, every point of the plane with rational coordinates", "why_tests_cant": "All rings and all points of the plane.", "anchors": ["wagyu/linear_ring.py:LinearRing.edges"]}
{"id": "C08", "title": "add_linear_ring reports exactly whether the ring contributed", "statement": "add_linear_ring returns False exactly when the ring has no edges after simplification, and then the object is unchanged; otherwise it returns True and only appends local minima, leaving every earlier minimum and bound as it was. It never raises for bounded coordinates.", "quantifier": "every Wagyu object, every linear ring, both kinds", "why_tests_cant": "Any history of additions, any ring.", "anchors": ["wagyu/local_minimum.py:LocalMinimumList.add_linear_ring", "wagyu/wagyu.py:Wagyu.add_linear_ring"]}
{"id": "C09", "title": "Bounds are monotone chains that start at their minimum", "statement": "Each of the two bounds of every recorded local minimum is a non-empty chain of edges in which every edge starts where the previous one ended and y never increases; the two bounds start at the same point, whose y is the recorded y of the minimum.", "quantifier": "every linear ring, every minimum it contributes", "why_tests_cant": "Infinitely many rings; horizontal edges need re-orientation and are moved between bounds.", "anchors": ["wagyu/bound.py:create_bound_towards_minimum", "wagyu/bound.py:create_bound_towards_maximum", "wagyu/bound.py:Bound.fix_horizontals", "wagyu/bound.py:Bound.move_horizontals", "wagyu/local_minimum.py:LocalMinimumList.add_linear_ring"]}
{"id": "C10", "title": "Bounds partition the edges of the ring", "statement": "The bounds created for a ring contain every edge of the ring exactly once (horizontal edges up to direction) and nothing else.", "quantifier": "every linear ring", "why_tests_cant": "All rings.", "anchors": ["wagyu/local_minimum.py:LocalMinimumList.add_linear_ring", "wagyu/bound.py"]}
{"id": "C11", "title": "The two bounds of a minimum are labelled consistently", "statement": "The two bounds of a local minimum carry winding deltas +1 and -1, opposite sides, the polygon kind that was passed, and the one labelled left does not start to the right of the other.", "quantifier": "every linear ring, both kinds", "why_tests_cant": "All rings.", "anchors": ["wagyu/local_minimum.py:LocalMinimumList.add_linear_ring"]}
{"id": "C12", "title": "Maximum pairing is symmetric", "statement": "Every recorded bound has a partner bound with which it shares its top end point, the partner of the partner is the bound itself, and the two belong to the same ring with opposite winding deltas.", "quantifier": "every history of additions", "why_tests_cant": "All rings and histories.", "anchors": ["wagyu/local_minimum.py:LocalMinimumList.add_linear_ring"]}
{"id": "C13", "title": "clear forgets the input", "statement": "After clear the object behaves as a new one: execute returns the empty multipolygon, and adding rings afterwards gives the same results as adding them to a new object.", "quantifier": "every history", "why_tests_cant": "All histories.", "anchors": ["wagyu/wagyu.py:Wagyu.clear", "wagyu/local_minimum.py:LocalMinimumList"]}
{"id": "C14", "title": "execute does not damage its input", "statement": "execute, whatever the operation and fill rules, keeps the recorded minima, the edges, kinds, winding deltas and maximum partners of all bounds; only scratch fields change.", "quantifier": "every object, operation, fill rules", "why_tests_cant": "All inputs; the sweep mutates shared bound objects.", "anchors": ["wagyu/wagyu.py:Wagyu.execute", "wagyu/ring_manager.py:RingManager"]}
{"id": "C15", "title": "bubble_sort sorts, and reports each swap", "statement": "For any total comparator bubble_sort terminates, returns a permutation of its input in which every adjacent pair satisfies the comparator, and calls on_swap exactly once per inversion, each time on a pair that is adjacent at that moment and out of order.", "quantifier": "every list, every total transitive comparator", "why_tests_cant": "All lists.", "anchors": ["wagyu/bubble_sort.py:bubble_sort"]}
{"id": "C16", "title": "quicksort sorts", "statement": "quicksort terminates, returns a permutation of its input, and the result is sorted by the comparator.", "quantifier": "every list, every strict weak order comparator", "why_tests_cant": "All lists; explicit work queue that can hold a segment twice.", "anchors": ["wagyu/utils.py:quicksort"]}
{"id": "C17", "title": "insort_unique maintains a sorted duplicate-free list", "statement": "Inserting a value into a strictly increasing list gives a strictly increasing list whose members are the old members and the value; a value already present leaves the list as it was.", "quantifier": "every strictly increasing list of integers, every value", "why_tests_cant": "All lists.", "anchors": ["wagyu/utils.py:insort_unique"]}
{"id": "C18", "title": "rotate_sequence and find_if", "statement": "rotate_sequence(l, k) is the cyclic rotation by k for |k| < len(l) (negative k rotates back; rotating by k and then by -k is the identity) and l otherwise; find_if returns the first index whose element satisfies the predicate, or the length if none does.", "quantifier": "every list, index, predicate", "why_tests_cant": "All lists.", "anchors": ["wagyu/utils.py:rotate_sequence", "wagyu/utils.py:find_if"]}
{"id": "C19", "title": "Approximate float comparison is a 4-ULP comparison", "statement": "are_floats_almost_equal(x, y) holds iff fewer than five representable binary64 steps separate x and y; it is reflexive and symmetric, identifies the two zeros, and greater-than, less-than and almost-equal are mutually exclusive and exhaustive on non-NaN numbers.", "quantifier": "all pairs of binary64 numbers", "why_tests_cant": "2^128 pairs.", "anchors": ["wagyu/utils.py:are_floats_almost_equal", "wagyu/utils.py:_double_to_biased", "wagyu/utils.py:are_floats_greater_than", "wagyu/utils.py:are_floats_less_than", "wagyu/utils.py:are_floats_greater_than_or_equal"]}
{"id": "C20", "title": "Rounding to the grid is rounding to nearest", "statement": "round_half_up returns the nearest integer with ties away from zero; round_towards_max/min agree with it except on ties (up to 4 ULP), which go up/down; rounding an integer returns it; the error is at most one half (plus the tie tolerance) in the documented range.", "quantifier": "all binary64 numbers / ints in range", "why_tests_cant": "2^64 inputs.", "anchors": ["wagyu/utils.py:round_half_up", "wagyu/utils.py:round_towards_max", "wagyu/utils.py:round_towards_min", "wagyu/point.py:Point.round"]}
{"id": "C21", "title": "Edge construction normalises direction", "statement": "Edge(a, b) joins a and b, its bottom has the larger or equal y, it is horizontal iff the y's are equal, its slope is the correctly rounded dx/dy; swapping the arguments of a non-horizontal edge gives an equal edge; reverse_horizontal is an involution that swaps the end points.", "quantifier": "all pairs of integer points", "why_tests_cant": "All pairs.", "anchors": ["wagyu/edge.py:Edge"]}
{"id": "C22", "title": "Edge intersection exists exactly when the segments cross", "statement": "For two edges with coordinates of at most 2^24 that are not parallel, the intersection test finds a point iff the closed segments have a common point, and the point found (before rounding to the grid) is the common point up to a tiny error; for larger coordinates segments that meet are still found; parallel edges give None; whether no point is found does not depend on the order of the operands.", "quantifier": "all pairs of edges with integer end points (exactness: coordinates at most 2^24 in absolute value)", "why_tests_cant": "All pairs; floats are used internally.", "anchors": ["wagyu/edge.py:Edge.__and__"]}
{"id": "C23", "title": "Box containment is a partial order", "statement": "Box.inside_of is reflexive, antisymmetric (up to equality) and transitive and holds iff every point of the first box is a point of the second.", "quantifier": "all boxes with integer corners (min <= max for the set characterisation)", "why_tests_cant": "All boxes.", "anchors": ["wagyu/box.py:Box.inside_of"]}
{"id": "C24", "title": "Winding counts are true winding numbers", "statement": "For each bound of the active list, the winding count is the fill-rule representation of the sum of the winding deltas of the bounds of its kind to its left (and itself), and the opposite count is the winding number (or its parity) of the other kind at the bound. This holds after every step of the sweep and between any two scanbeams of the sweep of any recorded rings, as long as bounds have left the active list together with their partners (always so when no input edge is horizontal, or when the list is empty at the end).", "quantifier": "every history of calls, every operation and fill rules, every scanbeam", "why_tests_cant": "All lists of bounds.", "anchors": ["wagyu/ring_manager.py:RingManager.set_winding_count", "wagyu/ring_manager.py:RingManager.execute_vatti"]}
{"id": "C25", "title": "A bound contributes iff crossing it changes membership", "statement": "A bound is contributing exactly when the result region (operation applied to the fill rules applied to the winding numbers) differs just left and just right of it.", "quantifier": "every winding number, every operation and fill rules, both kinds", "why_tests_cant": "Unbounded winding numbers times all combinations.", "anchors": ["wagyu/bound.py:Bound.is_contributing (ring_manager.py)"]}
{"id": "C26", "title": "Crossing two bounds keeps their winding counts right", "statement": "When two adjacent bounds are swapped at an intersection, the counts stored in them afterwards are those of the new order, and the output action taken (start, end, pass, swap rings) is the one required by the membership of the four sectors around the crossing.", "quantifier": "all winding numbers, operations, fill rules, kinds", "why_tests_cant": "Unbounded.", "anchors": ["wagyu/ring_manager.py:RingManager.intersect_bounds"]}
{"id": "C27", "title": "Hot pixels are sorted and duplicate free", "statement": "sort_hot_pixels keeps exactly the set of recorded points, in strictly sorted order (y descending, then x ascending).", "quantifier": "every list of hot pixels", "why_tests_cant": "All lists.", "anchors": ["wagyu/ring_manager.py:RingManager.sort_hot_pixels"]}
{"id": "C28", "title": "Point rings are circular doubly linked lists", "statement": "Insertion, reversal, and iteration of the vertex ring keep next/prev mutually inverse; iteration visits each vertex exactly once; reversing reverses the iteration order.", "quantifier": "every ring of any length", "why_tests_cant": "All lengths.", "anchors": ["wagyu/point_node.py:PointNode"]}
{"id": "C29", "title": "Splitting and joining point rings conserves vertices and area", "statement": "Cutting a vertex ring at two coincident vertices yields two rings whose vertices are those of the original and whose signed areas add up to it; joining two chains is the inverse.", "quantifier": "every ring, every pair of coincident vertices", "why_tests_cant": "All rings.", "anchors": ["wagyu/ring_manager.py:RingManager.correct_self_intersection", "wagyu/ring_manager.py:join"]}
{"id": "C30", "title": "Ring statistics are exact", "statement": "The area, size and bounding box computed for a ring are its signed shoelace area, number of vertices and tight bounding box.", "quantifier": "every ring of integer vertices", "why_tests_cant": "All rings.", "anchors": ["wagyu/point_node.py:PointNode.stats", "wagyu/ring.py:Ring.recalculate_stats"]}
{"id": "C31", "title": "Point in polygon agrees with the crossing-number definition", "statement": "The point location routine returns ON iff the point is on the boundary and otherwise INSIDE iff the crossing number is odd.", "quantifier": "every ring, every integer point", "why_tests_cant": "All.", "anchors": ["wagyu/point_node.py:PointNode.point_in_polygon"]}
{"id": "C32", "title": "The ring tree stays a tree", "statement": "Attaching, detaching, re-parenting and removing rings keep the parent and children links mutually consistent: a ring is a child of its parent exactly once and of no other ring.", "quantifier": "every tree, every operation", "why_tests_cant": "All trees and operation sequences.", "anchors": ["wagyu/ring.py", "wagyu/ring_manager.py"]}
{"id": "C33", "title": "The output lists every ring exactly once with holes under their shell", "statement": "The resulting multipolygon contains every ring of the final tree exactly once, each as a closed ring (first point = last point); shells are the rings of even depth followed by their direct children as holes; reverse_output reverses each ring and nothing else.", "quantifier": "every final ring forest", "why_tests_cant": "All forests.", "anchors": ["wagyu/polygon.py:rings_to_polygons", "wagyu/polygon.py:point_node_to_linear_ring", "wagyu/ring_manager.py:RingManager.build_result"]}
{"id": "C34", "title": "Wagyu.bounds reports the bounding box and is a query", "statement": "Wagyu.bounds returns the bounding box of the added rings and leaves the object and the caller's points unchanged.", "quantifier": "every history", "why_tests_cant": "All inputs.", "anchors": ["wagyu/wagyu.py:Wagyu.bounds"]}
{"id": "C35", "title": "LocalMinimumList behaves as a mutable sequence", "statement": "insert(i, v) inserts v, so append/extend work.", "quantifier": "every list, index, value", "why_tests_cant": "All.", "anchors": ["wagyu/local_minimum.py:LocalMinimumList.insert"]}
{"id": "C36", "title": "Output vertices come from the input geometry", "statement": "After any history of calls, every vertex of every ring returned by an operation is (a) an end of an edge of the added rings, or (b) the rounded crossing point of two such edges, or (c) a point on the level of a horizontal edge at the rounded position of another edge on that level. (The stronger claim without (c) is false of the code.)", "quantifier": "every history, operation, fill rules; every vertex of every ring of the result", "why_tests_cant": "It must hold for every input: a vertex invented by the sweep, the snapping or the topology correction shows up only on particular configurations.", "anchors": ["wagyu/wagyu.py:Wagyu.execute", "wagyu/ring_manager.py"]}
{"id": "C37", "title": "execute never fails on valid input", "statement": "execute returns a result (raises nothing) for every set of added polygons.", "quantifier": "every input, operation, fill rules", "why_tests_cant": "All inputs.", "anchors": ["wagyu/wagyu.py:Wagyu.execute"]}
{"id": "C38", "title": "Scanbeam queue", "statement": "The scanbeam queue built from the minima is sorted, pops yield the y levels in descending order, each once, and never skip a level.", "quantifier": "every input", "why_tests_cant": "All inputs.", "anchors": ["wagyu/local_minimum.py:LocalMinimumList.scanbeams", "wagyu/ring_manager.py"]}
{"id": "C39", "title": "32-bit conversion used for ordering intersections wraps", "statement": "The conversion to int used for ordering is congruent to the number modulo 2^32 and lies in [-2^31, 2^31).", "quantifier": "all integers", "why_tests_cant": "All.", "anchors": ["wagyu/intersect_node.py", "wagyu/utils.py:to_int32"]}
{"id": "C40", "title": "The active bounds are ordered after the intersections of a scanbeam", "statement": "Once the intersections of a scanbeam have been processed, the active bounds are a permutation of those before and are ordered from left to right by their positions on the scan line (ties by the direction in which the bounds continue).", "quantifier": "every history of calls, every scan line of the sweep, every operation and fill rules", "why_tests_cant": "the order depends on the whole sequence of exchanges made for an arbitrary number of crossing bounds", "anchors": ["wagyu/ring_manager.py:RingManager.process_intersections", "wagyu/intersect_node.py:build_intersect_list", "wagyu/bound.py:Bound"]}
{"id": "C41", "title": "An execution has at most one outcome", "statement": "execute is deterministic and its outcome (a result or an exception) does not depend on how long one is prepared to wait: any two completed runs on the same object with the same arguments give the same result or the same exception.", "quantifier": "all objects, operations, fill rules and step bounds", "why_tests_cant": "quantifies over all inputs and all step bounds", "anchors": ["wagyu/wagyu.py:Wagyu.execute", "wagyu/ring_manager.py"]}
{"id": "C42", "title": "The answer of execute depends only on the rings added", "statement": "The multipolygon (or exception) of execute is a function of the orientation flag, the sequence of rings added since creation or the last clear, the operation and the fill rules. Earlier operations, completed or aborted, rings cleared away, the identities of the bounds and the working values they keep (current edge, last point, position, winding counts, ring, side) play no role; executing again gives the same answer.", "quantifier": "all pairs of histories of calls with the same rings, all operations, fill rules and step bounds", "why_tests_cant": "a relation between two runs of the whole algorithm over all pairs of histories", "anchors": ["wagyu/wagyu.py:Wagyu.execute", "wagyu/wagyu.py:Wagyu.clear", "wagyu/local_minimum.py:initialize", "wagyu/bound.py:Bound"]}
{"id": "C43", "title": "Intersection, union and symmetric difference are symmetric in subject and clip", "statement": "For intersect, unite and symmetric_difference (execute with INTERSECTION, UNION, XOR), adding the same rings in the same order with subject and clip exchanged, and exchanging the two fill rules, gives exactly the same multipolygon (same vertices, same order) or the same exception.", "quantifier": "all sequences of rings, histories of calls, fill rules, orientation flags and step bounds", "why_tests_cant": "a relation between two runs of the whole algorithm over all inputs", "anchors": ["wagyu/ring_manager.py:intersect_bounds", "wagyu/ring_manager.py:set_winding_count", "wagyu/bound.py:Bound.is_contributing", "wagyu/wagyu.py:Wagyu.execute"]}
{"id": "C44", "title": "Operations with an absent operand", "statement": "If all rings added are subject rings, union, difference and symmetric difference give the same answer, independent of the clip fill rule, and the intersection, when it returns, is the empty multipolygon. If all rings are clip rings, intersection and difference return the empty multipolygon, while union and symmetric difference give what they would give for the same rings added as subject.", "quantifier": "all sequences of rings of one kind, histories of calls, operations, fill rules and step bounds", "why_tests_cant": "relations between runs of the whole algorithm over all inputs", "anchors": ["wagyu/bound.py:Bound.is_contributing", "wagyu/ring_manager.py:intersect_bounds", "wagyu/ring_manager.py:insert_lm_left_and_right_bound", "wagyu/wagyu.py:Wagyu.execute"]}
{"id": "C45", "title": "Rings stay whole", "statement": "After the sweep, and after each topology correction up to the building of the ring tree, every ring under construction is exactly one closed doubly linked chain of the vertices that name it (no vertex is lost, shared between rings or linked out of its ring). After all corrections every vertex still in a ring lies on such a closed chain, and every ring of the result is exactly one lap of one chain, each vertex once.", "quantifier": "all inputs, operations, fill rules and step bounds; every state between correction steps", "why_tests_cant": "an invariant of the mutable heap over all inputs and all interleavings of cuts, joins, drops and reversals", "anchors": ["wagyu/ring_manager.py:correct_topology", "wagyu/ring_manager.py:process_collinear_edges", "wagyu/ring_manager.py:fix_collinear_path", "wagyu/ring_manager.py:correct_self_intersection", "wagyu/ring_manager.py:process_single_intersection", "wagyu/point_node.py:PointNode"]}
{"id": "C46", "title": "reverse_output only reverses rings", "statement": "An operation on an object created with reverse_output=True stops in the same way (same exception) as on one created with False and the same rings, and returns the same polygons with the same rings in the same order, every ring traversed in the opposite direction from the same first vertex.", "quantifier": "all stored inputs and histories of calls, operations, fill rules and step bounds", "why_tests_cant": "a relation between two runs of the whole algorithm over all inputs", "anchors": ["wagyu/polygon.py:point_node_to_linear_ring", "wagyu/polygon.py:rings_to_polygons", "wagyu/ring_manager.py:build_result", "wagyu/wagyu.py:Wagyu.execute"]}
{"id": "C47", "title": "Rings are turned by depth and hung below the ring around them", "statement": "The correction of orientations leaves every ring as it is or runs it backwards so that rings an even number of steps below the top are exterior rings and the others holes, drops rings with fewer than three vertices and moves none. The correction of the tree takes the rings by decreasing absolute area, drops those without area and hangs each other ring, with its outline unchanged, under the last ring before it that has the opposite orientation and contains it (box, area and first vertex not on the border), or at the top if there is none, and then it is an exterior ring. After the sweep and all corrections up to the tree this holds whatever the polygons were.", "quantifier": "all states whose rings are whole (all states the sweep reaches) and step bounds", "why_tests_cant": "depends on every configuration of rings; a wrong comparison, a wrong parity or an inverted containment test shows only for particular nestings", "anchors": ["wagyu/ring_manager.py:RingManager.correct_orientations", "wagyu/ring_manager.py:RingManager.correct_tree", "wagyu/ring_manager.py:find_parent", "wagyu/ring.py:Ring.__contains__/depth/recalculate_stats", "wagyu/utils.py"]}
{"id": "C48", "title": "No ring visits a point twice", "statement": "After the correction of self intersections no ring of the ring tree passes through the same point twice: a ring that touches itself is cut into rings that do not. The correction of the tree keeps this, so it holds after the sweep and all the corrections up to the tree, whatever the polygons were.", "quantifier": "all polygons, operations, fill kinds and step bounds", "why_tests_cant": "a pair of equal vertices that is missed (a wrong sort key, a wrong run boundary, a skipped pair) shows only for particular coincidences of three or more vertices", "anchors": ["wagyu/ring_manager.py:RingManager.correct_self_intersections", "wagyu/ring_manager.py:RingManager.correct_self_intersection", "wagyu/ring_manager.py:find_and_correct_repeated_points", "wagyu/ring.py:Ring.sorted_nodes", "wagyu/point_node.py:node_key"]}
{"id": "C49", "title": "The corrections conserve the sides of the rings", "statement": "Resolving self intersections and joining rings that touch neither creates nor loses nor turns a side of a ring, however often it is repeated; building the ring tree only drops the sides of rings whose area is zero. Hence every side of every ring of a result is a side that the rings had once overlapping sides had been dealt with. (Removing overlapping sides is not balanced: a counterexample that ends in a RuntimeError is recorded.)", "quantifier": "all polygons, operations, fill kinds and step bounds; all states whose rings are whole", "why_tests_cant": "the corrections relink vertices in dozens of combinations; a wrong relink that invents or loses a side shows only when several rings meet in the same points", "anchors": ["wagyu/ring_manager.py:RingManager.correct_self_intersections", "wagyu/ring_manager.py:RingManager.correct_chained_rings", "wagyu/ring_manager.py:RingManager.correct_tree", "wagyu/ring_manager.py:RingManager.correct_topology", "wagyu/ring_manager.py:RingManager.correct_collinear_edges", "wagyu/ring_manager.py:RingManager.process_single_intersection", "wagyu/polygon.py:rings_to_polygons"]}
{"id": "C50", "title": "Open rings hang between the bounds that hold them", "statement": "Between any two scanbeams of a sweep, every ring that an active bound holds is a chain of at least one point, and the bound holds its own end of it: the front if it is on the left side of the ring, the back if it is on the right side, and that end is the last point the bound put out. No two active bounds hold the same end, so a ring has at most two holders, and no end is loose unless a bound has left the active list while still holding a ring (which does happen: a horizontal bound that misses its partner).", "quantifier": "all polygons, operations, fill kinds, step bounds and numbers of scanbeams", "why_tests_cant": "the holders of a ring change whenever rings are started, crossed, joined or closed; a side or a ring that is not exchanged, a bound not relabelled after a join or a point put at the wrong end shows only in later scanbeams of particular arrangements", "anchors": ["wagyu/ring_manager.py:RingManager.execute_vatti", "wagyu/ring_manager.py:RingManager.intersect_bounds", "wagyu/ring_manager.py:RingManager.add_point_to_ring", "wagyu/ring_manager.py:RingManager.add_local_minimum_point", "wagyu/ring_manager.py:RingManager.add_local_maximum_point", "wagyu/ring_manager.py:RingManager.append_ring", "wagyu/ring_manager.py:RingManager.insert_hot_pixels_in_path"]}
{"id": "C51", "title": "Collecting the hot pixels ends", "statement": "Whatever rings were added to a Wagyu object, the first pass of every operation (the sweep that collects the hot pixels) ends: it returns or raises, it never runs forever.", "quantifier": "every Wagyu object built from any polygons of any size", "why_tests_cant": "a test that stops shows that one input stops; the loops (a bubble sort over floating point positions, while loops over a scanbeam list that the body itself extends) could run forever on an input nobody tried", "anchors": ["wagyu/ring_manager.py: RingManager.build_hot_pixels", "wagyu/ring_manager.py: RingManager.process_hot_pixel_intersections, process_hot_pixel_edges_at_top_of_scanbeam, insert_local_minima_into_abl_hot_pixel", "wagyu/bubble_sort.py: bubble_sort", "wagyu/utils.py: quicksort", "wagyu/bound.py: Bound.to_next_edge"]}
{"id": "C52", "title": "Building the rings ends", "statement": "Whatever rings were added to a Wagyu object, whatever operations ran on it before, and whatever operation and fill rules are asked for, the second pass (the Vatti sweep that builds the output rings) ends: it returns or raises, it never runs forever.", "quantifier": "every Wagyu object built from any polygons of any size, every operation kind and pair of fill kinds", "why_tests_cant": "a test that stops shows that one input stops; the loops (over scanbeams the body itself adds, along circular lists of points, up the parents of a ring, a bubble sort over floating point positions) could run forever on an input nobody tried", "anchors": ["wagyu/ring_manager.py: RingManager.execute_vatti, add_local_maximum_point, append_ring, process_horizontals", "wagyu/wagyu.py: Wagyu.intersect/unite/subtract/symmetric_subtract"]}
{"id": "C53", "title": "Rings that touch are reconnected into whole rings", "statement": "When the rings of a tour (rings each of which touches the next, back to the first) are joined together and split again, the vertices of the tour end up in exactly two rings, one ring of the tour and one new ring, each of them one closed chain of vertices; the other rings of the tour are left without points. No vertex moves or is lost, no other ring is changed, and the area, bounding box and orientation recorded for any ring are right again.", "quantifier": "every state of whole rings with right statistics, every tour of any number of touching rings of any sizes", "why_tests_cant": "the exchange of links works only if every ring of the tour is entered and left at the right places; tests show chains of two or three small rings, the claim is about tours of any length", "anchors": ["wagyu/ring_manager.py: RingManager.process_single_intersection", "wagyu/ring_manager.py: RingManager.correct_chained_rings, correct_chained_repeats"]}
{"id": "C54", "title": "Correcting rings that touch keeps them whole", "statement": "Looking for rings that touch one another and reconnecting them, once or again and again in turn with the correction of rings that touch themselves, leaves whole rings: the vertices of every ring are one closed chain, every vertex that was on a ring before is on exactly one ring after a correction of touching rings, no vertex moves, and the recorded areas, boxes and orientations are right. So the result is written from whole rings.", "quantifier": "every state of whole rings with right statistics in which no three ring vertices are in one place, any number of rings touching in any arrangement of pairs; for the whole operation, every input, every operation and fill rules, whose rings meet in twos when the tree has been built", "why_tests_cant": "the search for a chain of touching rings works on a table of pairs of vertices that goes stale as rings are reconnected; whether it stays right depends on the whole history of reconnections, of which tests show a few short ones", "anchors": ["wagyu/ring_manager.py: RingManager.correct_chained_rings, correct_chained_repeats, process_single_intersection", "wagyu/ring_manager.py: RingManager.correct_self_intersections", "wagyu/ring_manager.py: find_intersect_loop"]}
{"id": "C55", "title": "No ring of the answer visits a point twice", "statement": "Every ring of the answer of every operation visits no point twice (its last point repeats the first one), and all rings of the answer together visit no point more than twice: corrections of touching rings and of rings that touch themselves are repeated until no such ring is left, and no ring is skipped because it was corrected before.", "quantifier": "every object, operation and fill rules for which execute returns and no three ring vertices are in one place when the tree of the rings has been built; for the repeated corrections alone, every such state of whole rings", "why_tests_cant": "rings that were corrected are marked and skipped later; whether a marked ring can be changed by a reconnection without losing its mark depends on the history of reconnections, and every ring of every answer must be clean", "anchors": ["wagyu/wagyu.py: Wagyu.execute", "wagyu/ring_manager.py: RingManager.correct_topology", "wagyu/ring_manager.py: RingManager.process_single_intersection", "wagyu/ring_manager.py: RingManager.correct_self_intersections"]}
{"id": "C56", "title": "Repeated points in the way a ring is written play no role", "statement": "Repeating a point of a ring in place, any number of times, and closing a ring by its first point or not, changes nothing: LinearRing.edges returns the same list (or fails in the same way), add_linear_ring does the same to the same object, and two objects whose rings differ in such repetitions only give the same answer to every operation. A ring for which add_linear_ring returned False plays no role in the answer. The starting point of a ring and, with even-odd filling, its direction do play a role: the polygons may come in another order, or the operation may raise.", "quantifier": "all lists of points that differ in repetitions, all objects and histories of calls, all operations and fill rules", "why_tests_cant": "a relation between two runs over all lists of points and all ways of repeating points in them, including rings that fold up while their edges are computed", "anchors": ["wagyu/linear_ring.py:LinearRing.edges", "wagyu/local_minimum.py:LocalMinimumList.add_linear_ring", "wagyu/wagyu.py:Wagyu.execute"]}
{"id": "C57", "title": "The edges of a ring are its shape, no less and no more", "statement": "Whenever LinearRing.edges returns for two rings, the two lists of edges are the same up to where they begin if and only if the rings have the same shape, i.e. one can be turned into the other by starting elsewhere and by leaving out or adding points that lie on the line through their two neighbours (repetitions, points within sides, tips of spikes), in any order and number. There are no edges (add_linear_ring returns False) if and only if all points can be left out in this way, and such rings play no role in any answer; otherwise the edges are those of the only ring of the same shape from which no point can be left out.", "quantifier": "all lists of points of any length for which the computation of the edges returns (always when differences of abscissas are in the float range); for answers, all objects, histories of calls, operations and fill rules", "why_tests_cant": "the points can be left out in any order, and the code walks backwards and forwards while it does so; that the result does not depend on the order is a confluence property of all rings", "anchors": ["wagyu/linear_ring.py:LinearRing.edges", "wagyu/local_minimum.py:LocalMinimumList.add_linear_ring", "wagyu/wagyu.py:Wagyu.execute"]}
{"id": "C58", "title": "What is recorded for a ring is determined by its shape", "statement": "Adding two rings of the same shape (C57) and kind to any two Wagyu objects reports the same, and appends the same local minima to either object: the same heights, horizontal flags, left and right bounds with the same edges, kind and winding, in the same cyclic order. Hence what an object holds after any history of calls is, up to the order of the minima, determined by the shapes and kinds of the rings added since the last clear: neither the order in which the rings were added, nor the way they were written, nor executions in between play a role. In particular such objects report the same scanbeams, and every sweep takes their minima in the same order of heights and flags.", "quantifier": "all objects, all pairs of rings of the same shape with any number of points, both kinds; for whole objects all histories of calls", "why_tests_cant": "the edges are rotated to begin at a local maximum and are cut into bounds by three scans whose stopping conditions depend on the neighbourhood of a horizontal edge; that they cut at the same places from every start is an invariant of all closed chains", "anchors": ["wagyu/local_minimum.py:LocalMinimumList.add_linear_ring", "wagyu/local_minimum.py:to_edges_starting_on_local_maximum", "wagyu/bound.py:create_bound_towards_minimum", "wagyu/bound.py:create_bound_towards_maximum", "wagyu/wagyu.py:Wagyu.add_linear_ring"]}
{"id": "C59", "title": "A ring written backwards has its edges backwards", "statement": "Whenever LinearRing.edges returns for a ring and for a ring that has the shape (C57) of its reversal, the second list is the first one backwards, up to where it begins, with the two ends of level edges exchanged; edges that are not level are equal. Conversely, rings whose edges are related in this way have the shapes of each other backwards. Moreover add_linear_ring reports the same for a ring in either direction, for any two objects and kinds.", "quantifier": "all lists of points of any length for which the computation of the edges returns; all objects", "why_tests_cant": "the code removes repetitions, points within sides and spikes while it walks forwards, and treats the start and the end of the list differently; that the direction of the walk does not matter is a property of all rings", "anchors": ["wagyu/linear_ring.py:LinearRing.edges", "wagyu/edge.py:Edge.__init__", "wagyu/local_minimum.py:LocalMinimumList.add_linear_ring"]}
{"id": "C60", "title": "A ring of another size somewhere else has the same edges and minima, scaled and moved", "statement": "Multiplying all coordinates of a ring by one positive integer and moving it by an integer vector does the same to what is computed for it: whenever LinearRing.edges returns for a ring and for a ring of the shape (C57) of the scaled and moved ring, the second list is the first one scaled and moved, up to where it begins, with the same slopes to the last bit; and adding them to any two Wagyu objects reports the same and records the same minima in the same cyclic order, with heights and edges scaled and moved and flags, sides, kinds and windings unchanged. For the image of the ring itself (same first point) the lists and the minima come in exactly the same order, and LinearRing.edges and the adding fail, with the same error, just when they fail for the ring. So of two objects, whatever was called on them, the second holding the images of the rings of the first in any order, the second holds, up to their order, the images of the minima of the first.", "quantifier": "all rings, all positive integer factors, all integer vectors of any size, all objects, both kinds", "why_tests_cant": "coordinates are unbounded integers and slopes floats; that no decision on the way depends on where the ring lies or how large it is (only on comparisons and on correctly rounded quotients of differences) is a property of every branch for every ring", "anchors": ["wagyu/linear_ring.py:LinearRing.edges", "wagyu/edge.py:Edge.__init__", "wagyu/local_minimum.py:LocalMinimumList.add_linear_ring", "wagyu/bound.py:create_bound_towards_minimum", "wagyu/bound.py:create_bound_towards_maximum"]}
