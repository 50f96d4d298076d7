{
 "C15": [
  "proved",
  "termination, permutation, sortedness and exact swap report for every total comparator; permutation for arbitrary effectful callbacks"
 ],
 "C16": [
  "proved",
  "for every total transitive comparator; permutation for any comparator"
 ],
 "C17": [
  "proved",
  ""
 ],
 "C18": [
  "proved",
  ""
 ],
 "C19": [
  "proved",
  "transitivity is refuted by a witness (not claimed by the property)"
 ],
 "C23": [
  "proved",
  ""
 ],
 "C27": [
  "proved",
  ""
 ],
 "C35": [
  "proved",
  "the property is false of the code: insert calls itself; the theorem proves the negation for every argument and recursion depth"
 ],
 "C38": [
  "proved",
  "order/no-skip/no-loss proved for every history; 'each level once' is refuted for the initial queue (duplicate levels), and proved for strict histories"
 ],
 "C39": [
  "proved",
  ""
 ],
 "C01": [
  "proved",
  ""
 ],
 "C02": [
  "proved",
  ""
 ],
 "C14": [
  "proved",
  ""
 ],
 "C13": [
  "proved",
  "after clear an object accepts rings, answers and fails exactly as a new one (all sequences of rings, all operations), and execute directly after clear returns []"
 ],
 "C24": [
  "proved",
  "every step, and the whole sweep of any recorded rings: between any two scanbeams the active list is right provided bounds left it in pairs; no proviso without horizontal input edges or when the sweep ends with an empty list. The unconditional version is refuted by a concrete run (a bound dropped at the end of a horizontal top side before its partner is met)"
 ],
 "C25": [
  "proved",
  ""
 ],
 "C26": [
  "proved",
  "single crossings, all the intersections of a scanbeam, and the scanbeams of the whole sweep of any recorded rings (positions are proved comparable there: no NaN)"
 ],
 "C40": [
  "proved",
  "for any scanbeam of the sweep of any recorded rings whose bounds left in pairs; also as a step theorem with comparability of positions as hypothesis"
 ],
 "C03": [
  "proved",
  ""
 ],
 "C04": [
  "proved",
  ""
 ],
 "C05": [
  "proved",
  ""
 ],
 "C06": [
  "proved",
  ""
 ],
 "C07": [
  "proved",
  ""
 ],
 "C08": [
  "proved",
  "for coordinates whose differences are at most 2^1023 (then no exception); for all others the only exception is OverflowError"
 ],
 "C09": [
  "proved",
  ""
 ],
 "C10": [
  "proved",
  ""
 ],
 "C11": [
  "proved",
  "left/right by exact integer geometry for |coordinates| <= 2^24, by the compared float slopes otherwise; sides at recording time (execute may change them)"
 ],
 "C12": [
  "proved",
  ""
 ],
 "C20": [
  "proved",
  "in the documented range |x| < 2^50 (floats) / 10^28 (ints); beyond it a witness shows that towards-rounding is not to nearest"
 ],
 "C21": [
  "proved",
  ""
 ],
 "C22": [
  "proved",
  "equivalence and accuracy for |coordinates| <= 2^24; completeness for all coordinates in the float range; a witness shows the equivalence fails for larger coordinates"
 ],
 "C37": [
  "proved",
  "the property is false of the code: a witness with coordinates 0..3 raises RuntimeError for every sufficient number of steps (negation proved)"
 ],
 "C41": [
  "proved",
  ""
 ],
 "C28": [
  "proved",
  "creation, insertion, reversal, iteration on an arbitrary vertex ring of the heap"
 ],
 "C29": [
  "proved",
  "cutting (correct_self_intersection), joining (append_ring's join_chains), successor exchange and vertex removal; conservation of area, winding numbers and directed edges at coincident vertices"
 ],
 "C30": [
  "proved",
  "stats on an arbitrary vertex ring: size, tight box, correctly rounded signed area; stored statistics and lazy properties"
 ],
 "C31": [
  "proved",
  "integer query points (Ring.inside_of); the centroid queries of inside_or_outside_special use float points and are only approximate"
 ],
 "C36": [
  "proved",
  "Invariant of both sweeps over all states (OriginP.v) followed by a pointer invariant of the topology correction (PointersP.v). Statement in terms of the edges of the added rings; the version without the horizontal-level case is refuted by a concrete input."
 ],
 "C32": [
  "proved",
  "Consistency of parent and children links after each phase of execute, for every input (TreeP.v: invariant through every function that touches the tree)."
 ],
 "C33": [
  "proved",
  "From the final consistent tree: polygons = rings of even depth in NoDup order with their children as holes, every ring of the tree written exactly once, direction decided by reverse_output only; closedness as an API corollary."
 ],
 "C34": [
  "proved",
  "The property is false of the code and the negation is what is proved: for the square standing on its corner, however its point objects are shared, the reported box has no height and the call moves a recorded point. On an object without minima the answer is the zero box and nothing changes. Alias model in BoundsM.v."
 ],
 "C42": [
  "proved",
  "relational logic over two runs of the whole pipeline (RelP.v): answers agree for all histories with the same rings and for arbitrary leftover working values"
 ],
 "C43": [
  "proved",
  "relation between the two runs of the whole pipeline (RelP.v generalised to renamed kinds); an example shows the difference has to be excluded"
 ],
 "C44": [
  "proved",
  "the same relation with the invariant that all bounds are subject bounds outside the clip; the empty intersection by an invariant of the sweep (SoloP.v)"
 ],
 "C45": [
  "proved",
  "exact (one circle per ring) up to correct_tree for every input; after the chained-ring correction the theorem states closed chains of live vertices, not that each ring owns exactly one (the code may route a chain through its origin)"
 ],
 "C46": [
  "proved",
  "equality of outcomes (result or exception) for all inputs; also across different histories of calls"
 ],
 "C47": [
  "proved",
  "For whole rings (C45), and for the whole path from the sweep to the tree. The separate tree theorem needs up-to-date stored statistics, which the orientation theorem establishes and the steps in between keep. Areas are compared as the correctly rounded floats the program computes. If every vertex of a ring lies on the border of another one the statement allows either answer of the containment test."
 ],
 "C48": [
  "proved",
  "For whole rings (C45). The first theorem assumes that rings already marked as corrected are simple, which holds because no ring is marked before (proved for the whole path in the second theorem). The final joining of chained rings is not covered."
 ],
 "C49": [
  "proved",
  "SpecEdges.v: sides = one directed side per vertex that belongs to a ring. Permutation of sides for correct_self_intersections, correct_chained_rings and their loop; correct_tree drops only sides of rings with zero shoelace sum; every side of every output ring is a side of the final rings. The correction of collinear edges does not conserve the balance of sides: C49_collinear_edges_unbalance_sides_refuted gives valid polygons for which it makes execute raise RuntimeError."
 ],
 "C50": [
  "proved",
  "SpecChain.v: points_of, holds, is_end, open_chains. Invariant over every operation of the sweep (intersections, maxima, horizontals, promotions, minima). C50_both_ends_held_refuted: the exception (a bound that left while holding a ring) is reached by the sweep of PropSweep.v."
 ],
 "C51": [
  "proved",
  "PropHalt.v: ends. Measure: scanbeam entries + edges still to come + minima still to enter; inner loops each by their own measure."
 ],
 "C52": [
  "proved",
  "C52_the_building_of_the_rings_ends: from the state the first pass leaves, execute_vatti ends for every operation and fill rules; C52_the_two_passes_end: both passes in sequence. Termination of the topology correction that follows is not claimed."
 ],
 "C53": [
  "proved",
  "C53_reconnection_makes_two_rings_of_a_tour: from every state of whole rings, for every tour of length at least two. That the code only ever reconnects tours is part of C54."
 ],
 "C54": [
  "proved",
  "The three theorems assume two_at_most: no place where three ring vertices meet (kept by every step, so it is needed only where the corrections start). That the rounds end is not claimed."
 ],
 "C55": [
  "proved",
  "For executions whose rings meet in twos when the tree has been built (meet_in_twos: two_at_most of that state); the example shows that the hypothesis holds where rings are reconnected."
 ],
 "C56": [
  "proved",
  "Repetitions: edges, adding and answers are the same. Starting point and direction (even-odd): refuted by examples evaluated by the kernel."
 ],
 "C57": [
  "proved",
  "For rings whose edges can be computed (no OverflowError). That answers do not depend on where a ring starts is refuted in C56 (order of polygons), so the statement is about edges, and about answers for rings without edges."
 ],
 "C58": [
  "proved",
  "the links between neighbouring bounds (maximum_bound) are not part of what is compared: C12 states them; the order of the minima in the list is the order of insertion, the sweep sorts them"
 ],
 "C59": [
  "proved",
  "That answers do not depend on the direction is refuted in C56; the statement is about edges and reports"
 ],
 "C60": [
  "proved",
  "about what is recorded for a ring; the sweep computes abscissas in floats, whose rounding depends on where the ring lies, so answers are not claimed to move or grow"
 ]
}