# Formal model of lycantropos/wagyu in Coq 8.16

## 1. What is modelled

The whole algorithmic content of `/repo/wagyu` is modelled function by function
as executable Gallina in `rocq/theories`:

| file | models |
|---|---|
| `Py.v` | Python ints (`Z`), floats (IEEE binary64 through the standard library's `SpecFloat`), exceptions as values, sequence indexing with negative indices |
| `Monad.v` | statement blocks: state + exception + fuel (`NoFuel` is *never* a normal-looking value) |
| `Utils.v` | `wagyu/utils.py`, `wagyu/bubble_sort.py`, CPython's `sorted` (binary insertion sort; see below) |
| `Geometry.v` | `enums.py`, `point.py`, `box.py`, `edge.py` |
| `LinearRingM.v` | `linear_ring.py` (`LinearRing.edges`) |
| `BoundM.v`, `LocalMinimumM.v` | construction of bounds and local minima (`bound.py`, `local_minimum.py`) |
| `StateM.v` | the object heap of one `execute` call |
| `PointNodeM.v` | `point_node.py` |
| `RingM.v` | `ring.py` and the ring-tree helpers of `ring_manager.py` |
| `SweepM.v` | `intersect_node.py`, sweep part of `bound.py`, hot pixel pass and Vatti pass of `ring_manager.py` |
| `TopologyM.v` | topology correction of `ring_manager.py` |
| `WagyuM.v` | `polygon.py`, `wagyu.py` |
| `Examples.v` | the README session, computed inside Coq (a test of the model, not a proof) |

Every definition cites the file and lines it models.  The model is executable:
`Examples.v` evaluates the four calls of the README and obtains the documented
outputs exactly.

### Simplifications (also stated at each definition)

* User coordinates are Python ints.  Floats appear where the program computes
  them (slopes, `current_x`, intersection points, centroids, areas).
* `while` loops and recursions run on explicit fuel; exhausting it is the
  distinguished outcome `NoFuel`, which no theorem treats as a result.
  Where termination is claimed, the theorem says that enough fuel exists and
  gives the amount.
* `sorted`/`list.sort` is CPython's algorithm for fewer than 64 elements
  (run detection + binary insertion) at every length; for strict weak orders
  every stable sort gives the same answer.
* All NaNs have one bit pattern.
* The write-only lists `RingManager.nodes` / `storage` and `__repr__`s are not
  modelled.  `Point` objects are immutable values except in `BoundsM.v`, which
  models the aliasing exposed by `Wagyu.bounds`.

### Files with specifications and proofs

| specification | meaning | proofs | theorems |
|---|---|---|---|
| `Spec.v` | sorted lists, inversions, ... | `SortP` `QuickP` `ListP` `UlpP` `MiscP` `ScanP` `HotPixelP` | `PropUtils.v` (C15-C20, C23, C27, C38, C39) |
| in `PropApi.v` | histories of calls | `HoareP` (frame rules), `SweepFrameP`, `ApiP` | `PropApi.v` (C01, C02, C14) |
| `SpecSweep.v`, `SpecActive.v` | winding numbers of a list of active bounds; order along a scanline | `WindingP` `CalmP` `WindingInvP` `OrderP` `IntersectP` `InsertP` `MaximaP` | `PropWinding.v` (C24-C26, C40) |
| `SpecRun.v` | the states between the scanbeams of a sweep; bounds that left in pairs | `PositionP` (positions of bounds are numbers) `SweepRunP` `SweepInvP` (the invariant of the whole sweep) | `PropSweep.v` (C24, C26, C40) |
| `SpecRing.v` | winding number and area of closed polylines | `FloatP` (binary64 against the reals, Flocq) `LinearRingP` `LinearRing2P` `RingEdgesP` | `PropRing.v` (C03-C07) |
| `SpecBounds.v` | monotone chains, pairing of bounds | `MinimaP` `AddRingP` `HistoryP` (`built rv w rs`: `w` reached by a history of calls with contributing rings `rs` since the last clear) `SlopeP` | `PropBounds.v` (C08-C12) |
| `SpecEdge.v` | segments over the rationals | `RoundP` `EdgeP` | `PropEdge.v` (C21, C22) |
| `SpecRings.v` | every ring is exactly one closed chain of the vertices naming it | `NodeFrameP` (functions that never touch the vertex heap), `RingedP` (sweep), `RingedTopP`, `RingedCutP`, `RingedPathP`, `RingedFixP`, `RingedArcP`, `RingedSameP`, `RingedOtherP`, `RingedTreeP` (corrections up to the tree), `LiveP` (chained rings), `FlipP` (orientation flag) | `PropRinged.v` (C45, C46) |
| `SpecNest.v` | outlines, exterior rings and holes, containment, where a ring hangs, up-to-date statistics | `NestP` (statistics and containment test), `NestTreeP` (tree correction), `OrientP` (orientation correction), `RegionP`, `FitP`, `KeepOrderP` (the steps between them keep the stored statistics up to date) | `PropNest.v` (C47) |
| `SpecNest.v` (same vocabulary) | | `MarkP` (no step before marks a ring as corrected), `SimpleP` (cuts refine the partition of vertices into rings; equal vertices are neighbours in the sorted list) | `PropSimple.v` (C48) |
| `SpecEdges.v` | the directed sides of the rings of a state, and of a polyline | `LiveP` (relinking two vertices at the same place permutes the sides), `EdgesP` (the tree keeps the vertices of every ring with an area; sides of one lap) | `PropEdges.v` (C49) |
| `SpecChain.v` | the points of a ring from its first vertex, the active bounds that hold a ring, the end each of them holds | `ChainP` (what the output operations do to the point list of each ring), `ChainBoundP` (the invariant about holders, without programs), `ChainOpsP`, `ChainWalkP`, `ChainSweepP` (each operation of the sweep keeps it) | `PropChain.v` (C50) |
| (`ends`, in `PropHalt.v`) | a program of the model ends: from some number of rounds on the answer no longer depends on the number | `HaltP` (programs that stop, loops with a measure), `PayP` (what every step of the sweep costs: scanbeam entries plus edges still to come), `NumberP` (positions of well made edges are numbers, so the bubble sorts have a total order), `HotHaltP` | `PropHalt.v` (C51) |
| (`ends`) | the same, for the second pass | `RingHaltP` (walks along a ring of output points end), `GroundP` and `SoundP` (between any two steps the parents of the rings lead to an outermost ring, every bound holds a ring that exists), `AppendHaltP` (joining two rings at a local maximum ends), `SweepMoveP` and `SweepHaltP` (the cost of every step of the second pass), `HoldP` (the first pass creates no point and no ring) | `PropHalt2.v` (C52) |
| `SpecTour.v` | rings that touch one another in a closed tour (`tour`) | `TourP` (exchanging the successors along a tour of circles gives two circles), `ReconnectP` (every part of `reconnect`) | `PropTour.v` (C53) |
| (`two_at_most`, in `SpecTour.v`) | no place where three ring vertices meet | `TouchingP` (what the searches for a chain of touching rings find is a tour; the recorded pairs of touching vertices stay right while rings are reconnected), `SelfTreeP` (corrections of self intersections with the tree, the repeated rounds) | `PropTouching.v` (C54) |
| (`two_at_most`, `outline_of`) | the rings of the answer as written | `MarkTourP` (reconnecting touching rings marks no ring as corrected and unmarks those it changes, so the last correction of self intersections meets every ring that may visit a point twice) | `PropPlain.v` (C55) |
| `SpecHistory`, `PropWritten.same_outline` | lists of points that write the same outline | `RepeatP` (one iteration of the main loop of `LinearRing.edges` as a move on the points still to be read (`moves`); two runs, one over a list and one over the list without adjacent repetitions, simulate each other, whichever of them returns early) | `PropWritten` (C56) |
| `SpecReduce.same_shape` | closed chains that differ by their start and by points on the line through their two neighbours | `ReduceP` (leaving out such points is confluent up to the start of the chain, so there is one reduced chain), `ShapeP` (every move of the main loop and every step of the merging of the first with the last edge leaves out such points; the chain can be read off the edges) | `PropShape` (C57) |
| `PropMinima.seen` | what an object holds about a minimum: height, flag, and edges, kind and winding of its two bounds | `TurnMinP` (the rotated edges consist of stretches that go down and then up; the scans that cut off one minimum stop exactly at the end of the first stretch, whatever follows) | `PropMinima` (C58) |
| `ReverseRingP.backwards` | an edge gone through the other way: the two ends of a level edge exchanged, any other edge as it is | `ReverseRingP` (same shape, reduced rings and their edges under reversal) | `PropReverse` (C59) |
| `MoveP.move`, `MoveP.move_edge`, `PropMove.move_seen` | a point, an edge, a recorded minimum scaled by a positive integer and moved by a vector: coordinates multiplied and added to, slopes and everything else unchanged | `MoveP` (same shape, reduced rings and edges under moves; the scans that cut off a minimum commute with moves) | `PropMove` (C60) |
| `SpecHeap.v` | circular doubly linked lists | `CircleP` `HeapOpsP` `StatsP` `SplitP` `PipP` | `PropHeap.v`, `PropPip.v` (C28-C31) |
| `SpecOrigin.v` | where a vertex may come from | `PointersP` `VatP` (Hoare triples) `OriginP` | `PropOrigin.v` (C36) |
| `SpecTree.v` | ring tree, written polygons | `TreeP` `OutputP` | `PropTree.v` (C32, C33) |
| `BoundsM.v` (`holds_edges`) | an object whose recorded points are shared mutable objects | in `PropBox.v` | `PropBox.v` (C34) |
| - | - | `FuelP` | `PropRun.v` (C35, C37, C41) |
| `SpecHistory.v` | objects reached by histories of calls, the answer of `execute` | `BlindP` (functions that never look at a bound's `last_point`), `RelP` (relational Kripke logic for two runs with different bound identities and leftovers), `RunRelP`, `SoloP` (subject rings only: nothing is put out by an intersection) | `PropHistory.v` (C13, C42), `PropKinds.v` (C43, C44) |

## 2. Trusted base

* Coq 8.16.1's kernel (incl. `vm_compute`) and the standard library.
* The faithfulness of the hand-written model (the code is not run here).
* Axioms: `Print Assumptions` stands under each theorem.  The step theorems of the
  sweep and those about the heap and the tree are closed under the global context.  Those
  that speak of binary64 against the reals (through `FloatP`/Flocq and the standard
  library's `Reals`), and the theorems about whole runs and histories that rest on them
  (C13, C24, C26, C40, C42-C44, C46-C60), list only standard-library axioms: `ClassicalDedekindReals.sig_forall_dec`,
  `ClassicalDedekindReals.sig_not_dec`, `FunctionalExtensionality.functional_extensionality_dep`
  and `Classical_Prop.classic`.  No axiom is added.

## 3. Properties: what is modelled and how it is proved

See `properties.jsonl` for the statements.

| id | plan |
|---|---|
| C01, C02 | direct evaluation / induction over the list of rings, on `execute`, `add_polygon`, `clear` |
| C13, C42 | two runs of the same pipeline on stores related by a renaming of the bounds; every function is shown to keep the relation until `initialize` makes the working values equal and afterwards (`RelP.v`) |
| C43, C44 | the same relation between two runs, up to a renaming of the polygon kinds and a change of operation and fill rules under which contribution and crossing decisions agree; for C44 the relation carries that all bounds are subject bounds with opposite winding count 0; the empty intersection is an invariant of one run |
| C45 | heap invariant `well_ringed` (for every ring the vertices naming it form one circle) through the sweep and every correction step up to `correct_tree`, with the intermediate states of every cut, join, drop and reversal described exactly; for `correct_chained_rings`, whose chains of rings may in principle be degenerate, the weaker invariant that live vertices are mutually linked, which still gives closed chains |
| C46 | the final heap is closed (C45), so `collect` forwards and backwards give reversed lists with the same consumption of fuel; lifted through the result builder and `execute`, equality of outcomes including exceptions |
| C47 | loop invariants over `correct_orientations` (rings still to do unchanged, rings done measured and turned) and over `correct_tree` (rings hung so far, in sorted order by rounded absolute area); the containment test by the winding number theorem of C12; the steps in between (repeats, collinear edges, self-intersections) keep `up_to_date`, which gives the theorem for the whole path from the sweep to the tree |
| C48 | `correct_self_intersections` over the whole ring list: a cut only ever refines the partition of the vertices into rings and separates its two vertices; sorted equal vertices are contiguous, so every pair is tried; rings already clean stay clean; the marks are clear before because only two statements of the program set them |
| C49 | the multiset of sides (one per labelled vertex) is carried through every relinking of `correct_self_intersections` and `correct_chained_rings`, all of which exchange the successors of two vertices at the same place; `correct_tree_ring` either leaves all vertices alone or clears one ring with zero shoelace sum; output rings are single laps (C45). Removal of overlapping sides: refuted by a concrete run |
| C50 | invariant of the sweep: for each ring the list of its points from the first vertex; for each active holder the end on its side is its last point; holders of one ring are on different sides and come in twos. Every operation of `intersect_bounds`, `do_maxima`, the horizontal passes, promotions and insertions is followed through |
| C51 | measure: every turn of the main loop pops one scanbeam entry; an entry is only added when a bound moves on to its next edge or a local minimum is entered, and both happen boundedly often. The inner loops (bubble sort of the active list, edges ending on a level, minima on a level, quicksort of the pixels) each have a measure of their own; the bubble sort needs that no position is NaN |
| C52 | the cost measure of C51 carried over to the second pass, plus what C51 does not need: the rings of output points are closed circles (C30), so walking along one ends; the parents of the rings never form a cycle (`sound`), so the search for the hole state and the test for a descendant end. A bound may still hold a ring of an earlier operation when the pass begins: `RunRelP` shows that the pass does not look at it, so it is wiped first |
| C53 | `reconnect` (ring_manager.py, the joining of a chain of touching rings) written in relational form: exchanging the successors of the pair nodes along the tour merges all its circles into one and cuts it in two (`tour_turn`); the walk that counts the points, labels them and measures the two parts is followed by induction; the rings given up are emptied, their children handed on |
| C54 | invariant over the whole correction of touching rings: every recorded pair of vertices is in one place, on two different rings, under the rings it is recorded under (`conns_tied`, rings that hold them now); what `find_intersect_loop`, `direct_scan` and `chain_scan` answer is a tour, so C53 applies; the rounds of both corrections by induction. Needs that no three ring vertices share a place (`two_at_most`), which is kept by every step |
| C55 | invariant `tidy` (a ring marked as corrected visits no point twice) through the rounds; the last step of a round is a correction of self intersections, so C48 applies to the final state; the written rings are laps of whole rings (C33, C54), so the bound of two visits follows from `two_at_most`, kept to the end |
| C56 | `LinearRing.edges` of a list equals `LinearRing.edges` of the list without adjacent (cyclic) repetitions, by simulation of the two runs of the main loop (including the runs that end early because the ring folds up); the rest of the algorithm sees the edges only (C42). Refuted for the starting point (order of the polygons) and, with even-odd filling, for the direction (exception or none). |
| C57 | invariant of the main loop of `LinearRing.edges`: the chain of the points kept and the points still to be read is obtained from the ring by leaving out loose points (points on the line through their neighbours); at the end nothing loose is left; leaving out loose points is locally confluent and terminates, so the reduced chain is unique up to its start (Newman); the converse because consecutive edges of a reduced chain determine their common point |
| C58 | C57 gives the two lists of edges up to where they begin; `to_edges_starting_on_local_maximum` turns either list so that it begins going down and ends going up; such a list splits into stretches (down, then up), the part before and the part after the other starting point are again such lists, and cutting off one minimum depends on the first stretch only, so the minima are turned as the edges are; over histories by induction on the rings, bounds recorded earlier keep edges, kind and winding |
| C59 | leaving out loose points commutes with reversing the ring, so the reduced ring of the reversed ring is the reversed reduced ring (uniqueness from C57), and `Edge.__init__` of two exchanged points gives the edge backwards |
| C60 | leaving out loose points commutes with scaling and moving, so the reduced ring of the image is the image of the reduced ring (C57), and `Edge.__init__` divides differences of the same ratio (`FloatP.truediv_ratio`: int / int is the correctly rounded ratio); cutting into minima compares coordinates with each other only and therefore commutes with scaling and moving; for the ring itself every function of `LinearRing.edges` commutes step by step, errors included; C58 for the start |
| C03-C07 | loop invariant for the main loop of `LinearRing.edges` (the result is a chain ending in the pending vertex) and for the end simplification; winding number and area as additive functionals on collinear triples |
| C08-C12 | invariant over the `while edges` loop of `add_linear_ring`, on top of C03/C04 |
| C14 | Hoare-style frame invariant through every function of the sweep and the topology correction |
| C15-C18 | structural induction / loop invariants over arbitrary lists |
| C19-C22 | integer characterisation of binary64 bit patterns; correctly rounded division |
| C23 | arithmetic |
| C24-C26 | closed form of winding counts for arbitrary lists of bounds; case analysis with unbounded integers; then an invariant of every state of the sweep (`SweepInvP.v`): the active list is right and bounds left it in pairs, or a bound was lost for good |
| C27 | from C16 plus induction on `groupby` |
| C28-C32 | heap predicates for circular lists and trees |
| C33 | induction on the ring forest |
| C34, C35, C37 | refuted: concrete witnesses, computed in the model |
| C36 | global invariant through `execute` |
| C38, C39 | induction / modular arithmetic |
| C40 | log of the swaps of the bubble sort + the order of the active list |
| C41 | every function is monotone in its fuel (syntactic induction, `FuelP.v`) |
