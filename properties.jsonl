{"id": "C01", "title": "SplayTree behaves as a sorted map", "statement": "After any sequence of insert / remove / get / get_mut-write / contains / find_key / next / prev / min / max / len / is_empty / clear calls on a SplayTree whose comparator is a total order, every call returns exactly what the same call on a plain sorted association list returns: insert returns the value previously stored under an equal key (and keeps the stored key), remove returns the removed value, get/find_key return the stored value/key.", "quantifier": "every key type, every comparator that is a total order, every finite operation sequence", "why_tests_cant": "The tree restructures itself on every access; the shapes reachable after n operations grow exponentially, tests reach a handful of them.", "anchors": ["src/splay/tree.rs: SplayTree::{insert,remove,get,get_mut,find_key,contains,next,prev,min,max,len,clear}, splay", "src/splay/node.rs: Node"]}
{"id": "C02", "title": "SplayTree lookups are observationally pure", "statement": "get, contains, find_key, next and prev take &self but rewrite the tree through an UnsafeCell; none of them ever changes the sequence of (key, value) pairs in the tree, whatever the comparator answers and whatever the shape of the tree, so no element is lost, duplicated or reordered by a lookup.", "quantifier": "every tree shape, every query key, every comparator function (even an inconsistent one)", "why_tests_cant": "Needs all tree shapes and all comparator answers, including lawless ones.", "anchors": ["src/splay/tree.rs: splay, SplayTree::{get,find_key,next,prev}"]}
{"id": "C03", "title": "next/prev are strict successor/predecessor", "statement": "SplayTree::next(k) returns the entry with the smallest key strictly greater than k, prev(k) the entry with the largest key strictly smaller than k, whether or not k itself is stored, and None exactly when there is no such entry.", "quantifier": "every tree, every query key present or absent, every total-order comparator", "why_tests_cant": "Depends on the tree shape after splaying for absent keys.", "anchors": ["src/splay/tree.rs: SplayTree::next, SplayTree::prev"]}
{"id": "C04", "title": "min/max return the extremal keys", "statement": "min()/max() return the smallest/largest stored key, None exactly on the empty tree, and do not modify the tree.", "quantifier": "every reachable tree", "why_tests_cant": "All shapes.", "anchors": ["src/splay/tree.rs: min_node, max_node"]}
{"id": "C05", "title": "len is exact and never underflows", "statement": "In every reachable state len() equals the number of entries an into_iter would yield; the decrement in remove never underflows, and is_empty() holds exactly when there is no entry.", "quantifier": "every operation sequence", "why_tests_cant": "Histories of inserts, replacing inserts, failed and successful removes are unbounded.", "anchors": ["src/splay/tree.rs: SplayTree::{len,is_empty,insert,remove,clear}"]}
{"id": "C06", "title": "into_iter yields every entry once, in order, from both ends", "statement": "For any interleaving of next() and next_back() calls on SplayTree::into_iter, the front calls return the first entries in key order, the back calls the last entries in reverse order, every entry is returned exactly once, then None for ever, and size_hint is always exactly the number of entries still to come.", "quantifier": "every tree and every finite sequence of next/next_back calls", "why_tests_cant": "The iterator rotates a partially consumed tree; interleavings are exponential.", "anchors": ["src/splay/tree.rs: IntoIter::{next,next_back,size_hint}"]}
{"id": "C07", "title": "Indexing and extend", "statement": "tree[&k] returns the value get(&k) returns and panics exactly when k is absent; extend has the effect of inserting the items one by one in order (so the last value for a key wins and the first key object is kept).", "quantifier": "every tree, key and item list", "why_tests_cant": "All states and inputs.", "anchors": ["src/splay/tree.rs: Index, IndexMut, Extend"]}
{"id": "C08", "title": "SplaySet behaves as a sorted set", "statement": "Every SplaySet operation sequence returns what the same sequence on a strictly sorted list without duplicates returns: insert is true iff the element was new, remove true iff it was present, find/next/prev/min/max give the stored elements.", "quantifier": "every operation sequence and total-order comparator", "why_tests_cant": "As C01.", "anchors": ["src/splay/set.rs: SplaySet"]}
{"id": "C09", "title": "SweepPoint order is lexicographic and total on non-NaN coordinates", "statement": "For floating point coordinates that are not NaN, SweepPoint comparison is a total order (reflexive, antisymmetric up to ==, transitive, total): first by x then by y, and it answers Equal exactly when == does. With a NaN the Ord comparison panics exactly when the NaN decides the comparison (x is NaN on a side, or the x are equal and a y is NaN).", "quantifier": "all pairs/triples of IEEE binary64 values including infinities, signed zeros and NaN", "why_tests_cant": "2^256 pairs.", "anchors": ["src/events.rs: SweepPoint::{partial_cmp,cmp,eq}"]}
{"id": "C10", "title": "Event priority", "statement": "Whatever events are pushed in whatever order, and however ties are broken, events pop by increasing point, and at one point in the order PointLeft, LineRight, LineLeft, PointRight, and each of several equally great events may be the next one.", "quantifier": "every multiset of events, every push order, every tie-breaking heap", "why_tests_cant": "Heap contents and tie-breaking are unbounded.", "anchors": ["src/events.rs: Event::cmp, EventType", "src/crossings/sweep.rs: Sweep.events"]}
{"id": "C11", "title": "LineOrPoint::from(Line) normalises without changing geometry", "statement": "Converting a Line gives a Point exactly when both ends coincide and otherwise a Line whose first end is strictly before its second; the result does not depend on the direction of the input and denotes the same set of points.", "quantifier": "all lines", "why_tests_cant": "All coordinates.", "anchors": ["src/line_or_point.rs: From<Line>"]}
{"id": "C12", "title": "Segment comparison is antisymmetric", "statement": "For all LineOrPoint a, b: b.partial_cmp(a) is the reverse of a.partial_cmp(b) (None iff None), and a == b iff b == a.", "quantifier": "all pairs of valid geometries", "why_tests_cant": "All coordinates, four variant combinations.", "anchors": ["src/line_or_point.rs: PartialOrd, PartialEq"]}
{"id": "C13", "title": "Segment comparison means below/above along the sweep line", "statement": "For two line segments whose left ends are both before both right ends, the comparison is Less iff, immediately after the later of the two left ends, the first segment is below the second (first test: position of the later left end; tie: direction), and Equal iff they are collinear.", "quantifier": "all pairs of segments satisfying the documented precondition", "why_tests_cant": "All coordinates.", "anchors": ["src/line_or_point.rs: PartialOrd::partial_cmp"]}
{"id": "C14", "title": "Comparability precondition of two lines", "statement": "Documentation: comparing two lines requires both left ends strictly before both right ends; the code has a branch returning None for violations. The faithful statement is that partial_cmp on two valid lines NEVER returns None (the guard tests p2 >= q2, which is always false), so violations of the precondition are not detected.", "quantifier": "all pairs of valid lines", "why_tests_cant": "Absence of a None over all inputs.", "anchors": ["src/line_or_point.rs:231-236"]}
{"id": "C15", "title": "Segment order is a consistent total order on simultaneously active segments", "statement": "On any set of segments that share a common sweep position and pairwise do not cross (common points only at common ends) the comparison is transitive and total up to collinearity, it is unchanged when a segment is truncated at an interior point, so it is a valid ordering for the active-segment set.", "quantifier": "every set of pairwise non-crossing segments alive at a common sweep point, all truncations", "why_tests_cant": "All configurations.", "anchors": ["src/line_or_point.rs: PartialOrd", "src/active.rs: Active", "src/crossings/sweep.rs: Segment::adjust_for_intersection"]}
{"id": "C16", "title": "Comparing a point with a line", "statement": "line.partial_cmp(point) is Some exactly when the point is lexicographically between the ends; it is Less iff the point is strictly above the line, Greater iff it is below or on it, never Equal; two points compare Equal iff identical and are otherwise unordered.", "quantifier": "all points and lines", "why_tests_cant": "All coordinates.", "anchors": ["src/line_or_point.rs: PartialOrd"]}
{"id": "C17", "title": "intersect_line computes the exact intersection", "statement": "With exact arithmetic, a.intersect_line(b) (b a line) is None iff the two geometries share no point, Point(r) iff r is the only shared point, Line(r1,r2) iff the shared points are exactly the segment r1r2; it panics exactly when b is a point.", "quantifier": "all geometry pairs over exact rationals", "why_tests_cant": "All coordinates and all degenerate positions.", "anchors": ["src/line_or_point.rs: LineOrPoint::intersect_line", "geo::line_intersection (modelled exactly)"]}
{"id": "C18", "title": "intersect_line_ordered never goes back before the first segment", "statement": "With exact arithmetic the ordered intersection equals the plain one and lies at or after the first end of both segments (the debug assertions cannot fire). For IEEE floats with any intersection routine whose result lies in self's bounding box, the nudge makes the result >= self.first(); nothing protects other.first(), for which a counterexample exists.", "quantifier": "all segment pairs; all IEEE values and all intersection routines with results in the bounding boxes", "why_tests_cant": "All coordinates / all routines.", "anchors": ["src/line_or_point.rs: LineOrPoint::intersect_line_ordered"]}
{"id": "C19", "title": "Crossings are sound", "statement": "Every Crossing that CrossingsIter reports at a yielded point x is a piece of the input it names: its geometry is contained in that input, it starts (at_left) or ends (not at_left) exactly at x, and x lies on the input.", "quantifier": "every finite input of segments and points (exact arithmetic), every heap tie-breaking, every iteration step", "why_tests_cant": "Invariant over all sweep histories with splits and overlaps.", "anchors": ["src/crossings.rs: CrossingsIter::next, Crossing", "src/crossings/sweep.rs: Sweep::handle_event"]}
{"id": "C20", "title": "CrossingsIter yields strictly increasing points", "statement": "The yielded points are strictly increasing in the (x, y) lexicographic order; no point is yielded twice.", "quantifier": "every input, every tie-breaking (exact arithmetic)", "why_tests_cant": "Global invariant of the sweep.", "anchors": ["src/crossings.rs: CrossingsIter::next", "src/crossings/sweep.rs: Sweep::next_event"]}
{"id": "C21", "title": "CrossingsIter is complete", "statement": "Every end point of every input, every isolated intersection point of two inputs and both ends of every overlap of two inputs is yielded, and at that point the reported crossings contain a piece of each of the inputs that meet there.", "quantifier": "every finite input, including three or more segments through a point, overlaps, vertical segments, points and duplicates (exact arithmetic), every tie-breaking", "why_tests_cant": "This is the correctness of the Bentley-Ottmann algorithm; degenerate configurations are unbounded.", "anchors": ["src/crossings.rs: CrossingsIter", "src/crossings/sweep.rs: Sweep"]}
{"id": "C22", "title": "CrossingsIter never panics on exact input", "statement": "With exact arithmetic no assertion, debug assertion, expect, unreachable comparison or unchecked storage access in the sweep fails, for any finite input.", "quantifier": "every input, every tie-breaking, every iteration step", "why_tests_cant": "Absence of panics over all histories.", "anchors": ["src/crossings/sweep.rs: handle_event, segment_for_event, adjust_one_segment", "src/active.rs: Access for SplayWrap"]}
{"id": "C23", "title": "CrossingsIter terminates", "statement": "Iteration reaches None after finitely many next() calls: the sweep processes a number of events bounded in terms of the number of inputs and of their pairwise intersection points (exact arithmetic).", "quantifier": "every input, every tie-breaking", "why_tests_cant": "Splitting creates new events; termination is a global argument.", "anchors": ["src/crossings/sweep.rs: Sweep::next_event"]}
{"id": "C24", "title": "The reported pieces tile each input", "statement": "For each input segment the pieces reported as ending (at_left = false) are, in order, consecutive sub-segments that start at the input's left end, finish at its right end and cover it exactly, each piece being reported once as starting and once as ending.", "quantifier": "every input and tie-breaking", "why_tests_cant": "Bookkeeping over splits and overlap chains.", "anchors": ["src/crossings/sweep.rs: create_segment, adjust_one_segment, chain_overlap"]}
{"id": "C25", "title": "Ending pieces contain no interior intersection", "statement": "A crossing reported with at_left = false contains, in its interior, no point of another input unless that input overlaps the whole piece (documentation of Crossing::line).", "quantifier": "every input and tie-breaking", "why_tests_cant": "Global.", "anchors": ["src/crossings.rs: Crossing.line doc"]}
{"id": "C26", "title": "Each yield is non-empty and the iterator is fused", "statement": "Whenever next() returns a point, intersections() is non-empty; once next() has returned None it returns None for ever and all events have been consumed.", "quantifier": "every input and history", "why_tests_cant": "An early None would be indistinguishable from the end in tests.", "anchors": ["src/crossings.rs: CrossingsIter::next"]}
{"id": "C27", "title": "has_overlap marks overlapping neighbours", "statement": "If a crossing has has_overlap = true then a next crossing exists in the slice and has exactly the same geometry.", "quantifier": "every input and yield", "why_tests_cant": "Chains of overlaps.", "anchors": ["src/crossings.rs: Crossing.has_overlap"]}
{"id": "C28", "title": "first_segment flag", "statement": "Documentation: first_segment tells whether this is the first segment of the input line. The code clears the flag on the first piece itself whenever it is split, so the documented meaning is false: there is an input where the piece that starts at the input's left end is reported at that very point with first_segment = false.", "quantifier": "all inputs (documented) / a witness input, and every order in which equal events may be popped (violation)", "why_tests_cant": "The flag is right on all unit tests' inputs.", "anchors": ["src/crossings/sweep.rs:138-177", "src/crossings.rs:83"]}
{"id": "C29", "title": "Intersections only reports true intersections", "statement": "Every triple (a, b, i) yielded by Intersections consists of two inputs of the collection and i is exactly their geometric intersection; the internal expect never fails on exact input.", "quantifier": "every input and tie-breaking (exact arithmetic)", "why_tests_cant": "All inputs.", "anchors": ["src/crossings.rs: Intersections"]}
{"id": "C30", "title": "Intersections and the set of intersecting pairs", "statement": "Documentation: a drop-in replacement for computing the intersection over all pairs, i.e. every intersecting pair is reported. The faithful model violates this: a segment that is split while being inserted loses first_segment, and its intersections at its own left end are never reported.", "quantifier": "all inputs (documented) / a witness input, and every order in which equal events may be popped (violation)", "why_tests_cant": "The documentation example and tests do not hit it.", "anchors": ["src/crossings.rs: Intersections::intersection", "src/crossings/sweep.rs: adjust_for_intersection"]}
{"id": "C31", "title": "Intersections and duplicate pairs", "statement": "A drop-in replacement for an all-pairs loop reports each intersecting pair of inputs at most once. The faithful model violates this: two overlapping segments that end together are reported twice, because the pair is reported where the second one starts and again where both end.", "quantifier": "all inputs (documented) / a witness input, and every order in which equal events may be popped (violation)", "why_tests_cant": "Requires the global sweep invariant.", "anchors": ["src/crossings.rs: Intersections::step, intersection"]}
{"id": "C32", "title": "Independence of heap tie-breaking", "statement": "The sequence of yielded points does not depend on how the heap orders equal events.", "quantifier": "every input, every pair of tie-breaking strategies", "why_tests_cant": "BinaryHeap's tie order is unspecified.", "anchors": ["src/events.rs: Event::cmp", "src/crossings.rs"]}
{"id": "C33", "title": "MonoPoly::new accepts exactly the valid chain pairs", "statement": "MonoPoly::new(top, bot) succeeds iff the chains share first and last coordinate, these differ, and both chains are strictly increasing lexicographically; otherwise it panics; accessors return the chains unchanged.", "quantifier": "all pairs of line strings", "why_tests_cant": "All inputs.", "anchors": ["src/monotone/mono_poly.rs: MonoPoly::new"]}
{"id": "C34", "title": "MonoPoly::into_polygon", "statement": "into_polygon never panics on a MonoPoly and returns a polygon without holes whose exterior is a closed ring that walks the top chain forward and the bottom chain backward, containing every chain edge exactly once.", "quantifier": "all MonoPoly values", "why_tests_cant": "All inputs.", "anchors": ["src/monotone/mono_poly.rs: into_polygon"]}
{"id": "C35", "title": "MonoPoly::bounding_rect", "statement": "If the top chain is nowhere below the bottom chain and the polygon has positive extent in both axes, bounding_rect is the tight bounding box of all vertices.", "quantifier": "all MonoPoly values with top above bottom", "why_tests_cant": "All inputs.", "anchors": ["src/monotone/mono_poly.rs: BoundingRect"]}
{"id": "C36", "title": "Scanner yields a gap-free sequence of trapezoids", "statement": "Scanning a MonoPoly up to x = u yields non-degenerate trapezoids, each starting exactly where the previous stopped, from the scanner's position to min(u, right end), whose top and bottom sides lie on the top and bottom chains (exact arithmetic), and the iterator ends with curr.x = min(u, right end) (or unchanged if already past it).", "quantifier": "all MonoPoly values, all scan positions", "why_tests_cant": "All inputs and positions.", "anchors": ["src/monotone/mono_poly.rs: Scanner::{advance_to,advance_upto,advance_next,peek_next}"]}
{"id": "C37", "title": "Scanned area is the polygon area", "statement": "The areas of the trapezoids yielded by scanning the whole polygon sum to the signed area enclosed by the two chains, however the scan is cut into successive advance_to calls (exact arithmetic).", "quantifier": "all MonoPoly values, all increasing sequences of scan positions", "why_tests_cant": "All inputs, all partitions.", "anchors": ["src/monotone.rs: Trapz::area", "src/monotone/mono_poly.rs: Scanner"]}
{"id": "C38", "title": "advance_to and advance_upto agree and terminate", "statement": "advance_to(u) terminates, and advance_upto(u, f) calls f on exactly the trapezoids advance_to(u) yields, leaving the scanner in the same state.", "quantifier": "all MonoPoly values and positions", "why_tests_cant": "Termination over all inputs.", "anchors": ["src/monotone/mono_poly.rs"]}
{"id": "C39", "title": "cross_bounds / cross_ubounds indices", "statement": "For height >= 1 and cross_min < cross_max, the row indices returned are in 0..height, j_min <= j_max, and every row of the grid that the scanned part of the polygon meets (clipped to the band) is between j_min and j_max; cross_ubounds returns the empty range (height, 0) exactly when the scanned strip is empty or outside the band.", "quantifier": "all MonoPoly values, strips and grids (exact arithmetic)", "why_tests_cant": "All inputs.", "anchors": ["src/monotone/rasterize.rs: cross_ubounds, cross_bounds"]}
{"id": "C40", "title": "cross_area conserves area", "statement": "cross_area adds to the array cells exactly the area of the scanned part of the polygon inside the band [cross_min, cross_max], cell j receiving the part with y in [cross_min + j h, cross_min + (j+1) h]; it never panics when top >= bottom.", "quantifier": "all MonoPoly values with top above bottom, strips, grids (exact arithmetic)", "why_tests_cant": "All inputs.", "anchors": ["src/monotone/rasterize.rs: cross_area"]}
{"id": "C41", "title": "monotone_chains pieces are monotone", "statement": "Whenever monotone_chains returns, every piece is a valid x-monotone pair: both chains strictly increasing lexicographically with common ends.", "quantifier": "all polygons on which it returns", "why_tests_cant": "All inputs.", "anchors": ["src/monotone/chains.rs: monotone_chains"]}
{"id": "C42", "title": "monotone_chains uses exactly the polygon's edges plus paired diagonals", "statement": "The boundaries of the returned pieces, run clockwise, consist of the edges of the polygon of non-zero length, each exactly once and with the interior of the polygon on its right, plus diagonals, each of which occurs once in each direction.", "quantifier": "all polygons on which it returns", "why_tests_cant": "All inputs.", "anchors": ["src/monotone/chains.rs", "src/monotone/sweep.rs"]}
{"id": "C43", "title": "Boolean operation region logic", "statement": "The region bookkeeping computes the requested operation: starting from the label of the unbounded region and crossing edges, the 'inside result' flag equals A and B, A or B, A and not B, A xor B of the even-odd parities of crossed edges of the two operands, and the unbounded region is outside for every operation.", "quantifier": "all operations, all sequences of crossed edges", "why_tests_cant": "All histories of crossings.", "anchors": ["src/bops/op.rs: Region, OpType"]}
{"id": "C44", "title": "Polygon edges fed to the boolean sweep", "statement": "Adding a polygon records exactly its non-degenerate edges, normalised, of rings with at least four coordinates; rings must be closed (panic otherwise).", "quantifier": "all polygons", "why_tests_cant": "All inputs.", "anchors": ["src/bops/op.rs: add_polygon, add_closed_ring"]}
{"id": "C45", "title": "Ring assembly uses every edge exactly once", "statement": "Given proper segments in normal form that have at most single points in common, with even degree at every vertex, and such that in the order of insertion the edges at each vertex pair up one arriving with one leaving (region on the left), assembling does not panic, every output ring is closed, and the directed output edges (region on the left, by the ring's winding and hole flag) are exactly the directed input edges. (Even degrees alone are not enough, see C52.)", "quantifier": "all edge lists with these properties, in every such insertion order", "why_tests_cant": "All insertion orders and touching configurations.", "anchors": ["src/bops/rings.rs: Rings::{add_edge,finish}"]}
{"id": "C46", "title": "Output rings have no repeated vertex", "statement": "Every ring produced by the ring builder visits each of its vertices once (closing point aside): at touching points loops are cut off as separate rings. A ring has at least three vertices.", "quantifier": "all inputs as in C45", "why_tests_cant": "All configurations.", "anchors": ["src/bops/rings.rs: Rings::finish"]}
{"id": "C47", "title": "Polygon assembly loses and duplicates no ring", "statement": "The polygons built from the rings contain every non-hole ring exactly once as an exterior and every hole ring exactly once as an interior (when every hole's recorded parent is a non-hole ring).", "quantifier": "all ring lists and parent assignments", "why_tests_cant": "All inputs.", "anchors": ["src/bops/laminar.rs: assemble (lines 85-100)"]}
{"id": "C48", "title": "Boolean sweep emits exactly the boundary of the result", "statement": "For closed rings the sweep terminates without panic and hands to ring assembly, each once, exactly the maximal pieces of input edges (no end or crossing of edges inside) that have the result region, by the even-odd rule, on exactly one side, marked with the side on which it is; distinct pieces meet only in ends. (If the sort reorders crossings that compare equal, this needs operands no two edges of which run along each other, see C54.)", "quantifier": "all operations, all pairs of polygon lists with closed rings, every tie-breaking of the heap (exact arithmetic)", "why_tests_cant": "Global geometric statement over all inputs, including self-crossing rings, overlaps and any number of edges through a point.", "anchors": ["src/bops/op.rs: Op::sweep"]}
{"id": "C49", "title": "Symmetry of boolean operations", "statement": "Union, intersection and xor emit the same boundary pieces with the same orientation when the operands are swapped; an operation whose result contains no point returns no ring, in particular A minus A and A xor A.", "quantifier": "all polygon pairs", "why_tests_cant": "All inputs.", "anchors": ["src/bops.rs: BooleanOp", "src/bops/op.rs"]}
{"id": "C50", "title": "Active-set neighbours", "statement": "On an active set sorted by the current segment order, prev_key/next_key return the immediate neighbours of the query segment, add_key inserts it at its sorted place (panics iff an equal one is present), remove_key removes exactly it (panics iff absent).", "quantifier": "all active sets and storages", "why_tests_cant": "All states.", "anchors": ["src/active.rs: Access for SplayWrap"]}
{"id": "C51", "title": "Intersections reports each proper crossing exactly once", "statement": "Two inputs of the collection (given by position) whose geometric intersection is a single point that is the left end (in sweep order) of neither are reported by Intersections in exactly one triple, and that triple carries their intersection. (At a left end or along an overlap the pair may be missed or repeated, see C30 and C31.)", "quantifier": "every input, every pair of positions, every tie-breaking of the heap (exact arithmetic)", "why_tests_cant": "All inputs, including any number of other lines through the same point, overlaps and degenerate lines.", "anchors": ["src/crossings.rs: Intersections", "src/crossings/sweep.rs"]}
{"id": "C52", "title": "Ring assembly depends on the insertion order", "statement": "Ring assembly (with debug assertions) succeeds only if at every vertex the first and second, third and fourth, ... inserted edges are one arriving and one leaving. In particular a region of two triangles with a common leftmost vertex, its edges inserted in the order in which a left-to-right sweep finishes them, panics although every vertex has equally many arriving and leaving edges.", "quantifier": "all edge lists", "why_tests_cant": "The panic depends on the order of insertion at touching vertices; all orders.", "anchors": ["src/bops/rings.rs: Rings::{add_edge,push_link,link_chains}"]}
{"id": "C53", "title": "Boolean operations can panic on polygons that touch", "statement": "There are two triangles with disjoint interiors and one common corner, their leftmost, whose union makes the program stop with a failed debug assertion in ring assembly.", "quantifier": "existential: a pair of simple polygons; refutes 'the operation returns for all valid polygons'; every order in which equal events may be popped", "why_tests_cant": "Shows that the absence of panics is not a property of the code, which passing tests suggest.", "anchors": ["src/bops/op.rs: Op::sweep", "src/bops/rings.rs: Rings::add_edge, Chain"]}
{"id": "C54", "title": "Boolean operations depend on the order an unstable sort leaves", "statement": "The result of a boolean operation depends on how the unstable sort orders crossings that compare equal: there is a polygon with a hole, and the polygon that fills it, whose union is right for one permitted order and a panic, or a result with a superfluous ring, for another.", "quantifier": "existential: operands and a permitted outcome of sort_unstable_by", "why_tests_cant": "One standard library version gives one order; the contract of sort_unstable_by permits all.", "anchors": ["src/bops/op.rs: Op::sweep, compare_crossings", "src/crossings.rs: prev_active"]}
{"id": "C55", "title": "The boundary of a result is balanced and encloses it", "statement": "Walking each piece of the boundary of the result of a boolean operation with the result on the left hand side, as many pieces leave every vertex as arrive there (so every vertex has even degree); and for every point, on or off the edges, a ray crosses an odd number of pieces exactly if the point is in the result by the even-odd rule on the operands.", "quantifier": "all pairs of operands with closed rings, all four operations, all vertices and points of the plane", "why_tests_cant": "Overlapping, touching and self-crossing operands give unboundedly many vertex configurations.", "anchors": ["src/bops/op.rs: Op::sweep", "src/bops/rings.rs: Rings::add_edge"]}
{"id": "C56", "title": "The rings of a result are exactly its boundary", "statement": "Whenever a boolean operation returns, its rings are closed, repeat no vertex, and their edges, each once, are exactly the pieces of the boundary of the result. It does return when no more than two pieces of the boundary meet at any vertex.", "quantifier": "all pairs of operands with closed rings, all four operations, every order in which the event queue breaks ties", "why_tests_cant": "Needs the whole sweep and ring assembly to be right for every arrangement of edges.", "anchors": ["src/bops/op.rs: Op::sweep", "src/bops/rings.rs: Rings::{add_edge,finish}"]}
{"id": "C57", "title": "Boolean operations compute the set operation", "statement": "Whenever a boolean operation returns, a point is inside its rings by the even-odd rule exactly if the set operation applied to membership in the two operands (even-odd rule) holds for it - at every point of the plane.", "quantifier": "all pairs of operands with closed rings, all four operations, all points", "why_tests_cant": "Quantifies over all polygons and all points.", "anchors": ["src/bops.rs: BooleanOp", "src/bops/op.rs: Op::sweep", "src/bops/rings.rs"]}
{"id": "C58", "title": "The polygons returned by a boolean operation are the result", "statement": "Whenever a boolean operation returns, a point is inside the returned polygons by the even-odd rule over all their rings exactly if the set operation applied to membership in the two operands holds for it. All returned rings are closed and repeat no vertex, and their edges, each once, are exactly the pieces of the boundary of the result; so the result can be used as an operand again.", "quantifier": "all pairs of operands with closed rings, all four operations, all points, every order in which the two event queues break ties", "why_tests_cant": "Quantifies over all polygons and all points.", "anchors": ["src/bops.rs: BooleanOp", "src/bops/op.rs: Op::sweep", "src/bops/rings.rs: Rings", "src/bops/laminar.rs: assemble"]}
{"id": "C59", "title": "Boolean operations return when boundary vertices are simple, and holes lie inside their exteriors", "statement": "If at no vertex more than two pieces of the boundary of the result meet, the operation returns without panicking, and every vertex of an interior ring of a returned polygon is inside the exterior ring of that polygon.", "quantifier": "all pairs of operands with closed rings, all four operations, every order in which the two event queues break ties", "why_tests_cant": "Absence of panics and correct nesting for all arrangements of rings.", "anchors": ["src/bops.rs: BooleanOp", "src/bops/laminar.rs: assemble"]}
{"id": "C60", "title": "Every point of the result is in exactly one returned polygon", "statement": "If at no vertex more than two pieces of the boundary of the result meet: every point of the result is in exactly one of the returned polygons (inside its exterior ring, in none of its interior rings), and every other point is in none of them. In particular the polygons do not overlap and every hole belongs to the right polygon, also when polygons are nested in holes of others.", "quantifier": "all pairs of operands with closed rings, all four operations, all points of the plane", "why_tests_cant": "All nestings of rings and all points.", "anchors": ["src/bops.rs: BooleanOp", "src/bops/laminar.rs: assemble"]}
{"id": "C61", "title": "monotone_chains decomposes every valid polygon", "statement": "If the polygon is valid (rings closed and through at least three pairwise different vertices, edges meeting only at their ends, rings without common vertices, holes inside the exterior ring and outside each other) then monotone_chains returns: no assertion fails, no unwrap panics, no comparison is undefined, whatever the directions of the rings and also with vertical edges.", "quantifier": "all valid polygons with any number of vertices and holes, every order in which the sort may leave equal events, every shape of the ordered set", "why_tests_cant": "All polygons; every combination of start, end, split, merge and continue vertices.", "anchors": ["src/monotone/chains.rs: monotone_chains", "src/monotone/sweep.rs: Sweep"]}
{"id": "C62", "title": "Every interior point is in exactly one monotone piece", "statement": "For a valid polygon, every point inside it (even-odd rule) is inside exactly one of the pieces returned by monotone_chains, and every other point is in none: the pieces cover the polygon, do not overlap and do not reach into holes or outside.", "quantifier": "all valid polygons, all points of the plane, every order of equal events and every shape of the ordered set", "why_tests_cant": "All polygons and all points.", "anchors": ["src/monotone/chains.rs: monotone_chains", "src/monotone/mono_poly.rs: MonoPoly::into_polygon"]}
{"id": "C63", "title": "The top chain of a piece is nowhere below its bottom chain", "statement": "For a valid polygon, in every piece returned by monotone_chains the chain called top is nowhere below the chain called bottom: if a point of the top chain and a point of the bottom chain are on one vertical line, the first is not below the second, also along vertical edges. Therefore scanning a piece with its scanner never yields a trapezoid of negative area, and from the left to the right end the areas add up to the area of the piece.", "quantifier": "all valid polygons, all pieces, all vertical lines, all lists of stops that reach the right end", "why_tests_cant": "All polygons and all abscissas.", "anchors": ["src/monotone/chains.rs: monotone_chains", "src/monotone/mono_poly.rs: MonoPoly::scan_lines, Scanner::advance_to", "src/monotone.rs: Trapz::area"]}
{"id": "C64", "title": "The areas of the pieces add up to the area of the polygon", "statement": "For a valid polygon, every piece returned by monotone_chains converts to a polygon of positive area, and the areas of these polygons add up to the area of the exterior ring less the areas of the holes, whichever way the rings run. For a ring without self-intersections the winding order the code relies on is counter-clockwise exactly if the signed area is positive and clockwise exactly if it is negative.", "quantifier": "all valid polygons, every order of equal events and every shape of the ordered set", "why_tests_cant": "All polygons; the tests compare areas for a few polygons only.", "anchors": ["src/monotone/chains.rs: monotone_chains", "src/monotone/mono_poly.rs: MonoPoly::into_polygon", "src/monotone/sweep.rs: add_closed_ring"]}
{"id": "C65", "title": "Rasterising all pieces adds to every cell the area of the polygon in it", "statement": "For a valid polygon, scanning every piece returned by monotone_chains column by column with cross_area, as the benchmark does, never panics and adds to every cell of the grid exactly the area of the part of the polygon in this cell, whatever the stops of the columns, the band of rows and the previous content of the array. This area lies between 0 and the size of the cell; it is 0 if no point of the cell is in the polygon and the size of the cell if all are; the areas of the two parts of a cell that is cut add up; and a cell around the whole polygon has the area of the polygon.", "quantifier": "all valid polygons, all non-decreasing lists of columns, all bands and numbers of rows, all initial arrays, every order of equal events and every shape of the ordered set", "why_tests_cant": "All polygons and all grids; the tests compare only the total of one grid for a few polygons.", "anchors": ["src/monotone/rasterize.rs: Scanner::cross_area", "src/monotone/chains.rs: monotone_chains", "src/monotone/mono_poly.rs: MonoPoly::scan_lines", "benches/utils/rasterize.rs: our_area"]}
{"id": "C66", "title": "The areas scanned in slices add up to the area of the polygon", "statement": "For a valid polygon and any positive number of slices: cut the bounding rectangle in as many columns and rows, scan all pieces returned by monotone_chains with cross_area and add everything up; the result is exactly the area of the polygon. This is what the unit test verify_scanner_area asserts for a few polygons and 16 slices.", "quantifier": "all valid polygons, all numbers of slices, every order of equal events and every shape of the ordered set", "why_tests_cant": "The test asserts it for a few polygons.", "anchors": ["src/monotone/rasterize.rs: Scanner::cross_area", "src/monotone.rs: verify_scanner_area"]}
{"id": "C67", "title": "The area raster of the benchmarks is one column late", "statement": "One would expect of our_area that its entry (i, j) is the area of the polygon in cell (i, j) of the bounding rectangle, so that the entries add up to the area of the polygon. This is false: column 0 of the result is empty, column i has the areas of the cells of column i - 1, and those of the last column of cells are missing.", "quantifier": "all polygons that are valid after exchanging the coordinates, all widths and heights", "why_tests_cant": "The benchmarks only measure time; no test looks at the array.", "anchors": ["benches/utils/rasterize.rs: our_area"]}
{"id": "C68", "title": "Results of boolean operations are valid polygons", "statement": "If at no vertex more than two pieces of the boundary of the result meet, a boolean operation returns valid polygons: rings are closed and repeat no vertex, edges (also of different polygons) meet only at their ends, rings have no vertex in common, holes are inside the exterior and outside each other, and no point is in two polygons. Hence every returned polygon can be handed to monotone_chains without a panic, and for it the even-odd rule over all rings is the same as: inside the exterior, in none of the holes.", "quantifier": "all pairs of operands with closed rings, all four operations, every order in which the event queues break ties, all points", "why_tests_cant": "The composition of two sweeps, ring assembly, nesting and decomposition for all operands.", "anchors": ["src/bops.rs: BooleanOp", "src/bops/laminar.rs: assemble", "src/monotone/chains.rs: monotone_chains"]}
{"id": "C69", "title": "Areas of the results of boolean operations add up", "statement": "For operands made of valid polygons that do not overlap: area(union) + area(intersection) = area(A) + area(B); area(difference) + area(intersection) = area(A); area(xor) + 2 area(intersection) = area(A) + area(B); the same for the areas inside any rectangle; hence the intersection and the difference are not larger, the union not smaller than the operands.", "quantifier": "all pairs of operands consisting of non-overlapping valid polygons such that at no vertex more than two pieces of the boundary of the results meet, all rectangles, every order in which the event queues break ties", "why_tests_cant": "Exact equations between areas for all operands.", "anchors": ["src/bops.rs: BooleanOp", "src/bops/op.rs: Op::sweep"]}
{"id": "C70", "title": "No cell that the polygon reaches is missed", "statement": "Asking every piece of a valid polygon for the range of rows of every column (cross_ubounds) never panics and gives one range per column; for every point inside the polygon that is in some column and in some row of the band, some piece's range for that column contains the row. Ranges are not too large either: an empty range is (n, 0), otherwise the first and the last row, borders included, are reached by points between the chains of the piece in that column.", "quantifier": "all valid polygons, all increasing lists of stops, all bands and numbers of rows, all points inside", "why_tests_cant": "A missed cell shows only for particular alignments of vertices, stops and rows.", "anchors": ["src/monotone/rasterize.rs: Scanner::cross_ubounds", "src/monotone/mono_poly.rs: MonoPoly::scan_lines", "src/monotone/chains.rs: monotone_chains"]}
{"id": "C71", "title": "Inner and outer bounds enclose the area", "statement": "For every grid around the bounding rectangle of a valid polygon, the totals computed from cross_bounds as in the test helper verify_scanner_bounds enclose the area of the polygon, and none of its assertions on single columns and pieces fails. The last assertion of that test, on the difference of the totals, is not implied: it fails for a square that stands on a corner with 1024 slices.", "quantifier": "all valid polygons, all rectangles around the bounding rectangle, all positive numbers of slices", "why_tests_cant": "The tests try a few polygons with random margins and rounding.", "anchors": ["src/monotone.rs: tests::verify_scanner_bounds", "src/monotone/rasterize.rs: Scanner::cross_bounds"]}
{"id": "C72", "title": "The rasterization of the benchmarks", "statement": "our_rasterize never panics on a polygon whose mirror image is valid and returns width * height entries; entry (k, j) is set exactly if for some piece the k-th non-empty range of rows contains j. It is therefore not a raster of the polygon: there are a valid polygon with a cell inside it that is not set, and one with a cell outside it that is set.", "quantifier": "all polygons that are valid after the exchange of coordinates, all positive widths, all heights", "why_tests_cant": "The benchmark never looks at the result.", "anchors": ["benches/utils/rasterize.rs: our_rasterize", "src/monotone/rasterize.rs: Scanner::cross_ubounds"]}
{"id": "C73", "title": "The decomposition adds no vertices", "statement": "Every vertex of every piece that monotone_chains returns is a vertex of the polygon.", "quantifier": "all polygons, valid or not, on which the decomposition returns; every order in which the sort leaves equal events and every shape of the B-tree", "why_tests_cant": "It is about all vertices of all polygons.", "anchors": ["src/monotone/chains.rs: monotone_chains", "src/monotone/sweep.rs: Sweep"]}
{"id": "C74", "title": "The decomposition depends only on the order type", "statement": "If a map of the vertices keeps their left-to-right (then bottom-to-top) order and the orientation of every triple (left turn, right turn, straight), then monotone_chains on the mapped polygon returns the mapped pieces, in the same order and with the same vertices, or panics with the same message. The map need not be affine and may be rounding; order-keeping affine maps are a special case. So the decomposition never does arithmetic on coordinates beyond comparing them and the orientation predicate.", "quantifier": "all polygons, valid or not, all such maps, every order in which the sort leaves equal events and every shape of the B-tree", "why_tests_cant": "It compares runs on all pairs of equivalent polygons; a test compares a few.", "anchors": ["src/monotone/chains.rs: monotone_chains", "src/monotone/sweep.rs: Sweep", "src/monotone/segment.rs: Segment", "src/events.rs: Event"]}
{"id": "C75", "title": "Crossings move with the input", "statement": "For every affine map that keeps the order of the sweep (translation, positive scaling of each axis, vertical shear, and compositions) the crossings of the mapped inputs are the mapped crossings: the same points in the same order, each with the same crossings and flags; likewise the intersections, and line_intersection itself; a run that panics panics with the same message.", "quantifier": "all inputs, all such maps, every order in which the heap leaves equal events", "why_tests_cant": "It compares two runs on all inputs and for all maps, degenerate ones (overlaps, repeated points) included.", "anchors": ["src/crossings.rs: CrossingsIter, Intersections", "src/crossings/sweep.rs: Sweep", "src/line_or_point.rs: LineOrPoint"]}
{"id": "C76", "title": "Boolean operations move with the operands", "statement": "For every affine map that keeps the order of the sweep, a boolean operation on the mapped operands returns the mapped polygons, with the same rings starting at the same vertices, or panics with the same message. This does not extend to rotations: there are two triangles whose union panics and whose union after a quarter turn succeeds, in whichever order equal events are popped.", "quantifier": "all operands, closed or not, all operations, all such maps, every order in which the heap leaves equal events and the sort leaves equal crossings", "why_tests_cant": "It compares two runs for all operands and all maps.", "anchors": ["src/bops.rs: BooleanOp", "src/bops/op.rs: Op::sweep", "src/bops/rings.rs: Rings", "src/bops/laminar.rs: assemble"]}
{"id": "C77", "title": "Rasterizing does not depend on units or origin", "statement": "If both axes get another unit of length and another origin, with factors sx and sy greater than zero, and the grid moves along, then a scanner reports the same rows for every column, the bitmap of the whole polygon is the same bitmap, the array of areas is the old one with every entry multiplied by sx * sy, and so is the total scanned area; a run that panics panics with the same message.", "quantifier": "all polygons, valid or not, all pieces, columns and grid sizes, all positive factors and all offsets, every order in which the sort leaves equal events and the slab hands out keys", "why_tests_cant": "It compares two runs for all polygons and all changes of units.", "anchors": ["src/rasterize.rs: Scanner::cross_ubounds, Scanner::cross_area", "benches/utils/rasterize.rs: our_rasterize, our_area", "src/monotone.rs: verify_scanner_area", "src/mono_poly.rs: Scanner::advance_to"]}
{"id": "C78", "title": "Nothing left means an empty result", "statement": "A boolean operation returns the empty list exactly if no point is in the result, and it never panics then, whatever the operands look like. In particular the difference and the symmetric difference of operands with the same points are empty, and so is the intersection of operands on different sides of a vertical or horizontal line, even if they touch it.", "quantifier": "all closed operands, all operations, every order in which the heap leaves equal events; any order of equal crossings if no two edges overlap, the stable one otherwise", "why_tests_cant": "It is about all pairs of operands with an empty result, including degenerate ones.", "anchors": ["src/bops.rs: BooleanOp::boolean_op, difference, xor, intersection", "src/bops/op.rs: Op::sweep", "src/bops/laminar.rs: assemble"]}
{"id": "C79", "title": "Operations can be nested", "statement": "Results of boolean operations can be used as operands. However deep operations are nested, a point is in the polygons that come out exactly if it is in the set the whole expression stands for. Two expressions for the same set give the same points and, if no polygons of the results overlap, the same area, in the plane and in every rectangle; an expression for a smaller set gives no larger area. So the laws of sets hold: commutativity, associativity, distributivity, A - (B + C) = (A - B) * (A - C), (A xor B) xor B = A, (A - B) + (A * B) = A.", "quantifier": "all expressions of any depth over closed operands, each operation with its own order of equal events", "why_tests_cant": "It ranges over all expressions and compares different computations.", "anchors": ["src/bops.rs: BooleanOp", "src/bops/op.rs: Op", "src/bops/laminar.rs: assemble"]}
{"id": "C80", "title": "Pieces of a decomposition are valid polygons", "statement": "Every piece of the monotone decomposition of a valid polygon, converted to a polygon, is itself a valid polygon: at least three different vertices, none visited twice, edges that meet only at their ends. The pieces do not overlap, cover the points of the polygon, and have its area, in the plane and in every rectangle. So pieces can be decomposed again, any number of times, and used as operands: the polygon without its pieces is empty, and uniting the pieces gives the points of the polygon back.", "quantifier": "all valid polygons with any number of holes, and all families of valid polygons that do not overlap; every order of equal events and every choice among equal segments", "why_tests_cant": "Degenerate pieces (chains that touch in between, repeated vertices) depend on rare coincidences of diagonals with other vertices; the claim is about every polygon.", "anchors": ["src/monotone/chains.rs: monotone_chains", "src/monotone/mono_poly.rs: MonoPoly::into_polygon"]}
{"id": "C81", "title": "Size of a decomposition", "statement": "The monotone decomposition of a valid polygon has at least one piece and at most as many as the polygon has vertices that come before both their neighbours in sweep order (by x, then y). The pieces together have at most as many sides as the polygon plus two for each such vertex and two for each vertex that comes after both its neighbours. So a polygon with n sides has at most n/2 pieces with at most 3n sides together.", "quantifier": "all valid polygons, with or without holes, every order of equal events and every B-tree shape", "why_tests_cant": "A test counts the pieces of a few polygons; the bound must hold for every polygon, however many split and merge vertices follow each other.", "anchors": ["src/monotone/chains.rs: monotone_chains", "src/monotone/mono_poly.rs: MonoPoly::into_polygon"]}
{"id": "C82", "title": "Monotone polygons are not cut", "statement": "A valid polygon with only one vertex that comes before both its neighbours is decomposed into a single piece whose sides are those of the polygon, without diagonals. A monotone polygon given by its two chains is returned with exactly these chains. So decomposing a piece of a decomposition again gives back just that piece.", "quantifier": "all valid polygons with one first vertex, all pairs of chains, all pieces of all decompositions, every order of equal events and every B-tree shape", "why_tests_cant": "Tests on a few monotone shapes cannot exclude that some other one is cut by a superfluous diagonal or that its chains come back changed.", "anchors": ["src/monotone/chains.rs: monotone_chains", "src/monotone/mono_poly.rs: MonoPoly::into_polygon"]}
{"id": "C83", "title": "Crossings depend only on the set of lines", "statement": "CrossingsIter cuts each input at exactly those of its points at which something happens: where an input ends or where two inputs have a single point in common. So the yielded points and the pieces reported at their ends do not depend on the order of the inputs, on the direction in which a line is given, on repetitions or on the type that carries the line. Adding inputs loses no point and only cuts the pieces finer. For n inputs at most 2n + n(n-1)/2 points are yielded.", "quantifier": "all pairs of finite collections of lines, degenerate, repeated and overlapping ones included, of any two types, every order of equal events", "why_tests_cant": "It compares all orders, directions and repetitions of every collection.", "anchors": ["src/crossings.rs: CrossingsIter, Crossing, Crossable", "src/crossings/sweep.rs: Sweep::handle_event"]}
{"id": "C84", "title": "Results of boolean operations do not depend on how the operands are written", "statement": "If the boundary of the result touches itself at no vertex, then writing the rings of the operands from another start vertex, in the other direction, in another order or distributed over other polygons changes neither that boolean_op returns nor which polygons it returns: the same exterior rings with the same holes, up to start vertex, direction and order. So do two runs that treat equal events differently, and union, intersection and symmetric difference with exchanged operands. Where the boundary does touch itself, the edges of the results are still the same.", "quantifier": "all collections of closed rings and all ways of writing them, all four operations, every order of equal events in both sweeps, every sort of equal crossings that is stable or without overlapping edges", "why_tests_cant": "It compares all ways of writing every pair of operands and all orders of events.", "anchors": ["src/bops.rs: BooleanOp", "src/bops/op.rs: Op", "src/bops/rings.rs: Rings", "src/bops/laminar.rs: assemble"]}
{"id": "C85", "title": "Operations that do not change the region return a valid multi-polygon as it is", "statement": "For a valid multi-polygon, union, difference and symmetric difference with nothing, and union and intersection with itself, return the same polygons: the same exterior rings with the same holes, up to start vertex, direction and order, with no vertex added or removed. The same holds for any two operands with the edges of the multi-polygon and an operation whose result is its region. A result of a boolean operation is such a multi-polygon, so it is not changed by further operations of this kind.", "quantifier": "all valid multi-polygons, all results of boolean operations whose boundary does not touch itself at a vertex, every order of equal events in both sweeps, every sort of equal crossings that is stable or without overlapping edges", "why_tests_cant": "It ranges over all valid multi-polygons and all orders of events.", "anchors": ["src/bops.rs: BooleanOp", "src/bops/op.rs: Op", "src/bops/rings.rs: Rings", "src/bops/laminar.rs: assemble"]}
{"id": "C86", "title": "Without proper crossings, results do not depend on rounding", "statement": "If no two of the given lines cross properly (they may share ends, end in the middle of one another, overlap, be equal or be points), then CrossingsIter yields the same points and the same crossings, call by call, Intersections reports the same pairs with the same intersections, and the boolean operations return the same polygons, whatever the routine that computes the point of a proper crossing would return and whatever next_after returns. So on such inputs every guarantee stated for exact arithmetic holds for floating point coordinates, on which comparisons and the orientation predicate are exact.", "quantifier": "all collections of lines and all pairs of operands without proper crossings, all routines for the point of a proper crossing and all successor functions, every order of equal events, every number of calls", "why_tests_cant": "It quantifies over all rounding behaviours as well as over all inputs.", "anchors": ["src/crossings.rs: CrossingsIter", "src/crossings.rs: Intersections", "src/line_or_point.rs: intersect_line_ordered", "src/bops.rs: BooleanOp"]}
{"id": "C87", "title": "What rounding to f64 breaks", "statement": "The guarantees of exact arithmetic do not extend to f64 coordinates when lines cross properly: there are three lines with small integer coordinates, two of which touch, such that Intersections does not report the touching pair, in whichever order equal events are popped; there are lines on a small grid on which CrossingsIter and Intersections panic at an assertion that is also checked in release builds; there are two triangles with small integer coordinates on which all four boolean operations panic, two of them also in release builds; and two lines suffice for a debug assertion to fail, whichever end the fallback of the intersection routine takes for the nearest one within a factor of four. For the assertions about the order of a computed point to hold it is enough that the point lies in the bounding boxes of both lines and that next_after increases, when the other segment does not start later.", "quantifier": "all inputs (expected) / witness inputs (violation), for every order of equal events where stated, and every routine for the nearest end; the sufficient condition for all pairs of segments and all routines", "why_tests_cant": "The failures depend on the last bits of computed points; whether an input is affected cannot be seen from it, and the sufficient condition quantifies over all routines.", "anchors": ["src/crossings.rs: CrossingsIter", "src/crossings.rs: Intersections", "src/line_or_point.rs: intersect_line_ordered", "src/active.rs:170", "src/bops/rings.rs: Rings::finish"]}
{"id": "C88", "title": "What holds whatever the rounding", "statement": "In whatever way the point of a proper crossing is computed and however the next larger scalar is chosen: every crossing CrossingsIter reports belongs to one of the given inputs, and every pair Intersections reports, in any number of calls, is a pair of given inputs whose lines really have a point in common; the reported intersection is exactly the set of their common points, unless the lines cross properly, in which case it is the computed point. So rounding can make Intersections miss, repeat or fail, but never report a pair that does not meet.", "quantifier": "all collections of inputs, all orders of equal events, all numbers of calls, all routines for the crossing point and the next scalar (any arithmetic for CrossingsIter)", "why_tests_cant": "It ranges over all rounding errors and all inputs; tests see one platform's arithmetic.", "anchors": ["src/crossings.rs: CrossingsIter", "src/crossings.rs: Intersections", "src/crossings/sweep.rs: Sweep", "src/line_or_point.rs: intersect_line_ordered"]}
{"id": "C89", "title": "Rings of results are not oriented", "statement": "Expected by the conventions of geo: exterior rings of a result run counter-clockwise and holes clockwise. This does not hold: there are two triangles, both written counter-clockwise, such that the union of the one with nothing is returned clockwise and that of the other counter-clockwise, and a triangle less a smaller one inside it is returned with the hole running the same way as the exterior, whatever the order in which equal events are popped in either sweep.", "quantifier": "all operands (expected) / witness operands, for every order of equal events (violation)", "why_tests_cant": "Most inputs give clockwise exteriors, and the order of equal events is left open by the heap; that the outcome does not depend on it needs all orders.", "anchors": ["src/bops.rs: BooleanOp", "src/bops/rings.rs: Rings", "src/bops/laminar.rs"]}
