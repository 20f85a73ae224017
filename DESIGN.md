# Formal model of rmanoka/geo-crossings in Rocq (Coq 8.16.1)

Layout of `rocq/theories`: `M_*` model the code, definition by definition, with the file
and lines of `/repo` each one models; `S_*` are small specifications written without
reference to the model's algorithms; `P_*` are proofs; `Props_*` contain the theorems
`Cnn_*` and, beside them, concrete cases that meet their hypotheses (`Example`).

## 1. What is modelled

| Rust | Coq model | remarks |
|---|---|---|
| scalar `f32/f64` | `Qc` (canonical rationals, exact) for geometry; 64-bit patterns (`M_Float`: sign and magnitude, NaN, infinities, order, successor) for the float-specific claims C09, C18 | rounding of `+ - * /` is *not* modelled, except where a theorem quantifies over every intersection routine (C18, C86 and C88 with `M_Round`), and in `M_F64`, binary64 for the point of a proper crossing (C87) |
| `events.rs` | `M_Events` | |
| `line_or_point.rs` | `M_LineOrPoint`, `M_Float` | |
| `geo::Kernel::orient2d`, `geo::line_intersection` (geo 0.20, external) | `M_Geo` | trusted |
| `geo` `LineString::is_closed`, `lines`, `winding_order` (external) | `M_Rings` | trusted; C64 proves the winding order against the signed area |
| `splay/*.rs` | `M_Splay` | top-down splay loop, map, set, iterators; raw pointers replaced by functional zippers |
| `slab::Slab` (external) | `M_Slab` | entries plus LIFO free list, exactly as the crate hands out keys; trusted |
| `std::collections::BinaryHeap` | sorted list + oracle `tie` | `pop` removes *any* maximal element; theorems quantify over the oracle |
| `slice::sort_unstable*` | `presort` | any permutation followed by a stable sort, so every outcome of an unstable sort arises; theorems quantify over `presort` |
| `BTreeSet` (active set of the monotone sweep) | `pick` | a search by any sequence of comparisons that a search tree may make; theorems quantify over `pick` |
| `BTreeMap` (ring builder, laminar) | association list accessed by key | |
| `active.rs` | `M_Active` (splay instance), `M_MonoSweep` (`BTreeSet` instance) | |
| `crossings.rs`, `crossings/sweep.rs` | `M_Sweep`, `M_Crossings` | |
| `bops/op.rs`, `bops/rings.rs`, `bops/laminar.rs`, `bops.rs` | `M_Op`, `M_Rings`, `M_Laminar` | |
| `monotone.rs`, `monotone/mono_poly.rs`, `monotone/rasterize.rs` | `M_MonoPoly`, `M_Raster` | |
| `monotone/segment.rs`, `monotone/sweep.rs`, `monotone/chains.rs` | `M_MonoSweep`, `M_Chains` | |
| `benches/utils/rasterize.rs` (`our_area`, `our_rasterize`), test helpers `verify_scanner_area` and `verify_scanner_bounds` of `monotone.rs` | `M_RasterUse`, `M_RasterBounds` | the other benchmarks and tests are not modelled; the random margins are arguments, the log output and `assert_abs_diff_eq` are left out |
| `utils.rs` | `M_Rings` (`winding_inverse`) | |

Conventions: Rust panics (assert, debug_assert, expect, unwrap, index out of
range, unreachable) are explicit error results, so "never panics" covers debug
and release builds. `&mut` functions return the new state. Loops are structural
or fuelled; running out of fuel is an explicit error which the theorems exclude.

Not modelled: `log` output and `Debug`/`Display`; test modules, fixtures and
benchmarks (but for the two loops in `M_RasterUse`), the random generators and SVG output they use; memory layout,
`unsafe` aliasing, `Pin` and the address of the storage behind `Active`
(an `Active<T>` is its key, the storage is an argument); allocation failure,
capacities and `usize` wrap-around; rounding errors of floating point
arithmetic outside C18, C86, C87 and C88; overflow to infinity and NaN outside C09 and C18.

## 2. Plan per property

* C01-C08 (splay tree, map, set, iterators): inductive invariant "in-order list is
  strictly sorted and has length `len`"; one lemma `splay_spec` describing the tree
  after splaying; everything else is refinement to a sorted association list.
* C09, C10: case analysis over bit patterns; heap modelled by oracle.
* C11-C16: arithmetic over Qc (nra after translation to Q).
* C17, C18: set semantics of segments (parametric points) against the modelled
  `line_intersection`; C18 for any intersection routine and float successor.
* C19-C27, C32: the full Bentley-Ottmann invariant (`P_Inv`, `P_Handle`, `P_Step`,
  `P_Master`). To order segments at a vertex the sweep line is tilted by a small `e`
  (`P_Tilt`), under which no two vertices share an abscissa. Events before the sweep
  line are done, the active set is sorted at the tilted abscissa, every crossing of
  neighbours is scheduled.
* C28, C30, C31, C53, C54, parts of C52: the documented expectation is false of the
  code; refuted by concrete executions evaluated by the kernel, plus the true part.
* C29, C51: invariant of `Intersections` on top of the sweep invariant.
* C33-C38: induction over the chains, exact arithmetic; the scanner's state is
  refined to a position on both chains, areas through a potential function.
* C39, C40: induction over the scanned trapezoids; per-row area against an area
  function characterised by `area_above_0_is_area`.
* C41: the constructor checks what is claimed. C42: an edge-accounting invariant of the
  open chains (each chain edge is an edge seen so far or paired with its reverse), for
  all polygons on which the decomposition returns.
* C43, C44: case analysis, induction over crossed edges / ring coordinates.
* C45, C46, C52: invariants of the ring builder and permutations of edge lists.
* C47: folding over rings with given parents. C48, C49: the crossings sweep (C19-C25)
  with the label of the region below each active edge; the emitted edges are the
  boundary as specified in `S_Boundary`.
* C55: parity argument on balanced edge sets. C56, C57: ring assembly (C45) of the
  boundary (C48). C58-C60: the second sweep (laminar) finds, for every ring, the ring
  just below; parents are proved to enclose their holes.
* C50: corollary of the splay lemmas under the "sorted active set" hypothesis.
* C61, C62: for valid polygons the sweep status alternates bottom/top edges; between
  two neighbours there is one open pair of chains, or two pairs meeting in a merge
  helper; each of the six vertex kinds preserves this (`P_ChainSteps`). Counting
  edges below a point gives exactly one piece per interior point.
* C63: the same invariant keeps, for every pair of a bottom and a top edge of one piece,
  that the first is not above the second on their common range and that they do not
  lie along each other. C64: C42 makes all diagonals cancel in the shoelace sum; C63
  and C37 make each piece's area positive; applied to each ring alone this gives the
  sign of its area.
* C65: the clipped area of one edge is additive under cuts (`P_Cells`), so per column the
  scanned trapezoids (C36, C40) amount to a sum over the edges of the two chains, and
  C42 turns the sum over the pieces into one over the edges of the polygon. That this
  sum means area: the winding sum of the edges is 1 inside and 0 outside (C62); a
  rectangle is cut into strips and heights at which no edge begins or ends. C66, C67:
  sums over the cells of C65.
* C68: the pieces of the boundary meet only at their ends (C49) and, at simple vertices,
  no two rings share a vertex; nesting is C59, C60. The even-odd rule of one polygon: its
  winding sum is that of the exterior minus those of the holes. C69: two collections of
  valid polygons that cover every point equally often have a winding sum of 0 between
  them, so C65 makes their areas equal in every rectangle.
* C70: a point inside the polygon is in one piece (C62), so between the chains of it, and
  the trapezoids of a column cover the piece there without gap (C36); C39 says which rows
  they reach. C71: per column, heights between the bounds of C39 give areas between
  the bounds; the total of the trapezoids is C37, the total over the pieces C64. That all
  scanned points are in the band needs C73, an invariant of sweep and chains. C72:
  induction over the columns; refutations by evaluation.
* C74: two runs on related polygons are related state by state (`P_Related`); every test
  the sweep and the chains make is a comparison of vertices or an orientation of three
  of them, which the map keeps. C75, C76: an order-keeping affine map commutes with the
  intersection of two lines (`P_MoveGeo`), hence with every function of the sweep
  (`P_Move`), of the boolean operation and of the assembly (`P_MoveOp`).
* C77: a positive stretch of both axes commutes with every function of the scanner and of
  the raster loops; the decomposition is C74. `cross_area` exchanges the axes of a
  trapezoid, so the lemmas are stated for independent factors (`P_Stretch`).
* C78: a piece of the boundary has a point of the result on one side (C48), so without points
  there are no pieces, no rings and no polygons. C79: induction over the expression with
  C58; areas because a collection without overlaps has the area of its points (C69).
* C80: the invariant of the chains (P_MonoChains) also says that the two chains of an open pair
  have only their first vertex and possibly their last one in common, and that an end of an edge
  on an edge of the other chain is an end of both. Ordered segments that do not lie along each
  other meet at most at such ends. The rest follows with C62, C65 and C78.
* C81: each link adds a fixed number of chains and of coordinates (`P_ChainLen`); by what an
  event of the sweep does (`P_MonoSweep.sstep`), only vertices where two edges begin add chains,
  and the coordinates added for a merge are charged to the vertex that asked for it
  (`P_PieceCount`). C82: one piece by C81; it has no diagonals because it is a valid polygon (C80);
  chains are known from their edges, and the direction from the sign of the area (C64).
* C83: the ends of the pieces of an input are the yielded points on it (C19, C21, C24); a list of
  consecutive pieces is known from its ends and its break points (`Props_Cuts.cons_unique`); the
  number because the yielded points are different (C20) and each is an end or the only point
  that C17 gives for one of the pairs.
* C84: the boundary of a region depends on its edges only as undirected edges (C49), two proper
  rings made of the same pieces with at most two pieces at each vertex are the same cycle, and
  the exterior of a hole is the innermost exterior around it (Props_Laminar2). The specification
  (S_Written.v) says what it means to write a ring, a polygon or a collection differently.
* C85: in a valid multi-polygon no edge is hidden and none is cut, so its directed edges are the
  boundary of its region up to direction (P_Kept.v). The rings of the result are then the rings
  of the multi-polygon (as in C84), and which of them are exteriors and which exterior belongs
  to which hole follows from the side of each ring on which the region lies.
* C86: the sweep, the iterators and the boolean operations are defined over an arithmetic
  (class `arith` in M_LineOrPoint.v: how two pieces meet, and what `line_intersection` says);
  everywhere else the instance `exact` is meant. `M_Round.rounded` leaves the point of a proper
  crossing and `next_after` open. The invariants of the sweep are proved for every arithmetic
  that is exact on pieces of the input lines; one of these is exact arithmetic that panics at a
  proper crossing (P_Round.v), whose run therefore returns when there is none, and every
  operation of the model is monotone in the sense that what returns there returns the same in
  `rounded` and in `exact`. For the second sweep of an operation, the rings of the result never
  cross properly.
* C87: `M_F64` evaluates the formulas of geo 0.20 for a proper crossing in IEEE binary64, with the
  executable specification of the standard library (`Floats.SpecFloat`, which has no axioms);
  only the choice of the nearest end, its fallback, is left open. The witnesses are runs of the
  model in this arithmetic. For every order of equal events: an order is a function of the number
  of pops, of which a run asks only a few values, and the run is computed for each of them
  (P_Ties.v, also used for C28, C30, C31, C53).
* C88: the arithmetic is a parameter of
  the sweep (M_LineOrPoint.v, M_Round.v). For every arithmetic, every segment in
  the storage and every crossing in the output belongs to an input; this is an
  invariant of every function of the sweep, proved by postconditions of results
  (P_Owned.v). `Intersections` intersects the lines of the inputs themselves, so
  the decision whether they meet is exact (P_LineInt.v) whatever the sweep did.
  Nothing is claimed about repeated or missing pairs: an example shows both a
  repeated pair and a line paired with itself for a wildly wrong crossing point.
* C89: witnesses computed for every order of equal events in both sweeps (P_TiesOp.v, also for C76) of an
  operation, as for C87; the direction of a ring is the sign of the shoelace formula.

Nothing in the list is left partial. Hypotheses that are needed and shown to be needed:
the order of equal crossings left by the unstable sort in C48-C60 (C54), at most two
boundary pieces at a vertex in C59, C60, C68, C69 (C53), the alternation of edges in C45 (C52).

## 3. Trusted base

* Coq 8.16.1's kernel, including `vm_compute` for the concrete examples and
  refutations. `coqchk` accepts the compiled development.
* `Print Assumptions` says "Closed under the global context" for every theorem named in
  MANIFEST.json. No axiom of any library is used by them. `coqchk -o` also lists axioms
  of standard library modules that are loaded but not used (the real numbers and
  functional extensionality through `Lqa`/`Psatz`, `ssrunder`).
* The correspondence of the `M_*` files to the Rust code, which was established by
  reading; the code was not run.
* The models of external code: `geo` (`orient2d`, `line_intersection`,
  `winding_order`, `is_closed`, `lines`), `slab`, `float_next_after`, and the standard
  library's `BinaryHeap`, `BTreeMap`, `BTreeSet` and `sort_unstable`. For the last four
  only the documented contract is used, with all freedom it leaves quantified over.
* Exact arithmetic stands for floating point arithmetic in all geometric theorems
  (C11-C17, C19-C86): with rounding they are statements about inputs on which the
  operations happen to be exact. C86 removes this restriction for inputs
  without proper crossings: there, nothing is ever computed but comparisons and orientations. C87 shows that
  in general it cannot be removed, and C88 what remains true without it. The decomposition (C41, C42, C61-C64, C73, C74) is less
  exposed: by C73 and C74 it makes no new coordinates and uses coordinates only in
  comparisons, which are exact for `f64`, and in `orient2d`, which `geo`'s robust
  kernel decides exactly for `f64`.

## 4. Tests of the theorems

`seeded/LOG.jsonl` records edits of the model in a scratch copy (wrong boundary, missed
case, swapped argument, dropped update), the claim each breaks, the theorems that failed
and the theorems tightened in response.
