# Formal model of ParGeo in Rocq/Coq 8.16.1

The C++ sources in `/repo` were read as text; nothing was built or run.  The
development lives in `rocq/theories`.  Model definitions carry a comment with
the file and lines they model.

## Layers

* `Base.v` – outcome type (`Ok`, `Throw`, `UB`, `Fuel`), list lemmas.
* `Num.v` – a record of number operations without laws (`Num`), an instance on
  the reals (`RNum`) and one on IEEE doubles (`FNum`, Coq primitive floats);
  order laws as a separate record.
* `FloatLaws.v`, `FloatMono.v`, `DistLaws.v`, `RadLaws.v` – what double
  arithmetic does satisfy: the order laws on non-NaN values, monotone rounded
  addition, subtraction, multiplication and square root, the computed distance
  is monotone in the coordinate gaps, a box of half width r around q contains
  every point whose computed distance is at most r.  Proved with the installed
  Flocq (library theorems only, no axioms beyond those of the standard library).
* model files (`*Model.v` or the first part of a file): total Gallina
  functions following the C++ function by function.  Undefined behaviour,
  exceptions and fuel exhaustion are distinct outcomes.
* proof files.
* `Prop*.v` – only theorem statements closed by `exact`, followed by
  `Print Assumptions`, and the non-vacuity examples.

## Arithmetic

Three kinds of statements:
1. structural ones hold for every `Num` (no law used), hence for doubles with
   rounding, infinities and NaN;
2. order-only ones hold for every `Num` satisfying the order laws on a
   predicate `ok` (for doubles: not NaN);
3. geometric ones are about the exact instance `RNum`; where rounding makes
   the code deviate, a `_refuted` theorem on `FNum` shows a witness.

## Parallelism

`par_do`/`parallel_for` over disjoint data is modelled by the functional
result of the branches (disjointness is proved where it is not obvious, e.g.
node pool slots).  Where branches share data (write_min, speculative_for,
parallel buffers, Bloom filter bits) the model has explicit schedules and the
theorems quantify over all of them.

## Plan per property

| id | modelled | how proved |
|----|----------|------------|
| C01 | constructSerial/Parallel, splitItemSerial, split_two, findWidest | induction on fuel = size, permutation lemmas |
| C02 | boundingBoxSerial/Parallel | fold of min/max, order laws |
| C03 | node pool addresses | induction, interval disjointness |
| C04,C05 | rangeHelper, rangeTraverse | tree induction with box invariants over R |
| C06 | orth variants | same over order laws |
| C07 | rangeSearch on doubles | refuted by vm_compute witness |
| C08-C10 | knn buffer, knnHelper, knnRange | invariants; refutation for duplicates |
| C11,C12 | bcpHelper, nodeDistance | induction over pairs of trees over R |
| C13-C15 | findPair, computeWspd, parallel buffers | tree induction, counting |
| C16-C18 | parBuf, split_two/split_k, atomics | state machine invariants, all interleavings |
| C19-C21,C46 | dynKdTree | invariants over histories; refutation for ties |
| C45 | splitting rule | order laws, rounded middle by Flocq |
| C47 | parallel insertion of dynKdTree | interleaved steps; refutation |
| C22-C27 | logtree, bloom, co utils, kdnode | arithmetic on masks, multisets; refutations |
| C28 | closestPair 2-d | divide and conquer induction, packing lemma over R |
| C29,C30 | morton | bit lemmas; permutation/sortedness |
| C31-C34 | unionFind, kruskal, speculative_for, emst | schedule-quantified simulation; exchange argument |
| C35,C36 | spanner, knnGraph | induction on distance rank; refutation |
| C37,C38,C55,C56 | planar hulls | induction over R, schedules for the filter, cycle argument for the brute force; refutations |
| C39-C41, C48-C51 | enclosing balls: Welzl and variants, scan, sampling, ball ==, prefix loop | geometry of smallest balls over R, loop invariants; refutations |
| C67,C68 | kNN of the batch kd-trees and of the forest | invariant of the candidate buffer along the traversal over R; refutations |
| C42,C43 | IO | list/string lemmas; refutation |
| C44,C61-C66 | serial 3-d quickhull, brute-force 3-d hull | invariant of the surface (closed, oriented, coherent links) over R, Euler-free counting of apexes; refutations in doubles |
| C69-C72 | parallel incremental Delaunay triangulation | mesh invariants, reservations make insertions commute under all interleavings; local to global empty circles over R |
| C73-C75 | delaunayGraph, gabrielGraph, betaSkeleton | counting of directed edges, geometry of discs over R; refutations (out of bounds, freed memory) |
| C76-C78 | quadtree and nearest neighbours of the Delaunay triangulation | bits of the keys, invariant of the k best over R; refutation in doubles (NaN converted) |

## Contracts of primitives

Library primitives whose result is not unique (`nth_element`, `std::sort`,
`priority_queue`, `parlay::internal::split_two` order, median choice) are
parameters of the model with a contract as a hypothesis of the theorem
(`part_ok`, `med_ok`, `popMax_ok`, ...).  Each contract has an executable
instance, proved to satisfy it, which the examples run.

## Union-find, speculative loop, Kruskal

Shared memory is sequentially consistent (the code uses plain loads and stores
and `compare_and_swap`/`write_min`; the C++ memory model is not modelled): one
step of a thread is one load or store of `parents`, `R[]` or `E[]`, and the
theorems quantify over every list of thread numbers as schedule.  A round of
`speculative_for` runs all reserves to completion, then all commits
(`parallel_for` joins).  `parlay::sort` is a contract (`sort_ok`: a
permutation, sorted by the comparison).  The round size adaptation
(speculativeFor.h:112-115, on doubles) is two arbitrary predicates.  `maxTries`
is modelled; the loop can throw only with more than 4101 edges.  The edge
stored by `edgeUnionFind::link` is (u,v) in the model where the code stores
(v,u) when the v side was linked.  `unionFind::tryLink`
is in `UfLinkModel.v`, one action per access, together with find; `UfLinkProofs.v`,
`PropUfLink.v` (C97) cover any interleaving of finds and links to smaller vertices.

## Euclidean minimum spanning tree

`EmstModel.v` follows src/euclideanMst/memoGfk (wspdFilter.h, mark.h,
emst.cpp).  Nodes carry the `id` field.  Simplifications: `rho` is changed only
by `write_min`, so an execution of the rho traversal is any traversal in which
each read of rho returns a value not below the final one (a superset of the
real executions; `EmstLive.rho_serial` shows the serial run is among them);
calls of `run` of the second traversal are logged in any fork-join order and
spread over the per-worker buffers in any way; `mark` runs its finds against
the union-find of the round (C31: finds return representatives and change
none), and after it the parent array may be any array with the same
representatives; `beta` is a natural number (the code holds the power of two in
a double).  The initial `rhoLo` (-0.1) is any value <= 0.  The edge orientation is
as for Kruskal.  src/euclideanMst/wspd/emst.cpp does not compile against the
current headers and is not modelled.

## Spatial graphs

`GraphModel.v`: spanner and knnGraph.  Vertices are input indices; the writes of
the parallel loops are lists, run in any order.  An execution of spanner is an
execution of the decomposition of C15 followed by the edge writes.  The stretch
proof is by induction on the tree: two points in different children of a node
are joined through the representatives of their pair, which lie in the same
children.

`SgModel.v`: delaunayGraph, gabrielGraph and betaSkeleton on a run of the
Delaunay triangulation (below).  Edges are pairs of indices; the empty edge is
(M, M) where M stands for `(size_t) -1`.  The sort is any function that returns
a sorted permutation.  Three parameters stand for memory outside the arrays:
`past`, the cell after the edge array that both scans read; `spare`, cells after
the flag array, the last of which delaunayGraph writes; `pastP`, the cells after
the points, which gabrielGraph reads for triangles with a ring corner.  `None`
and 0 are the code as written and give UB; the theorems about results are
therefore called `_partial`.  The tree of betaSkeleton/kdt.h is the static tree of
`KdModel.v` with leaf size 16; `kept` says whether its item array is alive.  The
conversion of distances to float (kdt.h 339-340) is the parameter `narrow`, the
identity in the theorems.  Over R, `SgList.v` proves what the scan for equal
neighbours keeps, `SgGeom.v` relates closed discs on a diameter to empty circles
(the ring is far enough away to be in no such disc), `SgSkel.v` treats the lune
search.  The spec is `SgSpec.v`.

## Morton sort

`MortonModel.v`: bit spreading on N with 64-bit shifts, keys, extrema, sort.  The
cast from a floating point value to size_t is a parameter that is undefined (`UB`)
for NaN, negative and too large values; the instances are the floor on R and on
doubles (through `Prim2SF`).  That no cell exceeds 65535 in doubles is proved from
the relative error bound of one division (Flocq's `relative_error_N_FLT_ex`) and
the monotonicity of rounding.

## Enclosing balls

`SebModel.v` follows ball.h, prefixFor.h, welzl.h, scan/seb.cpp and
sampling/seb.cpp.  A slice is the whole array and a length, so that a read past
the end of a slice but inside the array is well defined.  The row-major arrays
of `ball` are functions of their indices; `d` is the length of the point list.
The ball grown before a recursive call is overwritten in it, so only the
exception of `grow` is modelled.  `parlay::max_element` is a parameter; on an
empty range it returns its end.  The shuffle of the input is not modelled: the
theorems hold for every order.  The blocks of `ortScan` write disjoint tables
and are run one after the other.

Correctness (C48, C50, C51) is over R with tolerance 0, from a small theory of
smallest balls (`SebGeom.v`: existence step, uniqueness, the step adding a point
to the boundary) which needs no separation theorem; `SebCirc.v` proves that
the incremental inverse of `grow` solves the equations of the circumscribed
ball.  Nothing is claimed about the size of the rounding errors of the radius on
doubles; C39 holds there because the algorithms end only after a scan that finds
no point outside.  seb_test and the calls from the executables are not modelled.

## Closest pair

`CpModel.v` follows closestPair.cpp.  The recursions return the permuted array
with the pair, because the slices are sorted in place.  The parallel loop of
`bruteForceSerial` runs in order in the algorithms; its interleavings are the
threads of Section Race (C54).  C28, C52 and C53 are over R with all distances
below the largest double; checking `2^(2 dim - 1) - 1` successors is justified by
a packing argument (`CpProofs.packing`) on points coloured by the side of each
slab, with half-size cells of diameter `sqrt(dim)/2 <= 1`: dimensions above 4 are
open.  Rounding is not treated.

## Planar hulls

Files `Hull2dModel.v` (code), `Hull2dGeom.v` (spec: `orient`, `inTriangle`, `lexle`), `Hull2dQuick.v`, `Hull2dDc.v`,
`Hull2dSample.v`, `Hull2dBrute.v`, `Hull2dFloat.v`, `PropHull2d.v`.

* `parlay::reduce` is any function whose result is some bracketing of the elements in order with the identity mixed in
  (`redOf`); `parlay::minmax_element` is any function returning the positions of a least and a greatest element of a
  strict weak order (`minmax_ok`). Instances of both are given and proved (`redI`, `minmaxI`).
* quickHull: the in-place index arrays `I`, `Itmp`, the boolean flag arrays and `split_two`/`pack` are modelled by lists
  and stable filters; the threshold below which the code recurses serially is not modelled (both branches compute the same).
* divide and conquer: the parallel loop over blocks is a map (blocks are disjoint, each writes its own slot).
* sampling: the sample, the tree and the schedule of the facet loop are parameters. Each facet is a thread whose actions are
  the compare-exchanges of its traversal; the weak exchange is modelled without spurious failures. The result of quickHull
  on an empty array is whatever `minmax_element` returns, as in the code.
* brute force: the uninitialised `dir` is only used when there are at least three points, or not at all.

The samples: `Sample2dModel.v`, theorems in `PropSample2d.v` (C101); `parlay::hash64` is any function and
`P.size() * fraction` a parameter. Grid samples are C96, the randomized incremental hull is C86.

## Batch kd-trees (include/batchKdtree)

`BatchSplit.v`, `BatchAddr.v`: the tables of cache-oblivious/utils.h; `BatchModel.v`: median splits, the node array and the
serial, parallel and heap-layout builds; `BatchTree.v`: the tree object (shared/kdtree.h) with contains, orthogonalQuery,
bulk erase, insert; `BatchSingle.v`: erase of one point. Proofs: `BatchSlice`, `BatchLoop`, `BatchCo`, `BatchBuild`,
`BatchBhl`, `BatchMedian`, `BatchPack`, `BatchErase`, `BatchObj`, `BatchInst`, `BatchRun`. Theorems: `PropBatch.v`.

* `std::nth_element`, `std::sort` and the partitions are functions constrained by their contracts (`nth_contract`,
  `sort_contract`, `part_ok`); instances are proved. A build takes any median split with `msplit_ok`.
* The node array is a function from addresses to optional nodes; writing outside it is excluded by the theorems (addresses
  below 2n-1), and the tree object treats too many points as undefined behaviour.
* Parallel build: the loop over the subtrees of one node runs in any order (`ord`), each subtree in one piece; the subtrees
  touch disjoint items and addresses (proved as the frame of each call). Parallel bulk erase: one side of a node runs
  before the other, in either order (`lfirst`).
* `nodes[0]` is always the root: the pointer returned by `bulk_erase_helper` is ignored, as in the code.
* `abs` in `operator==` of points is the one on doubles (geometry.h includes math.h with `using namespace std`).
* A heap-layout build of no points leaves the old root in the model; the code writes an empty leaf. It is never visited.
* Assertions are ignored (as with NDEBUG). Configuration: object median, no Bloom filter in the trees.

Nearest neighbours: `BatchKnn.v` (kdnode.h knnPrune/knnHelper, kdtree.h knn, the four searches of logtree.h),
`BatchKnnProofs`, `LogKnn`; theorems: `PropBatchKnn.v`.

* An answer is an entry (tree, position, item): a pointer in the code. The nodes of a tree that was never built are
  uninitialised, so searching it is undefined behaviour; an unset entry of the answer as well.
* shared/macro.h sets `FEWER_SQRT` and `SPATIAL_SORT` to 0: plain distances, queries in the given order. The assertion in
  knnHelper is compiled out.
* Exact arithmetic, all distances below the largest double (the searches start with that radius).

`DualModel.v`: the dual-tree search (shared/dual.h with the settings of shared/macro.h). The field `dualKnnDist` of the query
nodes is a tree of the same shape beside the query tree. The branches of a `par_do` work on disjoint query nodes and buffers
and run one after the other in an order chosen by an oracle (`sched`); the lock-free radius updates of other modes are compiled
out. `ceil(log2(n))` of the number of queries is taken to be exact. Nodes with one child do not occur (builds and bulk erasures
leave none) and are not modelled. Theorems: `DualProofs.v`, `DualMain.v`, `PropDual.v` (C87, C88).

Not modelled: spatial median.

## Logarithmic forest and Bloom filter

`LogModel.v`: insert, bulk_erase, contains, orthogonalQuery and size of log-tree/logtree.h over the tree objects above;
`LogPlan` (which slots are gathered and filled), `LogExec` (tasks in any order), `LogInsert`, `LogErase` (with histories);
`BloomModel`, `BloomProofs`: shared/bloom.h. Theorems: `PropLog.v`.

* The mask and the sizes are natural numbers: `int` overflow of 2^(slot + BUFFER_LOG2_SIZE) is not modelled. A subtraction
  of sizes below zero is undefined behaviour in the model, and excluded by the theorems.
* The tasks of an insertion (fill the buffer, rebuild one tree each) run one after another in any order; their slots are
  disjoint (proved). Reading `points` is shared and read-only. Trees erase independently, so phase 1 of an erasure is
  a map over the slots.
* The forest is the one without `LOGTREE_USE_BLOOM` and with object-median static trees.
* Bloom filter: one thread per point, the load and the compare-exchange are separate atomic steps; the hash function is
  arbitrary. Chunks of 1024 points run by one thread are special schedules.

Not modelled: the commented-out erase.

## Point files (pargeo/IO.h, pointIO.h)

`IoModel.v`: the sequence writer, the word splitter, the header tests, `readPoints`, `readHeader`; `IoProofs.v`: writers of
disjoint fields, the text of a written file, its words, reading back. Theorems: `PropIo.v`.

* A field is the text `sprintf` produces. For doubles (`%.11le`) it is given by a sign, twelve digits and an exponent
  (`fmtLe`), tied to the double by the statement of the theorem (`decimal12`); `atof` is an arbitrary function.
* The writing loop is parallel: every byte store of every iteration is one step of a thread, in any interleaving.
* parlay's scan, filter, pack_index and tabulate are given by their results. Sizes are natural numbers. The file is the list
  of its bytes: failures to open or write are not modelled.

`PropRead.v` (C100) is about files from elsewhere: the readers of `IoModel.v` on any text, with the words of `layout` in
`IntIoSpec.v`. The bytes read have no NUL after them, so a C string that reaches their end is undefined.

`GraphIoModel.v` models the edge-list files (pargeo/graphIO.h).  Each iteration of
the parallel loop is a thread that writes byte by byte (for weighted edges, one
thread an edge; for unweighted edges, one thread a number).  `%lu` is the decimal
text computed by `luText`; a weight is given by its text, of which `fmtLe` is an
instance.  The scan is a prefix sum, `size_t` does not overflow, opening the file
succeeds.  The spec (decimal numbers and lines) is `GraphIoSpec.v`.  Theorems:
`PropGraphIo.v` (C92).

`IntIoModel.v` models the integer sequence files (pargeo/IO.h: writeIntSeqToFile,
readIntSeqFromFile, get_tokens) for `int`, `unsigned`, `long` and `unsigned long`,
with the same threads.  `parlay::tokens` is the list of longest runs without a
space; `parlay::chars_to_long` is a parameter with a contract (`longContract` in
`PropIntIo.v`, with an instance); the conversion from `long` to the element type
wraps.  The spec is `IntIoSpec.v`.  Theorems: `PropIntIo.v` (C93).

## Hulls in space

`H3Model.v` (code); `H3Spec.v` (facets of a hull, extreme points); `H3Geom` (signed volumes), `H3Surf` (closed surfaces, the
boundary of the visible part is one cycle), `H3Heap`, `H3Edge` (the depth-first searches), `H3Front` (the frontier), `H3Link`,
`H3Place`, `H3Round`, `H3Loop` (invariant of one round), `H3Main` (termination), `H3Init`, `H3Init2` (the first simplex),
`H3Final` (what the surface is at the end), `H3Brute`, `H3Inst`. Theorems: `PropHull3d.v`.

* Exact arithmetic: every four distinct points span a volume above `4 * eps` (`general`). This excludes coplanar points, for
  which the code's answer depends on the position of the origin (C44_refuted), and data of small scale (C61_scale_refuted).
* Facets are cells of an array of optional records, deleted ones are `None`; reading a deleted or null facet, or a link not
  yet set, is undefined behaviour. The theorems show that it does not happen.
* The `unordered_set` of visited facets is a set of addresses; the set of visited edges a list compared with `==` of points.
* `isEmpty` (the sentinel vertex) is an option. The stored `area` is recomputed. `abs` is the one on doubles.
* `minmax_element_serial`, `max_element_serial` and the sort of getVertex are any functions with their contracts
  (`minmax3_ok`, `maxel3_ok`, `sort3_ok`); instances are proved. The uninitialised `dir` of the brute force is not read.
* The test that the frontier is consecutive is modelled with its recovery branch; the theorems show that it is not taken.

The parallel quickhull: `H3ParModel.v` (code), `H3ParHeap` (points are moved as by the serial code; a frontier reads only its
own facets), `H3ParRound` (the rounds and the loop), `H3ParMain` (the program; points of a space curve). Theorems:
`PropHull3dPar.v` (C79, C80).

* A vertex of `Q` with its `seeFacet` is the entry of a facet's list; `updateMap` collects these entries in an order given by
  `qord` (any permutation). Addresses of facets are any injection `addr`. The apex taken from a facet is any of its list
  (`choose`: furthest or random). The writes of the reservations and the iterations of the loop that inserts the apexes come in
  any order (`shuf`).
* An iteration of the inserting loop is run as a whole and deletes its facets at once: the theorem shows that iterations have
  disjoint facets, so that finer interleavings touch different facets. `setHull` is a race of which any write may win; the
  model keeps the last iteration of the order.
* `confirmReservation` is run to its end and not left at the first failure, and `hSize` is added to at the end of an iteration.
* `apex` starts as a null pointer and the test for stopping dereferences it: undefined in the model.

The hulls by sampling and by divide and conquer: `H3SubModel.v` (code), `H3Sub` (a part of the points with all extreme ones has
the same hull), `H3SubDc` (the blocks), `H3SubFilter` (the flags under interleaving; boxes and facets), `H3SubMain`. Theorems:
`PropHull3dSub.v` (C81-C84).

* `parlay::hash64` is not in the repository; it is any function. The sizes of the samples (`P.size() * fraction` in doubles, at
  least 5) are parameters, as are the points sampled in C82.
* One step of a thread of the filter is one compare-exchange, interleaved in any order. A compare-exchange that fails without
  reason, which the weak form allows, is not modelled. The points a facet visits do not depend on the flags and are listed first.
* The filter's tree is the kd-tree of `KdModel.v` with leaves of 128. `interiorPt` is not used by the code.
* `frac < 0.8` is `5 * vertices < 4 * size`. The blocks are run in order; they share nothing.

The pseudo hull: `H3PseudoModel.v` (code), `H3Pseudo` (a point no new facet sees is inside the tetrahedron; the recursion ends).
Theorems: `PropHull3dPseudo.v` (C85). The recursion takes fuel; C85 proves that one more than the number of points is enough for
distinct points. `split_k` is a stable filter for each facet (the second copy of the parlay primitives has the contract of C17);
the chunks are concatenated in the order of the facets; the two-way parallel calls have disjoint data and are run in order. The
facet objects are the point triples, `furthestParallel`'s max_element is the parameter `maxel`.

Grid samples: `GridModel.v` (both `gridSample`s), `GridSpec.v`, `GridProofs.v`, `PropGrid.v` (C96). The parallel minima and
maxima are folds, `size_t(ceil(pow(m, 1/dim)))` is the parameter `side`, and the parlay hash table (not in the repository) is the
contract that of the insertions of one key exactly one returns true. Converting a NaN or a value out of range to `size_t` is UB.

The filter that tests every point against every facet (no caller in the repository): `H3Filter1Model.v`, theorems in
`PropFilter1.v` (C99). The loop over the facets with its early return is `existsb`; `parlay::filter` keeps the order.

## Delaunay triangulation (src/delaunayTriangulation/incremental, include/delaunayTriangulation)

`DelModel.v` (code); `DelSpec.v` (triangles with empty circles, general position, the ring); `DelGeom` (circles),
`DelTopo`, `DelFlip` (split and flip keep a triangulation), `DelCav` (cavities, walking towards a point), `DelTree` (the
cavity search), `DelRound` (one round of reservations under interleaving), `DelMain` (the rounds), `DelInit` (the fan on the
ring), `DelEnd` (what the mesh is at the end), `DelDrive` (the driver), `DelTrig` (the ten directions). Theorems: `PropDel.v`.

* Exact arithmetic. General position: no three points of input and ring on a line, four on a circle only if all are ring
  points. Cocircular input points are not covered.
* Pointers are indices; a triangle that was never written is undefined to read. The two arrays have the sizes of the code.
* A round: all points of the batch search their cavities in the old mesh and reserve its vertices by write_max (any order of
  the writes); then the winners split and flip concurrently. One thread step is one split or one flip (atomic): the winners
  own the vertices of their cavities, and the proof shows that the steps of different winners touch different triangles.
  Interleavings inside a single split or flip are not modelled.
* In C69-C75 the point location structure is a parameter: for a vertex that is not stored it returns one of the stored vertices. C78 proves this of the structure of the code. The random permutation is any
  permutation. `reduce` of the corners is a fold.
* `cos` and `sin` of the multiples of 2*3.14159/10 enter through `ring10` (unit length, convex, containing the square of side
  3/10 of the radius), proved for the real functions (`ring10_trig`); double runs use a table.
* `fuel` bounds each cavity search and walk; the theorems hold from `2n+10` on and exclude running out other than by a
  schedule that stops.

Not modelled: check_delaunay (compiled out).

`H2IncModel.v` models the planar hull by parallel incremental insertion (src/convexHull2d/randInc/hull.cpp).
Facets are cells of a heap that only grows; a deleted facet is `None` and reading it is undefined.  Vertices are indices, and the
address order used by the reservation is the index order.  Simplifications:

* One `write_min` and one check are each one step.  All of them may run in any order (`shuf`); the insertions of the winners
  run one after another in any order.
* The check phase walks the zones found for the reservation: only tokens change in between.
* `split_k` is a stable filter for each class (C17), class 4 or 2 being dropped.  `H` is the facet of the insertion that ends last.
* `minmax_element` is a parameter with a contract (`minmax2_ok`); `new` does not fail; `fuel` bounds the rounds, and as many
  rounds as points are enough.
* `corners` reads the list of facets; the program returns an empty sequence instead (C86_refuted).

Geometry: `H2IncGeom.v`, `H2IncSide.v` (one side between two of the four extreme points, and its quarter turns);
heap: `H2IncTok.v` (the reservation), `H2IncSeg.v`, `H2IncInv.v`, `H2IncStep.v` (one insertion), `H2IncRun.v`, `H2IncMain.v`.
Theorems: `PropHull2dInc.v` (C86).

`OctModel.v` models the point location structure (neighbors.h, oct_tree.h) for
two-dimensional points.  Vertices are indices.  `parlay::sort` and parlay's binary
search are parameters with contracts (`sortContract`, `searchContract` in
`PropOct.v`, with instances).  The conversion of a double to `unsigned int` is the
parameter `toU`: the theorems over R (C76-C78) hold for every conversion that
returns a value; `toUstd` is the conversion of the C++ standard on doubles, and
with it the first structure of every run, which has one vertex, is undefined (C78).
`reduce` is a fold, the tree has no parent pointers, deallocation and statistics
are left out, `int` counters do not overflow.  "Infinity" is the largest double, so
the theorems assume distances below it.  The spec is `OctSpec.v`.

`HashModel.v` models the concurrent hash table of the gift wrapping hull
(gift/sparse_table.h): `insert` step by step (load, compare-and-swap, store, second
load; each atomic, any interleaving), `insert_seq`, `contains`, `find`, `idx`,
`entries`, the size of a new table and `resize`.  The hash function is arbitrary,
loops without an end take fuel, `size_t` and the `int` shift in `resize` do not
overflow.  `insert_f`, `insert_check`, `mark_seq`, `resize_no_copy` and look-ups
concurrent with insertions are not modelled.  Theorems: `PropHash.v` (C89, C90).

`GiftModel.v` models the gift wrapping hull (gift/hull.h) on top of that table.
Positions are `nat` below 2^31.  `acos` with its NaN test, `min_element`,
`max_element` (any position), the hash function and the growth of the sequence of
facets are parameters; a pointer into the sequence is the number of moves before it
was taken and a position, and reading it after a further move is undefined.  The
product with 1.1 in the size of the table is exact.  Theorems: `PropGift.v` (C91).

## Data sets

`UniModel.v` models the uniform generators (include/dataset/uniform.h).
`parlay::hash64`, the conversion of `size_t` to the number type and the truncation
to `size_t` are parameters; sums of `size_t` wrap at 2^64.  The iterations of a
parallel loop write their own point, so their order is left out.  Rejection loops
take fuel.  The theorems are over the reals (`PropUni.v`, C94), for every hash
function of 64 bits; the examples are on doubles.

`SpreadModel.v` models the seed spreader (src/dataset/seedSpreader.cpp): `rand()` is
any stream of values up to an odd `RAND_MAX`, rejection loops take fuel, writing
past the end of the data is undefined.  The spec (clusters of at most 100 points
around centres, then noise) is `SpreadSpec.v`; the theorems are over the reals
(`PropSpread.v`, C95).

## Command line (include/pargeo/parseCommandLine.h)

`CmdModel.v` (code), `PropCmd.v` (C98). `exit(0)` is `Throw`; `atoi`, `atol` and
`sscanf` are parameters; returning the uninitialised `val` is UB, as is using
`argv[argc]` as a string. The text that is printed is not modelled.

## Mutation testing

`seeded/LOG.jsonl` records wrong programs: one definition of the model is
edited in a scratch copy, and the theorems that no longer compile are listed.
Survivors led to new theorems (`tightened`).

## Trusted base

Coq 8.16.1's kernel; the axioms printed by `Print Assumptions` under each
theorem; the reading of the C++ recorded in the comments of the model; the
contracts of parlay primitives (tabulate, scan, sort, flatten, parallel_for,
par_do) and of the C++ standard library (`nth_element`, `sort`, `stack`).
