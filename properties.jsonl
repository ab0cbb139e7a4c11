{"id": "C01", "title": "kd-tree build keeps every point exactly once", "statement": "Building a static kd-tree (serial or parallel) from n>=1 points with leafSize>=1 never throws and never indexes a bad dimension; the items of the root, of every internal node (left child's items followed by right child's) and of the leaves taken in order are a permutation of the input, so no point is lost or duplicated.", "quantifier": "for every number type/coordinate values without NaN spans, every dimension>=1, every n>=1, every leafSize>=1, serial and parallel split", "why_tests_cant": "a test samples point sets; lost points appear only for particular tie patterns of the in-place partition (all coordinates equal, all on one side of the median, two points)", "anchors": ["include/kdTree/treeImpl.h:constructSerial", "include/kdTree/treeImpl.h:constructParallel", "include/kdTree/treeImpl.h:splitItemSerial", "include/kdTree/treeImpl.h:split_two", "include/kdTree/treeImpl.h:build", "include/kdTree/kdTree.h:tree", "include/kdTree/kdTree.h:findWidest"]}
{"id": "C02", "title": "kd-tree node boxes are tight bounding boxes", "statement": "For every node of a built tree and every dimension, getMin/getMax are the exact minimum/maximum of that coordinate over the items in the node: every item lies in the box and each face is attained by an item. The block-parallel computation gives the same box for every number of workers.", "quantifier": "for every totally ordered coordinate type (includes IEEE doubles without NaN), all inputs, all worker counts", "why_tests_cant": "all pruning in search, kNN, BCCP, WSPD and EMST relies on it; a sampled test checks containment for a few trees only", "anchors": ["include/kdTree/treeImpl.h:boundingBoxSerial", "include/kdTree/treeImpl.h:boundingBoxParallel", "include/kdTree/kdTree.h:minCoords", "include/kdTree/kdTree.h:maxCoords"]}
{"id": "C03", "title": "kd-tree shape and node-pool memory safety", "statement": "Every internal node has two non-empty children whose sizes add up to its size, every leaf has at most leafSize items, and all non-root nodes are written at pairwise distinct slots of the 2n-1 node pool, all inside the pool; with leafSize=1 the leaves are exactly the singletons.", "quantifier": "for every input and every sequence of split positions", "why_tests_cant": "an overlapping or out-of-range slot corrupts memory only for specific split sequences; a passing test cannot rule this out", "anchors": ["include/kdTree/treeImpl.h:constructSerial", "include/kdTree/treeImpl.h:constructParallel", "include/kdTree/kdTree.h:tree"]}
{"id": "C04", "title": "radius search returns exactly the points in the ball", "statement": "rangeSearch(tree,q,r) returns, without repetition, exactly those tree items whose distance to q is at most r.", "quantifier": "for every tree produced by build, every query point (inside or outside the data), every radius r>=0, in exact arithmetic", "why_tests_cant": "pruning mistakes show only for boxes touching the query box in particular ways", "anchors": ["include/kdTree/rangeSearchImpl.h:rangeHelper", "include/kdTree/rangeSearchImpl.h:rangeSearch", "include/kdTree/kdTree.h:boxCompare", "include/kdTree/kdTree.h:itemInBox"]}
{"id": "C05", "title": "radius traversal calls the callback once per point in the ball", "statement": "rangeTraverse(tree,q,r,f) applies f to each item at distance at most r from q exactly once and to no other item.", "quantifier": "for every built tree, query, radius and callback, exact arithmetic", "why_tests_cant": "a callback applied twice or skipped depends on tree shape", "anchors": ["include/kdTree/rangeSearchImpl.h:rangeTraverse"]}
{"id": "C06", "title": "orthogonal range search is exact for the box it computes", "statement": "orthogonalRangeSearch(tree,q,h) returns, without repetition, exactly the items inside the closed box whose corners are the computed q-h and (q-h)+2h; the traverse variant applies the callback to the same items once each.", "quantifier": "for every totally ordered coordinate type including IEEE doubles without NaN, every tree, query, half length", "why_tests_cant": "boundary ties (point exactly on a box face, degenerate boxes) are a measure-zero set that random tests miss", "anchors": ["include/kdTree/rangeSearchImpl.h:orthRangeHelper", "include/kdTree/rangeSearchImpl.h:orthogonalRangeSearch", "include/kdTree/rangeSearchImpl.h:orthogonalRangeTraverse"]}
{"id": "C07", "title": "radius search in floating point can miss boundary points", "statement": "In IEEE double arithmetic the set returned by rangeSearch equals the set of points p with computed p.dist(q)<=r.", "quantifier": "for every finite double input", "why_tests_cant": "the violation needs a rounding of (q-r)+2r below q+r, a rare alignment of exponents", "anchors": ["include/kdTree/rangeSearchImpl.h:rangeSearch", "include/pargeo/point.h:dist"]}
{"id": "C08", "title": "k nearest neighbours are correct", "statement": "batchKnn(P,k,tree,sorted) gives for every point of P exactly k tree items, none of the remaining items being closer than any returned one; with sorted=true they come in non-decreasing distance.", "quantifier": "for every point set with 1<=k<=n and every tree built on it in which no point lies in the boxes of two siblings, in exact arithmetic", "why_tests_cant": "wrong pruning or wrong buffer compaction affects only particular query/box configurations", "anchors": ["include/kdTree/knnImpl.h:knnHelper", "include/kdTree/knnImpl.h:knnRange", "include/kdTree/knnImpl.h:knnRangeHelper", "include/kdTree/knnImpl.h:buffer", "include/kdTree/knnImpl.h:batchKnn"]}
{"id": "C09", "title": "k nearest neighbours are distinct points", "statement": "The k indices returned by batchKnn for a query are pairwise distinct.", "quantifier": "for every point set, k and leaf size", "why_tests_cant": "fails only when siblings' boxes share the query point, e.g. more identical points than the leaf size", "anchors": ["include/kdTree/knnImpl.h:knnHelper"]}
{"id": "C10", "title": "the kNN candidate buffer keeps the k smallest", "statement": "After any sequence of insertions into the kNN buffer followed by keepK, the first k entries are the k smallest of everything inserted, provided at least k were inserted; with fewer it throws. Entries left over from earlier compaction never re-enter wrongly.", "quantifier": "for every insertion sequence, every k>=1, every implementation of nth_element meeting its contract", "why_tests_cant": "compaction happens every k-th insertion and stale slots are reused; errors depend on long histories", "anchors": ["include/kdTree/knnImpl.h:buffer", "include/batchKdtree/shared/knnbuffer.h"]}
{"id": "C11", "title": "bichromatic closest pair is the closest pair", "statement": "bichromaticClosestPair(t1,t2) returns an item of t1, an item of t2 and their distance, and no pair of items of t1 and t2 is closer.", "quantifier": "for every pair of trees, any shapes and leaf sizes, exact arithmetic", "why_tests_cant": "pruning bound and visiting order depend on geometry", "anchors": ["include/kdTree/bccpImpl.h:bcpHelper", "include/kdTree/bccpImpl.h:bichromaticClosestPair", "include/kdTree/treeImpl.h:nodeDistance"]}
{"id": "C12", "title": "node distance bounds", "statement": "nodeDistance(u,v) is at most the distance between any item of u and any item of v, and nodeFarDistance(u,v) is at least the distance between any two items of u and v; nodeDistance is the exact distance between the two boxes.", "quantifier": "for all boxes and points, all dimensions, exact arithmetic", "why_tests_cant": "EMST and BCCP pruning silently lose edges when a bound is wrong on one configuration", "anchors": ["include/kdTree/treeImpl.h:nodeDistance", "include/kdTree/treeImpl.h:nodeFarDistance"]}
{"id": "C13", "title": "WSPD covers every pair exactly once", "statement": "The decomposition of a tree with leaf size 1 contains, for every unordered pair of distinct items, exactly one node pair (u,v) that has one of them in u and the other in v, and no node pair relates an item to itself.", "quantifier": "for every tree, every separation constant, and every separation predicate that accepts pairs of single points", "why_tests_cant": "quadratically many pairs; a missing pair breaks spanner/EMST guarantees without crashing", "anchors": ["include/kdTree/wspdImpl.h:findPairSerial", "include/kdTree/wspdImpl.h:computeWspdSerial", "include/kdTree/wspdImpl.h:wspdSerial"]}
{"id": "C14", "title": "WSPD pairs are well separated", "statement": "Every node pair (u,v) of the decomposition with constant s satisfies: the distance between any item of u and any item of v is at least s times the larger circumscribed radius used, hence |pq| >= (s/2)*|pp'| for p,p' in the same side.", "quantifier": "for every tree and every s>0, exact arithmetic", "why_tests_cant": "the guarantee is a universally quantified geometric inequality", "anchors": ["include/kdTree/wspdImpl.h:geomWellSeparated"]}
{"id": "C15", "title": "parallel WSPD equals serial WSPD", "statement": "wellSeparatedPairDecomp returns a permutation of the pairs of wspdSerial.", "quantifier": "for every tree, every worker count not exceeding the number of items, every assignment of tasks to workers", "why_tests_cant": "depends on scheduling and on the growth of per-worker buffers", "anchors": ["include/kdTree/wspdImpl.h:wellSeparatedPairDecomp", "include/kdTree/wspdImpl.h:computeWspdParallel", "include/pargeo/parBuffer.h"]}
{"id": "C16", "title": "parallel append buffer loses nothing", "statement": "After any sequence of increments/writes to a parallel buffer created with initial size >=1, collecting yields exactly the values written, in order; no write falls outside an allocated block.", "quantifier": "for every write sequence and initial size", "why_tests_cant": "reallocation boundaries occur at specific counts; size-0 initialisation corrupts memory only when items < workers", "anchors": ["include/pargeo/parBuffer.h"]}
{"id": "C17", "title": "flag split is a stable partition", "statement": "The block-parallel split by boolean flags returns all elements whose flag is false in order, followed by the others in order, and the count of the former; the k-way split returns for each class its elements in order.", "quantifier": "for every input, every flag array, every block size", "why_tests_cant": "block boundaries and prefix sums only matter for large inputs and specific flag patterns", "anchors": ["include/kdTree/treeImpl.h:split_two", "include/pargeo/parlayAddon.h:split_k"]}
{"id": "C18", "title": "atomic write-min/max/add are linearizable", "statement": "When any number of threads run write_min (write_max, write_add, fetch_and_add) on one location, for every interleaving the final value is the minimum (maximum, sum) of the initial value and all arguments; write_min returns true for an operation exactly when it stored its argument.", "quantifier": "for every number of threads, every argument vector and every interleaving of loads and compare-and-swaps", "why_tests_cant": "lost updates need a particular interleaving", "anchors": ["include/pargeo/atomics.h"]}
{"id": "C19", "title": "dynamic kd-tree kNN is correct after any history", "statement": "After construction with at least two points and any sequence of batch insertions and erasures that returns, kNN(q,k) returns min(k, number of live points) live points in non-decreasing distance such that no live point left out is closer.", "quantifier": "for every history of insertions and erasures, every query with finite coordinates and every k>=1; doubles (computed distances) and exact arithmetic", "why_tests_cant": "histories are unbounded; pruning depends on box maintenance along the insertion path and on rounding of the query box", "anchors": ["include/dynamicKdTree/dynKdTree.h:kNN", "include/dynamicKdTree/dynKdTree.h:kNNHelper", "include/dynamicKdTree/dynKdTree.h:insert", "include/dynamicKdTree/dynKdTree.h:dataNode"]}
{"id": "C20", "title": "dynamic kd-tree insertions add exactly the batch", "statement": "After insert(B) the multiset of live points is the old multiset plus B and size() grows by |B|.", "quantifier": "for every tree reachable by construction and insertion, and every batch", "why_tests_cant": "splitting of leaves above the threshold and degenerate splits occur only for certain batches", "anchors": ["include/dynamicKdTree/dynKdTree.h:insert"]}
{"id": "C21", "title": "dynamic kd-tree erase removes the requested points", "statement": "After erase(B) no live point equals a point of B, all other live points are still live, and size() equals the number of live points.", "quantifier": "for every history of insertions and erasures", "why_tests_cant": "fails only when coordinates tie with a split value or a batch repeats a point", "anchors": ["include/dynamicKdTree/dynKdTree.h:erase"]}
{"id": "C22", "title": "log-structured tree insertion preserves the multiset and its shape", "statement": "Inserting a batch into the logarithmic tree forest leaves the stored multiset equal to the old one plus the batch; every static tree slot i is empty or was filled with exactly buffer_size*2^i points; it throws only when the forest has too few slots for the total size.", "quantifier": "for every batch size, every reachable occupancy mask, every number of slots", "why_tests_cant": "carry chains depend on the binary representation of the occupancy; off-by-one needs specific masks", "anchors": ["include/batchKdtree/log-tree/logtree.h:insert"]}
{"id": "C23", "title": "log-structured tree deletion keeps the rest", "statement": "After bulk erase, slots that fall to half capacity are drained and re-inserted; the stored multiset is exactly the remaining points and re-insertion never runs out of slots.", "quantifier": "for every mask and every set of removed points", "why_tests_cant": "needs multi-step histories of insert and erase", "anchors": ["include/batchKdtree/log-tree/logtree.h:erase"]}
{"id": "C24", "title": "Bloom filter has no false negatives", "statement": "After building the filter on a set of points, might_contain is true for every one of them, whatever the hash functions and the order of concurrent bit settings.", "quantifier": "for every point set, hash functions and filter size >=1", "why_tests_cant": "random tests exercise a few hash outcomes", "anchors": ["include/batchKdtree/shared/bloom.h"]}
{"id": "C25", "title": "cache-oblivious tree leaf sizes", "statement": "In the cache-oblivious build, the precomputed leaf offsets agree with repeated floor/ceil halving: the i-th of 2^L leaves of n items starts where repeated halving puts it, sizes differ by at most one and sum to n.", "quantifier": "for every n, level count L and leaf index", "why_tests_cant": "the closed-form recurrence is exercised for few n", "anchors": ["include/batchKdtree/cache-oblivious/utils.h", "include/batchKdtree/cache-oblivious/cokdtree.h"]}
{"id": "C26", "title": "batch kd-tree membership after build", "statement": "contains(p) is true exactly for the points present in a batch kd-tree.", "quantifier": "for every point set", "why_tests_cant": "fails only if a coordinate equals the split value on the left side", "anchors": ["include/batchKdtree/shared/kdnode.h", "include/batchKdtree/shared/kdtree.h:contains"]}
{"id": "C27", "title": "re-inserting into an emptied buffer keeps the points visible", "statement": "After all points of the buffer tree of a logarithmic tree have been erased, points inserted afterwards are found by contains and knn.", "quantifier": "for every history of insert and erase", "why_tests_cant": "needs an erase that empties the buffer exactly", "anchors": ["include/batchKdtree/binary-heap-layout/bhlkdtree.h", "include/batchKdtree/log-tree/logtree.h"]}
{"id": "C28", "title": "planar closest pair is the closest pair", "statement": "closestPair<2>(P, serial) returns two elements at different positions of the array whose distance is minimal among all pairs, when the loop of bruteForceSerial runs in order.", "quantifier": "for every n>=2 planar points (duplicates allowed) with distances below DBL_MAX, exact arithmetic, serial algorithm", "why_tests_cant": "checking only the next 7 points in the strip is a packing argument that no test can confirm", "anchors": ["src/closestPair/closestPair.cpp:divideConquerSerial", "src/closestPair/closestPair.cpp:bruteForceSerial"]}
{"id": "C29", "title": "Morton code interleaves bits", "statement": "For coordinates up to 65535 bit j of the z-order key is bit j/3 of coordinate j mod 3, so distinct cells get distinct keys, comparing keys is comparing at the most significant differing bit level (last coordinate first), and a cell below another in every coordinate has the smaller key; a larger coordinate throws.", "quantifier": "for all 2^48 coordinate triples (and all pairs of them)", "why_tests_cant": "too many inputs to enumerate; the masks keep bits outside the pattern that only a proof shows to be harmless", "anchors": ["include/mortonSort/mortonSortImpl.h:109-128", "include/mortonSort/mortonSortImpl.h:178-199"]}
{"id": "C30", "title": "Morton sort returns a sorted permutation", "statement": "zorderSort returns a permutation of the input in non-decreasing Morton order of the cells of size 1.01*span/65535 counted from the minimum corner, whatever the order of the parallel write_min/write_max calls. It returns for every input with two different points in exact arithmetic, and for doubles whenever coordinates are finite and the largest extent lies between 2^-1006 and 2^1023. Empty input, equal points, and extents outside that range can be undefined.", "quantifier": "for every point sequence and every interleaving of the extrema updates", "why_tests_cant": "the cell bound depends on rounding of three operations for all doubles; random tests never hit degenerate boxes", "anchors": ["include/mortonSort/mortonSortImpl.h:101-165", "include/mortonSort/mortonSortImpl.h:243-312"]}
{"id": "C31", "title": "union-find with path compression preserves the partition", "statement": "find returns the representative of its argument and changes no representative; link of a root merges exactly two classes; any number of finds interleaved access by access stay inside the array and still return representatives. union_roots breaks the encoding find relies on.", "quantifier": "for every acyclic parent array, every argument list, every interleaving of the loads and stores", "why_tests_cant": "path compression bugs need deep chains and particular interleavings", "anchors": ["include/euclideanMst/unionFind.h:52-66", "include/euclideanMst/unionFind.h:74-84", "include/euclideanMst/unionFind.h:99-122"]}
{"id": "C32", "title": "speculative parallel Kruskal equals sequential Kruskal", "statement": "For every round size policy and every interleaving of the memory accesses of the racing reservations and commits, the speculative loop selects exactly the edges sequential Kruskal selects in index order, never indexes out of bounds, and leaves a union-find connecting exactly what the edges connect.", "quantifier": "for every edge list, every initial union-find, every round size policy, every schedule", "why_tests_cant": "schedules and retries cannot be enumerated", "anchors": ["include/euclideanMst/kruskal.h:57-81", "include/euclideanMst/kruskal.h:99-123", "include/euclideanMst/speculativeFor.h:56-119", "include/pargeo/atomics.h:write_min"]}
{"id": "C33", "title": "Kruskal returns a minimum spanning forest", "statement": "The indices returned by kruskal form an acyclic set of edges that connects exactly what the input edges connect; every spanning forest has at least as large a total weight and the same number of edges; the result is determined by the weights with ties broken by index.", "quantifier": "for every weighted edge list without NaN weights, every schedule", "why_tests_cant": "optimality is universally quantified over all spanning forests", "anchors": ["include/euclideanMst/kruskal.h:140-172"]}
{"id": "C34", "title": "EMST is a minimum spanning tree", "statement": "Whenever emst returns on n points with at most n workers, the n-1 returned edges are a spanning tree of the points, every weight is the distance of the endpoints, and the total is minimal among all spanning trees of the complete Euclidean graph; fewer than 1+log2(n) iterations are made; no out of bounds access happens, and an exception is possible only for n<2 or n>91.", "quantifier": "for every dimension >= 1, every point set in exact arithmetic (distances below the largest double), every number of workers up to n, every interleaving of the parallel traversals and of the speculative Kruskal rounds", "why_tests_cant": "optimality over all trees and independence of the schedule cannot be established by running inputs", "anchors": ["src/euclideanMst/memoGfk/emst.cpp", "src/euclideanMst/memoGfk/wspdFilter.h", "src/euclideanMst/memoGfk/mark.h", "include/euclideanMst/kruskal.h"]}
{"id": "C35", "title": "spanner stretch", "statement": "For t>1, n>=2 points and at most n workers, every execution of spanner(P,t) returns edges (p,q) with p<q<n, without repetition, such that any two points (coinciding ones included) are connected by a walk of length at most t times their distance.", "quantifier": "for every dimension >= 1, every point set and every t>1 in exact arithmetic, every interleaving of the parallel decomposition", "why_tests_cant": "a bound over all pairs of all point sets and all schedules", "anchors": ["src/spatialGraph/spanner/spanner.cpp", "include/kdTree/wspdImpl.h", "include/spatialGraph/edge.h"]}
{"id": "C36", "title": "kNN graph has k out-edges per vertex", "statement": "knnGraph(P,k) consists of n consecutive rows of k edges; row i lists k nearest other vertices; all writes are inside the result array and to different slots; k outside 1..n-1 throws.", "quantifier": "for every point set and 1<=k<n, every nth_element, every order of the parallel writes", "why_tests_cant": "out-of-bounds writes happen only when more than k+1 points coincide", "anchors": ["src/spatialGraph/knnGraph/knnGraph.cpp", "include/kdTree/knnImpl.h"]}
{"id": "C37", "title": "planar quickhull encloses all points", "statement": "quickHull returns indices of input points such that for every consecutive pair (a,b) of the cyclic output no input point lies strictly to the outside of line ab; the lexicographically extreme points are included.", "quantifier": "for every n>=2 points not all equal, exact arithmetic", "why_tests_cant": "convexity over all inputs, including degenerate collinear ones", "anchors": ["include/convexHull2d/quickHull/hull.h"]}
{"id": "C38", "title": "divide-and-conquer hull looks at every point", "statement": "The divide-and-conquer planar hull of P encloses every point of P.", "quantifier": "for every point set and worker count", "why_tests_cant": "the dropped tail is shorter than one block, so random hull tests usually pass", "anchors": ["src/convexHull2d/divideConquer/hull.cpp", "src/convexHull3d/divideConquer/hull.cpp"]}
{"id": "C39", "title": "scan and sampling enclosing balls leave out no point", "statement": "If scan::compute or sampling::compute returns a ball (c,r), no input point has computed distance to c above r plus the tolerance 1e-5.", "quantifier": "for every double input (NaN and infinities included), every dimension, number of workers and setting of the base solver", "why_tests_cant": "for all inputs and all roundings, including points that never become the farthest of their orthant", "anchors": ["src/enclosingBall/scan/seb.cpp", "src/enclosingBall/sampling/seb.cpp"]}
{"id": "C40", "title": "ball equality compares the balls", "statement": "b1==b2 holds only for balls with the same centre and radius.", "quantifier": "for all balls", "why_tests_cant": "the library's own tests use this operator, so they cannot detect the fault", "anchors": ["include/enclosingBall/ball.h"]}
{"id": "C41", "title": "parallel prefix loop equals the serial loop", "statement": "parallel_prefix ends in the same state as serial_prefix whenever an element is no longer in conflict after its clean-up.", "quantifier": "for every array, every process/clean-up pair satisfying the contract with any invariant, every block size and threshold, every order of the writes to the shared index", "why_tests_cant": "depends on positions of the conflicts relative to tripling blocks", "anchors": ["include/enclosingBall/prefixFor.h"]}
{"id": "C42", "title": "point files round-trip", "statement": "Writing numbers separated by separators and splitting the text into words yields the same word list.", "quantifier": "for every list of formatted numbers that fit their field", "why_tests_cant": "a field overflow needs a negative number with a three-digit exponent", "anchors": ["include/pargeo/IO.h"]}
{"id": "C43", "title": "formatted doubles always fit their field", "statement": "Every double is written completely by the sequence writer.", "quantifier": "for all doubles", "why_tests_cant": "one specific shape of number", "anchors": ["include/pargeo/IO.h:xToStringLen", "include/pargeo/IO.h:seqToString"]}
{"id": "C44", "title": "brute-force 3d hull is independent of translation", "statement": "The set of facets returned for a point set is the translate of the facets returned for the translated set.", "quantifier": "for all point sets and translations", "why_tests_cant": "tests use data around the origin", "anchors": ["src/convexHull3d/bruteforce/hull.cpp"]}
{"id": "C45", "title": "kd-tree nodes are split at the middle of the widest dimension", "statement": "Every internal node of a tree built (serially or in parallel) over finite points is split in the first dimension of greatest extent of its box: one child holds exactly the items strictly below the middle of the box and the other the items at or above it, unless one of these sides is empty, in which case the children are two halves of the items differing in size by at most one.", "quantifier": "all point sets with finite coordinates, all dimensions, leaf sizes, worker counts and the serial/parallel switch", "why_tests_cant": "tests cannot enumerate all point sets, in particular rounding of the middle and degenerate inputs", "anchors": ["include/kdTree/kdTree.h:241-253", "include/kdTree/treeImpl.h:124-263"]}
{"id": "C46", "title": "the dynamic kd-tree self check accepts every reachable tree", "statement": "check() returns true on every tree reached from a construction by any sequence of insertions and erasures that returns.", "quantifier": "for every history with finite coordinates", "why_tests_cant": "the invariant must survive every history", "anchors": ["include/dynamicKdTree/dynKdTree.h:check"]}
{"id": "C47", "title": "parallel insertion into the dynamic kd-tree leaves consistent siblings", "statement": "When both branches of a parallel insertion replace their child, afterwards both children are alive and each other's sibling.", "quantifier": "for every interleaving of the two branches", "why_tests_cant": "needs a particular interleaving and a batch of at least 2000 points", "anchors": ["include/dynamicKdTree/dynKdTree.h:insert"]}
{"id": "C48", "title": "Welzl's algorithm computes the smallest enclosing ball", "statement": "The plain, move-to-front and pivoting versions return a ball that encloses all points and no enclosing ball of any centre has a smaller radius; no exception, no out-of-range access, no infinite recursion.", "quantifier": "for every dimension >= 2, every input of at least 2 points (degenerate ones included), every order of the parallel writes; exact arithmetic; pivoting below the parallel cutoff", "why_tests_cant": "optimality over all centres; all degenerate configurations and orders", "anchors": ["include/enclosingBall/welzl/welzl.h", "include/enclosingBall/ball.h", "include/enclosingBall/prefixFor.h"]}
{"id": "C49", "title": "parallel pivot search stays in the array", "statement": "findPivotParallel never reads outside the points.", "quantifier": "for all inputs of at least 2000 points", "why_tests_cant": "needs the last point of the shuffled array to be the first one in conflict", "anchors": ["include/enclosingBall/welzl/welzl.h"]}
{"id": "C50", "title": "scan algorithm computes the smallest enclosing ball", "statement": "scan::compute terminates and returns the smallest enclosing ball.", "quantifier": "for every dimension >= 2 and every input of at least 3*dim points, every number of workers; exact arithmetic", "why_tests_cant": "termination and optimality for all inputs", "anchors": ["src/enclosingBall/scan/seb.cpp"]}
{"id": "C51", "title": "sampling algorithm computes the smallest enclosing ball", "statement": "sampling::compute terminates and returns the smallest enclosing ball.", "quantifier": "for every dimension >= 2 and every input of at least 3*dim points, every number of workers; exact arithmetic", "why_tests_cant": "termination and optimality for all inputs; the read past the end needs every chunk to enlarge the ball", "anchors": ["src/enclosingBall/sampling/seb.cpp"]}
{"id": "C52", "title": "closest pair in three and four dimensions", "statement": "closestPair<dim>(P, serial) returns two elements of the array at minimal distance and reads only inside its arrays, for dim = 3 and 4.", "quantifier": "for every n>=2 points, exact arithmetic", "why_tests_cant": "a slab that holds fewer than two points depends on the exact spread of the input", "anchors": ["src/closestPair/closestPair.cpp:divideConquerSerial", "src/closestPair/closestPair.cpp:bruteForceSerial"]}
{"id": "C53", "title": "parallel closest pair", "statement": "closestPair<dim>(P) returns two elements of the array at minimal distance and reads only inside its arrays.", "quantifier": "for every n>=2 points in 2 to 4 dimensions, exact arithmetic", "why_tests_cant": "the table of candidate pairs is used only from 10000 points with a slab of over 100 points, and the read past its end goes unnoticed", "anchors": ["src/closestPair/closestPair.cpp:divideConquerParallel"]}
{"id": "C54", "title": "brute force under concurrency", "statement": "The parallel loop of bruteForceSerial ends with a closest pair under every interleaving.", "quantifier": "for every point set and schedule of the loop iterations", "why_tests_cant": "losing the minimum needs a particular interleaving of two updates", "anchors": ["src/closestPair/closestPair.cpp:bruteForceSerial", "src/closestPair/closestPair.cpp:pointPair::closer"]}
{"id": "C55", "title": "sampling hull encloses all points", "statement": "The sampling planar hull returns positions of input points that enclose the input; the filter keeps every point strictly outside an edge of the sample hull, under every interleaving of the facets.", "quantifier": "for every input of at least 1000 points, sample and schedule", "why_tests_cant": "needs the corners of the bounding box in the sample, or two facets racing on neighbouring points of a leaf", "anchors": ["src/convexHull2d/sampling/hull.cpp", "include/convexHull2d/sampling/filter.h"]}
{"id": "C56", "title": "brute-force hull equals quickhull", "statement": "The brute-force planar hull returns the same cycle of positions as quickHull, up to the starting vertex and direction; every consecutive pair is an edge with all points on one side.", "quantifier": "for every set of at least three points, no three on a line, exact arithmetic", "why_tests_cant": "a statement over all point sets about the connectivity of the edges found", "anchors": ["src/convexHull2d/bruteforce/hull.cpp"]}
{"id": "C57", "title": "cache-oblivious build places a well-formed tree", "statement": "buildKdt of the cache-oblivious kd-tree, serial or parallel, fills the node array within its 2n-1 entries with a tree at entry 0 over a permutation of the input in which every inner node halves its range, left items are not above and right items not below the split value, and leaves hold between 1 and leaf_size points.", "quantifier": "for every point set with at most 24 levels, every leaf size, every order of the subtrees of the parallel build and every place where the serial code takes over", "why_tests_cant": "the layout interleaves four kinds of address computation, and the parallel order varies", "anchors": ["include/batchKdtree/cache-oblivious/cokdtree.h:buildKdt", "include/batchKdtree/cache-oblivious/utils.h"]}
{"id": "C58", "title": "heap-layout build places a well-formed tree", "statement": "buildKdtRecursive of the heap-layout kd-tree of capacity 2^j uses only node entries below 2*2^j-1 and builds the balanced split tree over a permutation of the points.", "quantifier": "for every point set of at most 2^j points and every leaf size", "why_tests_cant": "addresses double per level; a single unbalanced split overflows the array", "anchors": ["include/batchKdtree/binary-heap-layout/bhlkdtree.h:buildKdtRecursive"]}
{"id": "C59", "title": "range search, insertion and bulk erasure of a batch kd-tree in every reachable state", "statement": "In every state reached from an empty tree by insertions and bulk erasures (with or without rebuild), orthogonalQuery returns exactly the stored points in the box, size is their number, an insertion that fits adds exactly the batch, a bulk erase removes only requested points, and contains never reports a point that is not stored; no undefined behaviour occurs.", "quantifier": "for every history in which no batch is inserted into a tree emptied by a non-rebuilding erase, both layouts, every partition and order of the parallel erase", "why_tests_cant": "depends on histories and on duplicate coordinates", "anchors": ["include/batchKdtree/shared/kdtree.h", "include/batchKdtree/shared/kdnode.h:orthogonalQuery", "include/batchKdtree/binary-heap-layout/bhlkdtree.h", "include/batchKdtree/cache-oblivious/cokdtree.h"]}
{"id": "C60", "title": "single-point erase leaves a searchable tree", "statement": "After erase(point) on a kd-tree, contains is defined for every point.", "quantifier": "for every tree and point", "why_tests_cant": "needs a leaf hanging off the root to become empty", "anchors": ["include/batchKdtree/shared/kdtree.h:erase"]}
{"id": "C61", "title": "serial 3d quickhull returns the hull facets", "statement": "serialQuickHull::compute terminates without undefined behaviour and returns exactly the triangles of the convex hull, each once.", "quantifier": "for all point sets in which every four distinct points span a volume above four times eps (with distinct points if there are at most ten), every tie break of minmax_element and max_element", "why_tests_cant": "needs the topology of the facet links to be right after every insertion of an apex", "anchors": ["include/convexHull3d/serialQuickHull/quickHull.h", "include/convexHull3d/serialQuickHull/hullImpl.h", "include/convexHull3d/hullTopology.h", "include/convexHull3d/initialize.h", "src/convexHull3d/serialQuickHull/hull.cpp"]}
{"id": "C62", "title": "brute-force 3d hull returns the hull facets", "statement": "bruteforce::compute returns exactly the triangles of the convex hull, each once.", "quantifier": "for all sets of distinct points in which every four span a volume above eps", "why_tests_cant": "finitely many inputs only", "anchors": ["src/convexHull3d/bruteforce/hull.cpp"]}
{"id": "C63", "title": "serial 3d quickhull returns the extreme points", "statement": "The set of points returned by serialQuickHull::computeVertex is the set of extreme points of the input.", "quantifier": "for all point sets with four distinct points in which every four distinct points span a volume above four times eps, every sort", "why_tests_cant": "finitely many inputs only", "anchors": ["src/convexHull3d/serialQuickHull/hull.cpp:computeVertex", "include/convexHull3d/hullTopology.h:getVertex"]}
{"id": "C64", "title": "each hull vertex is returned once", "statement": "serialQuickHull::computeVertex lists every vertex of the hull exactly once.", "quantifier": "for all point sets", "why_tests_cant": "needs vertices with equal coordinate sums", "anchors": ["include/convexHull3d/hullTopology.h:getVertex", "include/pargeo/point.h:operator<"]}
{"id": "C65", "title": "returned hull vertices are input points", "statement": "Every vertex returned by serialQuickHull::computeVertex is one of the input points.", "quantifier": "for all point sets", "why_tests_cant": "needs coordinates that round when moved to the centre and back", "anchors": ["include/convexHull3d/initialize.h", "include/convexHull3d/hullTopology.h:getVertex"]}
{"id": "C66", "title": "returned facets are oriented outwards", "statement": "The corners of every facet returned by serialQuickHull::compute are listed in the same orientation as seen from outside.", "quantifier": "for all point sets", "why_tests_cant": "tests use data around the origin", "anchors": ["include/convexHull3d/facet.h", "include/convexHull3d/hullTopology.h:getFacet"]}
{"id": "C67", "title": "nearest neighbours of a batch kd-tree", "statement": "In every state reached by insertions and bulk erasures, knn returns for every query k different live items such that no other live item is closer; with fewer than k live items it throws.", "quantifier": "for all histories, queries, k, and both template parameters", "why_tests_cant": "needs erased points near the query and every pruning order", "anchors": ["include/batchKdtree/shared/kdnode.h:knnHelper", "include/batchKdtree/shared/kdtree.h:knn"]}
{"id": "C68", "title": "nearest neighbours of the logarithmic forest", "statement": "In every state reached by insertions and bulk erasures in which the forest holds at least k points, each of its nearest-neighbour searches returns k different stored items such that no other stored item is closer.", "quantifier": "for all histories, queries and k", "why_tests_cant": "fails only when one of the trees holds fewer than k points", "anchors": ["include/batchKdtree/log-tree/logtree.h:knn", "include/batchKdtree/log-tree/logtree.h:knn2", "include/batchKdtree/log-tree/logtree.h:knn3"]}
{"id": "C69", "title": "Delaunay triangulation is safe and can always finish", "statement": "For two or more points in general position together with the added ring, under every interleaving of the insertions the triangulation reads no uninitialised triangle or null neighbour, does not abort, every partial schedule can be continued to the end, and then 2n+8 triangles on valid vertices are returned.", "quantifier": "for all inputs, permutations, search structures and schedules", "why_tests_cant": "interleavings of cavity searches with reservations and flips", "anchors": ["src/delaunayTriangulation/incremental/delaunay.cpp:delaunay", "src/delaunayTriangulation/incremental/delaunay.cpp:incrementally_add_points", "src/delaunayTriangulation/incremental/topology.h:split", "src/delaunayTriangulation/incremental/topology.h:flip"]}
{"id": "C70", "title": "Delaunay triangles have empty circles", "statement": "Every returned triangle is counterclockwise and no input or ring point lies strictly inside its circumscribed circle.", "quantifier": "for all inputs, permutations and schedules", "why_tests_cant": "a missed edge flip shows on rare configurations only", "anchors": ["src/delaunayTriangulation/incremental/delaunay.cpp:find_cavity", "src/delaunayTriangulation/incremental/delaunay.cpp:delaunay"]}
{"id": "C71", "title": "Delaunay triangulation is complete and deterministic", "statement": "Every counterclockwise triangle of input and ring points with an empty circumscribed circle is returned exactly once up to rotation, so the returned set does not depend on the permutation, the search structure or the schedule.", "quantifier": "for all inputs, permutations and schedules", "why_tests_cant": "needs all schedules", "anchors": ["src/delaunayTriangulation/incremental/delaunay.cpp:delaunay"]}
{"id": "C72", "title": "Delaunay triangles fill the ring", "statement": "Every point inside the ring lies in a returned triangle; a directed edge belongs to one triangle only, and its reverse to another one unless it joins consecutive ring points.", "quantifier": "for all inputs, permutations and schedules", "why_tests_cant": "topological statement about all triangles and all points of the plane", "anchors": ["src/delaunayTriangulation/incremental/topology.h:split", "src/delaunayTriangulation/incremental/topology.h:flip", "src/delaunayTriangulation/incremental/delaunay.cpp:generate_boundary"]}
{"id": "C73", "title": "Delaunay graph returns the Delaunay edges", "statement": "delaunayGraph returns, in increasing order and each once, the pairs u<v of input points that are a side of a counterclockwise triangle with an empty circumscribed circle; it reads and writes inside its arrays.", "quantifier": "for all inputs in general position, sorts, and schedules of the triangulation", "why_tests_cant": "the overrun of one cell is usually silent; the set of edges needs a geometric argument", "anchors": ["src/spatialGraph/delaunayGraph/delaunayGraph.cpp:delaunayGraph", "include/spatialGraph/edge.h"]}
{"id": "C74", "title": "Gabriel graph returns the Gabriel edges", "statement": "gabrielGraph returns, in increasing order and each once, the pairs u<v with no other input point in the closed disc with diameter uv; it reads inside its arrays.", "quantifier": "for all inputs in general position, sorts, and schedules of the triangulation", "why_tests_cant": "the overrun is usually silent; exactness needs a geometric argument", "anchors": ["src/spatialGraph/gabrielGraph/gabrielGraph.cpp:gabrielGraph"]}
{"id": "C75", "title": "Beta skeleton returns the skeleton edges", "statement": "For beta >= 1 betaSkeleton returns, in increasing order and each once, the pairs u<v with no other input point in the lune of u and v; for beta < 0 it throws; for 0 < beta < 1 it uses the lens of the definition.", "quantifier": "for all inputs in general position, all beta, sorts, and schedules", "why_tests_cant": "use after free is usually silent; exactness needs a geometric argument", "anchors": ["src/spatialGraph/betaSkeleton/betaSkeleton.cpp:betaSkeleton", "src/spatialGraph/betaSkeleton/kdt.h:nonEmptyLune"]}
{"id": "C76", "title": "The quadtree behind point location holds exactly its vertices", "statement": "oct_tree::build on a nonempty sequence returns a tree over exactly these vertices in key order; every box contains the points below it, sizes are right, every leaf has 1 to 19 vertices or all its keys are equal, the depth is at most 64, and flatten writes each cell once.", "quantifier": "for all point sets, all sorts and binary searches meeting their contracts, all total conversions to unsigned int", "why_tests_cant": "the split depends on the bits of the keys; the empty-slice abort and unbounded recursion need an invariant over all bit patterns", "anchors": ["src/delaunayTriangulation/incremental/oct_tree.h:build_recursive", "src/delaunayTriangulation/incremental/oct_tree.h:tag_points", "src/delaunayTriangulation/incremental/oct_tree.h:flatten"]}
{"id": "C77", "title": "All-nearest-neighbours returns the k nearest vertices", "statement": "ANN gives each vertex its k nearest other vertices, nearest first, none missing and none repeated.", "quantifier": "for all sets of more than k distinct vertices with finite distances, 1 <= k <= max_k", "why_tests_cant": "pruning errors appear only for particular boxes and orders of visit", "anchors": ["src/delaunayTriangulation/incremental/neighbors.h:ANN", "src/delaunayTriangulation/incremental/neighbors.h:k_nearest_rec", "src/delaunayTriangulation/incremental/neighbors.h:update_nearest"]}
{"id": "C78", "title": "Point location starts from a nearest inserted vertex", "statement": "nearest(p) returns a stored vertex of least distance, never NULL, whenever the structure is nonempty and does not contain p; building the structure has no undefined behaviour; so the triangulation theorems hold with this structure.", "quantifier": "for all vertices, stored sets and runs of the triangulation", "why_tests_cant": "the result is dereferenced without a test; the conversion of NaN is silent on common hardware", "anchors": ["src/delaunayTriangulation/incremental/neighbors.h:nearest", "src/delaunayTriangulation/incremental/delaunay.cpp:incrementally_add_points", "src/delaunayTriangulation/incremental/oct_tree.h:interleave_bits"]}
{"id": "C79", "title": "parallel 3d quickhull returns the hull facets", "statement": "parallelQuickHull::compute terminates without undefined behaviour and returns exactly the triangles of the convex hull, each once, whatever the number of workers, the choice of apexes and the order of the parallel iterations.", "quantifier": "for all point sets in which every four distinct points span a volume above four times eps, every tie break, every addresses of the facets, every order of the vertices, the reservation writes and the parallel iterations in every round", "why_tests_cant": "needs every schedule and every conflict pattern between apexes; the failure depends on the number of facets of the final hull", "anchors": ["include/convexHull3d/parallelQuickHull/quickHull.h", "include/convexHull3d/parallelQuickHull/hullImpl.h", "include/convexHull3d/parallelQuickHull/linkedFacet.h", "include/convexHull3d/initialize.h", "src/convexHull3d/parallelQuickHull/hull.cpp"]}
{"id": "C80", "title": "reservations of the parallel 3d quickhull", "statement": "Whatever the order of the writes, the reservations of a round have the same outcome: two confirmed apexes have no facet in common, beneath them or adjacent, at least one apex is confirmed, and the reset leaves nothing reserved.", "quantifier": "for all heaps, all lists of apexes of different facets with frontiers, all orders of the writes", "why_tests_cant": "a lost or misordered write shows only under particular interleavings", "anchors": ["include/convexHull3d/parallelQuickHull/hullImpl.h", "include/convexHull3d/parallelQuickHull/linkedFacet.h", "include/convexHull3d/parallelQuickHull/quickHull.h"]}
{"id": "C81", "title": "the sampling filter keeps the points outside the sample hull", "statement": "filter2 returns every input point that lies outside a facet of the sample hull or is a corner of one, and no point that no facet sees, for every interleaving of the loop over the facets.", "quantifier": "for all non-empty point sets, lists of facets, numbers of workers and all schedules of the compare-exchange steps", "why_tests_cant": "the compare-exchange overwrites its expected value when a flag is already set, so which points are skipped depends on the order of the facets and of the points in the leaves, and the final hull often hides the loss", "anchors": ["include/convexHull3d/sampling/filter.h", "include/kdTree/kdTree.h"]}
{"id": "C82", "title": "sampling hull in space", "statement": "The hull computed from the points the filter keeps is the hull of all points.", "quantifier": "for all samples with four distinct points, all point sets of at least 1000 points in which every four distinct points span a volume above four times eps, all schedules of filter and hull", "why_tests_cant": "needs the loss of an extreme point in the filter, which depends on the schedule", "anchors": ["src/convexHull3d/sampling/hull.cpp", "include/convexHull3d/sampling/filter.h", "include/convexHull3d/parallelQuickHull/quickHull.h"]}
{"id": "C83", "title": "sampling by random projection stays within the points", "statement": "randomProjection reads only input points and returns an even number of them.", "quantifier": "for all hash functions, non-empty point sets and sample sizes", "why_tests_cant": "fails only when a hash value is a multiple of the number of points", "anchors": ["include/convexHull3d/sampling/sampling.h"]}
{"id": "C84", "title": "divide and conquer hull in space", "statement": "divideConquer::compute returns the facets of the hull of all points, each once.", "quantifier": "for all sets of at least 1000 distinct points in which every four span a volume above four times eps, all numbers of workers and blocks, all hash functions whose sample has four points, all schedules", "why_tests_cant": "the points lost are the last few of the input, at most the number of blocks less one, and usually are not on the hull", "anchors": ["src/convexHull3d/divideConquer/hull.cpp", "src/convexHull3d/sampling/hullTest.cpp", "include/convexHull3d/parallelQuickHull/quickHull.h"]}
{"id": "C85", "title": "pseudo hull in space", "statement": "pseudo::pseudoHull ends and keeps every extreme point of the input, so that pseudo::compute returns the facets of the hull of all points, each once.", "quantifier": "for all sets of points in which every four distinct points span a volume above four times eps, all numbers of workers, all schedules", "why_tests_cant": "the recursion ends because every level puts its apex in a corner, an argument over all inputs; corners are lost only when a point occurs four times in one facet's chunk, which random points never do", "anchors": ["src/convexHull3d/pseudoHull/hull.cpp", "include/convexHull3d/pseudo/hull.h"]}
{"id": "C86", "title": "planar hull by parallel insertion", "statement": "randInc::compute ends and returns the corners of a clockwise outline of the points: corners are input points, every input point lies on or right of every edge, and every extreme point is a corner.", "quantifier": "for all point sets in which no three points span a positive doubled area of at most eps, all batch sizes, all orders of reservations, checks and insertions", "why_tests_cant": "which facets are reserved together depends on the schedule; termination and the outline must hold for every interleaving of the batch", "anchors": ["src/convexHull2d/randInc/hull.cpp:compute", "src/convexHull2d/randInc/hull.cpp:facet", "src/convexHull2d/randInc/hull.cpp:findVisible"]}
{"id": "C87", "title": "dual-tree nearest neighbours of a batch kd-tree", "statement": "In every state of the tree that holds at least k points, dualKnn rearranges the queries and returns for each of them k different live items such that no other live item is closer; with fewer live points it throws.", "quantifier": "for all histories of insertions and bulk erasures, all non-empty query lists, all k, all orders of the parallel branches", "why_tests_cant": "a wrong radius in one query node prunes only for rare pairs of query and data subtrees, and which radii are current depends on the order of the branches", "anchors": ["include/batchKdtree/shared/dual.h:DualKnnHelper", "include/batchKdtree/shared/dual.h:dualKnn", "include/batchKdtree/shared/kdtree.h:dualKnnBase"]}
{"id": "C88", "title": "dual-tree nearest neighbours of the logarithmic forest", "statement": "In every state of the forest that holds at least k points, dualKnn rearranges the queries and returns for each of them k different stored items such that no other stored item is closer.", "quantifier": "for all histories, all non-empty query lists, all k, all orders of the parallel branches", "why_tests_cant": "the radii of the query tree are carried from tree to tree; the search fails only when the buffer holds between 1 and k-1 points", "anchors": ["include/batchKdtree/log-tree/logtree.h:dualKnnBase", "include/batchKdtree/shared/kdnode.h:updateDualDist", "include/batchKdtree/shared/dual.h:dualKnn"]}
{"id": "C89", "title": "concurrent insertions into the hash table", "statement": "When threads insert concurrently no access is out of bounds; if all keys fit each thread returns after at most 3m of its own steps; when all have returned the table holds every old entry and exactly the old and new keys, each once, and for every new key exactly one insertion returned true and its value is the one stored.", "quantifier": "for all tables reached by earlier insertions, all hash functions, all lists of entries with keys other than the empty one, all interleavings of the atomic steps", "why_tests_cant": "lost or doubled keys need two threads between the load and the compare-and-swap of the same cell in a particular probe order", "anchors": ["include/convexHull3d/gift/sparse_table.h:insert", "include/pargeo/atomics.h:atomic_compare_and_swap"]}
{"id": "C90", "title": "hash table look-ups, sequential insertion, size and resize", "statement": "A look-up returns the stored value exactly if the key is there, idx its cell; insert_seq adds a key exactly if it is absent; a table constructed for c keys always has an empty cell; resize keeps the entries for every schedule.", "quantifier": "for all tables reached by insertions, all hash functions, all keys other than the empty one", "why_tests_cant": "probe sequences wrap around the end of the table only for particular hash values and fillings", "anchors": ["include/convexHull3d/gift/sparse_table.h:find", "include/convexHull3d/gift/sparse_table.h:contains", "include/convexHull3d/gift/sparse_table.h:idx", "include/convexHull3d/gift/sparse_table.h:insert_seq", "include/convexHull3d/gift/sparse_table.h:resize"]}
{"id": "C91", "title": "gift wrapping returns a closed surface", "statement": "The facets returned by gift wrapping form a closed surface: the reverse of every edge of a facet is an edge of a facet; no freed memory is read and the edge table does not fill up.", "quantifier": "for all inputs in general position, all hash functions, all growth policies of the sequence of facets", "why_tests_cant": "whether a pointer into the growing sequence is stale depends on its capacity, and the orientation test against the origin is right exactly for inputs around the origin", "anchors": ["include/convexHull3d/gift/hull.h:compute", "include/convexHull3d/gift/hull.h:pairHash", "include/convexHull3d/gift/hull.h:facetAngle", "include/convexHull3d/gift/sparse_table.h:sparse_table"]}
{"id": "C92", "title": "Edge-list files hold exactly the edges", "statement": "writeEdgeSeqToFile and writeWghEdgeSeqToFile write, for every non-empty sequence of edges with 64-bit end points (and weights whose text has at most 18 characters), exactly one line 'u v' (or 'u v w') for each edge, in order, with the numbers in decimal, for every block size and every interleaving of the writes of the parallel loop; files of different edge sequences differ. An empty sequence is undefined behaviour. A negative weight with a three-digit exponent loses its last digit, and races with the first digit of the next edge.", "quantifier": "all edge sequences, all block sizes, all interleavings of byte writes", "why_tests_cant": "The threads write to neighbouring bytes of one buffer and the terminating NUL of one field is a write into the padding; whether it can fall on another thread's byte depends on the widest text and on the interleaving.", "anchors": ["include/pargeo/graphIO.h:wghEdgeSeqToString", "include/pargeo/graphIO.h:edgeSeqToString", "include/pargeo/graphIO.h:writeWghEdgeSeqToFile", "include/pargeo/graphIO.h:writeEdgeSeqToFile"]}
{"id": "C93", "title": "Integer sequence files round-trip", "statement": "For every element type among int, unsigned, long and unsigned long, every non-empty sequence of values of that type, every block size and every interleaving of the byte writes, writeIntSeqToFile writes the header and one decimal number a line; readIntSeqFromFile returns the same sequence (values below 2^63) from that file and from any other layout of the same words, and throws when the first word is not the header. The empty sequence cannot be written, a file without words is read out of bounds, and a value outside the range of the element type is read without an error.", "quantifier": "all sequences, element types, block sizes, interleavings and layouts", "why_tests_cant": "The widest texts (INT_MIN, 20-digit unsigned values) are the only ones that could run into the next field, and only under some interleavings.", "anchors": ["include/pargeo/IO.h:seqToString", "include/pargeo/IO.h:writeIntSeqToFile", "include/pargeo/IO.h:readIntSeqFromFile", "include/pargeo/IO.h:get_tokens"]}
{"id": "C94", "title": "Uniform data sets lie where they should", "statement": "For every 64-bit hash function, over the reals: uniformInPolyPoints returns n points, inside the cube of the given half side (shape 1) or, when its rejection loops end, inside the ball of the given radius (shape 0); uniformOnPolyPoints with thickness t returns n points within t of the unit sphere, the stated share outside and the rest inside (shape 0, 0 <= t < 1, when the loops end), or within t of a given side of the square or cube, n/(2d) on each side but the last (shape 1, t > 0); other shapes, other dimensions and a thickness that is not positive throw.", "quantifier": "all hash functions, n, dimensions, thicknesses, scales", "why_tests_cant": "A test sees one hash function and a few sizes; that no point is the origin, which would be divided by its length, depends on a parity argument over the reals that fails on doubles.", "anchors": ["include/dataset/uniform.h:randNd", "include/dataset/uniform.h:randInUnitSphere", "include/dataset/uniform.h:randOnUnitSphere", "include/dataset/uniform.h:uniformInPolyPoints", "include/dataset/uniform.h:uniformOnPolyPoints"]}
{"id": "C95", "title": "Seed spreader data sets are clusters and noise", "statement": "For every stream of rand() values and an odd RAND_MAX, over the reals, when the rejection loops end: simdenGenerator and vardenGenerator with rhoNoise >= 0 return n points; the first ceil((1 - rhoNoise) n) of them are each within the current radius of a centre, where a centre keeps at most 100 points in a row and is followed by a centre at exactly the shift length or by a new one in the box [0,100000]^d; the rest lies in that box. A negative rhoNoise writes past the end of the data; clustered points can lie outside the box.", "quantifier": "all random streams, n, dimensions, rhoNoise", "why_tests_cant": "The generators are seeded with a constant, so a test sees one stream; the division by the length of a random direction is safe for all streams only because RAND_MAX is odd.", "anchors": ["src/dataset/seedSpreader.cpp:randomDouble", "src/dataset/seedSpreader.cpp:shift", "src/dataset/seedSpreader.cpp:_next", "src/dataset/seedSpreader.cpp:simdenGenerator", "src/dataset/seedSpreader.cpp:vardenGenerator"]}
{"id": "C96", "title": "Grid samples have one point per cell", "statement": "Over the reals, gridSample returns input points, one for each cell number that occurs among the points, whichever insertion of a number wins; cell numbers never wrap around 2^64 for the grids it accepts; it throws for finer grids. Two points below the upper faces with one number lie in one cell, so they differ by less than a cell side along every axis. On the upper faces distinct cells share numbers, and one of them is then not sampled; for equal points the code converts NaN to an integer.", "quantifier": "all point sets in 2 and 3 dimensions that are not all equal, all grid sizes from 1, all outcomes of the concurrent insertions", "why_tests_cant": "The shared numbers need points on the upper faces of the bounding box and in the next row; the sample is only used to speed up the hull, so no result shows it.", "anchors": ["include/convexHull3d/sampling/sampling.h:gridSample", "include/convexHull2d/sampling/sampling.h:gridSample"]}
{"id": "C97", "title": "Concurrent finds and links", "statement": "When any number of find and tryLink calls run together, every link going from a vertex to a smaller one, their loads, stores and compare-and-swaps interleaved in any order: no access leaves the array; of the links of one root exactly one succeeds and of a non-root none; the parents stay acyclic and connect exactly what they connected before and what the successful links connect; find returns a connected vertex that was a root; every call is wait-free. Without the order two links can close a cycle on which find never returns.", "quantifier": "all union-finds whose parents are smaller, all lists of calls, all schedules", "why_tests_cant": "A lost link or a cycle needs a path-compression store to race with a link in one particular interleaving.", "anchors": ["include/euclideanMst/unionFind.h:tryLink", "include/euclideanMst/unionFind.h:find"]}
{"id": "C98", "title": "Command line options and arguments", "statement": "getOption tells whether an option is among the arguments after the program; the option value functions return the argument after the first occurrence of the option, converted, or the default when the option does not occur before the last argument; negative integers end the program; getArgument(i) counts from the last argument, never returns the program name and ends the program when there are too few arguments; no argument outside argv is read. A double option whose value is not a number returns an uninitialised variable; a negative size becomes a huge one; the trailing file name is also taken as the value of an option right before it.", "quantifier": "all argument lists, options, defaults and conversion functions", "why_tests_cant": "The programs are tested with well-formed command lines only.", "anchors": ["include/pargeo/parseCommandLine.h:getOption", "include/pargeo/parseCommandLine.h:getOptionValue", "include/pargeo/parseCommandLine.h:getOptionLongValue", "include/pargeo/parseCommandLine.h:getOptionDoubleValue", "include/pargeo/parseCommandLine.h:getArgument", "include/pargeo/parseCommandLine.h:IOFileNames"]}
{"id": "C99", "title": "The point-by-facet filter keeps exactly the points some facet sees, and loses no extreme point", "statement": "filter1 returns, in their order, exactly the points that lie strictly outside the plane of some facet or are a corner of one. When the facets are what the hull program returns for a sample in general position that contains the origin, no extreme point of the whole set is lost; if all points are in general position, the points kept have the same hull facets as all points.", "quantifier": "all point lists, all non-empty facet lists; for the second part all samples of at least four points in general position around the origin, all eps >= 0, all implementations of the parlay contracts", "why_tests_cant": "filter1 has no caller; whether a point outside the hull of a sample is always seen by some facet is a statement about all positions of a point against all polyhedra.", "anchors": ["include/convexHull3d/sampling/filter.h:filter1", "include/convexHull3d/facet.h:facet"]}
{"id": "C100", "title": "Point files from elsewhere are read as their numbers", "statement": "readPointsFromFile returns the numbers of any text file in groups of the dimension, whatever separators stand between them, without the header if there is one and without the numbers left over; readHeader returns the number of entries of the first line with numbers.", "quantifier": "all texts, all dimensions above 0, all conversion functions", "why_tests_cant": "The tests read files with one number layout and a final line feed; a file without one is read past the end of an array, which often goes unnoticed.", "anchors": ["include/pargeo/pointIO.h:readPointsFromFile", "include/pargeo/pointIO.h:parsePoints", "include/pargeo/pointIO.h:readHeader", "include/pargeo/pointIO.h:countEntry", "include/pargeo/IO.h:stringToWords"]}
{"id": "C101", "title": "The sample of the planar hull holds extreme points of its windows", "statement": "The sample by random projections consists of the lowest and the highest point, along the line through two points, of the window of points that starts at each hash value; the random sample consists of the points at the hash values. Neither reads outside the points.", "quantifier": "all hash functions, point sequences, sample sizes and implementations of minmax_element", "why_tests_cant": "The read past the end needs a hash value that is a multiple of the number of points, and is harmless or not depending on what lies behind the array.", "anchors": ["include/convexHull2d/sampling/sampling.h:randomProjection", "include/convexHull2d/sampling/sampling.h:randomSample", "src/convexHull2d/sampling/hull.cpp:compute"]}
