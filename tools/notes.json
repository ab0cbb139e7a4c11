{
"C01": [
"proved",
"all number types with the order laws, doubles as an instance; without laws a successful build still keeps every item"
],
"C02": [
"proved",
"order laws only; holds for finite doubles"
],
"C03": [
"proved",
"law-free"
],
"C04": [
"proved",
"exact arithmetic, every query and radius"
],
"C05": [
"proved",
"exact arithmetic"
],
"C06": [
"proved",
"order laws only; holds for finite doubles"
],
"C07": [
"partial",
"soundness for every number type; completeness is false on doubles (refuted with a witness)"
],
"C16": [
"proved",
"precondition initial size >= 1 and element size >= 8 shown necessary by the refuted theorems"
],
"C17": [
"proved",
"every block size and every order of the parallel writes"
],
"C18": [
"proved",
"every schedule; also termination"
],
"C08": [
"proved",
"exact arithmetic, all nth_element/sort implementations within contract; at most leafSize items per location; foreign queries may throw (refuted theorem)"
],
"C09": [
"partial",
"needs at most leafSize items per location; false otherwise (refuted with the default leaf size)"
],
"C10": [
"proved",
"both buffers, every nth_element within contract; the cost bound of the first buffer is shown necessary"
],
"C11": [
"proved",
"finite doubles w.r.t. computed distances, and exact arithmetic w.r.t. Euclidean distance; needs one pair below the largest number (refuted otherwise)"
],
"C12": [
"proved",
"lower and upper bounds on finite doubles and reals; attained on reals"
],
"C13": [
"proved",
"coverage for every number type and predicate; no exception in exact arithmetic with leaf size 1; huge doubles or larger leaves throw (refuted)"
],
"C14": [
"proved",
"exact arithmetic"
],
"C15": [
"proved",
"needs at least as many items as workers (refuted otherwise)"
],
"C45": [
"proved",
"finite doubles (rounded middle included) and exact arithmetic"
],
"C19": [
"proved",
"doubles with rounding, and exact arithmetic; k = 0 is undefined behaviour (refuted theorem)"
],
"C20": [
"proved",
"finite doubles; construction needs two points (refuted otherwise)"
],
"C21": [
"partial",
"nothing else is erased: all trees. Completeness and size: only without shared coordinates and without re-erasing a location; both conditions refuted"
],
"C46": [
"proved",
"finite doubles, ties and duplicates included"
],
"C47": [
"partial",
"true for the two sequential orders; false in general: an interleaving writes to a freed node"
],
"C31": [
"proved",
"find and link for all forests, concurrent finds for all interleavings (sequential consistency). union_roots (not called by the library) is refuted: find after it indexes parents[-2]. tryLink is not modelled."
],
"C32": [
"proved",
"All interleavings at the granularity of single loads, stores and compare-and-swaps (sequential consistency); find runs concurrently with itself in the reserve phase. The exception at speculativeFor.h:79 is excluded for up to 4101 edges; for more edges the theorem allows it (conclusion: if the loop returns). Orientation of the stored edge (u,v)/(v,u) is not distinguished."
],
"C33": [
"proved",
"Real weights and double weights (not NaN; totals compared as exact sums of the double values). parlay::sort by contract (sort_ok, met by esort). As C32, with more than 4101 edges the exception of speculative_for is not excluded."
],
"C34": [
"proved",
"Exact arithmetic; workers <= n is needed (C34_more_workers_than_points_refuted). The result Fuel stands for schedules that do not run every thread to completion."
],
"C35": [
"proved",
"Exact arithmetic. t=1 is accepted by the code and throws (C35_stretch_one_refuted); more workers than points overruns the buffers (C35_more_workers_than_points_refuted)."
],
"C36": [
"partial",
"Proved when at most min(16,k+1) points share a location. Refuted otherwise: out-of-bounds write (C36_equal_points_refuted) and two iterations writing one slot (C36_lost_edge_refuted); the empty input is UB (C36_empty_refuted)."
],
"C29": [
"proved",
"bit-level theorem for every triple, by symbolic execution of the four mask steps"
],
"C30": [
"proved",
"proved under the stated precondition; the refuted theorems show it is needed (empty input, equal points, denormal span, overflowing span)"
],
"C39": [
"proved",
"C39_scan and C39_sampling: doubles, no precondition; partial correctness (termination is C50/C51)."
],
"C40": [
"partial",
"refuted: operator== compares each field with itself: balls around (1,0) of radius 1 and around (0,4) of radius 4 are equal."
],
"C41": [
"proved",
"C41_hang_refuted: without the contract the parallel loop never ends for every block size while the serial loop does."
],
"C48": [
"proved",
"exact arithmetic, tolerance 0; the pivoting version from 2000 points on is C49."
],
"C49": [
"partial",
"refuted: if the last point is the first conflict, max_element runs on an empty range and its result is dereferenced; family of inputs of any size from 2000 to 499999."
],
"C50": [
"proved",
"needs 3*dim points: C50_few_refuted shows every smaller input is read past its end."
],
"C51": [
"partial",
"proved: the result is the smallest ball, or the last chunk is cut past the end, possible only if the chunk size n/100 exceeds 3*dim and does not divide n; C51_oob_refuted is such an input (701 points)."
],
"C28": [
"proved",
"exact arithmetic; any sort meeting its contract; the loop of bruteForceSerial in order (see C54)"
],
"C52": [
"partial",
"refuted: a slab with a single point is passed to the brute force, which reads P[1]; otherwise correct for dim <= 4 (exact arithmetic); dim >= 5 open"
],
"C53": [
"partial",
"refuted: the table of a slab of more than 100 points is read past the end, e.g. for n >= 10000 collinear points; otherwise correct for dim <= 4 (exact arithmetic)"
],
"C54": [
"partial",
"refuted: closer is not atomic, a farther pair can overwrite the closest; both points are always input points"
],
"C55": [
"partial",
"refuted: (1) when the four corners of the bounding box are sampled the filter keeps nothing and two arbitrary positions are returned (C55_corners_refuted, all such inputs); (2) a failed compare-exchange overwrites its expected value, so the next point of the same node is not flagged (C55_exchange_refuted). Proved: what is kept (C55_filter_partial), equality with quickHull below 1000 points. Not modelled: how the sample is drawn, spurious failures of the weak exchange."
],
"C56": [
"proved",
"C56_general needs general position and three points; C56_degenerate_refuted shows the three ways it fails without."
],
"C37": [
"proved",
"exact arithmetic, any bracketing of the reductions; for doubles termination and valid positions when no area is NaN (C37_double)"
],
"C38": [
"partial",
"refuted: the last n - numBlocks*blockSize points are never looked at (C38_tail_refuted), and fewer than ten points divide by zero (C38_few_refuted). Proved: the hull encloses all points of the blocks (C38_blocks_partial); the 3-d version is C84."
],
"C57": [
"proved",
"median splits by contract, which nth_element meets for any numbers and the sort/midpoint split for reals (C57_medians); on doubles the midpoint may equal the lower neighbour: C57_midpoint_double_refuted"
],
"C58": [
"proved",
"median split by contract"
],
"C59": [
"proved",
"the excluded insertion is the defect of C27"
],
"C60": [
"partial",
"refuted: emptying a leaf directly below the root stores a null child which the next search follows, and emptying a root leaf dereferences a null parent (C60_single_erase_refuted)"
],
"C25": [
"proved",
"tables of 24 levels as initialised by utils.h; C57 shows they are used within bounds"
],
"C26": [
"partial",
"refuted: a point left of a split with the split coordinate is missed by contains and by bulk erase (C26_ties_refuted); proved for histories in which no two stored points share a coordinate (C26_contains_tie_free)"
],
"C27": [
"partial",
"refuted: after a non-rebuilding bulk erase of all points the presence flags stay cleared and the next insertion hides its points, the one after stores default points (C27_emptied_buffer_refuted); every other history is covered by C59"
],
"C22": [
"proved",
"the exact fill of the slots holds for histories of insertions only; with erasures every used slot is more than half full and at most full. Histories in which an erase empties a non-empty buffer are excluded (C23_emptied_buffer_refuted). Full or empty is by the number of points; the single total 2^num * B may or may not throw."
],
"C23": [
"partial",
"refuted: an erase that empties the buffer leaves its presence flags cleared, and the next points put in the buffer are lost (C23_emptied_buffer_refuted); with equal coordinates requested points may be missed (C26_ties_refuted). Proved when a point stays in the buffer: no slot overflow, only requested points go, and exactly those when no two stored points share a coordinate"
],
"C24": [
"proved",
"for every hash function and interleaving of atomic loads and compare-exchanges; equal points with different bytes (zero and minus zero) are outside (C24_signed_zero_refuted)"
],
"C42": [
"proved",
"when every field fits and the first one is numeric; C42_infinite_refuted and C42_unterminated_refuted show both conditions are needed"
],
"C43": [
"partial",
"refuted: a negative double with a three-digit exponent loses its last digit (C43_refuted), and may race with the next point (C43_race_refuted); all other doubles fit (C43_fits)"
],
"C61": [
"proved",
"exact arithmetic; with an absolute eps small-scale data lose facets (C61_scale_refuted)"
],
"C62": [
"proved",
"exact arithmetic; a repeated point yields degenerate facets (C62_duplicates_refuted)"
],
"C63": [
"proved",
"exact arithmetic"
],
"C64": [
"partial",
"refuted: duplicates are removed by unique after sorting by the sum of the coordinates, which does not bring equal points together (C64_refuted); proved when the sums are distinct"
],
"C65": [
"partial",
"refuted: in doubles the coordinates are rounded by the translation to the interior point and back (C65_refuted); proved in exact arithmetic"
],
"C66": [
"partial",
"refuted: the facet constructor orients relative to the coordinate origin (C66_refuted); proved when the origin is inside the hull"
],
"C44": [
"partial",
"refuted: whether coplanar base triangles count depends on the side of the coordinate origin (C44_refuted); proved in exact arithmetic for points in general position"
],
"C67": [
"proved",
"exact arithmetic, distances below the largest double, the tree holds a point; searching a tree that was never built is undefined (C67_unbuilt_refuted)"
],
"C68": [
"partial",
"refuted: the searches throw when a single tree they visit first (or any, for the parallel one) has fewer than k points (C68_refuted); proved exactly otherwise (C68_forest_knn_partial)"
],
"C69": [
"proved",
"exact arithmetic, general position; an empty input reads P[0] (C69_empty_refuted)"
],
"C70": [
"proved",
"exact arithmetic, general position; with repeated points degenerate triangles are returned (C70_duplicates_refuted)"
],
"C71": [
"proved",
"exact arithmetic, general position, for the points together with the ring; flat triangles of the input whose circle reaches the ring are missing (C71_own_triangulation_refuted)"
],
"C73": [
"partial",
"refuted: as written the scan reads edges[3t+1] and writes flag[3t], one cell past each array, on every input (C73_delaunay_graph_refuted). With one extra cell each, the result is exactly the set of Delaunay edges (C73_delaunay_graph_partial)."
],
"C74": [
"partial",
"refuted: as written it reads one cell past the edges on every input, and points past the end of P (C74_gabriel_graph_refuted). With those cells readable, whatever they contain, the result is exactly the Gabriel graph (C74_gabriel_graph_partial)."
],
"C75": [
"partial",
"refuted: the array the tree points into is freed before the searches (C75_freed_items_refuted), and below 1 the discs are centred at the end points, not the lens (C75_small_beta_refuted). With the array alive and the cells of C73 present, C75_beta_skeleton_partial gives the exact result over the reals for beta >= 1 and what is computed below 1; the rounding of distances to float is not covered."
],
"C76": [
"proved",
"Over the reals. The conversion of NaN to unsigned int, which C++ leaves undefined, is covered by C78_first_structure_refuted."
],
"C77": [
"proved",
"Over the reals, with distances below the largest double."
],
"C78": [
"partial",
"refuted: the first structure has one vertex, so 0/0 is converted to unsigned int on every run (C78_first_structure_refuted, in doubles). For a conversion that returns any value, C78_nearest_for_delaunay holds over the reals and gives the premise dp_knn of C69-C75."
],
"C79": [
"partial",
"refuted: when the hull has fewer than 64 facets the run ends by dereferencing the null apex (furthestApexParallel, randomApex); C79_refuted shows it for five points under every schedule. Proved: the exact outcome for every input in general position, correct facets from 64 facets on, undefined behaviour below."
],
"C80": [
"proved",
"Hypothesis: the facets an apex writes to are those beneath it and their neighbours; H3ParRound.aroundAll_ok shows it for the frontiers of the loop."
],
"C81": [
"partial",
"refuted: a failed compare-exchange leaves true in F and the next point is not flagged; C81_refuted gives six points of which two that are corners of the hull are lost, one of them strictly outside the sample. Also, a facet whose box volumes are not positive skips its own corners. Proved: no undefined behaviour, kept points are input points some facet sees, and of two successive points seen in a leaf one is kept, for every schedule."
],
"C82": [
"partial",
"C82_sampling_partial: exact outcome in terms of the points kept: the hull of all points (undefined below 64 facets, C79) when no extreme point was lost, a wrong list otherwise. Missing: that no extreme point is lost, which is false of the filter (C81_refuted)."
],
"C83": [
"partial",
"refuted: P[P.size() - ii] is one past the end when a hash value is a multiple of P.size(); C83_refuted: for every hash function there is such a set. C83_projection_partial gives the exact condition."
],
"C84": [
"partial",
"refuted: the points after the last full block are in no block; C84_refuted gives, for every number of workers, points whose last one is a corner of the hull and of no facet returned. C84_divide_partial: the result is exactly the hull of the points in blocks (undefined below 64 facets, C79)."
],
"C85": [
"partial",
"refuted: with repeated points furthest finds nothing above the facet and returns its initial point of largest doubles; C85_refuted loses three of six corners. Proved for distinct points (C85_pseudo_partial): ends within n+1 levels, keeps all extreme points, and the outcome is the hull from 64 facets on, undefined below (C79)."
],
"C86": [
"partial",
"refuted: the function returns an empty sequence whatever the points (C86_refuted, a dummy return). Proved: the list of facets it builds is the outline for every schedule within n rounds (C86_outline); without the margin corners are lost (C86_scale_refuted)."
],
"C87": [
"proved",
"exact arithmetic, distances below the largest double, at least one query and one point; without a query or on a tree that was never built the search is undefined (C87_empty_refuted)"
],
"C88": [
"partial",
"refuted: with 1 to k-1 points in the buffer the search throws although the forest holds k points, and with an empty buffer and fewer than k points it reads unset answers (C88_refuted); proved exactly otherwise (C88_forest_dual_knn_partial)"
],
"C89": [
"proved",
"keys other than the empty one; the empty key is reported inserted and is not there (C89_empty_key_refuted), and with more keys than cells a thread never returns (C89_overfull_refuted)"
],
"C90": [
"proved",
"an empty cell or a key that is there; the look-up of an absent key in a full table does not end (C90_full_refuted), the empty key seems to be there (C90_empty_key_refuted)"
],
"C91": [
"partial",
"refuted: if the first facet does not have the origin on its inner side it is the whole result, for a tetrahedron with its leftmost corner at the origin (C91_one_facet_refuted, C91_tetrahedron_refuted); the facet being wrapped is read after the sequence moved (C91_dangling_refuted); 100 corners have more directed edges than the table has cells (C91_table_full_refuted).  Proved: closed when the sequence is never moved and every pivot is consistently oriented (C91_watertight_partial); that the facets are hull facets is not proved"
],
"C92": [
"proved",
"for weights of at most 18 characters (C92_double_fits: every double except negative ones with a three-digit exponent); the refuted theorems show the empty sequence, the wide weight and its race"
],
"C93": [
"proved",
"for values in the range of the element type and below 2^63 when read; the refuted theorems show the empty sequence, the empty file and the silent wrap"
],
"C94": [
"proved",
"over the reals; the refuted theorems show a hash function with which the rejection loop never ends, and one with which doubles divide the origin by its length"
],
"C95": [
"proved",
"over the reals, for rhoNoise >= 0; the refuted theorems show the writes past the end for a negative rhoNoise and a clustered point outside the box"
],
"C96": [
"proved",
"over the reals; the refuted theorems show the shared numbers on the upper faces and the undefined conversion for equal points"
],
"C97": [
"proved",
"sequentially consistent memory; the refuted theorem shows that the documented link order is needed"
],
"C98": [
"proved",
"values that sscanf accepts, indices from 0; the refuted theorems show the uninitialised double, the negative size and the swallowed file name"
],
"C72": [
"proved",
"exact arithmetic, general position, for the points together with the ring (the premises of C69-C71), every schedule on which the run returns"
],
"C99": [
"proved",
"Over the reals. C99_filter_exact: exactly the points seen or corners, in order, the interior point has no effect. C99_filter_hull: no extreme point lost, same hull. C99_empty_refuted: no facets is undefined. C99_away_refuted (doubles): away from the origin an extreme point is lost because facet.h turns facets by the origin. C99_example: the points filter2 loses in C81_refuted are kept."
],
"C100": [
"partial",
"refuted: every file whose last number completes a point and ends the file is read past its end (C100_unterminated_refuted, all such files); of a header of two words only the first is left out (C100_header_refuted); a comma and a blank count as two entries, a single line ending in a carriage return and an empty first line are undefined (C100_dimension_refuted). Proved otherwise: C100_read (files that end in a separator, headers of one word), C100_blank, C100_dimension (one delimiter between entries)."
],
"C101": [
"partial",
"refuted: P[P.size() - ii] is one past the end when a hash value is a multiple of the number of points, and the hull of a thousand points or more is then undefined (C101_past_end_refuted). C101_projection_partial: lowest and highest of every window otherwise; missing: that no hash value is a multiple. C101_sample: the random sample, always."
]
}