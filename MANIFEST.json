{
 "claims": [
  {
   "property": "C01",
   "status": "proved",
   "theorems": [
    "C01_build_permutation",
    "C01_build_permutation_double",
    "C01_build_any_numbers"
   ],
   "note": "all number types with the order laws, doubles as an instance; without laws a successful build still keeps every item"
  },
  {
   "property": "C02",
   "status": "proved",
   "theorems": [
    "C02_boxes_tight",
    "C02_box_independent_of_workers"
   ],
   "note": "order laws only; holds for finite doubles"
  },
  {
   "property": "C03",
   "status": "proved",
   "theorems": [
    "C03_shape_and_pool",
    "C03_singleton_leaves"
   ],
   "note": "law-free"
  },
  {
   "property": "C04",
   "status": "proved",
   "theorems": [
    "C04_range_search_exact"
   ],
   "note": "exact arithmetic, every query and radius"
  },
  {
   "property": "C05",
   "status": "proved",
   "theorems": [
    "C05_range_traverse_once"
   ],
   "note": "exact arithmetic"
  },
  {
   "property": "C06",
   "status": "proved",
   "theorems": [
    "C06_orthogonal_search_exact"
   ],
   "note": "order laws only; holds for finite doubles"
  },
  {
   "property": "C07",
   "status": "partial",
   "theorems": [
    "C07_range_search_sound_partial",
    "C07_float_range_search_refuted"
   ],
   "note": "soundness for every number type; completeness is false on doubles (refuted with a witness)"
  },
  {
   "property": "C08",
   "status": "proved",
   "theorems": [
    "C08_knn_correct",
    "C08_distinct_points",
    "C08_too_few_throws",
    "C08_foreign_query_refuted"
   ],
   "note": "exact arithmetic, all nth_element/sort implementations within contract; at most leafSize items per location; foreign queries may throw (refuted theorem)"
  },
  {
   "property": "C09",
   "status": "partial",
   "theorems": [
    "C09_knn_distinct_partial",
    "C09_knn_distinct_refuted"
   ],
   "note": "needs at most leafSize items per location; false otherwise (refuted with the default leaf size)"
  },
  {
   "property": "C10",
   "status": "proved",
   "theorems": [
    "C10_buffer_keeps_k_smallest",
    "C10_cached_buffer_keeps_k_smallest",
    "C10_infinite_cost_refuted",
    "C10_overflowing_points_refuted"
   ],
   "note": "both buffers, every nth_element within contract; the cost bound of the first buffer is shown necessary"
  },
  {
   "property": "C11",
   "status": "proved",
   "theorems": [
    "C11_bccp_double",
    "C11_bccp_exact",
    "C11_overflow_refuted",
    "C11_bruteforce"
   ],
   "note": "finite doubles w.r.t. computed distances, and exact arithmetic w.r.t. Euclidean distance; needs one pair below the largest number (refuted otherwise)"
  },
  {
   "property": "C12",
   "status": "proved",
   "theorems": [
    "C12_node_distance_bounds",
    "C12_node_distance_attained",
    "C12_far_distance_diameter",
    "C12_node_distance_bounds_double",
    "C12_diag",
    "C12_lMax"
   ],
   "note": "lower and upper bounds on finite doubles and reals; attained on reals"
  },
  {
   "property": "C13",
   "status": "proved",
   "theorems": [
    "C13_wspd_covers",
    "C13_wspd_built",
    "C13_wspd_total",
    "C13_huge_coordinates_refuted",
    "C13_big_leaves_refuted"
   ],
   "note": "coverage for every number type and predicate; no exception in exact arithmetic with leaf size 1; huge doubles or larger leaves throw (refuted)"
  },
  {
   "property": "C14",
   "status": "proved",
   "theorems": [
    "C14_wspd_separated"
   ],
   "note": "exact arithmetic"
  },
  {
   "property": "C15",
   "status": "proved",
   "theorems": [
    "C15_parallel_equals_serial",
    "C15_parallel_runs",
    "C15_more_workers_than_items_refuted"
   ],
   "note": "needs at least as many items as workers (refuted otherwise)"
  },
  {
   "property": "C16",
   "status": "proved",
   "theorems": [
    "C16_append_buffer_exact",
    "C16_initial_size_zero_refuted",
    "C16_small_elements_refuted"
   ],
   "note": "precondition initial size >= 1 and element size >= 8 shown necessary by the refuted theorems"
  },
  {
   "property": "C17",
   "status": "proved",
   "theorems": [
    "C17_split_two_stable",
    "C17_split_k_stable",
    "C17_build_uses_split"
   ],
   "note": "every block size and every order of the parallel writes"
  },
  {
   "property": "C18",
   "status": "proved",
   "theorems": [
    "C18_linearizable",
    "C18_calls_return",
    "C18_write_min",
    "C18_write_max",
    "C18_write_add",
    "C18_fetch_and_add"
   ],
   "note": "every schedule; also termination"
  },
  {
   "property": "C19",
   "status": "proved",
   "theorems": [
    "C19_knn_double",
    "C19_knn_exact",
    "C19_k0_refuted"
   ],
   "note": "doubles with rounding, and exact arithmetic; k = 0 is undefined behaviour (refuted theorem)"
  },
  {
   "property": "C20",
   "status": "proved",
   "theorems": [
    "C20_insert",
    "C20_build",
    "C20_small_refuted",
    "C20_insert_step"
   ],
   "note": "finite doubles; construction needs two points (refuted otherwise)"
  },
  {
   "property": "C21",
   "status": "partial",
   "theorems": [
    "C21_erase_sound",
    "C21_history_partial",
    "C21_erase_ties_refuted",
    "C21_counter_refuted"
   ],
   "note": "nothing else is erased: all trees. Completeness and size: only without shared coordinates and without re-erasing a location; both conditions refuted"
  },
  {
   "property": "C22",
   "status": "proved",
   "theorems": [
    "C22_insert"
   ],
   "note": "the exact fill of the slots holds for histories of insertions only; with erasures every used slot is more than half full and at most full. Histories in which an erase empties a non-empty buffer are excluded (C23_emptied_buffer_refuted). Full or empty is by the number of points; the single total 2^num * B may or may not throw."
  },
  {
   "property": "C23",
   "status": "partial",
   "theorems": [
    "C23_erase",
    "C23_queries",
    "C23_emptied_buffer_refuted"
   ],
   "note": "refuted: an erase that empties the buffer leaves its presence flags cleared, and the next points put in the buffer are lost (C23_emptied_buffer_refuted); with equal coordinates requested points may be missed (C26_ties_refuted). Proved when a point stays in the buffer: no slot overflow, only requested points go, and exactly those when no two stored points share a coordinate"
  },
  {
   "property": "C24",
   "status": "proved",
   "theorems": [
    "C24_no_false_negatives",
    "C24_filter",
    "C24_signed_zero_refuted"
   ],
   "note": "for every hash function and interleaving of atomic loads and compare-exchanges; equal points with different bytes (zero and minus zero) are outside (C24_signed_zero_refuted)"
  },
  {
   "property": "C25",
   "status": "proved",
   "theorems": [
    "C25_leaf_sizes"
   ],
   "note": "tables of 24 levels as initialised by utils.h; C57 shows they are used within bounds"
  },
  {
   "property": "C26",
   "status": "partial",
   "theorems": [
    "C26_contains_tie_free",
    "C26_ties_refuted"
   ],
   "note": "refuted: a point left of a split with the split coordinate is missed by contains and by bulk erase (C26_ties_refuted); proved for histories in which no two stored points share a coordinate (C26_contains_tie_free)"
  },
  {
   "property": "C27",
   "status": "partial",
   "theorems": [
    "C27_emptied_buffer_refuted"
   ],
   "note": "refuted: after a non-rebuilding bulk erase of all points the presence flags stay cleared and the next insertion hides its points, the one after stores default points (C27_emptied_buffer_refuted); every other history is covered by C59"
  },
  {
   "property": "C28",
   "status": "proved",
   "theorems": [
    "C28_planar"
   ],
   "note": "exact arithmetic; any sort meeting its contract; the loop of bruteForceSerial in order (see C54)"
  },
  {
   "property": "C29",
   "status": "proved",
   "theorems": [
    "C29_interleave",
    "C29_throws",
    "C29_injective",
    "C29_compare",
    "C29_monotone"
   ],
   "note": "bit-level theorem for every triple, by symbolic execution of the four mask steps"
  },
  {
   "property": "C30",
   "status": "proved",
   "theorems": [
    "C30_sorted",
    "C30_order",
    "C30_total",
    "C30_total_doubles",
    "C30_empty_refuted",
    "C30_equal_points_refuted",
    "C30_tiny_span_refuted",
    "C30_huge_span_refuted"
   ],
   "note": "proved under the stated precondition; the refuted theorems show it is needed (empty input, equal points, denormal span, overflowing span)"
  },
  {
   "property": "C31",
   "status": "proved",
   "theorems": [
    "C31_find",
    "C31_link",
    "C31_concurrent_finds",
    "C31_union_roots_refuted"
   ],
   "note": "find and link for all forests, concurrent finds for all interleavings (sequential consistency). union_roots (not called by the library) is refuted: find after it indexes parents[-2]. tryLink is not modelled."
  },
  {
   "property": "C32",
   "status": "proved",
   "theorems": [
    "C32_loop",
    "C32_completes"
   ],
   "note": "All interleavings at the granularity of single loads, stores and compare-and-swaps (sequential consistency); find runs concurrently with itself in the reserve phase. The exception at speculativeFor.h:79 is excluded for up to 4101 edges; for more edges the theorem allows it (conclusion: if the loop returns). Orientation of the stored edge (u,v)/(v,u) is not distinguished."
  },
  {
   "property": "C33",
   "status": "proved",
   "theorems": [
    "C33_exact",
    "C33_double"
   ],
   "note": "Real weights and double weights (not NaN; totals compared as exact sums of the double values). parlay::sort by contract (sort_ok, met by esort). As C32, with more than 4101 edges the exception of speculative_for is not excluded."
  },
  {
   "property": "C34",
   "status": "proved",
   "theorems": [
    "C34_emst",
    "C34_completes",
    "C34_more_workers_than_points_refuted"
   ],
   "note": "Exact arithmetic; workers <= n is needed (C34_more_workers_than_points_refuted). The result Fuel stands for schedules that do not run every thread to completion."
  },
  {
   "property": "C35",
   "status": "proved",
   "theorems": [
    "C35_spanner",
    "C35_completes",
    "C35_stretch_one_refuted",
    "C35_more_workers_than_points_refuted"
   ],
   "note": "Exact arithmetic. t=1 is accepted by the code and throws (C35_stretch_one_refuted); more workers than points overruns the buffers (C35_more_workers_than_points_refuted)."
  },
  {
   "property": "C36",
   "status": "partial",
   "theorems": [
    "C36_knn_graph_partial",
    "C36_range",
    "C36_empty_refuted",
    "C36_equal_points_refuted",
    "C36_lost_edge_refuted"
   ],
   "note": "Proved when at most min(16,k+1) points share a location. Refuted otherwise: out-of-bounds write (C36_equal_points_refuted) and two iterations writing one slot (C36_lost_edge_refuted); the empty input is UB (C36_empty_refuted)."
  },
  {
   "property": "C37",
   "status": "proved",
   "theorems": [
    "C37_exact",
    "C37_double"
   ],
   "note": "exact arithmetic, any bracketing of the reductions; for doubles termination and valid positions when no area is NaN (C37_double)"
  },
  {
   "property": "C38",
   "status": "partial",
   "theorems": [
    "C38_blocks_partial",
    "C38_tail_refuted",
    "C38_few_refuted"
   ],
   "note": "refuted: the last n - numBlocks*blockSize points are never looked at (C38_tail_refuted), and fewer than ten points divide by zero (C38_few_refuted). Proved: the hull encloses all points of the blocks (C38_blocks_partial); the 3-d version is C84."
  },
  {
   "property": "C39",
   "status": "proved",
   "theorems": [
    "C39_scan",
    "C39_sampling"
   ],
   "note": "C39_scan and C39_sampling: doubles, no precondition; partial correctness (termination is C50/C51)."
  },
  {
   "property": "C40",
   "status": "partial",
   "theorems": [
    "C40_refuted"
   ],
   "note": "refuted: operator== compares each field with itself: balls around (1,0) of radius 1 and around (0,4) of radius 4 are equal."
  },
  {
   "property": "C41",
   "status": "proved",
   "theorems": [
    "C41_parallel_prefix",
    "C41_hang_refuted"
   ],
   "note": "C41_hang_refuted: without the contract the parallel loop never ends for every block size while the serial loop does."
  },
  {
   "property": "C42",
   "status": "proved",
   "theorems": [
    "C42_round_trip",
    "C42_pbbs",
    "C42_infinite_refuted",
    "C42_unterminated_refuted"
   ],
   "note": "when every field fits and the first one is numeric; C42_infinite_refuted and C42_unterminated_refuted show both conditions are needed"
  },
  {
   "property": "C43",
   "status": "partial",
   "theorems": [
    "C43_fits",
    "C43_refuted",
    "C43_race_refuted"
   ],
   "note": "refuted: a negative double with a three-digit exponent loses its last digit (C43_refuted), and may race with the next point (C43_race_refuted); all other doubles fit (C43_fits)"
  },
  {
   "property": "C44",
   "status": "partial",
   "theorems": [
    "C44_translation_partial",
    "C44_refuted"
   ],
   "note": "refuted: whether coplanar base triangles count depends on the side of the coordinate origin (C44_refuted); proved in exact arithmetic for points in general position"
  },
  {
   "property": "C45",
   "status": "proved",
   "theorems": [
    "C45_split_rule",
    "C45_split_rule_exact"
   ],
   "note": "finite doubles (rounded middle included) and exact arithmetic"
  },
  {
   "property": "C46",
   "status": "proved",
   "theorems": [
    "C46_check"
   ],
   "note": "finite doubles, ties and duplicates included"
  },
  {
   "property": "C47",
   "status": "partial",
   "theorems": [
    "C47_sequential",
    "C47_parallel_refuted"
   ],
   "note": "true for the two sequential orders; false in general: an interleaving writes to a freed node"
  },
  {
   "property": "C48",
   "status": "proved",
   "theorems": [
    "C48_welzl"
   ],
   "note": "exact arithmetic, tolerance 0; the pivoting version from 2000 points on is C49."
  },
  {
   "property": "C49",
   "status": "partial",
   "theorems": [
    "C49_pivot_refuted"
   ],
   "note": "refuted: if the last point is the first conflict, max_element runs on an empty range and its result is dereferenced; family of inputs of any size from 2000 to 499999."
  },
  {
   "property": "C50",
   "status": "proved",
   "theorems": [
    "C50_scan",
    "C50_few_refuted"
   ],
   "note": "needs 3*dim points: C50_few_refuted shows every smaller input is read past its end."
  },
  {
   "property": "C51",
   "status": "partial",
   "theorems": [
    "C51_sampling_partial",
    "C51_oob_refuted"
   ],
   "note": "proved: the result is the smallest ball, or the last chunk is cut past the end, possible only if the chunk size n/100 exceeds 3*dim and does not divide n; C51_oob_refuted is such an input (701 points)."
  },
  {
   "property": "C52",
   "status": "partial",
   "theorems": [
    "C52_spatial_partial",
    "C52_slab_refuted"
   ],
   "note": "refuted: a slab with a single point is passed to the brute force, which reads P[1]; otherwise correct for dim <= 4 (exact arithmetic); dim >= 5 open"
  },
  {
   "property": "C53",
   "status": "partial",
   "theorems": [
    "C53_parallel_partial",
    "C53_table_refuted"
   ],
   "note": "refuted: the table of a slab of more than 100 points is read past the end, e.g. for n >= 10000 collinear points; otherwise correct for dim <= 4 (exact arithmetic)"
  },
  {
   "property": "C54",
   "status": "partial",
   "theorems": [
    "C54_race_refuted",
    "C54_members_partial"
   ],
   "note": "refuted: closer is not atomic, a farther pair can overwrite the closest; both points are always input points"
  },
  {
   "property": "C55",
   "status": "partial",
   "theorems": [
    "C55_filter_partial",
    "C55_small",
    "C55_corners_refuted",
    "C55_exchange_refuted"
   ],
   "note": "refuted: (1) when the four corners of the bounding box are sampled the filter keeps nothing and two arbitrary positions are returned (C55_corners_refuted, all such inputs); (2) a failed compare-exchange overwrites its expected value, so the next point of the same node is not flagged (C55_exchange_refuted). Proved: what is kept (C55_filter_partial), equality with quickHull below 1000 points. Not modelled: how the sample is drawn, spurious failures of the weak exchange."
  },
  {
   "property": "C56",
   "status": "proved",
   "theorems": [
    "C56_general",
    "C56_sides",
    "C56_degenerate_refuted"
   ],
   "note": "C56_general needs general position and three points; C56_degenerate_refuted shows the three ways it fails without."
  },
  {
   "property": "C57",
   "status": "proved",
   "theorems": [
    "C57_co_build",
    "C57_medians",
    "C57_midpoint_double_refuted"
   ],
   "note": "median splits by contract, which nth_element meets for any numbers and the sort/midpoint split for reals (C57_medians); on doubles the midpoint may equal the lower neighbour: C57_midpoint_double_refuted"
  },
  {
   "property": "C58",
   "status": "proved",
   "theorems": [
    "C58_bhl_build"
   ],
   "note": "median split by contract"
  },
  {
   "property": "C59",
   "status": "proved",
   "theorems": [
    "C59_numbers",
    "C59_history"
   ],
   "note": "the excluded insertion is the defect of C27"
  },
  {
   "property": "C60",
   "status": "partial",
   "theorems": [
    "C60_single_erase_refuted"
   ],
   "note": "refuted: emptying a leaf directly below the root stores a null child which the next search follows, and emptying a root leaf dereferences a null parent (C60_single_erase_refuted)"
  },
  {
   "property": "C61",
   "status": "proved",
   "theorems": [
    "C61_quickhull",
    "C61_scale_refuted"
   ],
   "note": "exact arithmetic; with an absolute eps small-scale data lose facets (C61_scale_refuted)"
  },
  {
   "property": "C62",
   "status": "proved",
   "theorems": [
    "C62_brute_force",
    "C62_duplicates_refuted"
   ],
   "note": "exact arithmetic; a repeated point yields degenerate facets (C62_duplicates_refuted)"
  },
  {
   "property": "C63",
   "status": "proved",
   "theorems": [
    "C63_vertices"
   ],
   "note": "exact arithmetic"
  },
  {
   "property": "C64",
   "status": "partial",
   "theorems": [
    "C64_once_partial",
    "C64_refuted"
   ],
   "note": "refuted: duplicates are removed by unique after sorting by the sum of the coordinates, which does not bring equal points together (C64_refuted); proved when the sums are distinct"
  },
  {
   "property": "C65",
   "status": "partial",
   "theorems": [
    "C65_input_points_partial",
    "C65_refuted"
   ],
   "note": "refuted: in doubles the coordinates are rounded by the translation to the interior point and back (C65_refuted); proved in exact arithmetic"
  },
  {
   "property": "C66",
   "status": "partial",
   "theorems": [
    "C66_outward_partial",
    "C66_refuted"
   ],
   "note": "refuted: the facet constructor orients relative to the coordinate origin (C66_refuted); proved when the origin is inside the hull"
  },
  {
   "property": "C67",
   "status": "proved",
   "theorems": [
    "C67_batch_knn",
    "C67_unbuilt_refuted"
   ],
   "note": "exact arithmetic, distances below the largest double, the tree holds a point; searching a tree that was never built is undefined (C67_unbuilt_refuted)"
  },
  {
   "property": "C68",
   "status": "partial",
   "theorems": [
    "C68_forest_knn_partial",
    "C68_refuted"
   ],
   "note": "refuted: the searches throw when a single tree they visit first (or any, for the parallel one) has fewer than k points (C68_refuted); proved exactly otherwise (C68_forest_knn_partial)"
  },
  {
   "property": "C69",
   "status": "proved",
   "theorems": [
    "C69_delaunay_safe",
    "C69_empty_refuted"
   ],
   "note": "exact arithmetic, general position; an empty input reads P[0] (C69_empty_refuted)"
  },
  {
   "property": "C70",
   "status": "proved",
   "theorems": [
    "C70_delaunay_empty_circles",
    "C70_duplicates_refuted"
   ],
   "note": "exact arithmetic, general position; with repeated points degenerate triangles are returned (C70_duplicates_refuted)"
  },
  {
   "property": "C71",
   "status": "proved",
   "theorems": [
    "C71_delaunay_complete",
    "C71_own_triangulation_refuted"
   ],
   "note": "exact arithmetic, general position, for the points together with the ring; flat triangles of the input whose circle reaches the ring are missing (C71_own_triangulation_refuted)"
  },
  {
   "property": "C72",
   "status": "proved",
   "theorems": [
    "C72_delaunay_cover"
   ],
   "note": "exact arithmetic, general position, for the points together with the ring (the premises of C69-C71), every schedule on which the run returns"
  },
  {
   "property": "C73",
   "status": "partial",
   "theorems": [
    "C73_delaunay_graph_partial",
    "C73_delaunay_graph_refuted"
   ],
   "note": "refuted: as written the scan reads edges[3t+1] and writes flag[3t], one cell past each array, on every input (C73_delaunay_graph_refuted). With one extra cell each, the result is exactly the set of Delaunay edges (C73_delaunay_graph_partial)."
  },
  {
   "property": "C74",
   "status": "partial",
   "theorems": [
    "C74_gabriel_graph_partial",
    "C74_gabriel_graph_refuted"
   ],
   "note": "refuted: as written it reads one cell past the edges on every input, and points past the end of P (C74_gabriel_graph_refuted). With those cells readable, whatever they contain, the result is exactly the Gabriel graph (C74_gabriel_graph_partial)."
  },
  {
   "property": "C75",
   "status": "partial",
   "theorems": [
    "C75_beta_skeleton_partial",
    "C75_negative_throws",
    "C75_freed_items_refuted",
    "C75_small_beta_refuted"
   ],
   "note": "refuted: the array the tree points into is freed before the searches (C75_freed_items_refuted), and below 1 the discs are centred at the end points, not the lens (C75_small_beta_refuted). With the array alive and the cells of C73 present, C75_beta_skeleton_partial gives the exact result over the reals for beta >= 1 and what is computed below 1; the rounding of distances to float is not covered."
  },
  {
   "property": "C76",
   "status": "proved",
   "theorems": [
    "C76_octree_build"
   ],
   "note": "Over the reals. The conversion of NaN to unsigned int, which C++ leaves undefined, is covered by C78_first_structure_refuted."
  },
  {
   "property": "C77",
   "status": "proved",
   "theorems": [
    "C77_all_nearest"
   ],
   "note": "Over the reals, with distances below the largest double."
  },
  {
   "property": "C78",
   "status": "partial",
   "theorems": [
    "C78_nearest_for_delaunay",
    "C78_first_structure_refuted"
   ],
   "note": "refuted: the first structure has one vertex, so 0/0 is converted to unsigned int on every run (C78_first_structure_refuted, in doubles). For a conversion that returns any value, C78_nearest_for_delaunay holds over the reals and gives the premise dp_knn of C69-C75."
  },
  {
   "property": "C79",
   "status": "partial",
   "theorems": [
    "C79_parallel_partial",
    "C79_refuted"
   ],
   "note": "refuted: when the hull has fewer than 64 facets the run ends by dereferencing the null apex (furthestApexParallel, randomApex); C79_refuted shows it for five points under every schedule. Proved: the exact outcome for every input in general position, correct facets from 64 facets on, undefined behaviour below."
  },
  {
   "property": "C80",
   "status": "proved",
   "theorems": [
    "C80_reservations"
   ],
   "note": "Hypothesis: the facets an apex writes to are those beneath it and their neighbours; H3ParRound.aroundAll_ok shows it for the frontiers of the loop."
  },
  {
   "property": "C81",
   "status": "partial",
   "theorems": [
    "C81_filter_partial",
    "C81_refuted"
   ],
   "note": "refuted: a failed compare-exchange leaves true in F and the next point is not flagged; C81_refuted gives six points of which two that are corners of the hull are lost, one of them strictly outside the sample. Also, a facet whose box volumes are not positive skips its own corners. Proved: no undefined behaviour, kept points are input points some facet sees, and of two successive points seen in a leaf one is kept, for every schedule."
  },
  {
   "property": "C82",
   "status": "partial",
   "theorems": [
    "C82_sampling_partial"
   ],
   "note": "C82_sampling_partial: exact outcome in terms of the points kept: the hull of all points (undefined below 64 facets, C79) when no extreme point was lost, a wrong list otherwise. Missing: that no extreme point is lost, which is false of the filter (C81_refuted)."
  },
  {
   "property": "C83",
   "status": "partial",
   "theorems": [
    "C83_projection_partial",
    "C83_refuted"
   ],
   "note": "refuted: P[P.size() - ii] is one past the end when a hash value is a multiple of P.size(); C83_refuted: for every hash function there is such a set. C83_projection_partial gives the exact condition."
  },
  {
   "property": "C84",
   "status": "partial",
   "theorems": [
    "C84_divide_partial",
    "C84_refuted"
   ],
   "note": "refuted: the points after the last full block are in no block; C84_refuted gives, for every number of workers, points whose last one is a corner of the hull and of no facet returned. C84_divide_partial: the result is exactly the hull of the points in blocks (undefined below 64 facets, C79)."
  },
  {
   "property": "C85",
   "status": "partial",
   "theorems": [
    "C85_pseudo_partial",
    "C85_refuted"
   ],
   "note": "refuted: with repeated points furthest finds nothing above the facet and returns its initial point of largest doubles; C85_refuted loses three of six corners. Proved for distinct points (C85_pseudo_partial): ends within n+1 levels, keeps all extreme points, and the outcome is the hull from 64 facets on, undefined below (C79)."
  },
  {
   "property": "C86",
   "status": "partial",
   "theorems": [
    "C86_outline",
    "C86_refuted",
    "C86_scale_refuted"
   ],
   "note": "refuted: the function returns an empty sequence whatever the points (C86_refuted, a dummy return). Proved: the list of facets it builds is the outline for every schedule within n rounds (C86_outline); without the margin corners are lost (C86_scale_refuted)."
  },
  {
   "property": "C87",
   "status": "proved",
   "theorems": [
    "C87_dual_knn",
    "C87_empty_refuted"
   ],
   "note": "exact arithmetic, distances below the largest double, at least one query and one point; without a query or on a tree that was never built the search is undefined (C87_empty_refuted)"
  },
  {
   "property": "C88",
   "status": "partial",
   "theorems": [
    "C88_forest_dual_knn_partial",
    "C88_refuted"
   ],
   "note": "refuted: with 1 to k-1 points in the buffer the search throws although the forest holds k points, and with an empty buffer and fewer than k points it reads unset answers (C88_refuted); proved exactly otherwise (C88_forest_dual_knn_partial)"
  },
  {
   "property": "C89",
   "status": "proved",
   "theorems": [
    "C89_concurrent_inserts",
    "C89_overfull_refuted"
   ],
   "note": "keys other than the empty one; the empty key is reported inserted and is not there (C89_empty_key_refuted), and with more keys than cells a thread never returns (C89_overfull_refuted)"
  },
  {
   "property": "C90",
   "status": "proved",
   "theorems": [
    "C90_lookup",
    "C90_idx",
    "C90_insert_seq",
    "C90_capacity",
    "C90_resize",
    "C90_full_refuted"
   ],
   "note": "an empty cell or a key that is there; the look-up of an absent key in a full table does not end (C90_full_refuted), the empty key seems to be there (C90_empty_key_refuted)"
  },
  {
   "property": "C91",
   "status": "partial",
   "theorems": [
    "C91_watertight_partial",
    "C91_one_facet_refuted",
    "C91_tetrahedron_refuted",
    "C91_dangling_refuted",
    "C91_table_full_refuted"
   ],
   "note": "refuted: if the first facet does not have the origin on its inner side it is the whole result, for a tetrahedron with its leftmost corner at the origin (C91_one_facet_refuted, C91_tetrahedron_refuted); the facet being wrapped is read after the sequence moved (C91_dangling_refuted); 100 corners have more directed edges than the table has cells (C91_table_full_refuted).  Proved: closed when the sequence is never moved and every pivot is consistently oriented (C91_watertight_partial); that the facets are hull facets is not proved"
  },
  {
   "property": "C92",
   "status": "proved",
   "theorems": [
    "C92_edges",
    "C92_weighted",
    "C92_double_fits",
    "C92_injective",
    "C92_weighted_injective",
    "C92_empty_refuted",
    "C92_wide_weight_refuted",
    "C92_race_refuted"
   ],
   "note": "for weights of at most 18 characters (C92_double_fits: every double except negative ones with a three-digit exponent); the refuted theorems show the empty sequence, the wide weight and its race"
  },
  {
   "property": "C93",
   "status": "proved",
   "theorems": [
    "C93_written",
    "C93_read",
    "C93_round_trip",
    "C93_bad_header",
    "C93_empty_refuted",
    "C93_range_refuted"
   ],
   "note": "for values in the range of the element type and below 2^63 when read; the refuted theorems show the empty sequence, the empty file and the silent wrap"
  },
  {
   "property": "C94",
   "status": "proved",
   "theorems": [
    "C94_box",
    "C94_ball",
    "C94_shell",
    "C94_cube",
    "C94_errors",
    "C94_rejection_refuted",
    "C94_origin_refuted"
   ],
   "note": "over the reals; the refuted theorems show a hash function with which the rejection loop never ends, and one with which doubles divide the origin by its length"
  },
  {
   "property": "C95",
   "status": "proved",
   "theorems": [
    "C95_simden",
    "C95_varden",
    "C95_negative_refuted",
    "C95_outside_refuted"
   ],
   "note": "over the reals, for rhoNoise >= 0; the refuted theorems show the writes past the end for a negative rhoNoise and a clustered point outside the box"
  },
  {
   "property": "C96",
   "status": "proved",
   "theorems": [
    "C96_grid",
    "C96_cells",
    "C96_faces_refuted",
    "C96_equal_refuted"
   ],
   "note": "over the reals; the refuted theorems show the shared numbers on the upper faces and the undefined conversion for equal points"
  },
  {
   "property": "C97",
   "status": "proved",
   "theorems": [
    "C97_links",
    "C97_finish",
    "C97_order_refuted"
   ],
   "note": "sequentially consistent memory; the refuted theorem shows that the documented link order is needed"
  },
  {
   "property": "C98",
   "status": "proved",
   "theorems": [
    "C98_option",
    "C98_value",
    "C98_argument",
    "C98_files",
    "C98_double_refuted",
    "C98_size_refuted",
    "C98_swallow_refuted"
   ],
   "note": "values that sscanf accepts, indices from 0; the refuted theorems show the uninitialised double, the negative size and the swallowed file name"
  },
  {
   "property": "C99",
   "status": "proved",
   "theorems": [
    "C99_filter_exact",
    "C99_filter_hull",
    "C99_empty_refuted",
    "C99_away_refuted"
   ],
   "note": "Over the reals. C99_filter_exact: exactly the points seen or corners, in order, the interior point has no effect. C99_filter_hull: no extreme point lost, same hull. C99_empty_refuted: no facets is undefined. C99_away_refuted (doubles): away from the origin an extreme point is lost because facet.h turns facets by the origin. C99_example: the points filter2 loses in C81_refuted are kept."
  },
  {
   "property": "C100",
   "status": "partial",
   "theorems": [
    "C100_read",
    "C100_blank",
    "C100_unterminated_refuted",
    "C100_header_refuted",
    "C100_dimension",
    "C100_dimension_refuted"
   ],
   "note": "refuted: every file whose last number completes a point and ends the file is read past its end (C100_unterminated_refuted, all such files); of a header of two words only the first is left out (C100_header_refuted); a comma and a blank count as two entries, a single line ending in a carriage return and an empty first line are undefined (C100_dimension_refuted). Proved otherwise: C100_read (files that end in a separator, headers of one word), C100_blank, C100_dimension (one delimiter between entries)."
  },
  {
   "property": "C101",
   "status": "partial",
   "theorems": [
    "C101_projection_partial",
    "C101_sample",
    "C101_past_end_refuted"
   ],
   "note": "refuted: P[P.size() - ii] is one past the end when a hash value is a multiple of the number of points, and the hull of a thousand points or more is then undefined (C101_past_end_refuted). C101_projection_partial: lowest and highest of every window otherwise; missing: that no hash value is a multiple. C101_sample: the random sample, always."
  }
 ]
}