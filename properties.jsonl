{"id": "C01", "title": "Wavefronts partition the nodes and order every dependence", "statement": "If HDAGG::build_levelSet_CSC returns k >= 0, then the k level slices it reports cover every node exactly once, every edge u->v goes from a strictly smaller to a strictly larger level, node_to_level agrees with the slice a node is in, and no array is read or written outside its allocation.", "quantifier": "every n and every CSC graph whose columns each hold their own diagonal once (edges in any order, any multiplicity), every prior content of the output arrays with levelPtr[0] = 0 (the code never writes that cell)", "why_tests_cant": "Tests run a handful of matrices; the claim is about every graph shape, including degree patterns that exercise the begin/end shrinking loops.", "anchors": ["src/hdagg/hdagg.cpp: HDAGG::build_levelSet_CSC (16-69)"]}
{"id": "C02", "title": "Wavefront number is the longest dependence chain", "statement": "In the reported level sets a node sits at level d exactly when the longest dependence chain ending in it has d edges; hence every level is non-empty and no schedule of wavefronts can use fewer levels.", "quantifier": "every acyclic CSC graph for which a level set is returned, every node", "why_tests_cant": "Optimality over all chains is a universally quantified statement; a test can only compare against another implementation on samples.", "anchors": ["src/hdagg/hdagg.cpp: HDAGG::build_levelSet_CSC (16-69)"]}
{"id": "C03", "title": "What the level-set failure code means", "statement": "build_levelSet_CSC terminates on every graph, and returns -1 exactly when the graph has a cycle or some dependence chain visits all n nodes (n > 0). So -1 is not a sound cycle test: a purely sequential chain (and every 1-node graph) is reported as cyclic.", "quantifier": "every CSC graph with one diagonal per column, cyclic or not", "why_tests_cant": "Termination on every cyclic input and the exact set of rejected inputs cannot be sampled.", "anchors": ["src/hdagg/hdagg.cpp: HDAGG::build_levelSet_CSC (29-68)"]}
{"id": "C04", "title": "Allocating level-set variants agree", "statement": "The allocating wavefront builders of the LBC layer report the same levels as the in-place one, with the same guarantees (partition, ordering, longest chain), and the queue-free wrapper/ node-to-level tabulation inverts the level slices.", "quantifier": "every CSC graph with one diagonal per column", "why_tests_cant": "Equivalence of implementations over all inputs.", "anchors": ["utils/sparse_inspector.cpp: sym_lib::build_levelSet_CSC (15-60, 958-1010), computingLevelSet_CSC (1014)", "src/hdagg/hdagg.cpp: computingNode2Level (315-329)"]}
{"id": "C05", "title": "Post order is a topological permutation", "statement": "computePostOrder returns a permutation of all nodes in which every node comes before all nodes that depend on it, without accessing memory outside its arrays.", "quantifier": "every acyclic CSC graph whose columns start with their diagonal", "why_tests_cant": "DFS orders depend on the whole graph; only induction over the traversal covers all of them.", "anchors": ["src/hdagg/hdagg.cpp: HDAGG::computePostOrder (215-264)"]}
{"id": "C06", "title": "Connected components are correct under every thread interleaving", "statement": "Whenever parallel_cc finishes, two nodes of the level window carry the same label iff they are connected by edges inside the window, and the label is the smallest position (in the given node list) of any node in the component.", "quantifier": "every graph, every window of levels, every number of threads, every assignment of iterations to threads and every interleaving of their individual reads and writes", "why_tests_cant": "The loops are racy by design; a test observes one interleaving per run.", "anchors": ["src/hdagg/hdagg.cpp: HDAGG::parallel_cc (266-312)", "src/lbc_csc_dag.cpp: parallel_cc (32-89)"]}
{"id": "C07", "title": "Connected components terminate under every interleaving", "statement": "parallel_cc cannot run forever: every round that reports a change strictly lowers at least one label, even when concurrent hooks overwrite each other, and every pointer-jumping loop ends.", "quantifier": "every graph, window, thread count and interleaving", "why_tests_cant": "Non-termination under a rare lost update cannot be excluded by running.", "anchors": ["src/hdagg/hdagg.cpp: HDAGG::parallel_cc (277-311)"]}
{"id": "C08", "title": "Component labels do not depend on thread timing", "statement": "Any two complete executions of parallel_cc on the same input produce the same labels, namely those of the single-threaded execution.", "quantifier": "every pair of interleavings on every input", "why_tests_cant": "Determinism ranges over pairs of schedules.", "anchors": ["src/hdagg/hdagg.cpp: HDAGG::parallel_cc (266-312)"]}
{"id": "C09", "title": "Window merging without bin packing gives a valid schedule", "statement": "computeSchedule without serial packing returns a schedule containing every node exactly once in which, for every edge u->v, u is in an earlier coarse level or earlier in the same part.", "quantifier": "every acyclic graph, its level sets, and every strictly increasing sequence of window cuts from 0 to the number of levels", "why_tests_cant": "Validity for every graph and every cut sequence; races appear only for specific component shapes.", "anchors": ["src/hdagg/hdagg.cpp: HDAGG::computeSchedule (332-482, apply_serial_schedule=false)"]}
{"id": "C10", "title": "Window merging with bin packing gives a valid schedule (id order)", "statement": "computeSchedule with packing and id sorting returns a valid schedule (all nodes exactly once, every dependence ordered) whenever each chunk table is non-decreasing and reaches the number of components of its window.", "quantifier": "every lower triangular graph, every cut sequence, every admissible chunk table and thread count", "why_tests_cant": "As C09; also every way of packing components into cores.", "anchors": ["src/hdagg/hdagg.cpp: HDAGG::computeSchedule (426-465, postOrder=false)"]}
{"id": "C11", "title": "Window merging with bin packing gives a valid schedule (post order)", "statement": "The same holds when parts are ordered by the DFS post order, for any acyclic numbering of the nodes.", "quantifier": "every acyclic graph with diagonal-first columns, every cut sequence, every admissible chunk table", "why_tests_cant": "As C09.", "anchors": ["src/hdagg/hdagg.cpp: HDAGG::computeSchedule (371-376, 447-459), computePostOrder"]}
{"id": "C12", "title": "The greedy window search ends and covers all levels", "statement": "HDAGG terminates and the window vector it returns starts at 0, is strictly increasing and ends at the number of levels, whatever the load-balance test decides at each step.", "quantifier": "every acyclic graph that is not one single chain, every sequence of accept/reject outcomes of the floating point divergence test; two or more cores with any costs, or one core with positive costs (C51 shows why)", "why_tests_cant": "The decision depends on floating-point logarithms; the guarantee must hold for every outcome.", "anchors": ["src/hdagg/hdagg.cpp: HDAGG::HDAGG (661-790)"]}
{"id": "C13", "title": "Component-to-core chunks cover every component", "statement": "For strictly positive component costs the greedy chunking yields a non-decreasing chunk table from 0 to the number of components, so each component is assigned to exactly one core.", "quantifier": "every core count >= 1, every number of components, every list of positive costs, every rounding of the per-core target that keeps a positive remainder positive", "why_tests_cant": "Boundary interplay of cores, parts and costs is unbounded.", "anchors": ["src/hdagg/hdagg.cpp: HDAGG::HDAGG (700-745)"]}
{"id": "C14", "title": "HDAGG returns a valid schedule", "statement": "HDAGG::HDAGG applied to a lower triangular dependence graph with positive node costs returns a schedule with each node exactly once and every dependence ordered, for both bin_pack settings, even though the chunk table of the last window is the one computed for a shorter window.", "quantifier": "every graph that is not one single chain, every positive cost vector, every core count, every outcome of the divergence test", "why_tests_cant": "End-to-end validity over all graphs and decisions.", "anchors": ["src/hdagg/hdagg.cpp: HDAGG::HDAGG (608-805)"]}
{"id": "C15", "title": "HDAGG silently drops nodes when costs are zero", "statement": "With bin packing and zero node costs HDAGG can return a schedule that omits nodes; positivity of the costs in C14 is needed.", "quantifier": "existence of a graph, a cost vector and a core count", "why_tests_cant": "A defect witness outside the tested cost models.", "anchors": ["src/hdagg/hdagg.cpp: HDAGG::HDAGG (714-745)"]}
{"id": "C16", "title": "GLC_V2 returns a valid schedule", "statement": "GLC_V2 returns a schedule with each node exactly once and every dependence ordered, for both bin_pack settings.", "quantifier": "every acyclic graph that is not one single chain, positive costs, every core count, every outcome of the divergence test", "why_tests_cant": "As C14.", "anchors": ["src/hdagg/hdagg.cpp: HDAGG::GLC_V2 (807-1089)"]}
{"id": "C17", "title": "A purely sequential DAG defeats HDAGG", "statement": "On a dependence graph with a chain through all n >= 1 nodes HDAGG does not return a schedule (the level count -1 is used as a container size).", "quantifier": "every n >= 1 and every DAG whose longest chain visits all nodes", "why_tests_cant": "Universal statement about a failure class.", "anchors": ["src/hdagg/hdagg.cpp: HDAGG::HDAGG (657-663)"]}
{"id": "C18", "title": "Fixed-size level coarsening gives a valid schedule", "statement": "build_coarsened_level_parallel returns a valid schedule for every graph density class, both in the merging and in the fall-back path.", "quantifier": "every non-empty acyclic graph that is not one single chain; coarse_part_ptr empty or starting with 0 on entry (the fall-back path never writes that cell)", "why_tests_cant": "As C09.", "anchors": ["src/hdagg/hdagg.cpp: build_coarsened_level_parallel (2538-2582)", "src/lbc_csc_dag.cpp: lbc_config (16-29)"]}
{"id": "C19", "title": "The coarsened graph is the exact quotient", "statement": "buildGroupDAG produces, for each group, the sorted duplicate-free list of groups reachable by one edge: (g,h) is present iff some node of g has an edge to some node of h; the output arrays are a well-formed CSC graph.", "quantifier": "every graph and every partition of its nodes into groups", "why_tests_cant": "iff over all graphs and partitions.", "anchors": ["src/hdagg/hdagg.cpp: HDAGG::buildGroupDAG (1236-1277)"]}
{"id": "C20", "title": "Tree grouping partitions the nodes and never throws", "statement": "treeBasedGrouping returns groups that contain every node exactly once, with consistent pointers, never raises its internal consistency error and never leaves its arrays; groups are numbered by increasing smallest member.", "quantifier": "every lower triangular graph with diagonal-first columns, both Lfactor settings", "why_tests_cant": "Universal over graphs and DFS orders.", "anchors": ["src/hdagg/hdagg.cpp: HDAGG::treeBasedGrouping (1349-1498)"]}
{"id": "C21", "title": "Tree grouping keeps the quotient acyclic", "statement": "The graph obtained by contracting the groups of treeBasedGrouping has no cycle.", "quantifier": "every lower triangular graph", "why_tests_cant": "Acyclicity of every quotient.", "anchors": ["src/hdagg/hdagg.cpp: HDAGG::treeBasedGrouping (1349-1498), buildGroupDAG"]}
{"id": "C22", "title": "Tree grouping does not keep the coarsened graph triangular", "statement": "Contrary to the code comment, numbering groups by their smallest member can produce a group edge from a larger to a smaller group id, so the id-sorted packing of HDAGG on the coarsened graph can order dependent groups wrongly.", "quantifier": "existence of a lower triangular graph", "why_tests_cant": "Defect witness.", "anchors": ["src/hdagg/hdagg.cpp: HDAGG::treeBasedGrouping (1455-1496)"]}
{"id": "C23", "title": "Chain grouping partitions the nodes into dependence chains", "statement": "chainGrouping returns groups containing every node exactly once; consecutive members of a group are joined by an edge that is the only one out of the first.", "quantifier": "every lower triangular graph with sorted diagonal-first columns", "why_tests_cant": "Universal over graphs; absence of duplicate visits depends on a global ordering invariant.", "anchors": ["src/hdagg/hdagg.cpp: HDAGG::chainGrouping (1650-1783)"]}
{"id": "C24", "title": "Ungrouping a group schedule yields a valid node schedule", "statement": "ungroupingScheduleAndApplyOrdering turns a valid schedule of the coarsened graph into a schedule that contains every node exactly once and orders every node dependence (id order for lower triangular graphs, post order for any DAG).", "quantifier": "every graph, every partition into groups, every valid group schedule", "why_tests_cant": "Composition property over all inputs.", "anchors": ["src/hdagg/hdagg.cpp: HDAGG::ungroupingScheduleAndApplyOrdering (1942-2017)"]}
{"id": "C25", "title": "Sparsification preserves all transitive dependences", "statement": "partialSparsification returns a subgraph (diagonals kept) of the input in which exactly the same pairs of nodes are connected by a directed path.", "quantifier": "every lower triangular graph with sorted diagonal-first columns, both clique settings, every thread count", "why_tests_cant": "Reachability over all graphs.", "anchors": ["src/hdagg/hdagg.cpp: HDAGG::partialSparsification (2019-2257)"]}
{"id": "C26", "title": "Clique simplification is memory-unsafe in a serial build", "statement": "Built without OpenMP, the clique branch of partialSparsification accesses its work array out of bounds for every n >= 1.", "quantifier": "every n >= 1", "why_tests_cant": "A configuration the test-suite does not build.", "anchors": ["src/hdagg/hdagg.cpp: HDAGG::partialSparsification (2025-2060)"]}
{"id": "C27", "title": "Group costs are sums of node costs", "statement": "costComputation with grouping gives each group exactly the sum of the costs costComputation gives its members without grouping, for every kernel except SpILU0_UL, for which this is false.", "quantifier": "every matrix, every grouping, every kernel", "why_tests_cant": "Universal over matrices and groupings; plus a defect witness.", "anchors": ["src/hdagg/hdagg.cpp: HDAGG::costComputation (2260-2399)"]}
{"id": "C28", "title": "Level-set triangular solve equals the serial solve", "statement": "The parallel level-set CSR solver computes bit-for-bit the vector of the serial solver.", "quantifier": "every lower triangular CSR matrix with diagonal last in its rows, every right-hand side, every floating-point semantics, every level set respecting the dependences, every thread count and interleaving of single memory accesses", "why_tests_cant": "Interleavings and values are unbounded.", "anchors": ["example/sptrsv_src/sptrsv.cpp: sptrsv_csr (12-20), sptrsv_csr_levelset (24-45, 131-151)"]}
{"id": "C29", "title": "Coarse-schedule triangular solve equals the serial solve", "statement": "The parallel solver driven by any valid (levels, parts, nodes) schedule computes bit-for-bit the vector of the serial solver.", "quantifier": "as C28, for every valid schedule", "why_tests_cant": "Interleavings and values are unbounded.", "anchors": ["example/sptrsv_src/sptrsv.cpp: sptrsv_csr_lbc (84-102), sptrsv_csr_lbc_seq (63-82)"]}
{"id": "C30", "title": "Valid schedules are data-race free", "statement": "While one coarse level of a valid schedule executes, no thread writes a vector entry that another thread reads or writes.", "quantifier": "every matrix, valid schedule, thread count, interleaving", "why_tests_cant": "Race freedom is a property of all schedules.", "anchors": ["example/sptrsv_src/sptrsv.cpp: sptrsv_csr_lbc (84-102)"]}
{"id": "C31", "title": "Grouped triangular solves equal the serial solve", "statement": "The solvers that execute groups of rows (level sets of groups, coarse schedules of groups) compute bit-for-bit the serial result whenever the group schedule is valid for the quotient and rows inside a group are in dependence order.", "quantifier": "every matrix, grouping, group schedule, interleaving", "why_tests_cant": "Interleavings and values are unbounded.", "anchors": ["example/sptrsv_src/sptrsv.cpp: sptrsv_csr_group_lbc (104-126), sptrsv_csr_group_levelset (153-177)", "example/sptrsv_src/executor.cpp: fs_csr_executor_sgroup (11-32)"]}
{"id": "C32", "title": "End to end: aggregate, then solve in parallel", "statement": "Building the dependence graph of a lower triangular matrix, aggregating it with HDAGG and running the parallel solver on the resulting schedule gives the serial solution.", "quantifier": "every lower triangular matrix with full diagonal that is not one single chain, positive costs, cores, decisions, interleavings", "why_tests_cant": "Whole-pipeline statement.", "anchors": ["src/hdagg/hdagg.cpp: HDAGG", "utils/sparse_utilities.cpp: csc_to_csr", "example/sptrsv_src/sptrsv.cpp: sptrsv_csr_lbc"]}
{"id": "C33", "title": "CSC to CSR conversion is exact", "statement": "csc_to_csr returns a CSR matrix holding exactly the same (row, column, value) entries; inside each row columns are in increasing order; converting back restores the entries.", "quantifier": "every well-formed CSC matrix", "why_tests_cant": "Universal over matrices.", "anchors": ["utils/sparse_utilities.cpp: csc_to_csr (23-92), csr_to_csc (103-115)"]}
{"id": "C34", "title": "Half and full symmetric storage", "statement": "make_half keeps exactly the entries on and below the diagonal (or on and above), in order; make_full of a lower triangle holds an entry (i,j) iff the input holds (i,j) or (j,i), diagonal once.", "quantifier": "every well-formed CSC matrix", "why_tests_cant": "Universal over matrices.", "anchors": ["utils/sparse_utilities.cpp: make_half (198-227), make_full (229-270)"]}
{"id": "C35", "title": "Permutation helpers are inverse to each other", "statement": "inv_perm / compute_inv_perm invert a permutation and reorder_array applies it; applying a permutation then its inverse restores the array.", "quantifier": "every permutation, every array", "why_tests_cant": "Universal.", "anchors": ["utils/sparse_utilities.cpp: compute_inv_perm (495), reorder_array (1140), inv_perm (1149)"]}
{"id": "C36", "title": "Elimination tree is the elimination tree", "statement": "computeParents, and compute_etree on an upper triangle, return for each i the smallest k > i whose row of the symbolic Cholesky factor contains i, or 'none'; on an unsymmetric matrix compute_etree returns that tree for A'A when no column repeats a row. Parents are larger than children, so the result is a forest. With repeated entries a node can become its own parent; with fewer rows than columns and a symmetric type compute_etree reads out of bounds; the lower triangle is refused.", "quantifier": "every pattern, every row order, any previous contents of the output", "why_tests_cant": "The specification is a closure over all paths in the graph, the code is a union-find loop.", "anchors": ["src/hdagg/hdagg.cpp: HDAGG::computeParents (1279-1298)", "utils/etree.cpp: update_etree, compute_etree"]}
{"id": "C37", "title": "Tree post-ordering visits children before parents", "statement": "tree_post_order returns each node whose chain of parents ends in a root exactly once, with all descendants of a node contiguously before it, siblings ordered by (clipped) weight and then index, roots in index order; nodes on or below a cycle of parents are left out silently.", "quantifier": "every parent array, every weight vector or none", "why_tests_cant": "Universal over forests.", "anchors": ["utils/lfactor_creation.cpp: tree_post_order (17-93)", "utils/sparse_inspector.cpp: dfs_tree (909-932)"]}
{"id": "C38", "title": "Child lists of a tree", "statement": "populate_children lists for every node exactly its children, in increasing order, provided the caller zeroed the counters (otherwise the lists are wrong); tree_to_csc gives the same lists as a CSC pattern, but its nnz field is wrong for every forest with other than one root.", "quantifier": "every parent array", "why_tests_cant": "Universal over trees.", "anchors": ["utils/sparse_utilities.cpp: populate_children (621-640)"]}
{"id": "C39", "title": "Consecutive-run grouping", "statement": "The class group's inspection v1 routines and NaiveGrouping split the node sequence into consecutive runs: every node in exactly one group, pointers consistent, inverse map right, and runs of v1 are chains of immediate dependences.", "quantifier": "every matrix, every block size >= 1", "why_tests_cant": "Universal over matrices.", "anchors": ["src/group.cpp: group::inspection_spicocsc_v1 (10-53), inspection_sptrsvcsr_v1 (154-196), NaiveGrouping (269-281)"]}
{"id": "C40", "title": "Out-of-bounds accesses in collection grouping", "statement": "CollectionGrouping::startCNGrouping reads one element past its node array on every non-empty graph, and inspection_sptrsvcsr_v2 reads index -1 on every non-empty matrix; inspection_spicocsc_v2 reads past its arrays as soon as the first column's first off-diagonal entry is the last row.", "quantifier": "every non-empty lower triangular input (third routine: of the described shape)", "why_tests_cant": "Memory errors that tests without sanitizers do not show.", "anchors": ["src/Group/Group.cpp: startCNGrouping (571-626)", "src/group.cpp: inspection_sptrsvcsr_v2 (199-266)"]}
{"id": "C41", "title": "Supernodes are maximal-size-bounded runs with identical structure", "statement": "Supernode detection splits columns (class SuperNodal also rows) into consecutive non-empty runs covering all of them; within a run every column's pattern equals the first column's pattern with the leading entries removed (a row's pattern is the first row's pattern followed by further entries), so a run is a dense triangle on the diagonal over equal rows; runs are not cut short. In class SuperNodal a run has at most the given width (no limit below 1); in class BCSCMatrix, lower and upper triangular, it can have one more than the given limit.", "quantifier": "every lower triangular matrix, every limit", "why_tests_cant": "Universal over matrices.", "anchors": ["utils/SuperNodalTools.cpp: createCSCSupernode (382-439), createCSRSupernode (323-380)", "utils/BCSCMatrix.cpp: supernodes (8-117)"]}
{"id": "C42", "title": "Bin packing keeps every node and balances", "statement": "worst_fit_bin_pack gives every part, contiguous and unchanged, to exactly one bin, adds its cost there and leaves other bins alone, for any cost type and any order of equal costs. If the total is below INT_MAX per bin, two bins never differ by more than the largest part. With costs of INT_MAX or more everything goes to the first bin; with no bins it accesses memory out of bounds.", "quantifier": "every list of parts, costs, bin count and tie order", "why_tests_cant": "Universal; balance heuristics must not lose work, and the INT_MAX start value shows only for costs no test has.", "anchors": ["src/lbc_utils.cpp: worst_fit_bin_pack (162-186), find_min (149-159)"]}
{"id": "C43", "title": "Height partitioning cuts", "statement": "height_partitioning_DAG_trng returns strictly increasing cuts starting at 0, each before the last level, the last one at or past the number of levels, the inner ones at distance minLevelDist and then divRate, with one inner-part count between 1 and the target per slab and 1 for the last, for minLevelDist >= 1 and divRate >= 1. With divRate <= 0, or no levels, it accesses memory out of bounds.", "quantifier": "every level structure, distance, division rate, part count", "why_tests_cant": "Universal over parameters.", "anchors": ["src/lbc_utils.cpp: height_partitioning_DAG_trng (189-260)"]}
{"id": "C44", "title": "LBC coarsening gives a valid schedule", "statement": "get_coarse_Level_set_DAG_CSC03 returns a schedule with each node exactly once and every dependence ordered, with at most the requested number of parts per level, for every acyclic graph that is not one path, minLevelDist, divRate >= 1 and innerParts <> 0. On a path through all nodes or a cycle it throws, on the empty graph it accesses memory out of bounds, innerParts = 0 divides by zero, and the parameters lbc_config picks for fewer than ten entries per row (0, 0) make it access memory out of bounds.", "quantifier": "every graph, parameters, cost type, tie order", "why_tests_cant": "Universal over graphs and parameters.", "anchors": ["src/lbc_csc_dag.cpp: get_coarse_Level_set_DAG_CSC03 (401-685)", "src/lbc_csc_dag.cpp: lbc_config (16-30)"]}
{"id": "C45", "title": "Safe size arithmetic", "statement": "add_size_t returns the exact sum and leaves ok set iff it fits in 64 bits, otherwise 0 with ok cleared; mult_size_t leaves ok set iff the product fits and then returns it exactly, but after an overflow it may return a wrapped product instead of the documented 0.", "quantifier": "all 64-bit operands", "why_tests_cant": "2^128 operand pairs.", "anchors": ["utils/utils.cpp: mult_size_t (33-47), add_size_t (50-54)"]}
{"id": "C46", "title": "Partitioning by weight / BFS keeps every node", "statement": "partition_by_weight returns non-decreasing boundaries within the set, each part the shortest run reaching its target; with positive whole-number weights and targets that add up to the total every node is in a part, otherwise (zero weights at the end, too small targets) nodes can be in no part. partition_by_bfs places every node in exactly one part, and accesses memory out of bounds when asked for no parts.", "quantifier": "every graph, weights, part counts, rounding", "why_tests_cant": "Universal.", "anchors": ["utils/utils.cpp: partition_by_weight (57-82), partition_by_bfs (85-163)"]}
{"id": "C47", "title": "Schedule-derived group graph", "statement": "getFinalScheduleDAG returns groups that are exactly the parts of the schedule and the exact quotient graph over them.", "quantifier": "every schedule and graph", "why_tests_cant": "Universal.", "anchors": ["src/hdagg/hdagg.cpp: getFinalScheduleDAG (2484-2535)"]}
{"id": "C48", "title": "The post order reads past an empty work list", "statement": "On every non-empty acyclic graph HDAGG::computePostOrder executes stack.back() on an empty vector (undefined behaviour) each time a depth-first tree is finished; the value obtained is never used, so C05 holds for whatever value the platform returns.", "quantifier": "every non-empty acyclic graph", "why_tests_cant": "The read is silent on common platforms; a test that passes does not show its absence.", "anchors": ["src/hdagg/hdagg.cpp: HDAGG::computePostOrder (253-259)"]}
{"id": "C49", "title": "Incremental component labelling is correct under every interleaving", "statement": "HDAGG::computeCC resumes the hook-and-jump rounds from the labels of a shorter window. Under every interleaving of the threads no access is out of bounds, no execution is infinite, an unfinished execution can always step, and every finished one leaves the same labels: the components of the longer window, named by least position.", "quantifier": "every graph, every level window and every shorter window, every interleaving", "why_tests_cant": "A test sees one interleaving and one growth pattern of the window.", "anchors": ["src/hdagg/hdagg.cpp: HDAGG::computeCC (486-605)"]}
{"id": "C50", "title": "The debug assertion on chunk tables does not hold", "statement": "In builds with assertions on, HDAGG/GLC_V2 with bin packing assert that the last entry of the chunk row equals the number of components of the window. It is false that this holds for all positive-cost lower triangular DAGs: when the last level is accepted, the stored row is that of the window without the last level, which can have more components.", "quantifier": "all DAGs (refuted by a 6-node witness)", "why_tests_cant": "Release tests never evaluate the assertion; most debug tests end their last window by rejection.", "anchors": ["src/hdagg/hdagg.cpp: HDAGG::computeSchedule (428-431), HDAGG::HDAGG (682-779)"]}
{"id": "C51", "title": "One core and zero costs read out of bounds", "statement": "For every non-empty acyclic graph that is not a single chain, HDAGG with cores = 1 and all node costs zero reads cost[1], one past the end of its vector, while balancing the first window.", "quantifier": "every such graph, both flags, every outcome of the divergence test", "why_tests_cant": "The read past the vector is silent on common platforms.", "anchors": ["src/hdagg/hdagg.cpp: HDAGG::HDAGG (701-748)"]}
{"id": "C52", "title": "transpose_general returns the transpose", "statement": "For every well-formed matrix with at least one row, transpose_general returns a matrix with exchanged dimensions whose column r is the list of entries of row r of the input in column order (values too unless the input is a pattern); for a matrix without rows it returns the null pointer.", "quantifier": "every well-formed matrix of any dimensions, pattern or not, any value type", "why_tests_cant": "Order and multiplicity for every shape cannot be enumerated.", "anchors": ["utils/sparse_utilities.cpp: transpose_general (163-195)"]}
{"id": "C53", "title": "permute_general permutes rows and columns", "statement": "Column k of the result is column q[k] of the input with every row index r renamed pinv[r], in the same order, for all permutations q and pinv.", "quantifier": "every well-formed matrix with at least one column, all permutations", "why_tests_cant": "There are m! n! pairs of permutations.", "anchors": ["utils/sparse_utilities.cpp: permute_general"]}
{"id": "C54", "title": "csr_to_csc on matrix objects is right only for square matrices", "statement": "csr_to_csc(CSR*) is exact on every square matrix; it hands its dimensions over in the wrong order, so a 1 x 3 matrix is read out of bounds and a 2 x 1 matrix loses an entry.", "quantifier": "every square matrix; two non-square witnesses", "why_tests_cant": "Tests only use square matrices.", "anchors": ["utils/sparse_utilities.cpp: csr_to_csc (108-115)"]}
{"id": "C55", "title": "copy_from_to does not copy the pointers", "statement": "Whatever its arguments, copy_from_to leaves the pointer array of the destination as it was (it assigns dst->p[i] to itself), so the copy differs from the source whenever the pointers did.", "quantifier": "all sources and destinations", "why_tests_cant": "A test that copies onto an object of the same structure passes.", "anchors": ["utils/sparse_utilities.cpp: copy_from_to (519-537)"]}
{"id": "C56", "title": "tridiag builds the tridiagonal matrix for every order but one", "statement": "For every n >= 2, column k of tridiag(n,a0,a1,a2) is a0 above, a1 on and a2 below the diagonal, truncated at the corners, and the arrays are exactly filled; for n = 1 it writes one cell past its arrays.", "quantifier": "all n, all values, any value type", "why_tests_cant": "A test tries a few orders; the overflow for n = 1 is silent.", "anchors": ["utils/sparse_utilities.cpp: tridiag (117-151)"]}
{"id": "C57", "title": "csc_to_csr without rows writes through a null pointer", "statement": "For every well-formed matrix with no rows, csc_to_csr(CSC*) stores the total at rowptr[0] although the CSR constructor allocated no row pointers.", "quantifier": "every well-formed matrix with m = 0", "why_tests_cant": "Nobody tests empty matrices; the model makes the access an error.", "anchors": ["utils/sparse_utilities.cpp: csc_to_csr (59-92)", "include/aggregation/def.h: CSR (211-230)"]}
{"id": "C58", "title": "Threads of the clique search race", "statement": "In partialSparsification with clique simplification the last clique of a thread may run past the thread's columns, so two threads store different labels to the same entry of node_to_clique without synchronisation, and the graph returned depends on the interleaving and on the number of threads (it is correct either way, see C25).", "quantifier": "every interleaving of the label stores; a 4-node witness with two threads", "why_tests_cant": "A test sees one interleaving; the two results are both legitimate so nothing fails.", "anchors": ["src/hdagg/hdagg.cpp: partialSparsification (2033-2102)"]}
{"id": "C59", "title": "partialSparsification appends to its output vectors", "statement": "For any contents of the output vectors on entry, the new entries come after the old ones while the pointers start from zero (except DAG_ptr[0], which is kept), so a second call on the same vectors returns a graph that does not belong to its pointers.", "quantifier": "all graphs, all contents of the output vectors, every interleaving", "why_tests_cant": "Tests use fresh vectors.", "anchors": ["src/hdagg/hdagg.cpp: partialSparsification (2199-2215)"]}
{"id": "C60", "title": "costComputation with an empty vector is out of bounds", "statement": "When the caller passes an empty cost vector, costComputation does not resize it (the resize is under !cost.empty()), so for every non-empty matrix without empty rows and columns and every kernel the first addition is out of bounds.", "quantifier": "all such matrices, all kernels", "why_tests_cant": "The examples always resize first; the failure is silent without a sanitizer.", "anchors": ["src/hdagg/hdagg.cpp: costComputation (2263-2266)"]}
{"id": "C61", "title": "End to end: wavefront solver", "statement": "For every lower triangular matrix with full diagonal whose graph is not one single chain, converting it to rows, computing wavefronts from its columns and running the parallel level-set solver gives the serial solution, without data races, under every interleaving.", "quantifier": "every such matrix, right-hand side, value type and arithmetic, every interleaving", "why_tests_cant": "Whole-pipeline statement over all matrices.", "anchors": ["example/SpTRSV_runtime.h: SpTrsv_LL_Wavefront (74-106)", "utils/sparse_inspector.cpp: computingLevelSet_CSC", "example/sptrsv_src/sptrsv.cpp: sptrsv_csr_levelset"]}
{"id": "C62", "title": "The wavefront solver does not solve chains", "statement": "If the dependence graph has a path through all nodes (for example every bidiagonal or tridiagonal lower matrix), computingLevelSet_CSC returns -1 levels, the caller does not look at it, and the solver returns the right-hand side unchanged.", "quantifier": "every matrix whose graph has a path through all nodes", "why_tests_cant": "The wrong answer is silent; a test has to hit a chain.", "anchors": ["example/SpTRSV_runtime.h: SpTrsv_LL_Wavefront (74-106)"]}
{"id": "C63", "title": "End to end: sparsify, tree-group, HDAGG, ungroup, solve", "statement": "For every lower triangular matrix with sorted-diagonal-first columns the SpTrSv_LL_Tree_HDAGG pipeline either gives the serial solution race-free under every interleaving (of the sparsification threads and of the solver), or its group graph has a path through all groups and the inspector throws; the latter happens for matrices that are not chains (a diamond of 4 nodes).", "quantifier": "every such matrix, any thread counts, decisions and interleavings", "why_tests_cant": "Six stages composed; a test cannot cover their product.", "anchors": ["example/SpTRSV_runtime.h: SpTrSv_LL_Tree_HDAGG (435-505)"]}
{"id": "C64", "title": "End to end: tree groups in wavefronts", "statement": "The SpTrSv_LL_Tree_Wavefront_No_unPACK pipeline gives the serial solution race-free under every interleaving unless the group graph has a path through all groups; then it returns the right-hand side unchanged, also for matrices that are not chains (a diamond of 4 nodes).", "quantifier": "every lower triangular matrix with diagonal-first columns, all interleavings", "why_tests_cant": "Whole-pipeline statement; the wrong answer is silent.", "anchors": ["example/SpTRSV_runtime.h: SpTrSv_LL_Tree_Wavefront_No_unPACK (193-234)"]}
{"id": "C65", "title": "Relabelling a forest by its post-order", "statement": "Relabelling a forest by its own post-order (the loop in row_col_counts' caller) gives an isomorphic forest in which every parent has a larger label than its children.", "quantifier": "every forest, every weight vector, every inverse permutation", "why_tests_cant": "Universal over forests; the loop uses a work array and in-place copies.", "anchors": ["utils/lfactor_creation.cpp: reordering loop (363-375)", "utils/lfactor_creation.cpp: tree_post_order (17-93)"]}
{"id": "C66", "title": "Tree depths and heights", "statement": "get_node_depth returns the number of edges (or the total weight) up to the root; the three height functions return the largest depth, except that get_tree_height_efficient leaves out the weight of the leaf when weights are given.", "quantifier": "every forest, all weights, all child counts", "why_tests_cant": "Universal over forests; the efficient version prunes walks and must be shown to lose nothing.", "anchors": ["utils/sparse_utilities.cpp: get_node_depth, get_tree_height_bruteforce, get_tree_height (643-679), get_tree_height_efficient (712-735)"]}
{"id": "C67", "title": "Subtree costs", "statement": "compute_subtree_cost returns for every node the total weight of its subtree if parents have larger indices than children; for other numberings costs are incomplete, and nothing is ever added to node 0.", "quantifier": "every forest, all weights", "why_tests_cant": "Universal over forests.", "anchors": ["utils/sparse_utilities.cpp: compute_subtree_cost (682-695)"]}
{"id": "C68", "title": "The elimination-tree graph orders all dependences", "statement": "buildETree returns a compact lower triangular graph, diagonal first, whose edges are exactly node -> parent in the elimination tree; every entry of the matrix and every fill entry is a path in it, so a schedule that respects the tree respects the matrix, even when the matrix is not a factor.", "quantifier": "every lower triangular pattern given by rows", "why_tests_cant": "Path existence in a closure; tests would check given matrices only.", "anchors": ["src/hdagg/hdagg.cpp: HDAGG::buildETree (1300-1325)"]}
{"id": "C69", "title": "Row pattern of the factor", "statement": "computeNoneZeroPatternOfRowK returns exactly the columns of row k of the symbolic factor, each once, children before parents, and restores its marks; but it reads what a previous call left in s[n-1], and writes out of bounds if that is not a node number.", "quantifier": "every pattern, every row, any clean mark array", "why_tests_cant": "Universal over rows and trees; the dependence on a stale cell is invisible in most runs.", "anchors": ["src/hdagg/hdagg.cpp: HDAGG::computeNoneZeroPatternOfRowK"]}
{"id": "C70", "title": "End to end: the tree-grouping pipelines with all options", "statement": "SpTrSv_LL_Tree_HDAGG and its BFS variant, for isLfactor true or false and any group size limit >= 1, give the serial solution race-free under every interleaving, or the group graph has a path through all groups and the inspector throws. With isLfactor the latter happens for matrices with almost no dependences (first column full, all others diagonal).", "quantifier": "every lower triangular matrix, all option combinations, any rounding of the balance test, all interleavings", "why_tests_cant": "Product of six stages, two options and all interleavings.", "anchors": ["example/SpTRSV_runtime.h: SpTrSv_LL_Tree_HDAGG (435-505), SpTrSv_LL_Tree_HDAGG_BFS (632-712)"]}
{"id": "C71", "title": "Group graph computed from the rows of the matrix", "statement": "fs_csr_inspector_dep followed by the sort/unique/copy code of SpTrsvCSR_Grouping produces a well-formed CSC graph over the groups, diagonal first, with one edge g -> h exactly when some row of group h uses an unknown of another group g, listed once and in increasing order.", "quantifier": "every matrix, every partition into groups with correct inverse map", "why_tests_cant": "Universal over matrices and partitions; duplicates and missing edges show only for particular patterns.", "anchors": ["utils/sparse_inspector.cpp: fs_csr_inspector_dep", "example/sptrsv_demo_utils.h: SpTrsvCSR_Grouping (386-450)"]}
{"id": "C72", "title": "End to end: run grouping with level sets", "statement": "SpTrsvCSR_Grouping (run grouping, group graph, queue level sets, grouped level-set solve) gives the serial solution race-free under every interleaving for every lower triangular matrix, including pure chains on which the HDAGG inspector throws.", "quantifier": "every lower triangular matrix, every right hand side, all interleavings", "why_tests_cant": "Product of four stages and all interleavings.", "anchors": ["example/sptrsv_demo_utils.h: SpTrsvCSR_Grouping (386-450)"]}
{"id": "C73", "title": "LBC levels are not balanced", "statement": "It is false that the levels get_coarse_Level_set_DAG_CSC03 makes from independent nodes are balanced: the accumulated bin costs are not reset between slabs, so a later slab of independent nodes of equal cost can be put entirely into one part although several bins are available.", "quantifier": "refutation: concrete graph with equal costs", "why_tests_cant": "A balance property over all graphs; the schedule is still correct, so tests of results cannot see it.", "anchors": ["src/lbc_csc_dag.cpp: get_coarse_Level_set_DAG_CSC03 (401-685)"]}
{"id": "C74", "title": "End to end: load-balanced coarsening solver", "statement": "SptrsvLBCDAG and SptrsvLBC_W_Sorting (coarsening with row lengths as costs, optional sorting of each part, parallel solve) give the serial solution race-free under every interleaving for every lower triangular matrix that is not one chain, lp <> 0, cp >= 1, ic >= 1; on a chain they throw, and with the parameters of lbc_config for fewer than ten entries per row they access memory out of bounds.", "quantifier": "every lower triangular matrix, right hand side, parameters, cost arithmetic, all interleavings", "why_tests_cant": "Product of three stages and all interleavings.", "anchors": ["example/sptrsv_demo_utils.h: SptrsvLBCDAG (190-206), SptrsvLBC_W_Sorting (270-312)", "src/lbc_csc_dag.cpp: get_coarse_Level_set_DAG_CSC03 (401-685), lbc_config (16-30)"]}
{"id": "C75", "title": "End to end: run grouping with load-balanced coarsening", "statement": "SpTrsvCSR_Grouping_H2 (run grouping, group graph, coarsening of the groups, optional sorting, grouped solve) gives the serial solution race-free under every interleaving unless the group graph has a path through all groups, in which case it throws. It is false that the cost it gives to a group is the number of entries of its rows: the cost is that of the last row only.", "quantifier": "every lower triangular matrix by rows, right hand side, parameters, cost arithmetic, all interleavings", "why_tests_cant": "Product of five stages and all interleavings; the wrong cost does not change results.", "anchors": ["example/sptrsv_demo_utils.h: SpTrsvCSR_Grouping_H2 (505-600)"]}
{"id": "C76", "title": "Parallel load-balanced coarsening", "statement": "get_coarse_Level_set_DAG_CSC03_parallel with bin packing returns, for every number of threads, every distribution of the slabs in which each thread does its slabs in increasing order, any result of the racing cost additions and any initial content of its work array, a valid schedule with the same bounds as the sequential version; on cycles and single chains it throws. It is false for distributions in which a thread does a later slab first (allowed by schedule(dynamic) since OpenMP 5.0): nodes get lost. It is false without bin packing: with independent slabs the part array is overrun.", "quantifier": "every graph with one diagonal entry per column, neither cyclic nor one chain; parameters lp <> 0, cp >= 1, ic >= 1; every monotonic distribution of slabs over threads", "why_tests_cant": "All distributions of slabs to threads; a lost node needs a rare order of chunk assignment.", "anchors": ["src/lbc_csc_dag.cpp: parallel_cc, process_l_partition, make_partitions_parallel, get_coarse_Level_set_DAG_CSC03_parallel (32-399)"]}
{"id": "C77", "title": "Dependence graph of the supernodes", "statement": "Class SuperNodal, given a lower triangular matrix by columns and rows, returns a graph with one node per supernode and an edge between two different supernodes exactly when some column of the first has an entry in a row of the second; its columns are sorted, start with the diagonal, point only to later supernodes, and the index array has exactly the stored length. With a null row matrix it dereferences the null pointer also for type CSC.", "quantifier": "every lower triangular matrix with full diagonal, both types, every limit", "why_tests_cant": "Universal over matrices; a missing dependence shows only as a rare wrong result of a parallel solve.", "anchors": ["utils/SuperNodalTools.cpp: SuperNodal constructor (286-321), createDepDAG (449-481)"]}
{"id": "C78", "title": "Blocked format holds the matrix exactly", "statement": "BCSCMatrix with given or detected supernodes stores for each block the increasing list of rows that have an entry in one of its columns and, column by column, the value of the matrix or zero at each of these rows; blocks are contiguous and nnz is their total size. With detected supernodes the rows of a block are those of its first column. This needs sorted columns (values get lost otherwise) and an entry in the last row of the last column (otherwise the index array is read out of bounds).", "quantifier": "every square matrix with sorted columns and the last diagonal entry, every partition into non-empty blocks, any value type", "why_tests_cant": "Universal over matrices and partitions; lost values need an unsorted column.", "anchors": ["utils/BCSCMatrix.cpp: calcSize (120-156), createFormat (159-218)", "include/aggregation/BCSCMatrix.h: constructors (29-50)"]}
{"id": "C79", "title": "compressed_BCSC_to_CSC overruns its index array", "statement": "compressed_BCSC_to_CSC writes out of bounds for every blocked matrix with at least one block: it allocates one cell per row block but also writes an extra entry per column.", "quantifier": "every blocked matrix with a block", "why_tests_cant": "Heap overruns are often silent; the claim is that every call overruns.", "anchors": ["utils/BCSCMatrix.cpp: compressed_BCSC_to_CSC (221-289)"]}
{"id": "C80", "title": "Level sets of a tree", "statement": "build_level_set_tree and build_level_set_tree_efficient put every node of a forest, given by its parent array, into the level of its height (the longest chain of descendants below it); the slices partition the nodes, no level is empty, and the efficient version also returns the height of each node. With fewer than two nodes the efficient version always writes out of bounds.", "quantifier": "every forest; child counts as in the callers; arrays at least as long as in the callers", "why_tests_cant": "Universal over forests; the early break of the walk to the root needs an argument about the order of the walks.", "anchors": ["utils/sparse_inspector.cpp: build_level_set_tree_efficient (459-498), build_level_set_tree (501-550)"]}
{"id": "C81", "title": "Splitting a forest into its trees", "statement": "post_order_spliting, called with the child lists of populateChildren, terminates without errors and returns exactly the trees of the forest as parts, each once, with every child listed before its parent; nodes with parent -2 are in no part; the cost of a part is the sum of the costs of its nodes in that order.", "quantifier": "every forest on a subset of the nodes (the others have parent -2), any cost arithmetic, any positive number of partitions", "why_tests_cant": "Universal over forests; the traversal uses four arrays whose consistency is an invariant.", "anchors": ["utils/sparse_utilities.cpp: post_order_spliting (933-1064)", "utils/sparse_utilities.cpp: populateChildren"]}
{"id": "C82", "title": "Tree-based load-balanced coarsening", "statement": "get_coarse_levelSet_tree reads out of bounds on every forest with at least three levels, whatever its parameters (the last slab goes one level too far), and writes out of bounds on every forest with fewer than two nodes. On forests with at most two levels and at least two nodes it returns one level with one part in a valid order. If the stray reads give values not above n, the result is a valid schedule of the forest with at most min(n, max(1, 2 innerParts - 1)) parts, provided the part array has more cells than that; with its n cells it is overrun when every node gets its own part.", "quantifier": "every forest, all parameters, any cost arithmetic, any result of the sort that is a permutation", "why_tests_cant": "Heap overreads are silent; the claims are universal over forests and parameters.", "anchors": ["src/lbc_tree.cpp: get_coarse_levelSet_tree (10-429)", "src/lbc_utils.cpp: height_partitioning (263-344)"]}
{"id": "C83", "title": "Symmetric transposition and reordering", "statement": "transpose_symmetric of a square matrix of which one triangle is stored gives the other triangle: exactly the entries of the stored triangle (entries outside it are dropped), columns sorted without a permutation; with a permutation P the result holds exactly the renamed entries, each in the other triangle, and a second call without permutation gives P A P' in the original triangle with sorted columns. An index that is negative, above n or repeated gives a null pointer, but the index n passes the check and writes out of bounds. General or rectangular matrices are refused, and the empty matrix writes out of bounds.", "quantifier": "every well-formed matrix with a stored triangle, any value type, every permutation array", "why_tests_cant": "Universal over matrices and permutations; four code paths for count and four for fill.", "anchors": ["utils/sparse_utilities.cpp: transpose_symmetric (273-475)"]}
{"id": "C84", "title": "Sum of sparse matrices and make_symmetric", "statement": "add of two matrices of the same shape and kind returns alpha A + beta B: each column has one entry for every row that occurs in A or B, in increasing order if sorting is asked for, with the sum of the scaled values (repeated entries included); its nnz field is the number of cells, not of entries. Different kinds are refused. If only B is a pattern the result claims to have values but has none. make_symmetric returns the matrix itself if it is stored in the wanted triangle, its symmetric transposition if in the other, and for a general square matrix the wanted triangle of (A + A')/2 with sorted columns, without duplicates.", "quantifier": "every pair of well-formed matrices of the same shape, any value type and arithmetic, every flag", "why_tests_cant": "Universal over matrices; marker and cursor arrays are shared by all columns.", "anchors": ["utils/sparse_utilities.cpp: scatter, add, make_symmetric (1070-1130)"]}
{"id": "C85", "title": "Coarsening the elimination tree of a matrix", "statement": "get_coarse_levelSet_DAG_CSC_tree coarsens exactly the elimination tree of the stored symmetric matrix (lower triangle, upper triangle, or a general matrix plus its transpose, by stype). It reads out of bounds whenever i < j < k are joined one to the next in the factor, on every one-row matrix, and deletes the matrix twice for stype above 1. With at most two levels it returns one valid part. If the stray reads give values not above n and the part array is large enough, the schedule respects every dependence of the factor and the solver class SptrsvLBC built on it gives the serial result for every interleaving, without races.", "quantifier": "every well-formed square matrix, every stype, all parameters, any cost and value arithmetic, any permuting sort", "why_tests_cant": "Universal over matrices, parameters and interleavings; that a tree covers all dependences of the matrix is the theorem of elimination trees.", "anchors": ["src/lbc_csc.cpp: get_coarse_levelSet_DAG_CSC_tree (299-349)", "example/sptrsv_demo_utils.h: SptrsvLBC (114-160)"]}
{"id": "C86", "title": "Row and column counts of the Cholesky factor", "statement": "Given the lower triangle of a symmetric matrix by columns, its elimination tree and a post-order of the tree, row_col_counts_symmetric returns in ColCount[j] exactly the number of rows u with an entry in column j of the Cholesky factor (diagonal included) and, if asked, in RowCount[u] the number of entries of row u. Its union-find with path compression always ends and nothing is read or written out of bounds. Any other storage is refused and no array changed.", "quantifier": "every well-formed square matrix with stype < 0, every post-order of its elimination tree, with or without RowCount", "why_tests_cant": "Universal over matrices; the counts are obtained without forming the factor, by skeleton edges, least common ancestors and differences up the tree.", "anchors": ["utils/lfactor_creation.cpp: initialize_node, process_edge, finalize_node, row_col_counts_symmetric (95-308)"]}
{"id": "C87", "title": "Pattern of a row of the factor", "statement": "ereach stores in s[top..n) exactly the columns left of the diagonal in which row k of the Cholesky factor has an entry, each once, every column before its parent in the elimination tree, and leaves the mark array as it found it.", "quantifier": "every well-formed upper triangle by columns (other entries are ignored), its elimination tree, every row, every nonnegative mark array", "why_tests_cant": "Universal over matrices and rows; the marks are shared with the stack in one array and must be undone for the next row.", "anchors": ["utils/sparse_inspector.cpp: ereach (935-955)"]}
{"id": "C88", "title": "Pattern of the Cholesky factor", "statement": "With exact column counts and the elimination tree, build_L_pattern returns the exact pattern of the factor: every entry, none twice, rows increasing in each column, the diagonal first, arrays of exactly the needed size; none of its asserts fails. accessed[s] is the total size of the matrix columns that row s of the factor touches.", "quantifier": "every well-formed matrix, exact counts", "why_tests_cant": "Universal over matrices; columns are filled row by row through shared cursors.", "anchors": ["utils/lfactor_creation.cpp: compute_cost_per_col, build_L_pattern_from_col_counts (311-361)"]}
{"id": "C89", "title": "Symbolic factorisation end to end", "statement": "build_symbolic_simplicial_lfactor on a lower triangle, with or without a METIS permutation, ends without failed assertion or stray access. Its permutation is METIS's composed with a post-order of the elimination tree; perm/iperm and post/ipost are inverse permutations; parent is the elimination tree of P A P', numbered so that every subtree is an interval; the column counts and the pattern are exactly those of the factor of P A P'. A matrix that is not square or has stype 0 makes it dereference a null pointer; an upper triangle (stype > 0) makes it write behind an empty array.", "quantifier": "every well-formed square matrix, every permutation from METIS", "why_tests_cant": "Universal over matrices and permutations; a chain of ten passes whose failure flags are ignored.", "anchors": ["utils/lfactor_creation.cpp: build_symbolic_simplicial_lfactor (363-433)"]}
{"id": "C90", "title": "read_mtx returns the matrix of the file", "statement": "For a file sorted by columns with entries inside the matrix, read_mtx never fails in memory and returns the rows and values of the file in order; the compressed matrix it returns is the matrix of the file exactly when every column has an entry, or all entries are in the last column (with any other empty column the pointers are wrong). A file with fewer entries than announced, and a pattern file with three or more entries, gives the null pointer. A file whose column changes more often than there are columns makes it write out of bounds, and so does a matrix without columns. A file in another order can silently give another matrix.", "quantifier": "every file, all sizes and values, any reading of literals", "why_tests_cant": "Universal over files; the characterisation is an equivalence.", "anchors": ["utils/sparse_io.cpp: read_mtx (16-65)"]}
{"id": "C91", "title": "read_mtx_csc_real returns the matrix of the file", "statement": "For real, integer and pattern coordinate files in any order, read_mtx_csc_real returns exactly the matrix of the file (duplicates kept, values 1 for patterns) with rows sorted in every column, if insert_diag is false or no column is empty. With insert_diag and e empty columns, the pointers and nnz describe the file plus e zero diagonal entries, but both arrays end e cells early: the last e entries are lost and nnz exceeds the allocation. A file with fewer entries than announced or a column index beyond the matrix makes it write out of bounds.", "quantifier": "every file, every correct std::sort, any value type", "why_tests_cant": "Universal over files and sorting outcomes; insertions move the entries while the pointers are computed.", "anchors": ["utils/sparse_io.cpp: read_triplets_real, compress_triplets_to_csc, read_mtx_csc_real (358-424)"]}
{"id": "C92", "title": "dense_to_csc is exact", "statement": "Column j of the result lists exactly the rows i with val[i][j] != 0, increasing, each with its value; pointers, nnz and array sizes agree. With no columns it reads a null pointer.", "quantifier": "every dense array, any value type and zero test", "why_tests_cant": "Universal over matrices.", "anchors": ["utils/sparse_io.cpp: dense_to_csc (132-158)"]}
{"id": "C93", "title": "convert_to_one_based loses the values", "statement": "The result has every row index and the position of every pointer raised by one and the same shape; but all its values are zero, whatever the input, so that every matrix with a non-zero value is changed.", "quantifier": "every well-formed matrix, any value type", "why_tests_cant": "Universal over matrices; the assignment copies the new array to itself.", "anchors": ["utils/sparse_io.cpp: convert_to_one_based (113-130)"]}
{"id": "C94", "title": "Writing a matrix and reading it back", "statement": "A matrix written by CSC_to_mtx and read by read_mtx has the same rows and the values rounded to the printed precision; its pointers are the same exactly when no column is empty or only the last one is not. The storage type is lost. If the nnz field is larger than p[n], the file is refused. Read by read_mtx_csc_real without insert_diag, the matrix always comes back up to the order inside columns.", "quantifier": "every well-formed matrix with values, any rounding of the values by printing", "why_tests_cant": "Universal over matrices; the composition of two independent programs.", "anchors": ["utils/sparse_io.cpp: CSC_to_mtx (67-83), read_mtx (16-65), read_mtx_csc_real (404-424)"]}
{"id": "C95", "title": "read_header ends or does not", "statement": "read_header returns the sizes of the size line for every file with a known banner, any number of comment lines and a size line, leaving the stream after it. If only comment lines follow the banner it throws, provided the last line is ended by a newline; otherwise it loops forever.", "quantifier": "every file, every behaviour of trimming and word splitting", "why_tests_cant": "Non-termination is no finite observation; universal over the comment lines.", "anchors": ["utils/sparse_io.cpp: read_header (278-336)"]}
{"id": "C96", "title": "Level sets of several copies of a graph", "statement": "For every graph, also a cyclic one, and every number K >= 1 of copies, level_set_multi_graphs ends without memory error and level l holds exactly the nodes whose longest chain in the K copies (every node precedes itself in the next copy) has l edges, each once; levels are non-empty; the levels of copy q are the levels of the graph moved by q. For an acyclic graph the levels partition all K*n nodes; nodes behind a cycle are never placed. With K = 0 and n > 0, memset is called with a negative size.", "quantifier": "every well-formed graph, every K >= 1", "why_tests_cant": "Universal over graphs and copies; the in-degree array is initialised with memset(1), so that later copies start at 0x01010101, and correctness rests on comparisons with that value.", "anchors": ["utils/sparse_inspector.cpp: level_set_multi_graphs (185-270)"]}
{"id": "C97", "title": "get_coarse_levelSet_DAG_CSC gives a valid schedule", "statement": "For every acyclic graph with the diagonal first in each column, three or more nodes (or two unless a chain with minLevelDist = 1), nonzero innerParts, bin packing and any cost type and sort: the schedule holds every node exactly once, every dependence goes to an earlier level or within one part in order; 1 <= levels <= n; no level has more parts than the target and the last has one; also for a single chain, where CSC03 fails. Without bin packing, it is valid if there is an edge and minLevelDist >= 2. The empty graph, one node, a two-node chain with minLevelDist = 1 and (without packing) graphs without edges are written out of bounds; innerParts = 0 divides by zero.", "quantifier": "every acyclic graph, every parameter value and cost, every correct sort", "why_tests_cant": "Universal over graphs and parameters; validity is about every execution of the schedule.", "anchors": ["src/lbc_csc.cpp: get_coarse_levelSet_DAG_CSC (15-296)"]}
{"id": "C98", "title": "Merging graphs keeps exactly their edges", "statement": "merge_graph of K >= 1 graphs on n nodes returns a well-formed graph on K*n nodes whose edges are exactly those of each graph, moved, and an edge from every node to itself in the next graph; its column entries keep their order and all cells are used. merge_DAGs_with_partial_order has instead the edges of the dependence graphs between consecutive graphs; the nnz it returns is (K-1)*n larger than the last column pointer. The level sets of K copies by level_set_multi_graphs are the level sets of the merged graph. Without graphs it reads past the list of graphs.", "quantifier": "every list of well-formed graphs and dependence graphs", "why_tests_cant": "Universal over graphs; an equivalence of edge sets and of two programs.", "anchors": ["utils/sparse_utilities.cpp: merge_graph (767-865), merge_DAGs_with_partial_order (867-930)"]}
{"id": "C99", "title": "Coarsening by groups of k columns keeps exactly the quotient pattern", "statement": "coarsen_k_times(A, k), for a well-formed square matrix with at least one column and k >= 1, returns a well-formed matrix with ceil(n/k) columns, in which (J, I) is an entry exactly if some entry (j, i) of A has j/k = J and i/k = I, each entry stored once, and whose nnz is its last column pointer. k = 0 divides by zero; a matrix without columns writes through a null pointer.", "quantifier": "every well-formed matrix and every k", "why_tests_cant": "Equality of two relations for every matrix; the cleaning of the marker array between groups matters only for particular patterns.", "anchors": ["utils/sparse_utilities.cpp: coarsen_k_times (1179-1215)"]}
{"id": "C100", "title": "The graph of a full matrix passed to METIS", "statement": "metis_perm_general and metis_partition_general pass METIS the pattern of the matrix by rows without its diagonal; it is a graph METIS accepts (indices in range, no self loop, every edge stored at both ends) exactly if the pattern is symmetric. With METIS trusted on such graphs only, metis_perm_general returns a permutation and metis_partition_general returns METIS's parts shifted by a constant, in [0, k), the smallest being 0; weights are one more than the column sizes.", "quantifier": "every square matrix, every behaviour of METIS", "why_tests_cant": "Universal over matrices and over an external library.", "anchors": ["utils/metis_interface.cpp: metis_perm_general (115-156), metis_partition_general (230-317)"]}
{"id": "C101", "title": "The graph of a triangle passed to METIS is never one it accepts", "statement": "metis_perm_symmetric and metis_partition_symmetric count the diagonal entry of every column but do not store it: for every matrix with one diagonal entry per column, the list of node u is its neighbours in the symmetric graph, followed by one spurious neighbour 0. So node 0 always has a self loop, every node has an edge to node 0, and for every node not adjacent to 0 in the matrix that edge has no counterpart. Without diagonal entries the neighbour array is overrun; with fewer entries than n/2 its size is negative.", "quantifier": "every matrix stored by one triangle", "why_tests_cant": "A universal statement that a precondition of an external library is violated.", "anchors": ["utils/metis_interface.cpp: metis_perm_symmetric (45-112), metis_partition_symmetric (158-227)"]}
{"id": "C102", "title": "metis_partition_coarsened gives the parts to the wrong nodes", "statement": "For a coarsening factor c with 1 <= c <= n the result is defined, and node j gets the part of coarse node min(j, m-1) if j < m-1+c and part 0 otherwise, m being the number of coarse nodes, where the part of coarse node j/c is meant; this is right for c = 1, and for every 2 <= c < n node 1 gets the part of coarse node 1 although it is in coarse node 0. For c > n the result array is overrun.", "quantifier": "every square matrix, every factor, every answer of METIS", "why_tests_cant": "Universal over matrices, factors and the answers of an external library.", "anchors": ["utils/metis_interface.cpp: metis_partition_coarsened (319-344)"]}
{"id": "C103", "title": "The level sets of blocks are computed with a read past the degree array", "statement": "For every well-formed block structure with at least one block, build_levelSet_BCSC reads the cell after the last degree: the loop that skips blocks of degree 1 has no test for the end of the array. With any word other than 1 behind the array the result is right: every block is in exactly one level, its level is the length of the longest dependence chain ending in it, no level is empty.", "quantifier": "every block structure", "why_tests_cant": "Reads past the end by one cell go unnoticed in runs; the claim is that no input avoids it.", "anchors": ["utils/sparse_inspector.cpp: build_levelSet_BCSC (125-182)"]}
{"id": "C104", "title": "The blocked coarsening always reads out of bounds", "statement": "getCoarseLevelSet_DAG_BCSC02 has no input on which it is free of out-of-bounds accesses: with blocks through the level sets, without blocks by writing the second cell of an array of one.", "quantifier": "every block structure, all parameters and costs", "why_tests_cant": "Universal negative statement.", "anchors": ["src/lbc_blocked.cpp: getCoarseLevelSet_DAG_BCSC02 (15-297)"]}
{"id": "C105", "title": "The blocked coarsening gives a valid schedule where the successors of a block lie on one path", "statement": "If a word other than 1 follows the degree array, the blocks that need the same block lie on one path (true for forests of blocks and for factor patterns), there is a dependence, innerParts >= 1 and minLevelDist >= 2: the function returns, the schedule holds every block exactly once, every dependence goes to an earlier level or within one part in order, and no level has more than innerParts parts. Without the condition on paths there are block structures with a race and others that end out of bounds: parts that meet are renamed except the first, and part numbers at or above the lowered count stay in use.", "quantifier": "every block structure meeting the condition, all costs and sorts", "why_tests_cant": "Validity is about every execution of the schedule, for every block structure.", "anchors": ["src/lbc_blocked.cpp: getCoarseLevelSet_DAG_BCSC02 (15-297)", "src/lbc_utils.cpp: dfs_BCSC_CC (76-119)", "utils/sparse_utilities.cpp: modified_BFS_BCSC (556-588)"]}
{"id": "C106", "title": "twoDReordering cuts every part into tiles, one per run of consecutive rows", "statement": "For a well-formed row-wise pattern and a schedule whose pointers are well formed, twoDReordering runs to the end; the tuples of a part are cut into one tile for each maximal run of consecutive rows of the part, in that order, and a tile holds exactly the stored entries of its rows, by column and then by row. The pointer it appends delimits the parts. If the schedule is complete every stored entry of the matrix appears exactly once, with its row and its column.", "quantifier": "every well-formed pattern, every well-formed schedule", "why_tests_cant": "Runs, tiles and the order inside them depend on the whole schedule and pattern; a test sees a few.", "anchors": ["src/hdagg/hdagg.cpp: twoDReordering (2402-2481)", "include/aggregation/hdagg.h (40-53)"]}
{"id": "C107", "title": "Executing the reordered tuples computes the same values as executing the rows", "statement": "If no row has an entry right of the diagonal and every row is sorted by column, then executing the tuples of a part in order changes the vector exactly as executing its rows one after the other, whatever one iteration computes from x[i] and x[j]; executing all the tuples of a valid schedule gives bit for bit the result of the serial row-wise solve. With an entry right of the diagonal, or with an unsorted row, the result can differ.", "quantifier": "every lower triangular matrix with sorted rows, every valid schedule, every arithmetic", "why_tests_cant": "Bit-for-bit equality under an arbitrary rounding cannot be tested.", "anchors": ["src/hdagg/hdagg.cpp: twoDReordering (2402-2481)"]}
{"id": "C108", "title": "convertCNScheduleToSuperNode keeps the schedule when supernodes lie whole in groups", "statement": "If every group of nodes is a sequence of whole supernodes, then the schedule of groups is turned into a complete schedule of supernodes that executes the same nodes in the same order in every part, hence solves the system whenever the schedule of groups does, without data races. For any groups a part lists exactly the supernodes its groups meet; a supernode split between groups is listed twice, so its nodes are executed twice.", "quantifier": "every supernode partition, every grouping, every complete schedule", "why_tests_cant": "The result is used as a schedule for every matrix; the split case needs inputs a test author would have to think of.", "anchors": ["src/hdagg/hdagg.cpp: convertCNScheduleToSuperNode (1091-1135)"]}
{"id": "C109", "title": "Group_DAG builds exactly the graph of the groups", "statement": "For a graph given as successor lists and a partition into groups with the inverse map, Group_DAG returns one sorted list without repetitions per group, with an edge from one group to another exactly if a node of the first has a successor in the second.", "quantifier": "every graph, every partition into groups", "why_tests_cant": "All graphs and all groupings.", "anchors": ["src/group_utils.cpp: Group_DAG (61-82)"]}
{"id": "C110", "title": "detectDAGCircle reports exactly the cycles of length one and two", "statement": "detectDAGCircle prints exactly the pairs of nodes with edges in both directions, and prints nothing exactly if there is no such pair. A cycle of three or more nodes, of any length, is not reported.", "quantifier": "every graph; every cycle length from three on", "why_tests_cant": "A test that finds the reported cycles does not show that longer ones are missed at every length.", "anchors": ["src/group_utils.cpp: detectDAGCircle (84-99)"]}
{"id": "C111", "title": "aggressiveSupernodeGrouping averages over blocks that stay in one part and share a column pattern", "statement": "On a matrix with non-empty columns and a complete schedule of a partition into groups, the value returned is the number of nodes divided by the number of blocks of a partition of all nodes; every node of a block is executed in the same part of the same level as the first node of its block, comes after it, and its column is the end of the column of that first node. The blocks are exactly those of a greedy search: each starts with the first free node, whose column's rows are tried in order, and the first free row of the same place whose column has the wrong length ends the search. The average is 0/0 exactly if there is no node. An empty column whose row occurs in no earlier column always makes the code leave its arrays (it builds a vector from a range that ends before it begins); other empty columns can be harmless.", "quantifier": "every matrix, every grouping, every complete schedule", "why_tests_cant": "The supernodes are internal; only their average is returned.", "anchors": ["src/hdagg/hdagg.cpp: aggressiveSupernodeGrouping (1138-1231)"]}
{"id": "C112", "title": "computePostOrderAndGroup cuts a topological order into maximal chains and builds their graph", "statement": "On every DAG with the diagonal first in its columns and no repeated entries, computePostOrderAndGroup returns a topological order of the nodes, cut into groups that are chains: inside a group every node has one outgoing edge, to the next node, which has no other incoming edge; the last node of a group is not joined in this way to the node that follows in the order. The group DAG has the diagonal first, no repeated entries, only edges to later groups, and an edge between two groups exactly if the graph has one; the assertions of a debug build hold. The function reads the second entry of every column but the last one in the order, even if there is none: on some lower triangular matrices that is behind the end of the vector; the value read never matters.", "quantifier": "every DAG, every value of the stray reads", "why_tests_cant": "The chain condition and the group graph are about all DAGs; a stray read behind a vector usually goes unnoticed.", "anchors": ["src/hdagg/hdagg.cpp: computePostOrderAndGroup (71-213)"]}
{"id": "C113", "title": "compute_depth returns the longest chain that starts in each node, except for a graph that is one chain", "statement": "For every square matrix with one diagonal entry per column whose graph is acyclic, compute_depth writes for every node the number of edges of a longest chain starting there and changes nothing else in the array. If one chain visits all nodes (for instance a bidiagonal matrix of any order), the level sets report -1 levels and the array is not written at all. The matrix and its transpose always have the same number of entries, so the assertion holds.", "quantifier": "every matrix whose graph is acyclic, every array passed in", "why_tests_cant": "The longest chain is over all chains of the graph; the silent case needs a chain through all nodes, which random test matrices do not have.", "anchors": ["utils/sparse_inspector.cpp: compute_depth (888-907)"]}
{"id": "C114", "title": "fs_csr_stat counts the operations, accesses and adjacent reuses of the serial solve", "statement": "For every matrix stored by rows without empty rows, fs_csr_stat returns 2(nnz - n) + n operations, 3(nnz - n) + 2n accesses and the number of entries, the last one of each row left out, whose column is the row before.", "quantifier": "every matrix by rows without empty rows", "why_tests_cant": "A formula over all matrices.", "anchors": ["example/sptrsv_src/executor.cpp: fs_csr_stat (34-66)"]}
{"id": "C115", "title": "The load balance statistics report the largest difference between two threads", "statement": "For every way of distributing the parts of a level to threads, sptrsv_csr_lbc_stat, fs_csr_levelset_stat and sptrsv_csr_group_lbc_stat write for each level the largest difference between the numbers of entries executed by two threads, and leave the rest of the array as it was. Built without OpenMP, the array of costs has one element and the code uses element 1: sptrsv_csr_lbc_stat leaves the array on every complete schedule of at least one row.", "quantifier": "every schedule, every number of threads, every assignment of parts to threads", "why_tests_cant": "The assignment of iterations to threads is decided by the OpenMP runtime.", "anchors": ["example/sptrsv_src/executor.cpp: fs_csr_levelset_stat, sptrsv_csr_lbc_stat, sptrsv_csr_group_lbc_stat (107-267)"]}
{"id": "C116", "title": "level_set_bn puts copy q of block s into level depth(s) + q", "statement": "For every well formed lower (or upper) triangular matrix, every partition of the columns into blocks in increasing (or decreasing) order and every number of copies K >= 1, level_set_bn lists supernodes[s] + n*q for every block s and copy q exactly once, in non-empty levels; it is in level d + q, where d is the length of a longest chain of blocks ending in s. A chain uses the rows of the leading column of each block only. If the leading column has all the rows outside the block that the other columns have (as is the case for the supernodes found by BCSCMatrix and by the supernode classes), these are the depths in the graph of the blocks; otherwise a block can be in the same level as one it depends on. With K = 0 the call writes outside its array.", "quantifier": "every triangular matrix, every partition into blocks, every number of copies", "why_tests_cant": "Depths of all block graphs; the dependence on the leading column shows only for partitions that no test uses.", "anchors": ["utils/sparse_inspector.cpp: level_set_bn (273-455)"]}
{"id": "C117", "title": "find returns the block that starts at a column and does not return for any other column", "statement": "In an increasing array of block starts, find returns the index of a start that is present, in at most one call per block. For a column that starts no block it calls itself for ever, and so it does for the first of two or more blocks listed from the last column to the first. sup2node_gen turns every entry supernodes[s] + n*q of the level sets into s.", "quantifier": "every increasing array, every level set of block starts", "why_tests_cant": "Non-termination cannot be observed by a test; termination is over all arrays.", "anchors": ["utils/sparse_inspector.cpp: find, sup2node_gen (556-585)"]}
{"id": "C118", "title": "bcsc_csc_bcsc_levelset computes the depths in the combined graph of two solves and a product", "statement": "For two lower triangular matrices A and C and any matrix B over the same blocks, if every block of the second solve has an incoming edge, bcsc_csc_bcsc_levelset lists each block of both solves exactly once, in the level that is its depth in the combined graph: the edges of the leading columns inside each solve, and an edge from a block of the first to a block of the second for every entry of B. If a block of the second solve has no incoming edge it is in no level: it is never executed.", "quantifier": "all three matrices, every partition into blocks", "why_tests_cant": "Depths of all combined graphs; a lost block needs an empty row of B.", "anchors": ["utils/sparse_inspector.cpp: bcsc_csc_bcsc_levelset (587-733)"]}
{"id": "C119", "title": "merge_graphs builds the graph of all blocks but keeps one row of each block of B", "statement": "For blocked matrices A and C and a matrix B with sorted columns over the same blocks, merge_graphs returns a well formed graph of 3*nodes nodes without repeated entries. The column of block j of A holds the blocks met by the rows of block j and the node of block j of B; the column of block j of C holds the blocks of C it meets; the column of block j of B holds itself and the block of C of only the smallest row of block j. All other edges from B to C are missing.", "quantifier": "all matrices, every partition into blocks", "why_tests_cant": "The graph is returned without values to compare with; missing edges only show as races in a later parallel execution.", "anchors": ["utils/sparse_inspector.cpp: merge_graphs (735-885)"]}
{"id": "C120", "title": "is_equal decides equality of vectors and matrices up to eps", "statement": "is_equal of two vectors returns true exactly if no entry of the range is a NaN in either and no two differ by more than eps; is_equal with one value exactly if no entry differs from it by more than eps; is_equal of two matrices exactly if the numbers of columns and entries, all column pointers and all row indices agree and no two values differ by more than eps. The last two forms do not see NaNs (a vector of NaNs equals any value) and the last does not compare the numbers of rows.", "quantifier": "all vectors and matrices, every range, every predicate 'further apart than eps'", "why_tests_cant": "It is the oracle of the tests themselves: nothing in the test suite checks it, and a wrong answer makes other tests pass.", "anchors": ["include/aggregation/test_utils.h: is_equal (47-86)", "utils/test_utils.cpp: is_equal (73-91)"]}
{"id": "C121", "title": "test_unique accepts exactly the permutations", "statement": "For every vector whose first n entries are in [0,n), test_unique returns true exactly if they are a permutation of 0..n-1.", "quantifier": "every n, every vector of entries in range", "why_tests_cant": "It is the oracle used to test the schedules; a false acceptance would hide a lost node in any of them.", "anchors": ["utils/test_utils.cpp: test_unique (120-135)"]}
{"id": "C122", "title": "random_square_sparse returns a well formed square matrix with a full diagonal", "statement": "For every n > 0, every density whose number of entries per column is not 0, every shuffle and every source of values, random_square_sparse returns an n x n matrix with the same number of entries min(n, nz) in each column (n if nz is negative), with increasing rows inside each column, no repeated entry and the diagonal present in each; null if the number of entries exceeds INT_MAX. With n = 0 or no entry per column it accesses memory outside its vectors.", "quantifier": "every n, every density, all results of std::shuffle and of the random generator", "why_tests_cant": "Randomised: a test sees a few seeds; a duplicate entry or a missing diagonal is a matter of the shuffle.", "anchors": ["utils/test_utils.cpp: generate_uniq_rand_vector, random_square_sparse (19-60)"]}
{"id": "C123", "title": "rhs_init makes the right-hand side whose solution is the vector of ones", "statement": "rhs_init and rhs_init_blocked store in b[r] the sum of the values of row r, added in the order of the columns, for every row, and change nothing behind it. For a lower triangular matrix the serial solve of that system gives exactly 1 in every unknown if the arithmetic is exact (additions commute and associate, subtraction undoes addition, d/d = 1 on the diagonal); without these laws it need not.", "quantifier": "all matrices and values, every arithmetic", "why_tests_cant": "The examples compare the solutions with 1 up to eps: whether a deviation is an error of the solver or of the right-hand side is not visible.", "anchors": ["utils/test_utils.cpp: rhs_init, rhs_init_blocked (93-118)"]}
{"id": "C124", "title": "time_median returns a median and a timer measures from its first start", "statement": "time_median of a non-empty vector of measurements returns one of them such that at most n/2 are smaller and at most n-1-n/2 are larger, for every sorting by elapsed time. measure_elapsed_time gives the time since the first start_timer of the object, whatever was called in between; so a timer that is started again reports the time since its first start, not since the last.", "quantifier": "every vector of measurements, every sequence of calls, all times", "why_tests_cant": "Times are not reproducible, so no test compares them; a reused timer gives plausible but too large values.", "anchors": ["utils/utils.cpp: time_median (14-26)", "include/aggregation/def.h: timing_measurement (39-70)"]}
{"id": "C125", "title": "strip_name returns the file name without directory and extension", "statement": "For a name dir/base.ext, dir/base, base.ext or base, where base has no slash and ext neither slash nor dot, strip_name returns base; every name is of one of these forms. This holds although both positions may be npos: the differences wrap around in size_t.", "quantifier": "all strings shorter than 2^63", "why_tests_cant": "Wrap-around of size_t for all combinations of missing and present separators, including a dot in the directory and none in the name.", "anchors": ["utils/utils.cpp: strip_name (169-175)"]}
{"id": "C126", "title": "The small queries on matrices and vectors are exact", "statement": "number_empty_col counts the empty columns; compute_nnz_per_col stores the number of entries of each; extract_diagonals stores the first position of each diagonal entry and leaves the element of a column without one uninitialised; copy_vector_dense copies the range and nothing else; residual and norm return the largest distance or magnitude, at least 0, but ignore NaNs: the residual of a vector of NaNs is 0. verify_csc_diagonal returns true exactly if the first entry of every column is its diagonal, provided the last column is not empty; for an empty last column it reads behind the last entry and can return true.", "quantifier": "all matrices, vectors, ranges and orders that behave like the IEEE comparisons", "why_tests_cant": "Edge cases such as empty columns and NaNs are not in the test matrices.", "anchors": ["utils/sparse_utilities.cpp: verify_csc_diagonal, residual, norm, copy_vector_dense, number_empty_col, extract_diagonals, compute_nnz_per_col"]}
{"id": "C127", "title": "The greedy grouping makes intervals joined by nearby entries, and its group matrix is exact", "statement": "GreedyGrouping::startGrouping never indexes out of range and cuts the nodes into consecutive intervals: node v+1 is in the group of v exactly if a column of that group up to v has an entry in row v+1 at a distance of at most max_search_space_size. The children of a group are itself and the later groups its columns have entries in, each once and in ascending order, and getGroupNNZ is their number. getGroupedCSCFormat then returns a well formed lower triangular matrix with sorted columns holding the diagonal and exactly the edges between the groups.", "quantifier": "all lower triangular patterns and search distances", "why_tests_cant": "The class is not covered by any test; the pool of candidates depends on the whole history of the sweep.", "anchors": ["src/Group/Group.cpp: startGrouping (333-361)", "src/Group/Group.cpp: getGroupedCSCFormat", "include/aggregation/group.h: GreedyGrouping"]}
{"id": "C128", "title": "Merging small groups reaches the threshold or loses every group", "statement": "If the matrix as a whole has at least minimum_group_cost_threshold entries, mergeSmallGroups leaves unions of consecutive groups that cover every node, and every remaining group reaches the threshold. Otherwise, if there was more than one group, no group is left at all and getGroupSize is 0, although the nodes still exist.", "quantifier": "all interval groupings, column pointers and thresholds", "why_tests_cant": "Needs thresholds above the size of the whole matrix; a test with the usual small threshold never sees it.", "anchors": ["src/Group/Group.cpp: mergeSmallGroups", "src/Group/Group.cpp: getGroupCost"]}
{"id": "C129", "title": "Single child grouping groups nothing and reads out of range", "statement": "CollectionGrouping::startSingleChildGrouping follows a child only if a node has more than one and exactly one child, so every node becomes its own group whatever the graph; building the compressed graph then reads group_set one position behind its end, for every non-empty graph.", "quantifier": "all non-empty graphs", "why_tests_cant": "Reading one element behind a vector usually goes unnoticed in a test.", "anchors": ["src/Group/Group.cpp: startSingleChildGrouping (628-713)"]}
{"id": "C130", "title": "The group inspector appends exactly the edges between groups", "statement": "fs_ic0csc_inspector_group appends to list i of DAG the groups of the entries behind the first of each column of group i, except i itself, in storage order and with repetitions; other lists and earlier contents stay. For a lower triangular matrix with sorted columns and a full diagonal these are exactly the groups that group i has edges to.", "quantifier": "all patterns, groupings and initial lists", "why_tests_cant": "Repetitions and the treatment of the first entry of a column depend on the pattern.", "anchors": ["src/group_utils.cpp: fs_ic0csc_inspector_group (30-47)"]}
{"id": "C131", "title": "computeStatistic reports the number of parts and the spread of their costs, cut off at n", "statement": "For a well formed schedule computeStatistic never indexes out of range; it returns the number of non-empty parts and, for max_diff, the average over the levels of largest minus smallest part cost, weighted with the costs of the levels. The smallest cost is cut off at n: it is the true one if some part of the level costs at most n; otherwise even a schedule with one part per level, which cannot be imbalanced, reports a difference. The total weight is the sum of all node costs.", "quantifier": "all well formed schedules and cost vectors", "why_tests_cant": "The cut-off only shows when every part of a level costs more than the dimension; the printed number looks plausible.", "anchors": ["example/SpTRSV_runtime.h: computeStatistic (374-424)"]}
{"id": "C132", "title": "computeStatistic of the grouped solver reads behind its cost vector", "statement": "computeStatistic with fewer costs than scheduled nodes reads out of range, for every complete schedule. SpTrSv_LL_Tree_HDAGG keeps one cost per group but ungroups the schedule to nodes, so its computeStatistic does this whenever two nodes were grouped.", "quantifier": "all complete schedules; all matrices, core counts and groupings for which the scheduler finishes", "why_tests_cant": "An out-of-range read of a vector returns some number; the statistic has no reference value.", "anchors": ["example/SpTRSV_runtime.h: computeStatistic (543-593)", "example/SpTRSV_runtime.h: build_set (452-493)"]}
{"id": "C133", "title": "The potential gain is computed from the critical path and lies in [0, 1) with enough threads", "statement": "For a complete schedule getPotentialGain uses the sum of all costs and the sum over the levels of the largest part cost; the latter never exceeds the former. If no level has more non-empty parts than threads, the gain lies in [0, 1); with more parts than threads it can be negative. computeMetrics weights the number of non-empty parts of each level with its cost and its size and adds this to the values passed in.", "quantifier": "all complete schedules, costs and thread counts", "why_tests_cant": "A statement about every schedule; the negative case needs more parts than threads.", "anchors": ["example/SpTRSV_runtime.h: getPotentialGain (832-875)", "example/SpTRSV_runtime.h: computeMetrics (877-934)"]}
{"id": "C134", "title": "computeCharacteristics reports the share of the largest part", "statement": "For a well formed schedule computeCharacteristics never indexes out of range, assigns the share of the largest part in the first three levels as far as these exist and leaves the others unassigned; its assertion holds and the average is at most 1.", "quantifier": "all well formed schedules", "why_tests_cant": "Schedules with fewer than three levels leave reference arguments unassigned; that is invisible in a run.", "anchors": ["example/SpTRSV_runtime.h: computeCharacteristics (328-371)"]}
{"id": "C135", "title": "averWsize depends on the number of parts only; consecutiveRatio is a ratio only without empty parts", "statement": "For a complete schedule averWsize is the number of entries of the matrix over the number of parts, whatever the assignment. consecutiveRatio divides the number of adjacent positions within parts that hold consecutive numbers by n minus the number of parts; without empty parts this is at most 1, with an empty part it can exceed 1.", "quantifier": "all well formed schedules and row pointers", "why_tests_cant": "Empty parts occur only for few nodes and many cores.", "anchors": ["example/sptrsv_demo_utils.h: averWsize (218-229)", "example/sptrsv_demo_utils.h: consecutiveRatio (231-246)"]}
{"id": "C136", "title": "evaluate leaves the solution of L x = (1, ..., 1), whatever the number of tests", "statement": "FusionDemo::evaluate resets the right hand side to ones and the solution to zeros before every run, so with at least one test solution() is the result of a single run: for the serial classes forward substitution for the vector of ones, for a class that runs a valid schedule the same vector under every interleaving of every run. The returned time is one of the measured times, their median. The message about a wrong result is printed exactly if a reference was given and the solution does not agree with it. Without tests nothing is solved, but the old contents are compared.", "quantifier": "all matrices, numbers of tests, contents of the vectors, interleavings and roundings", "why_tests_cant": "Needs every number of runs and every interleaving in each of them.", "anchors": ["utils/FusionDemo.cpp: evaluate (77-100)", "utils/FusionDemo.cpp: setting_up", "utils/FusionDemo.cpp: testing", "example/SpTRSV_runtime.h: Sptrsv_LL_Serial", "example/sptrsv_demo_utils.h: SptrsvSerial"]}
{"id": "C137", "title": "The CSV writer writes the header and exactly the complete records", "statement": "For distinct column names a new file holds the header and one line per addRecord call at which every column had a value, with the last value given for each column since the record before; an incomplete record is not written and can be completed later; unknown columns are ignored. An existing file is extended without a header unless forced. Splitting the file at commas and newlines gives the header and the records back if no value contains either; values are not quoted, so a comma breaks this. With two columns of one name no record is ever written. Without columns the constructor runs over the empty vector.", "quantifier": "all sequences of addElementToRecord and addRecord calls, names, values and old contents", "why_tests_cant": "A statement about all sequences of calls.", "anchors": ["include/aggregation/csv_utils.h: CSVManager (28-132)"]}
{"id": "C138", "title": "The demos prepare the permuted matrix without losing an entry", "statement": "With METIS, generate_matrices_from_mtx (and the same calls in sptrsv_demo and lbc_demo) never fails for a square matrix marked symmetric: make_full, metis_perm_general, make_half and two symmetric transpositions give the lower triangle of P A P', where A is completed symmetrically; B is P A P', B_csr its rows, L2_csr the rows of its lower triangle. A lower triangle is only renamed: every stored entry occurs exactly once; if it has its diagonal, so has the result, first in every column, and L2_csr is a system the solvers can solve (last entry of every row on the diagonal).", "quantifier": "all square matrices marked symmetric, all permutations METIS may return", "why_tests_cant": "METIS returns arbitrary permutations; the tests use random matrices and compare solvers with each other on the same reordered matrix, so a lost entry goes unnoticed.", "anchors": ["utils/FusionDemo.cpp: generate_matrices_from_mtx (109-135)", "example/sptrsv_demo.cpp: lbc_demo", "example/lbc_demo.cpp: lbc_demo"]}
{"id": "C139", "title": "The serial IC(0) kernel computes the incomplete Cholesky factor", "statement": "For a lower triangle with sorted columns and the diagonal first, ic0_csc leaves in every entry (r,c) its original value minus, in the order of the columns u < c, the products L[c,u]*L[r,u] over exactly the columns that hold both rows, then divided by the square root of that value (pivot) or by the new pivot. In exact arithmetic with positive pivots the product of the factor and its transpose equals the input on every entry of the pattern.", "quantifier": "all patterns, all values, all roundings of the three operations", "why_tests_cant": "The tests factor a few random matrices; which terms are subtracted depends on every pair of columns.", "anchors": ["example/old/spic0.cpp: ic0_csc (30-56)"]}
{"id": "C140", "title": "The parallel IC(0) kernels are race free up to atomics and factorise", "statement": "spico_csc_levelset, spico_csc_group_levelset, spico_csc_lbc and spic0_csc_group_lbc, run on a schedule that respects the column dependences: in every interleaving no access fails, no two threads touch an element at once unless both update it atomically, every execution ends, and the array ends as an incomplete factor whose terms were subtracted in some order. If subtractions can be exchanged the result is the serial one.", "quantifier": "all patterns, values, valid schedules and interleavings", "why_tests_cant": "Needs all interleavings; updates of one entry come from several threads of a level.", "anchors": ["example/old/spic0.cpp: spico_csc_levelset (59-93)", "example/old/spic0.cpp: spico_csc_group_levelset (95-133)", "example/old/spic0.cpp: spic0_csc_group_lbc (165-206)", "example/old/spic0.cpp: spico_csc_lbc (238-272)"]}
{"id": "C141", "title": "Under rounding the parallel IC(0) result depends on the interleaving (refuted)", "statement": "It is not the case that a valid schedule makes the parallel factor equal to the serial one bit for bit: columns of one level update the same entry atomically in either order, and with a rounding subtraction the two orders end differently.", "quantifier": "all schedules and roundings (refuted by one)", "why_tests_cant": "A test sees one interleaving at a time.", "anchors": ["example/old/spic0.cpp: spico_csc_levelset (59-93)"]}
{"id": "C142", "title": "The row-wise IC(0) kernel only scales rows", "statement": "On rows in increasing order spic0_csr never performs an update: the test Li[l] == Li[k] && Li[l+1] <= Li[k] is never true, so every row ends as its entries divided by the square root of its original last entry. Hence it does not factorise (refuted with exact squares).", "quantifier": "all sorted row patterns, values and roundings", "why_tests_cant": "The kernel runs and returns plausible numbers; that the update is dead code holds for all patterns.", "anchors": ["example/old/spic0.cpp: spic0_csr (9-28)"]}
{"id": "C143", "title": "The IC(0) statistics count the operations of the kernel", "statement": "ic0_csc_stat reports two operations per pivot, one per entry below the diagonal and two per subtracted term of the factorisation; as accesses the number of entries plus the passes of the innermost loop (counted without the break the kernel has) plus three per term; and 0 for reuse.", "quantifier": "all patterns with sorted columns and the diagonal first", "why_tests_cant": "A count over all pairs of columns.", "anchors": ["example/sptrsv_src/executor.cpp: ic0_csc_stat (68-105)"]}
{"id": "C144", "title": "IC(0) on the library's own wavefronts is correct, except for a single chain", "statement": "SpicoCSCLevelSet, given a lower triangle L with sorted columns and the diagonal first, computes wavefronts and runs the level-set kernel on a factor whose entries below the diagonal are among those of L: no interleaving fails or races, all end in an incomplete factor (the serial one if subtractions can be exchanged). If the columns of L form one chain the number of levels is -1, no column is processed and the array stays as it was: the statement without that exception is refuted.", "quantifier": "all patterns, values, roundings and interleavings", "why_tests_cant": "Needs all interleavings, and the chain is a family of inputs no random test generates.", "anchors": ["example/old/spic0_demo_utils.h: SpicoCSCLevelSet (124-148)", "utils/sparse_inspector.cpp: build_levelSet_CSC (15-60)", "example/old/spic0.cpp: spico_csc_levelset (59-93)"]}
{"id": "C145", "title": "IC(0) scheduled by load-balanced coarsening is correct", "statement": "Spic0CSCParallelLBC with sensible parameters: for every cost arithmetic, comparison and sort, sorted parts or not, the schedule that get_coarse_Level_set_DAG_CSC03 makes from L gives the incomplete factor in every interleaving without race; if the columns form one chain build_set throws.", "quantifier": "all patterns, values, costs, parameters lp <> 0, cp, ic >= 1, and interleavings", "why_tests_cant": "Needs all interleavings and all schedules the heuristic may produce.", "anchors": ["example/old/spic0_demo_utils.h: Spic0CSCParallelLBC (473-522)", "src/lbc_csc_dag.cpp: get_coarse_Level_set_DAG_CSC03 (401-685)", "example/old/spic0.cpp: spico_csc_lbc (238-272)"]}
{"id": "C146", "title": "IC(0) on grouped columns is correct", "statement": "SpicoCSC_Grouping (groups of consecutive columns in queue wavefronts) ends, for every lower triangle with sorted columns and the diagonal first, in the incomplete factor in every interleaving without race, the single chain included; the group graph it builds has exactly the dependences between groups although std::unique is applied to unsorted lists and may leave repetitions. SpicoCSC_Grouping_H2 (the groups coarsened) does too unless the groups form one chain, in which case it throws; there a group costs the number of entries of all its columns, in contrast to the solver class of C75.", "quantifier": "all patterns, values, costs, parameters and interleavings", "why_tests_cant": "Needs all interleavings, groupings and schedules.", "anchors": ["example/old/spic0_demo_utils.h: SpicoCSC_Grouping (176-240)", "example/old/spic0_demo_utils.h: SpicoCSC_Grouping_H2 (281-378)", "src/group.cpp: group::inspection_spicocsc_v1 (10-53)", "src/group_utils.cpp: fs_ic0csc_inspector_group (30-47)"]}
{"id": "C147", "title": "sparse2dense writes the matrix and nothing else", "statement": "sparse2dense(A, D) on an array of at least n*m cells never writes outside of the first n*m cells, which hold A column after column afterwards, whatever they held before: zero where nothing is stored, the last of the values stored for the same place. If A is square and marked symmetric the result is a symmetric matrix that holds each stored entry at both places. If A is marked symmetric but not square (refuted) entries appear at places that belong to other rows and columns.", "quantifier": "all matrices, arrays and values", "why_tests_cant": "A test compares a few matrices; duplicates, dirty arrays and the memory behind the array need a statement over all cells.", "anchors": ["utils/sparse_utilities.cpp: sparse2dense (739-751)"]}
{"id": "C148", "title": "The file of a blocked matrix describes the matrix it was made from", "statement": "BCSC_to_mtx on a matrix in blocked format built from A (given blocks or the detected supernodes) writes exactly as many lines as its size line announces, each the value of A at its place (zero for the padding of a block), every entry of A among them, ordered by column and row and no place twice.", "quantifier": "all matrices with sorted columns and a last diagonal entry, all cuts into blocks, all values, any rounding", "why_tests_cant": "The padding depends on how the columns of a block overlap; only a statement over all blockings shows that no entry is lost or written twice.", "anchors": ["utils/sparse_io.cpp: BCSC_to_mtx (85-112)", "include/aggregation/BCSCMatrix.h: BCSC (29-50)", "utils/BCSCMatrix.cpp: createFormat (159-218)"]}
{"id": "C149", "title": "Reading an array file", "statement": "read_mtx_array_real throws exactly when the header does not say real and array; otherwise it fills an m x n array without leaving it: the numbers of the file up to the first word that is not a number or the end of the file, zeros behind. print_dense of the array of a general file prints the matrix of the file. A symmetric array file, which lists one triangle, is read as if it listed everything (refuted: the matrix printed is another one).", "quantifier": "all sizes, all files, all values", "why_tests_cant": "Short and damaged files are unlimited in number; tests use well formed ones.", "anchors": ["utils/sparse_io.cpp: read_mtx_array_real (426-441)", "utils/sparse_io.cpp: print_dense (201-208)", "include/aggregation/def.h: Dense (282-298)"]}
{"id": "C150", "title": "trim removes the white space at both ends and nothing else", "statement": "trim(s) leaves the one string t without white space at its ends such that s is white space, t, white space; trimming again changes nothing.", "quantifier": "all strings", "why_tests_cant": "A test tries a few strings; uniqueness and inner white space need all of them.", "anchors": ["include/aggregation/utils.h: ltrim, rtrim, trim (89-106)"]}
{"id": "C151", "title": "read_string takes the leading block of indented lines", "statement": "read_string appends to the context the text of the leading lines of the stream that are indented, each without leading white space and with a newline, skips lines that start with a dash, and leaves the stream at the first other line, with no error bit set; if there is none the stream is at its end. It always returns. The last line may or may not end with a newline.", "quantifier": "all streams, non-empty indents and contexts", "why_tests_cant": "The position of the stream after the end-of-file bit was set and the last line without a newline are cases that tests of the readers do not reach.", "anchors": ["utils/sparse_io.cpp: read_string (478-496)", "include/aggregation/utils.h: ltrim (89-93)"]}
{"id": "C152", "title": "copy_sparse copies", "statement": "For a matrix with values and at least one column copy_sparse returns sizes, type, pointers, indices and values equal to those of A. For a pattern with at least one entry it reads the values that do not exist, and for a matrix without columns it writes to a null pointer.", "quantifier": "all matrices", "why_tests_cant": "The failures are memory errors on kinds of matrices the tests do not copy.", "anchors": ["utils/sparse_utilities.cpp: copy_sparse (505-516)"]}
{"id": "C153", "title": "metis_partitioning returns a matrix and a partition of its rows", "statement": "For a full matrix with values and symmetric pattern and every METIS that answers valid graphs correctly, metis_partitioning returns a copy of A and a part number below npar for each row, part 0 not empty. For a pattern not marked symmetric it dereferences a null pointer. For a pattern marked symmetric with one diagonal entry per column, and whatever ordering METIS answers, it returns the whole symmetric matrix in that order and the parts METIS answers for the graph of that matrix; the ordering is deleted, so that (refuted) the parts do not belong to the rows of A, and METIS is given a graph with every edge twice and node 0 as a neighbour of every node.", "quantifier": "all matrices, part counts and answers of METIS", "why_tests_cant": "The answers of METIS are quantified over; a test sees the one of the linked version.", "anchors": ["utils/metis_interface.cpp: metis_partitioning (15-42)", "utils/metis_interface.cpp: metis_partition_general (230-317)", "utils/metis_interface.cpp: metis_partition_symmetric (158-227)"]}
{"id": "C154", "title": "averWsize and consecutiveRatio of the grouped classes", "statement": "For every grouping of the rows and every complete schedule of the groups, averWsize of SpTrsvCSR_Grouping_H2 and SpicoCSC_Grouping_H2 is the number of entries of the matrix over the number of parts. Without empty parts consecutiveRatio has the numerator n minus the adjacent positions of a part that do not hold consecutive groups, and the denominator n minus the parts minus the sizes of the groups numbered like the last position of each part; so with one group per part it is minus n over the number of groups. An empty first part makes it read groupPtr[-1].", "quantifier": "all groupings, schedules, row pointers", "why_tests_cant": "The values are only printed; no test compares them with anything.", "anchors": ["example/sptrsv_demo_utils.h: SpTrsvCSR_Grouping_H2::averWsize (665-680)", "example/sptrsv_demo_utils.h: SpTrsvCSR_Grouping_H2::consecutiveRatio (682-706)", "example/old/spic0_demo_utils.h: SpicoCSC_Grouping_H2 (403-444)"]}
{"id": "C155", "title": "merge_inner_part packs consecutive parts", "statement": "With a positive threshold and outCost longer than the list of parts, merge_inner_part makes clusters of consecutive parts: each is closed by the first part that brings its cost to the threshold, the last one by the end; their nodes are appended in order, so into empty clusters nothing is lost, added or reordered. The cost of cluster j is stored at outCost[j+1]; outCost[0] is not written. So an array with as many costs as there are clusters is overrun, and a threshold that is not positive always ends in a write behind the array.", "quantifier": "all parts, costs (also negative), thresholds and arrays", "why_tests_cant": "The function has no caller and no test; the array bound depends on the costs.", "anchors": ["src/lbc_utils.cpp: merge_inner_part (122-141)", "include/aggregation/lbc_utils.h: merge_inner_part (78)"]}
{"id": "C156", "title": "The parallel row-wise incomplete Cholesky kernels only scale", "statement": "On rows in increasing order, spic0_csr_levelset with any partition of the rows into levels and spic0_csr_lbc with any complete schedule, even one that ignores the dependences, run without data race, failed access or deadlock under every interleaving, and every complete execution ends with the result of spic0_csr: the last entry of each row replaced by its root and the others divided by it. On rows in any order a row performs exactly these operations and then, in the order of the three loops, the subtractions for which the guard on the next entry holds; an empty first row indexes Lx at -1. With one thread that takes the rows in order the executions end exactly with the result of spic0_csr, also on such rows.", "quantifier": "all matrices with sorted rows, partitions, schedules, values, operations and interleavings", "why_tests_cant": "All interleavings of the threads; that the update is dead code follows for all inputs only by proof.", "anchors": ["example/old/spic0.cpp: spic0_csr_levelset (135-163)", "example/old/spic0.cpp: spic0_csr_lbc (208-236)", "example/old/spic0.cpp: spic0_csr (9-28)"]}
{"id": "C157", "title": "A Matrix Market banner is recognised exactly and survives writing", "statement": "mm_read_banner returns 12 exactly for a first line of fewer than five words, 14 exactly for one whose first word does not begin with %%MatrixMarket, and 0 with the type code it names exactly for a line that names a matrix, a format, a field and a symmetry of the format (in upper or lower case); otherwise 15. A word of 64 characters or more among the first five is written outside its buffer. mm_write_banner writes, for every type code, a line that is read back as that type code, and returns 17 (could not write) nevertheless; of a type that has no name it prints a pointer that was never set. mm_is_valid holds exactly for the matrices that are neither dense pattern, real hermitian nor pattern hermitian or skew.", "quantifier": "all files, type codes and file rests", "why_tests_cant": "All texts: lengths of words and lines, blanks, case; tests read a handful of files.", "anchors": ["utils/external/mmio.cpp: mm_read_banner", "utils/external/mmio.cpp: mm_write_banner", "utils/external/mmio.cpp: mm_typecode_to_str", "utils/external/mmio.cpp: mm_is_valid", "include/aggregation/mmio.h"]}
{"id": "C158", "title": "The size line of a Matrix Market file: when it is read, when it is misread and when reading does not end", "statement": "After any number of comment lines mm_read_mtx_crd_size and mm_read_mtx_array_size return the numbers of the first other line, or after a blank line the next numbers of the file, and 12 for a file of comments only. What the writers of size lines print is read back, although they always return 17. A size line with too few numbers is completed from what follows: the sizes are then those of an entry; if something else than a number follows, the function does not return. The part of a comment behind its first 1024 characters is taken for the size line.", "quantifier": "all files, sizes and comment lines", "why_tests_cant": "Non-termination and the dependence on line lengths do not show on well-formed files.", "anchors": ["utils/external/mmio.cpp: mm_read_mtx_crd_size", "utils/external/mmio.cpp: mm_read_mtx_array_size", "utils/external/mmio.cpp: mm_write_mtx_crd_size", "utils/external/mmio.cpp: mm_write_mtx_array_size"]}
{"id": "C159", "title": "Coordinate files written by mm_write_mtx_crd are read back", "statement": "For every real, complex or pattern matrix type that the format allows, mm_read_mtx_crd returns from the file that mm_write_mtx_crd wrote the same sizes, indices and type and the rounded values, and mm_read_unsymmetric_sparse (real matrices) the same with indices lowered by one. A type that the format does not allow is written without complaint and refused by the reader. With fewer entries than announced the first reader returns 12 with the rest of the arrays unwritten, the second computes with unwritten memory. Of an integer matrix the first reader reports success and has read no entry; the writer refuses it after writing banner and sizes. A file that cannot be opened gives 11 (the second reader: -1), a file whose banner or sizes are not read gives the code of that failure (-1). mm_read_mtx_crd_entry returns 0 exactly if all fields of the entry have been assigned and 12 otherwise.", "quantifier": "all matrices, values, number formats that can be read back, type codes and numbers of missing entries", "why_tests_cant": "Round trip over all texts; unwritten memory has an arbitrary value in a test.", "anchors": ["utils/external/mmio.cpp: mm_read_mtx_crd", "utils/external/mmio.cpp: mm_read_mtx_crd_data", "utils/external/mmio.cpp: mm_write_mtx_crd", "utils/external/mmio.cpp: mm_read_unsymmetric_sparse", "utils/external/mmio.cpp: mm_read_mtx_crd_entry"]}
{"id": "C160", "title": "StatSpMat reports the groups, levels and imbalance of its schedule, and prints members it never set", "statement": "For every lower triangular matrix the level-set constructors of StatSpMat succeed and report: the number of runs of rows that follow each other, as many levels as the longest chain of dependent groups is long, exact counts of operations, accesses and reuses, per level the largest difference in work between two threads under any assignment of groups to threads, and sum, mean and sample deviation of these. For a given graph this holds if the groups do not depend on each other in a circle. The constructors for schedules of rows and of groups report the same for these. With one level the deviation is 0/0. PrintData reads the time of the grouped level sets, which no constructor sets, and after the constructor for schedules of rows also the number of parts, which nothing sets.", "quantifier": "all lower triangular matrices with nonempty rows, graphs, schedules, thread counts and assignments to threads", "why_tests_cant": "The printed values are not compared with anything by a test; an unset member has an arbitrary value.", "anchors": ["profiler/old/StatSpMat.cpp: StatSpMat::StatSpMat (12-110, 113-193, 196-240, 243-289)", "profiler/old/StatSpMat.cpp: StatSpMat::PrintData (304-326)", "profiler/old/includes/StatSpMat.h", "src/group_utils.cpp: fs_csr_inspector_dep (48-59)"]}
{"id": "C161", "title": "Group ranges and mean supernode size", "statement": "getGroupedRangeArray fills an array of group_size + 1 cells with the borders of the groups of the greedy grouping: node v is in group g exactly if range[g] <= v < range[g+1]; an array of another size fails the assertion. getAvgSuperNode returns the number of columns divided by the number of supernodes, which is not zero unless the matrix is empty.", "quantifier": "all matrices, search spaces, limits and prior contents of the array", "why_tests_cant": "Connects two results of one grouping over all inputs.", "anchors": ["src/Group/Group.cpp: GreedyGrouping::getGroupedRangeArray (483-486)", "include/aggregation/SuperNodalTools.h: SuperNodal::getAvgSuperNode (108-114)"]}
{"id": "C162", "title": "The profiler measures every event in every run, and repeats or overreads when PAPI or the caller does not agree", "statement": "With a positive bundle size, Profiler::profile returns one bundle per event, in the given order, each with one counter per run of the demo: what PAPI delivered in that run. If PAPI can neither start nor stop in a run, the counters of the run before appear again. A bundle size of zero divides by zero, with a negative one nothing is measured. The number of instances does not change the number of runs: print_counters prints the runs in order up to that number and reads outside the counters if it is larger than the number of runs (5).", "quantifier": "all event lists, bundle sizes, numbers of runs and instances, and all behaviours of PAPI", "why_tests_cant": "PAPI's answers, also failures, are quantified over; counters have no expected value in a test.", "anchors": ["include/aggregation/Profiler.h: Profiler::profile (45-72)", "include/aggregation/Profiler.h: print_counters (114-126)", "include/aggregation/PAPIWrapper.h: PAPIWrapper (36-87)", "utils/FusionDemo.cpp: FusionDemo::evaluate (77-100)"]}
{"id": "C163", "title": "read_mtx reads numbers whatever the layout of the file, takes any readable banner for real coordinates, and turns unreadable entries into row -1", "statement": "On the characters of the file: what CSC_to_mtx writes is read by read_mtx as the numbers it wrote, so a matrix comes back with its rows and rounded values, and with its column pointers exactly if no column is empty or all entries are in the last one. For any file with a readable banner, any comment lines and any white space or line breaks between the numbers, the result depends only on the numbers and on whether the banner says symmetric; object, format and field of the banner are not looked at. A file of numbers gives a null pointer exactly if it has fewer entries than announced. Text that is no number is not reported, also if entries are missing: from there on every entry has row and column -1 and value 0. Without a readable banner the result is a null pointer; without a file or sizes the program exits.", "quantifier": "all matrices, files, comments, layouts and all ways of printing and reading doubles that agree up to rounding", "why_tests_cant": "The files are unbounded texts; tests read a few files written by one program.", "anchors": ["utils/sparse_io.cpp: read_mtx (16-65)", "utils/sparse_io.cpp: CSC_to_mtx (67-83)", "utils/external/mmio.cpp: mm_read_banner, mm_read_mtx_crd_size", "include/aggregation/mmio.h: 57-77"]}
{"id": "C164", "title": "A matrix printed by print_csc under a Matrix Market heading is read back by read_mtx, always as a square one", "statement": "If the heading given to print_csc is a Matrix Market banner, then read_mtx reads from the characters printed a matrix with the same rows, the rounded values (zeros where the matrix has no values) and the symmetry of the heading, although the last line has no newline; the column pointers come back exactly if no column is empty or all entries are in the last one. The number of rows announced is the number of columns: of a matrix with an entry in a row beyond that, a matrix is read that has a row index out of its own range. print_csr prints the same numbers with row and column exchanged; if the column changes between successive entries more often than there are columns, read_mtx writes outside its column pointers on that file.", "quantifier": "all matrices with sorted pointers, with or without values, all headings, all ways of printing and reading doubles that agree up to rounding", "why_tests_cant": "Unbounded texts; the printing functions have no tests.", "anchors": ["utils/sparse_io.cpp: print_csc (162-176, 197-199)", "utils/sparse_io.cpp: print_csr (178-192)", "utils/sparse_io.cpp: read_mtx (16-65)"]}
