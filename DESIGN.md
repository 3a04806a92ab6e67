# Design: a machine-checked model of sympiler/aggregation

The code under study (`/repo`, C++) inspects the dependence DAG of a sparse
kernel, aggregates its nodes into a coarse parallel schedule
(levels -> parts -> nodes), and runs a parallel triangular solve on it.
Everything here is Coq/Rocq 8.16.1 over the standard library only.

## 1. How the C++ is modelled

* **Outcome type.** Every modelled function returns `res A = Ok a | Err e`
  (`theories/Base.v`).  `Err` is a distinct outcome for undefined behaviour or
  abnormal exits: `OOB` (read/write outside an array or vector), `Throw`
  (C++ exception), `Fuel` (loop did not finish in the allotted fuel), `DivZero`,
  `Uninit`.  The positive theorems say *the function returns `Ok` and ...*,
  so they include memory safety and termination.
* **Arrays** are lists; `rd`/`wr` are bounds-checked.  Pointers into an array are
  modelled by an offset.
* **Loops.** `for` loops with fixed bounds are `for_` (structural recursion);
  `while` loops and loops whose bound changes are `while_` with fuel computed
  from the input; exhaustion is `Err Fuel`, excluded by the theorems.
* **Integers** are unbounded `nat` (or `Z` where -1 occurs).  32-bit overflow of
  `int` is not modelled (n, nnz < 2^31 is assumed), except in `add_size_t`/`mult_size_t`,
  where wrap-around modulo 2^64 is explicit.
* **Floating point.** Node costs are integers (every cost model in the code counts
  non-zeros, so the sums are exact).  The load-balance divergence (`log2`) and the
  division rounding are *oracles*: theorems quantify over every outcome.
  In the triangular solve the value type and its operations are arbitrary
  (no algebraic law is assumed) so the result is bit-for-bit.
* **OpenMP.** `parallel for` regions that race or communicate (component labelling,
  triangular solve) are small-step machines: one machine thread per loop iteration,
  atomic steps are single reads/writes of shared memory, any interleaving.
  This is a superset of every static/dynamic assignment of iterations to threads.
  Sequential consistency is assumed for the racy `int` accesses (the C++ standard
  calls them UB).  The solvers need no such assumption: C30 shows that no reachable
  state of the sequentially consistent machine has two conflicting accesses enabled, and C++
  guarantees sequentially consistent behaviour to race-free programs.  Loops whose iterations touch disjoint memory are modelled
  sequentially.
* **std::sort** is modelled by insertion sort on `nat` (the sorted permutation is
  unique), `std::unique` by adjacent deduplication.
* `assert`s are compiled out (release build; C50 looks at one of them), `delete`, timers and printing are
  dropped.

Specifications (`theories/Spec.v`) are independent of the models: edges,
paths, partitions, valid schedules are stated directly on the arrays.

## 2. Property by property

| id | what is modelled, how it is proved |
|----|------------------------------------|
| C01-C03 | `build_levelSet_CSC` statement by statement; invariant relating `inDegree` to the number of unprocessed predecessors; longest-path characterisation by induction on rounds; -1 characterised through the number of rounds |
| C04 | the allocating variants, same invariant, equality of results |
| C05 | DFS with explicit stack; white-path style invariant (stack is a path, finished nodes closed under children) |
| C06-C08 | interleaving machine for `parallel_cc`; invariant: label <= own position and same component; measure: sum of labels; stars at the end of each round; exit implies labels agree along edges; label = min position makes the result unique |
| C09-C11 | `computeSchedule`; counting sort by label is stable; parts are unions of components |
| C12-C13 | window search as a loop over an arbitrary oracle; greedy chunking loop |
| C14-C16 | composition; number of components does not grow when a level is added |
| C15, C17, C22, C26 | refutations / failure theorems, witnesses by computation or general proof |
| C18 | composition of C01 and C09 |
| C19 | `buildGroupDAG`: per-group columns (sort, unique), packed; entry iff member entry |
| C20-C23 | the grouping functions: walk invariants (visited set is a prefix of segments, each segment a tree/chain cut of the DAG), renumbering by smallest member, acyclic quotient because every group has one exit |
| C24 | ungrouping: expansion keeps parts; resorting parts keeps a part schedule |
| C25, C58, C59 | `partialSparsification`: threads' label stores under every interleaving; runs of equal labels are sub-intervals of cliques; each removed edge has a two-hop replacement, well-founded on edge length |
| C27, C60 | `costComputation` for each kernel, sums over rows/columns |
| C28-C31 | interleaving machine for the solvers; invariant "entry holds the partial result w.r.t. the serial solution" |
| C32, C61-C64 | `M_Pipeline`: the inspectors and solvers of example/SpTRSV_runtime.h composed; rows from columns (C33), then C01/C14/C19-C25 and C28-C31 |
| C33-C35 | matrix conversions, counting-sort argument |
| C36, C68, C69 | elimination tree (Liu): fill-path theorem, union-find invariant over processed edges; the tree's graph reaches every fill entry; row patterns by marked walks |
| C70 | generalises C63: any DAG that `covers` the dependences, both groupings, both options |
| C37, C65 | `tree_post_order`: linked lists of children as lists, an inductive post-order, blocks of descendants contiguous |
| C38, C66, C67 | child lists (counting sort), depths, heights, subtree costs |
| C39 | spec `runs` (consecutive non-empty runs, exact boundary condition); one invariant for all three routines |
| C71 | group graph from rows = `quotient (row_dep …)`; lists sorted by induction, packing by prefix sums |
| C72 | composition C39, C71, C04 (queue variant), C31 |
| C41 | `M_Super`: spec `max_runs` (maximal runs of at most w nodes that are `same` as the first), one proof for the run loops of both classes, instantiated with the comparison of columns, rows and (backwards) columns of upper triangular matrices |
| C77 | graph of the supernodes as `columns`, entries are `run_edge`; the number of entries of a supernode is at most that of its columns because the diagonal of its first column is not counted |
| C78 | rows of a block are the sorted union of its columns; merge of a sorted column into that list; the read before the bounds test is safe because the last column ends with the last row |
| C79 | "out of bounds or Q" logic of C40: the second pass writes one cell more per block than the first pass counted |
| C80 | `M_LBCTree`: heights as longest chains of the child-to-parent relation; invariant of the walks: all chains from leaves already visited are counted; rounds: remaining child counts of the levels done so far |
| C81 | stack invariant: the stack is a path of ancestors with their open children; marks only on visited ancestors; a part is finished when its root is popped |
| C82 | slabs of heights: the forest of a slab, C81 for its trees, packing as in C42, generic lemma from slabs of parts to a valid schedule (as C44); a logic in which "out of bounds" is allowed only under a stated condition |
| C83 | one counting and one placing loop for the four code paths; generic invariant for a doubly nested loop over events (bucket sort by column), the result as a flat_map; bijection of the entries |
| C84 | invariant of the marker array (row i of this column is at cell k or not yet there) over both scatter calls; make_symmetric from the general transposition, the sum and make_half (L_Mat, L_Mat2) |
| C85 | C83/C84 give the matrix whose elimination tree is computed (C36); tree edges chain to all fill (C68), schedules respect chains; then C82 and C29/C30 |
| C86 | post-order intervals number the tree; invariant of the main loop: the weights summed over a subtree count the rows whose row subtree meets it; union-find roots are the least common ancestors; row subtrees = rows of the factor by the elimination-tree theorem (both directions proved from `fill`) |
| C87 | invariant on stack and marks: marked = listed + k, closed under parents below k |
| C88 | C87 row by row; cursors count the rows already placed in each column |
| C89 | C83, C36, C37, C65, C35, C86-C88 composed; relabelling a matrix by a post-order of its elimination tree carries tree and fill over |
| C90, C94 | `M_IO`: a file is a list of literals; runs of equal column computed by a filter; for a column-sorted list the slices between prefix counts are the columns; equivalence via monotonicity of the pointers |
| C91 | any sort whose result is an ordered permutation; invariant of the insertion loop: finished columns, then the remaining sorted entries; `P_IOPat`: pattern files through the same loops, with one for the values |
| C92, C93 | consecutive writes (`wrs`); invariant = list written so far |
| C95 | the stream as a list of lines and an end flag; `getline` after the end leaves the string, so the loop state repeats: `Err Fuel` for every fuel |
| C96 | level_set_multi_graphs with the in-degrees as the machine sees them (memset 1 in later copies); state invariant per processed entry; levels = depths in the graph of copies |
| C97 | get_coarse_levelSet_DAG_CSC over the levels of C96 with one copy; the slab is that of C44 with the bin packing behind a flag; `P_Multi2`: the graphs without edges and the two-node chain overrun the array, by a rule for "ends out of bounds or continues" |
| C98 | merge_graph and merge_DAGs_with_partial_order as the list of merged columns |
| C99 | the coarse columns as duplicate-free lists, one group at a time |
| C100 | the off-diagonal lists of the rows; METIS as a parameter that is trusted on valid graphs only; `P_Metis4`: the result in terms of what METIS answers |
| C101 | lists of neighbours grown entry by entry; the unwritten slot of each node; `P_Metis4`: a node without diagonal makes the lists longer than the array |
| C102 | spread_parts in closed form; room for the last range exactly if the factor is at most n |
| C103 | refinement of the blocked programs by the level-set programs on the graph of blocks; counting of unvisited blocks for the read past the end |
| C104 | from C103; the case of no blocks by computation |
| C105 | simulation of the blocked search and ordering by those of the graph of blocks (degrees agree on blocks not yet placed); descendants of a block are comparable, so a component meets at most one earlier part |
| C106 | `M_TwoD`: the tiles of a part as a list of lists, the maximal runs of its rows as an inductive relation; the counting sort of the code as a stable sort by column |
| C107 | adjacent tuples of different rows commute when no row of the tile reads an unfinished one; bubble argument from the row order to the column order |
| C108 | `M_Conv`: marks of the groups visited, each group contributes its list of supernodes; concatenation; `P_Conv2`: any groups, the blocks met one after the other along the parts |
| C109, C110 | sorted lists without repetitions; a ring of any length |
| C111 | partition invariant of the blocks, places of nodes from the schedule; `P_Aggr2`, `P_Aggr3`: an empty column whose row is empty too makes the range of candidates end before it begins |
| C112 | `M_PostGroup` on top of C05: invariant of the chain cutting (closed groups, the open group, boundaries); in-degree one and two characterised by edges; edges leave a chain from its last node and enter at its first |
| C113 | `M_Depth` on top of C52 (exact transposition) and C02 (levels are depths): entries of the transposed matrix are the reversed edges, so the depth there is the longest chain starting here |
| C114 | `M_Stat` loop invariants with closed forms |
| C115 | `M_Stat`: cost array after j iterations is the map of the loads; the list of pairwise differences characterised by membership; maximum is the head of the reversed sorted list |
| C116 | `M_Fuse`, `L_Bfs`: level search for any successor lists: after L levels exactly the nodes of level < L are done, `visited` counts the edges from done nodes; late copies are pushed by their predecessor copy only because their degree is out of reach; `L_Fuse2` instantiates it with longest path levels (`lev_of`) |
| C117 | `L_Fuse3`: the interval of the search shrinks if the target is in it; without the target every call ends in another call |
| C118 | `L_Fuse3`: degrees of both solves as counts of incoming entries, same level search; `P_Fuse2`: partial correctness, the queue stays within what something leads to |
| C119 | `P_MergeBlocks`: rows of a block become its blocks in order of first occurrence; the three passes append columns (`rep`) |
| C120, C121, C124, C125 | `P_Compare`: loops with early exit are `forallb` over a range; a pigeonhole for test_unique; order statistics of a sorted list; last occurrence of a character |
| C122 | `P_TestMat`: each column is a sorted prefix of a permutation with the diagonal forced in |
| C123 | `P_Rhs`: row sums by the column loop; the solve of C1 undoes the additions |
| C126 | `P_Query`: direct invariants; `P_Query2`: NaNs and an empty last column in general |
| C127, C128 | `L_Greedy`, `P_Greedy`: invariant of the sweep over the candidate pool; the merge as a fold over interval boundaries |
| C129, C130 | `P_SingleChild`: the chain condition is false; every other failure is also an out-of-range access; list comprehension for the inspector |
| C131 - C135 | `P_Runtime`, `P_Runtime2`, `P_RuntimeTree`: sums over parts of consecutive levels telescope to sums over positions; a complete order is a permutation, so sums over positions are sums over nodes; out of range through the node with the largest number |
| C136 | `P_Demo`: invariant over the runs: the vectors after a run do not depend on those before; composed with C01 for the parallel classes |
| C137 | `P_Csv`: the history of calls as an inductive relation `log`, independent of the class; invariant relating it to status and record vectors; splitting by induction over the text; `P_Query2`: two columns of one name, new file or old |
| C138 | `P_Generate`: composition of C34, C100, C83 and C33; the multiset of triples is followed through, diagonal entries are counted in it |
| C139 | `L_IC0`/`L_IC1`: a column's code is a list of operations (root, divide, update); any order of all operations in which no operation follows one that needs it computes the factor (fixpoint equation per element); the serial order is one, sorted by column |
| C140, C141 | `L_IC2`: small-step machine over the operations; invariant: the array is the result of the history of finished operations, the history respects the needs, loaded operands are current; uniqueness of the factor if subtractions commute; two explicit runs refute bit-for-bit equality |
| C142 | `P_IC0`: direct loop invariants |
| C143 | `P_IC0Stat`: the counters against the list of operations, and that against the terms of the factorisation |
| C144-C146 | `P_ICPipe`: the wavefront, coarsening and grouping theorems composed with C140; the packed group graph with unsorted lists |
| C147-C149 | `M_Dense`, `P_Dense`: dense output, blocked writer (composed with C78), array reader |
| C150, C151 | `M_Dense` (strings, streams as lists of lines with eof and fail bits), `P_Strings` |
| C152, C153 | `M_Mat`, `M_Metis2`, `P_Metis2`, `P_Metis3`: copy_sparse and metis_partitioning (composed with C100) |
| C154 | `M_GroupStat`, `P_GroupStat`: averWsize and consecutiveRatio of the grouped classes |
| C155 | `M_LBC`, `P_MergeInner`: merge_inner_part |
| C156 | `M_IC0Row`, `L_IC0Row`, `P_IC0Row`: the parallel row-wise incomplete Cholesky kernels; `P_IC0Row2`: one thread runs the serial kernel also on unsorted rows |
| C157-C159 | `M_MMIO`, `L_MMIO`, `P_MMIO`, `P_MMIO2`: banner, size line and coordinate files of the C reader and writer, on characters; `P_MMIO3`: short size lines and long comments |
| C160 | `M_StatSpMat`, `P_StatSpMat`: the statistics class of profiler/old |
| C161 | `M_Range`, `P_Range`: group ranges and mean supernode size |
| C162 | `M_Profiler`, `P_Profiler`: the measuring loop of the profiler, with PAPI as a parameter |
| C163 | `M_MtxFile`, `P_MtxFile`, `P_MtxFile2`: `read_mtx` and `CSC_to_mtx` on characters; simulation by the model on literals (`M_IO`), so that C90 and C94 hold for the characters |
| C164 | `M_PrintCSC`, `P_PrintCSC`, `P_PrintCSC2`: `print_csc`, `print_csr` on characters; invariant: all entries but the last have a newline; then C163 |
| C42 | bin packing: the assignment of parts to bins as a list per bin, balance invariant `spread <= M` |
| C43 | cuts as an arithmetic progression, part counts per slab |
| C44 | `M_LBC`: slabs of levels, components by breadth-first search restricted to a slab (equal to connectivity inside the slab), remaining in-degrees give a topological order inside each component, parts of a slab are unions of components |
| C73 | counterexample: bin costs survive from one slab to the next |
| C74, C75 | `M_LBCPipe`: composition of C44 with C29-C31, C33, C39, C71; sorting the parts of a valid schedule of a lower triangular graph keeps it valid |
| C76 | `M_LBCPar`: slabs one after the other per thread; labels from C06-C08 (the component search is the same code); the search with in-degrees counted inside the slab is related to the sequential one by a simulation that only looks at the slab; marks of a thread are clean from the next slab on because slabs increase |
| C40 | `M_Collect`: an "out of bounds or Q" logic shows that no run of the routine ends normally |
| C48 | the stray `stack.back()` of the post order, strict model always fails |
| C49 | C06-C08 machine resumed from the labels of a shorter window |
| C50, C51 | defects: debug assertion, one core with zero costs |
| C52, C53 | transpose and general permutation exact |
| C54, C55 | csr_to_csc: exact for square, refuted for non-square; copy_from_to keeps pointers, refuted |
| C56, C57 | tridiag exact except order one; csc_to_csr without rows reads out of bounds |
| C45 | 64-bit wrap-around arithmetic on `N`/`Z` |
| C46 | partition helpers |

## 3. Trusted base

Coq's kernel (and `vm_compute` for the concrete witnesses); the reading of the C++
recorded in the comments of the model files; the modelling decisions of section 1.
`Print Assumptions` is run under every property theorem; the expected answer is
"Closed under the global context".  (`ZifyBool` and `lia` load files of the standard
library in which the `ssr` axioms `Coq.ssr.ssrunder.*` are declared; no theorem here uses them.)

Every file of `theories/` falls in one of these classes: `Base`, `Lib`, `Lib2` (semantics
and lemmas), `Spec*` (what the properties say), `Check*` (boolean tests used only in examples),
`M_*` (models, with line references), `L_*` (proofs), `P_*` (property theorems and cases).

The theorems were tried against wrong programs; `seeded/LOG.jsonl` has one line per
attempt.

## 4. Not modelled

Everything else than the following is modelled, function by function, in an `M_*` file
that names the source lines.  Not modelled:

- External code: METIS, AMD, MKL, SpMP, DAGP, PAPI, OpenMP's run time.  Where the library calls METIS the
  result is a parameter of the theorems (any permutation, any partition).
- Code that is only compiled with one of these: `levelsetCSRParallel_SpMP` and `Convert_LBC_CSR_to_SpMP`
  (src/hdagg/hdagg.cpp), the P2P, DAGP, MKL and SpMP classes of example/SpTRSV_runtime.h,
  the PAPI calls of include/aggregation/PAPIWrapper.h (their results are parameters), the rest of profiler/ (demo code,
  older copies of the profiler, the empty class StatSpMat_v1).
- Output for people: `print_*` functions (except `print_dense`, `print_csc`, `print_csr`), `print_vec`, `save_vector`, the headers of the demos, the log;
  `shape2int`, `type_str`, `format_str` (names of header values).  `load_mtx_array_real` only opens the file, calls
  `read_mtx_array_real` and adds the file name to its exceptions; `read_real_constant` is one `>>`.
- Accessors that return a field, constructors that only store their arguments, destructors (memory leaks and
  double frees are not visible in the model), the exception classes of include/aggregation/exceptions.h.
- The splitting of a line into words and numbers (`>>` on streams); the models of the readers start from words.
  The C reader (mmio.cpp) is modelled on characters, with `%lg` and `%20.16g` as parameters.
  `read_mtx` and `CSC_to_mtx` are also modelled on characters (C163), with `%lg` and `%10.3g` as parameters.
- Timing: timers return values from an oracle where a function computes with them (`time_median`), elsewhere they are dropped.
- `random_symmetric_sparse` (returns an empty matrix, marked TODO in the source), the `main` functions.
- Failure of memory allocation, integer overflow of `int` counters and indices (indices are natural numbers; where a
  negative number is possible the model uses integers), the cost of an algorithm.

Floating point numbers are elements of an arbitrary type with arbitrary operations; a theorem that needs a law of
exact arithmetic has it as a hypothesis.
