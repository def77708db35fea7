{"id": "C01", "title": "Charges of every symmetry kind form an ordered abelian group with a parity", "statement": "For each of the six symmetry kinds (No, Z2, U1, Fermi, FermiZ2, FermiU1) adding charges is associative and commutative, the default charge is neutral, unary minus gives the inverse, the comparison used to key blocks and edges is a strict total order, and the fermion parity of a sum is the exclusive-or of the parities; for the 16-bit fermion number this holds even when the sum wraps around.", "quantifier": "all values of the machine types behind the six symmetry kinds (for U1 all pairs of values, with the wrap-around behaviour made explicit)", "why_tests_cant": "the Fermi charge space has 2^16 values per component and the laws quantify over triples; overflow cases are never reached by unit tests", "anchors": ["include/TAT/symmetry.hpp: operator+, operator+=, operator-, comparison macros", "include/TAT/basic_type.hpp: Fermi, U1, Z2"]}
{"id": "C02", "title": "A new tensor owns exactly the charge-conserving blocks, each of the right size", "statement": "Constructing a tensor from a list of edges creates one block for each choice of one charge per edge whose charges add up to zero, no other block, no duplicates, in ascending lexicographic key order, and each block holds exactly the product of the chosen segment dimensions many elements (one element for rank 0).", "quantifier": "all symmetry kinds, all ranks, all edges (any number of charge segments including none, any dimensions including zero)", "why_tests_cant": "the enumeration is an odometer with an incremental prefix cache (minimum_changed); a stale cache entry shows only for particular interleavings of conserving and non-conserving tuples", "anchors": ["include/TAT/edge.hpp: loop_edge, initialize_block_symmetries_with_check", "include/TAT/core.hpp: Core::Core"]}
{"id": "C03", "title": "Construction prunes exactly the unused charges and is idempotent", "statement": "After construction every edge lists exactly those of its original charges that occur in at least one block, with unchanged dimensions, and building a tensor again from the resulting edges (same_shape) gives the same edges and the same block structure.", "quantifier": "all symmetry kinds, all lists of edges", "why_tests_cant": "whether a charge is used depends on the whole combination of the other edges", "anchors": ["include/TAT/core.hpp: Core::Core", "include/TAT/tensor.hpp: same_shape"]}
{"id": "C04", "title": "Element addresses are a bijection", "statement": "For a constructed tensor, in-range coordinates (a charge and an index per edge) whose charges add to zero are mapped to storage cells one-to-one and onto: two different coordinates never share a cell, every cell is reached, no in-range access leaves its block; writing one element and reading another leaves the other unchanged.", "quantifier": "all tensors, all pairs of in-range coordinates", "why_tests_cant": "the number of coordinate pairs grows as the square of the tensor size; tests look at a few elements", "anchors": ["include/TAT/get_item.hpp: get_offset_for_get_item, at, const_at", "include/TAT/tensor.hpp: at"]}
{"id": "C05", "title": "The data-moving kernel copies every element exactly where the plan says", "statement": "For any permutation of axes, any dimensions and any source and destination strides whose destination addresses are distinct, transposing a block with either strategy (small-block or cache-interleaved) and either element-wise or contiguous-run inner loop leaves destination cell of the permuted index equal to the source cell of the index (negated when the sign flag is set), leaves all other destination cells unchanged, terminates, and never touches memory outside the two blocks.", "quantifier": "all ranks, dimensions, strides, base offsets, permutations, sign flags and block sizes on both sides of the cache threshold", "why_tests_cant": "the contiguous-run detection and the interleaved axis order depend on relations among all strides; small tests only exercise the small-block strategy", "anchors": ["include/TAT/transpose.hpp: tensor_transpose_kernel, simple_transpose, inturn_transpose, do_transpose, matrix_transpose"]}
{"id": "C06", "title": "The transpose kernel reads only inside its stride tables", "statement": "Every access of the transposition code to its stride and dimension tables is within bounds.", "quantifier": "all ranks, dimensions and strides", "why_tests_cant": "the out-of-bounds read returns stack or arena garbage and both outcomes of the comparison give the right copy, so no output-comparing test can see it", "anchors": ["include/TAT/transpose.hpp: simple_transpose lines 234-244, inturn_transpose lines 355-365"]}
{"id": "C07", "title": "Transposing changes only the axis order", "statement": "For a bosonic tensor T and a permutation of its edge names, T.transpose(names) has the same element as T at the same name-indexed coordinates, has the permuted edges, and has no further elements.", "quantifier": "all bosonic symmetry kinds, all tensors, all permutations of the names, all coordinates", "why_tests_cant": "ranks, block structures and permutations are unbounded", "anchors": ["include/TAT/edge_miscellaneous.hpp: transpose", "include/TAT/edge_operator.hpp: edge_operator"]}
{"id": "C08", "title": "Fermionic transposition multiplies by the sign of the permutation of odd legs", "statement": "For a fermionic tensor, transposing multiplies the element by minus one to the number of pairs of odd-parity edges whose order is exchanged; this sign is multiplicative under composition of permutations and so is independent of the sequence of transpositions used to reach an order.", "quantifier": "all ranks, all charges, all pairs of composable permutations", "why_tests_cant": "sign consistency is a statement about all pairs of permutations", "anchors": ["include/TAT/symmetry.hpp: get_transpose_parity", "include/TAT/edge_operator.hpp: edge_operator"]}
{"id": "C09", "title": "Transposes compose and are invertible", "statement": "T.transpose(n1).transpose(n2) equals T.transpose(n2), and transposing back to the original names returns the original tensor (names, edges, every element, fermionic signs included).", "quantifier": "all symmetry kinds, tensors and permutations", "why_tests_cant": "quantifies over pairs of permutations and all tensors", "anchors": ["include/TAT/edge_miscellaneous.hpp: transpose", "include/TAT/edge_operator.hpp"]}
{"id": "C10", "title": "An edge-name list that is not a permutation of the tensor's names is rejected", "statement": "transpose (and every operation built on it, such as adding two tensors) raises an error when the requested names are not a permutation of the tensor's edge names, instead of returning a tensor.", "quantifier": "all tensors and all name lists", "why_tests_cant": "tests try one or two bad lists; the property needs every bad list to be caught", "anchors": ["include/TAT/edge_operator.hpp: is_same_vector lines 31-43, edge_operator lines 129-138", "include/TAT/scalar.hpp"]}
{"id": "C11", "title": "Merge and split signs equal the sign of fully reversing the merged legs", "statement": "The sign applied when merging or splitting a group of fermionic edges is minus one to the number of pairs of odd edges in the group, i.e. the sign of reversing the whole group, for every selection of groups; reversing edges twice, and splitting what was merged, gives total sign plus one.", "quantifier": "all ranks, groupings, selections and charges", "why_tests_cant": "the code uses (sum^2 - sum of squares)/2 modulo 2 on machine integers in place of counting pairs", "anchors": ["include/TAT/symmetry.hpp: get_split_merge_parity, get_reverse_parity"]}
{"id": "C12", "title": "Merging edges is a bijective relabelling of elements", "statement": "merge_edge maps each tuple of (charge, index) of the merged edges to one (charge, index) of the new edge whose charge is the sum, injectively and onto the new edge, the new segment dimension being the sum of the products of the old dimensions; every element of T appears, possibly with the documented fermionic sign, at its image and every other element of the result is zero.", "quantifier": "all symmetry kinds, tensors, groupings (including empty groups and groups of one)", "why_tests_cant": "offsets inside a merged segment depend on the entire enumeration of charge tuples", "anchors": ["include/TAT/edge_operator.hpp: merge part (lines 305-491), main copy loop", "include/TAT/edge_miscellaneous.hpp: merge_edge"]}
{"id": "C13", "title": "Splitting undoes merging", "statement": "Splitting a merged edge back into the original edges returns the original tensor, element by element, fermionic signs included when both use the same sign option.", "quantifier": "all symmetry kinds, tensors and groupings", "why_tests_cant": "needs both enumerations to agree for every charge structure", "anchors": ["include/TAT/edge_operator.hpp", "include/TAT/edge_miscellaneous.hpp: merge_edge, split_edge"]}
{"id": "C14", "title": "Contraction of plain tensors is the sum of products", "statement": "For tensors without symmetry, contract(A, B, pairs) has at every coordinate of the result the sum over all values of the contracted indices of the product of the two elements; edges carrying the same free name in both tensors are fused, i.e. share one index; result edges are the fused names first, then the free names of A, then the free names of B.", "quantifier": "all plain tensors, ranks, dimensions (including zero) and sets of pairs", "why_tests_cant": "five layout strategies are selected by which name is last in which tensor; each must give the same function", "anchors": ["include/TAT/contract.hpp: contract_with_fuse, gemm_batch"]}
{"id": "C15", "title": "Contraction of symmetric tensors over one edge is the sum of products", "statement": "For bosonic symmetric tensors contracted over at most one pair of edges (and over any number of pairs for Z2) whose charge segments match, the element of the result at any free coordinates is the sum over contracted (charge, index) values of the product of the elements, the contracted charge of the second tensor being the opposite of the first.", "quantifier": "all bosonic symmetric tensors with matching contracted edges", "why_tests_cant": "as for plain tensors, in every charge sector", "anchors": ["include/TAT/contract.hpp: contract_without_fuse"]}
{"id": "C16", "title": "Contraction over several edges pairs equal states", "statement": "For U1 (or fermionic) tensors contracted over two or more pairs of edges the result is the sum over contracted (charge, index) tuples of the products of elements with opposite charges and equal indices.", "quantifier": "all U1 tensors, two or more contracted pairs", "why_tests_cant": "the repository's own test of this (test_trace in simple_test.cpp) is switched off with a TODO; whether the two merge orders agree depends on the charge structure", "anchors": ["include/TAT/contract.hpp: contract_without_fuse", "include/TAT/edge_operator.hpp: lines 430-456"]}
{"id": "C17", "title": "Contraction tolerates charges present on one side only", "statement": "Contracting two symmetric tensors whose contracted edges have only partly overlapping charges succeeds and treats the missing sectors as zero.", "quantifier": "all bosonic symmetric tensors", "why_tests_cant": "tests use exactly matching charge sets", "anchors": ["include/TAT/contract.hpp: delete_unused_dimension lines 449-487", "include/TAT/edge_operator.hpp: lines 140-168, 562-566, 682"]}
{"id": "C18", "title": "Trace sums the diagonal", "statement": "trace over pairs of edges of a plain tensor gives at each remaining coordinate the sum over all values of the paired indices of the elements with equal paired indices; for symmetric bosonic tensors the same holds for a single pair of edges with opposite charge segments.", "quantifier": "all plain tensors, any number of pairs with equal dimensions; all bosonic symmetric tensors with one pair", "why_tests_cant": "ranks and positions of the pairs are unbounded", "anchors": ["include/TAT/trace.hpp: trace"]}
{"id": "C19", "title": "Element-wise arithmetic", "statement": "For two tensors with the same set of edge names, each of + - * / computes at every coordinate the operation on the two elements, where an element whose charge segment is absent from a tensor counts as zero; arithmetic with a number applies to every stored element; in-place variants give the same values as out-of-place ones.", "quantifier": "all symmetry kinds (bosonic), all pairs of tensors with compatible dimensions, all coordinates", "why_tests_cant": "segments may be missing on either side in any combination, and the second tensor may have any axis order", "anchors": ["include/TAT/scalar.hpp"]}
{"id": "C20", "title": "Conjugation is an involution", "statement": "conjugate() negates all charges, flips all arrows, conjugates every element with the fermionic reversal sign, and applying it twice returns the original tensor.", "quantifier": "all symmetry kinds, all tensors", "why_tests_cant": "sign and key order must work for every charge structure", "anchors": ["include/TAT/tensor_miscellaneous.hpp: conjugate"]}
{"id": "C21", "title": "Multiplying by a singular spectrum scales one axis and dividing undoes it", "statement": "multiple(S, name, direction) multiplies each element by the entry of S selected by that edge's charge (negated for direction v) and index; doing it again with division restores the tensor when the entries of S are non-zero; a dimension mismatch or bad direction is reported as an error.", "quantifier": "all symmetry kinds, tensors, spectra, edges", "why_tests_cant": "the flattened (m,k,n) loop must match every axis position and block", "anchors": ["include/TAT/tensor_miscellaneous.hpp: multiple, multiple_kernel"]}
{"id": "C22", "title": "identity() of a plain tensor is the identity matrix", "statement": "For a plain tensor whose names are partitioned into pairs of equal dimension at least one, identity(pairs) is one where each pair of indices agrees and zero elsewhere.", "quantifier": "all plain tensors of positive rank, all pairings, all coordinates", "why_tests_cant": "the diagonal walk adds strides of interleaved axes", "anchors": ["include/TAT/tensor_miscellaneous.hpp: identity, set_to_identity"]}
{"id": "C23", "title": "identity() of a symmetric tensor is the identity matrix", "statement": "For a symmetric tensor whose names are partitioned into pairs with opposite charge segments, identity(pairs) is one where each pair has opposite charges and equal indices and zero elsewhere.", "quantifier": "all symmetric tensors and pairings", "why_tests_cant": "needs at least two pairs and mixed charges, which no test uses", "anchors": ["include/TAT/tensor_miscellaneous.hpp: identity, set_to_identity"]}
{"id": "C24", "title": "shrink selects a slice, expand places one", "statement": "For plain tensors shrink(configure) has as elements those elements of T whose fixed edges take the given indices, and expand(configure) has element T at the given new index and zero at all others; shrinking what was expanded at the same index gives the original.", "quantifier": "all plain tensors, all in-range configurations", "why_tests_cant": "implemented by contracting with a one-hot helper tensor of arbitrary rank", "anchors": ["include/TAT/shrink_and_expand.hpp"]}
{"id": "C25", "title": "expand undoes shrink for symmetric tensors", "statement": "For symmetric tensors, expanding the auxiliary edge produced by shrink with the same charges and indices succeeds.", "quantifier": "all symmetric tensors", "why_tests_cant": "needs non-zero total charge, which no test uses", "anchors": ["include/TAT/shrink_and_expand.hpp: expand lines 43-92"]}
{"id": "C26", "title": "Copies are independent", "statement": "After copying a tensor (or obtaining one by rename or by a transpose that changes nothing) any later sequence of element writes, zero, set, transform and in-place arithmetic through one handle never changes what another handle reads.", "quantifier": "all histories of handle creation, copying, dropping and modifying operations", "why_tests_cant": "copy-on-write bugs appear only for particular sharing histories", "anchors": ["include/TAT/tensor.hpp: transform, at, block, zero", "include/TAT/get_item.hpp", "include/TAT/scalar.hpp: in-place operators", "include/TAT/propagate_const.hpp"]}
{"id": "C27", "title": "Names are interned one-to-one", "statement": "After any sequence of name creations, in the process itself and in a process that has loaded its saved name table, equal strings get equal names, different strings get different names, the string of a name never changes, and comparing names is a total order.", "quantifier": "all histories of name creation", "why_tests_cant": "a table invariant over all histories", "anchors": ["include/TAT/name.hpp: fast_name_dataset, FastName"]}
{"id": "C28", "title": "Binary dump and load are inverse", "statement": "Loading what was dumped gives back an equal tensor (names, edges with arrows, every block bit for bit) and consumes exactly the dumped bytes, so any sequence of dumped values can be loaded one after the other.", "quantifier": "all symmetry kinds, all tensors, all following bytes", "why_tests_cant": "the format has no tags or checksums; correctness depends on every length being written and read in the same order for every structure", "anchors": ["include/TAT/io.hpp: operator< and operator> for tensors, edges, maps, vectors, names, load, dump"]}
{"id": "C29", "title": "Text output of a plain tensor can be read back", "statement": "For a plain tensor whose names contain no separator characters, reading the printed text returns the same names, dimensions and element texts, leaving the stream just behind the closing brace.", "quantifier": "all plain tensors with separator-free names and elements whose own text is readable", "why_tests_cant": "names, ranks and sizes are unbounded; the scanner skips to separators", "anchors": ["include/TAT/io.hpp: operator<<, operator>>, scan_list, scan_string_for_name, ignore_util"]}
{"id": "C30", "title": "Text output of a symmetric tensor can be read back", "statement": "Reading the printed text of a symmetric tensor returns the tensor.", "quantifier": "all symmetric tensors", "why_tests_cant": "the repository test only reads hand-written text without colour codes", "anchors": ["include/TAT/io.hpp: lines 440-520, console colour constants"]}
{"id": "C31", "title": "Lazy nodes never return stale values", "statement": "In a lazy graph, for every interleaving of creating roots, nodes and paths, setting and unsetting roots, reading nodes and dropping handles, reading a node or path returns the value of its function applied to the current root values.", "quantifier": "all graphs, functions and histories of operations", "why_tests_cant": "cache-invalidation bugs depend on diamond-shaped graphs and on reads interleaved with writes", "anchors": ["include/lazy.hpp: lazy_base::unset, root, node, path, Root, Node, Path"]}
{"id": "C32", "title": "Graph snapshots restore a consistent state", "statement": "Loading a snapshot of a graph makes every node and root that existed at the time of the snapshot return what it returned then, whatever happened in between; for data nodes created after the snapshot the returned value is the function of the restored roots.", "quantifier": "all graphs and histories between dump and load", "why_tests_cant": "quantifies over histories between dump and load", "anchors": ["include/lazy.hpp: Graph::dump, Graph::load"]}
{"id": "C33", "title": "Broadcast delivers the root's value to every process", "statement": "With any number of processes and any valid root, every process that calls broadcast receives the root's value, each message sent is received exactly once, and no interleaving of the processes deadlocks; an invalid root is reported as an error on every process when there is more than one process.", "quantifier": "all process counts, roots, values, and all interleavings of the sends and receives", "why_tests_cant": "tests run a handful of process counts and one schedule", "anchors": ["include/TAT/mpi.hpp: mpi_t::broadcast, send, receive"]}
{"id": "C34", "title": "Reduce combines every process's value exactly once", "statement": "With any number of processes and any valid root, the root obtains the combination of all processes' values, each used exactly once, grouped along the process tree in a fixed order; for an associative and commutative function it is the plain fold; no interleaving deadlocks.", "quantifier": "all process counts, roots, values, combining functions and interleavings", "why_tests_cant": "tests run a handful of process counts and one schedule", "anchors": ["include/TAT/mpi.hpp: mpi_t::reduce"]}
{"id": "C35", "title": "Scratch allocations never overlap", "statement": "For any sequence of non-empty allocation requests the arena returns address ranges that lie inside memory it owns, respect the requested alignment (up to the default maximum), and are pairwise disjoint until the arena is released.", "quantifier": "all sequences of request sizes and alignments, all initial buffers", "why_tests_cant": "arena refill points depend on the running total of all previous requests and padding", "anchors": ["include/TAT/pmr_resource.hpp: monotonic_buffer_resource, increase_next_size_to"]}
{"id": "C36", "title": "Scratch arenas nest like a stack", "statement": "When scopes are opened and closed in nesting order, the default allocation source after closing a scope is exactly the one before it was opened, and a function returning normally or by exception leaves the default source unchanged.", "quantifier": "all nesting histories", "why_tests_cant": "a history property", "anchors": ["include/TAT/pmr_resource.hpp: scope_resource, set_default_resource"]}
{"id": "C37", "title": "Truncated SVD keeps the largest singular values", "statement": "When all singular values are positive and sorted within each charge, cutting to a total dimension keeps exactly that many values, they are a prefix in each charge, and no discarded value is larger than a kept one.", "quantifier": "all numbers of charges, all value lists, all cuts", "why_tests_cant": "the greedy selection must be right for every distribution of values over charges", "anchors": ["include/TAT/svd.hpp: svd lines 355-395"]}
{"id": "C38", "title": "Truncated SVD is well defined for rank-deficient input", "statement": "Cutting to a total dimension below the number of singular values never fails and keeps in no charge more values than that charge has, also when some singular values are zero.", "quantifier": "all value lists including zeros, all cuts", "why_tests_cant": "exact zeros do not occur in random tests", "anchors": ["include/TAT/svd.hpp: svd lines 361-389"]}
{"id": "C39", "title": "Scaling and squaring raises to the right power", "statement": "The repeated-squaring stage of the matrix exponential returns the 2^j-th power of the approximant in the output buffer for every j, whatever the parity of j, and the Pade numerator and denominator recurrences compute the documented polynomials for every order.", "quantifier": "all orders, all j, all matrices over a ring", "why_tests_cant": "the two buffers are swapped once per squaring; errors depend on the parity of j", "anchors": ["include/TAT/exponential.hpp: matrix_exponential"]}
{"id": "C40", "title": "Parallel groups of the simple update touch disjoint sites", "statement": "For a Hamiltonian that does not contain one bond in both orientations, the update schedule lists every term exactly once or the call fails, two different terms of the same group have no site in common, and no term reads an environment that another term of its group writes.", "quantifier": "all lattice sizes and all Hamiltonians made of single-site and nearest-neighbour terms", "why_tests_cant": "quantifies over all sets of terms", "anchors": ["include/square/simple_update_lattice.hpp: _simple_update_positions_sequence, _get_related_environment, try_multiple"]}
{"id": "C41", "title": "The distributed simple update equals the sequential one", "statement": "One sweep over a group executed by any number of processes, followed by the broadcasts, leaves every process with the same lattice and environment as executing the terms one after the other on a single process, in any order.", "quantifier": "all process counts, groups satisfying the previous property and all local update functions", "why_tests_cant": "needs independence of all pairs of terms and all distributions of work", "anchors": ["include/square/simple_update_lattice.hpp: _single_group_simple_update, _single_term_simple_update"]}
{"id": "C42", "title": "The Markov sweep visits every Hamiltonian term exactly once", "statement": "The sampling schedule contains each nearest-neighbour or on-site term of the Hamiltonian exactly once, or the call fails.", "quantifier": "all lattice sizes and Hamiltonians", "why_tests_cant": "quantifies over all sets of terms", "anchors": ["include/square/sampling_gradient_lattice.hpp: _markov_sampling_positions_sequence"]}
{"id": "C43", "title": "Each Markov step satisfies detailed balance", "statement": "For a Hamiltonian term with a symmetric pattern of non-zero elements, the transition probability of one hop attempt satisfies detailed balance with respect to the squared wave function, and so does a palindromic sweep of such steps with respect to stationarity.", "quantifier": "all configurations, all non-zero wave-function values, all hopping patterns", "why_tests_cant": "a statement about probabilities, not about sampled outcomes", "anchors": ["include/square/sampling_gradient_lattice.hpp: _markov_single_term, _markov_spin, _find_hopping_element"]}
{"id": "C44", "title": "Ergodic sampling enumerates every configuration exactly once", "statement": "The mapping from step number to spin configuration is a bijection between the steps below d^(M N) and all configurations.", "quantifier": "all lattice sizes and physical dimensions", "why_tests_cant": "the number of configurations is exponential", "anchors": ["include/square/sampling_gradient_lattice.hpp: _ergodic_spin, ergodic"]}
{"id": "C45", "title": "Observables with an all-zero row are handled", "statement": "Measuring an operator and hopping with it succeed for every spin configuration, treating configurations with no non-zero matrix element as contributing zero.", "quantifier": "all operators and configurations", "why_tests_cant": "needs an operator with a zero row; the test operators have none", "anchors": ["include/square/sampling_gradient_lattice.hpp: _find_element, _find_hopping_element, .at(current_spin)"]}
{"id": "C46", "title": "Renaming edges keeps the data and the order", "statement": "edge_rename keeps the edges and all elements, replaces exactly the given names, and the result has distinct names whenever the replacement is injective on the tensor's names.", "quantifier": "all tensors and dictionaries", "why_tests_cant": "quantifies over all dictionaries", "anchors": ["include/TAT/edge_miscellaneous.hpp: edge_rename"]}
{"id": "C47", "title": "Timers account for all time exactly once", "statement": "For any properly nested sequence of timed sections, the total of a section equals its own time plus the totals of the sections opened directly inside it.", "quantifier": "all nesting histories and all clock readings", "why_tests_cant": "a history property", "anchors": ["include/TAT/timer.hpp"]}
{"id": "C48", "title": "Lattice files restore the Hamiltonian including sharing", "statement": "Loading a dumped lattice gives a Hamiltonian mapping each set of positions to an equal operator, and two terms sharing one operator object still share one after loading.", "quantifier": "all lattices", "why_tests_cant": "sharing structure and map order are arbitrary", "anchors": ["include/square/abstract_lattice.hpp: operator<, operator>"]}
{"id": "C49", "title": "Element-wise whole-tensor functions", "statement": "map and transform apply the function to each stored element exactly once, test() numbers the elements consecutively in storage order across blocks, zero() clears all, and the max, sum, count and squared norms equal the corresponding folds over all stored elements.", "quantifier": "all tensors and functions", "why_tests_cant": "quantifies over all block structures", "anchors": ["include/TAT/tensor.hpp: map, transform, set, zero, test, norm"]}
{"id": "C50", "title": "Out-of-range indices are reported", "statement": "Reading or writing an element with an index not smaller than the dimension of its segment raises an error.", "quantifier": "all tensors and coordinates", "why_tests_cant": "an unchecked offset usually stays inside the block and silently addresses another element", "anchors": ["include/TAT/get_item.hpp: get_offset_for_get_item, at"]}
{"id": "C51", "title": "Contracting plain edges of different dimension is reported", "statement": "Contracting two plain tensors over a pair of edges of different dimension raises an error.", "quantifier": "all plain tensors and pairs of edges of different dimensions", "why_tests_cant": "a missing check usually reads past a buffer or returns a tensor silently, and only for particular dimensions", "anchors": ["include/TAT/contract.hpp: contract_with_fuse"]}
{"id": "C52", "title": "Loading a name table keeps existing names", "statement": "Loading a name table that the same process saved earlier keeps the string of every name that exists at the time of loading.", "quantifier": "all histories of name creation before and after saving", "why_tests_cant": "a history property: names created between saving and loading", "anchors": ["include/TAT/io.hpp: load_fast_name_dataset, operator> for fast_name_dataset_t"]}
{"id": "C53", "title": "Empty and over-aligned scratch requests are served safely", "statement": "An empty allocation request leaves the arena in a state in which later requests still get memory the arena owns, and requests with an alignment above the default maximum get addresses of that alignment.", "quantifier": "all arena states and requests", "why_tests_cant": "needs a particular remaining size and address", "anchors": ["include/TAT/pmr_resource.hpp: do_allocate, remaining_storage, allocate_from_current"]}
{"id": "C54", "title": "The simple update applies an operator to the sites in the listed order", "statement": "When a two-site term lists its sites as (a, b), the simple update applies the operator with its first pair of legs on a and its second on b, as the exact and the sampling methods do, whichever of the two sites comes first on the lattice.", "quantifier": "all neighbouring sites, operators and networks", "why_tests_cant": "the operators used in tests are symmetric under exchange of the sites", "anchors": ["include/square/simple_update_lattice.hpp: _single_term_simple_update", "include/square/exact_lattice.hpp: update, observe"]}
{"id": "C55", "title": "Ergodic sampling computes the exact expectation value", "statement": "For every operator and every wave function that is not zero everywhere, sampling over all configurations returns the expectation value <psi|O|psi>/<psi|psi> of the operator on the given sites.", "quantifier": "all lattices, physical dimensions, wave functions and operators without zero rows", "why_tests_cant": "tests compare a single energy of a random state", "anchors": ["include/square/sampling_gradient_lattice.hpp: ergodic, _find_element"]}
{"id": "C56", "title": "Measurements use the elements of the operator they are given", "statement": "Each measurement and each hop uses the matrix elements of the operator passed to it, whatever operators were used before.", "quantifier": "all sequences of requests, all operators and dimensions, all placements of tensors in memory", "why_tests_cant": "needs a tensor placed at the address of a dropped one", "anchors": ["include/square/sampling_gradient_lattice.hpp: tensor_element_map, tensor_hopping_element_map"]}
{"id": "C57", "title": "The Markov estimate is unbiased", "statement": "Started from a configuration drawn from the squared wave function, the mean over the random choices of the value that Markov sampling returns for an observer is its expectation value, for every number of steps, and no run starting at a configuration of non-zero amplitude returns a value that is not a number.", "quantifier": "all lattices, wave functions, hopping terms with a symmetric pattern and no zero row, observers without zero rows, positive numbers of steps", "why_tests_cant": "a statement about the mean over all random choices", "anchors": ["include/square/sampling_gradient_lattice.hpp: markov, _markov_spin, _markov_single_term"]}
{"id": "C58", "title": "A truncated dump is reported", "statement": "Loading a tensor from a byte string that is a proper prefix of its dump raises an error instead of returning a tensor.", "quantifier": "all tensors and all proper prefixes of their dumps", "why_tests_cant": "tests load complete dumps; a silent failure needs a cut at a particular place", "anchors": ["include/TAT/io.hpp: operator> for tensors, load, vectors"]}
{"id": "C59", "title": "A dump keeps the names of the edges when it is loaded in another process", "statement": "A tensor dumped in one process and loaded in another one has edges with the same name strings.", "quantifier": "all histories of name creation in both processes, all tensors, both kinds of names", "why_tests_cant": "tests run in one process", "anchors": ["include/TAT/io.hpp: operator< and operator> for names, fast_name_dataset", "include/TAT/name.hpp: FastName"]}
{"id": "C60", "title": "Tracing several pairs of edges at once sums the full diagonal", "statement": "trace over several pairs of edges of a bosonic symmetric tensor, the two edges of every pair having opposite charge segments, gives at each remaining coordinate the sum of the elements whose paired edges all carry opposite charges and equal indices; in particular tracing the pairs at once or one after the other gives the same tensor.", "quantifier": "all bosonic symmetric tensors (Z2, U1), all sets of two or more disjoint pairs", "why_tests_cant": "the order in which charge tuples of merged edges are laid out decides which elements are added; small symmetric test data add up to the same number by accident", "anchors": ["include/TAT/trace.hpp: trace", "include/TAT/edge_operator.hpp: edge_operator"]}
{"id": "C61", "title": "The exponential of a tensor is the exponential of its operator", "statement": "Given a pairing of all the names of a tensor, the two edges of each pair having opposite charge segments, exponential returns the tensor of the exponential (Pade approximant with scaling and squaring) of the operator that maps the second edges to the first ones: for every total charge the matrix of the elements with row the coordinates of the first edges and column those of the second edges. In particular the exponential of a diagonal operator is diagonal. The result has the same names and edges.", "quantifier": "all tensors, all pairings of their names in every order of the edges, all orders of the approximation", "why_tests_cant": "whether rows and columns are numbered alike depends on the order of the charge tuples of merged edges and on which name comes last", "anchors": ["include/TAT/exponential.hpp: Tensor::exponential, matrix_exponential", "include/TAT/edge_operator.hpp: edge_operator"]}
{"id": "C62", "title": "In-place arithmetic of a tensor with itself has a value", "statement": "t op= t leaves in t the elements of t op t, and t op= t.const_at(position) combines every element with the value the element at position had before.", "quantifier": "all tensors, symmetries and scalar types, operators + - * /, all sharing histories", "why_tests_cant": "a compiler may or may not make use of the promise that the pointers do not alias, so a test passes or fails by optimisation level", "anchors": ["include/TAT/scalar.hpp: in-place operators"]}
{"id": "C63", "title": "A reference to an element stays with its tensor", "statement": "A reference obtained with at or block from a tensor writes into that tensor and into no other tensor, also when it is kept while the tensor is copied.", "quantifier": "all histories of copying, renaming and element access", "why_tests_cant": "needs a copy made between taking and using a reference", "anchors": ["include/TAT/get_item.hpp: at, block", "include/TAT/tensor.hpp", "PyTAT/PyTAT.cpp: block buffers"]}
{"id": "C64", "title": "Contraction of fermionic tensors over a pair of edges", "statement": "contract of two fermionic tensors over one pair of edges (or none), whose arrows are opposite and whose segments have opposite charges and equal dimensions, gives at every charge-conserving coordinate of the remaining edges the sum over the contracted edge of the products of the elements, each with the sign of bringing the contracted edges together (last in the first tensor, first in the second) and a further sign for an odd charge if the first of the two edges has arrow false. The remaining edges keep their segments and their arrows.", "quantifier": "all fermionic tensors of all ranks and dimensions, all pairs, in all orders of the edges and whichever internal layout (transposed or not) the implementation picks", "why_tests_cant": "the sign depends on the positions of the edges, on the arrows and on the layout chosen for the matrix product; tests cover few combinations of odd charges", "anchors": ["include/TAT/contract.hpp: contract without fused names", "include/TAT/edge_operator.hpp: edge_operator"]}
{"id": "C65", "title": "Contraction does not depend on the order of the operands", "statement": "Contracting b with a over the exchanged pairs and transposing the result into the order of edges of the contraction of a with b gives the same tensor, for bosonic and fermionic tensors.", "quantifier": "all symmetric tensors a and b contracted over one pair (any number of pairs if every charge is its own opposite)", "why_tests_cant": "the implementation is not symmetric in its operands: it reverses edges of the first one with and of the second one without sign", "anchors": ["include/TAT/contract.hpp: contract", "include/TAT/edge_miscellaneous.hpp: transpose"]}
{"id": "C66", "title": "Contraction commutes with transposition of the operands", "statement": "Transposing the operands in any way before a contraction and transposing the result back into the order it would have had gives the same tensor as contracting directly, fermionic signs included.", "quantifier": "all symmetric tensors, all pairs of permutations of their edges", "why_tests_cant": "the order of edges selects among several layouts and sign corrections in the implementation", "anchors": ["include/TAT/contract.hpp: contract", "include/TAT/edge_operator.hpp: edge_operator"]}
{"id": "C67", "title": "The edges of a contraction of fermionic tensors are determined by the operands", "statement": "The segments and arrows of the edges of the result of a fermionic contraction depend on nothing but the operands: each remaining edge keeps its arrow. In particular a later contraction over such an edge is accepted or refused for all runs alike.", "quantifier": "all fermionic tensors and pairs", "why_tests_cant": "the value of an uninitialised variable is mostly the same in all runs of a test", "anchors": ["include/TAT/edge_operator.hpp: arrow of merged edges", "include/TAT/contract.hpp: contract"]}
{"id": "C68", "title": "The factors of qr multiply to the tensor", "statement": "qr of a tensor, for any choice of edges and either direction, either throws because LAPACK reported an error, or returns Q and R such that contracting them over the new edge and restoring the order of edges gives the tensor back: the same edges, elements and (for edges with fermions) arrows.", "quantifier": "all well-formed tensors with a block, all ranks, dimensions, symmetries (fermions included), all sets of edges, whichever of the four internal LAPACK paths is taken", "why_tests_cant": "four code paths (QR or LQ, transposed or not) selected by the position of the edges and the shape of every block; fermionic signs of merging and splitting must cancel", "anchors": ["include/TAT/qr.hpp: qr, calculate_qr, calculate_qr_kernel", "include/TAT/contract.hpp: contract"]}
{"id": "C69", "title": "Q of a qr is an isometry of minimal dimension", "statement": "Q has the chosen edges, unchanged, and the new edge; R the others and the new edge; the new edges have opposite charges and, for fermions, opposite arrows; the dimension of each charge is the smaller of the dimensions of both sides, and only charges possible on both sides occur. Summing conj(Q) Q over all coordinates of the edges shared with the tensor gives the identity of the new edge.", "quantifier": "all well-formed tensors, sets of edges, directions, pairs of coordinates of the new edge", "why_tests_cant": "needs all blocks, charges and layouts of merged edges at once", "anchors": ["include/TAT/qr.hpp: qr"]}
{"id": "C70", "title": "R of a qr is triangular", "statement": "The element of R is zero wherever the index of its original edges, taken together as one edge, is smaller than the index of the new edge (within each charge).", "quantifier": "all well-formed tensors, sets of edges, directions, coordinates", "why_tests_cant": "elements below the diagonal hold LAPACK's reflectors and must be cleared in each of four code paths", "anchors": ["include/TAT/qr.hpp: calculate_qr_kernel"]}
{"id": "C71", "title": "The factors of svd multiply to the tensor", "statement": "svd of a tensor, for any choice of edges, returns U, the singular values and V; unless LAPACK reported a failure, multiplying the new edge of U (or the new edge of V) by the singular values, contracting both tensors and restoring the order of edges gives the tensor back: the same edges, elements and (for edges with fermions) arrows.", "quantifier": "all well-formed tensors with a block, all ranks, dimensions, symmetries (fermions included), all sets of edges, either position of U and V", "why_tests_cant": "fermionic signs of merging, reversing and splitting must cancel in two code paths, and the spectrum must be indexed by the right charge", "anchors": ["include/TAT/svd.hpp: svd, calculate_svd", "include/TAT/tensor_miscellaneous.hpp: multiple", "include/TAT/contract.hpp: contract"]}
{"id": "C72", "title": "U and V of an svd are isometries and the spectrum is ordered", "statement": "U has the chosen edges, unchanged, and the new edge; V the others and the new edge; the new edges have opposite charges and, for fermions, opposite arrows; the dimension of each charge is the smaller of the dimensions of both sides. There is one list of singular values for each charge of the new edge of U, as long as its dimension; unless LAPACK reported a failure the values are not negative and descending, and U and V are orthonormal over the edges they share with the tensor.", "quantifier": "all well-formed tensors, sets of edges, pairs of coordinates of the new edges", "why_tests_cant": "needs all blocks, charges and layouts of merged edges at once", "anchors": ["include/TAT/svd.hpp: svd"]}
{"id": "C73", "title": "Truncated svd keeps the largest values and cuts the factors accordingly", "statement": "svd with a limit n of values returns the whole decomposition if it has at most n values. Otherwise, if there are at least n positive ones, exactly n values are kept, none of them smaller than one left out, a prefix for each charge; U and V are those of the whole decomposition with each charge of the new edges shortened to the number of values kept, without the charges that keep none, all other elements and arrows unchanged.", "quantifier": "all well-formed tensors, sets of edges, limits n", "why_tests_cant": "the cut is applied to merged edges, before splitting them, and the charge of V's edge is the opposite of that of the value; depends on the ordering of all values of all charges", "anchors": ["include/TAT/svd.hpp: svd", "include/TAT/edge_operator.hpp: edge_operator (cut)"]}
{"id": "C74", "title": "A decomposition returned by svd is a decomposition", "statement": "Whenever svd returns normally, the product of its factors and singular values is the tensor (failures are reported to the caller, as qr does).", "quantifier": "all tensors, all answers of LAPACK", "why_tests_cant": "LAPACK's failure to converge is not reproducible by ordinary inputs", "anchors": ["include/TAT/svd.hpp: calculate_svd_kernel", "include/TAT/TAT.hpp: TAT_warning_or_error_when_lapack_error"]}
{"id": "C75", "title": "Contracting a lattice gives the sum over all bonds", "statement": "For a square lattice of tensors, the auxiliaries system with a cut at least as large as every product of bond dimensions between two lines returns the sum over all indices of all bonds of the product of all sites: with no site replaced, with any one site replaced, and with two neighbouring sites replaced; for one site the hint (contract by rows or by columns) does not matter. Only a failure of LAPACK, reported by an exception or a message, excepts from this.", "quantifier": "all lattice sizes, bond dimensions, tensors, positions, replacements, hints, all answers of LAPACK that satisfy its specification", "why_tests_cant": "the value passes through dozens of contractions and decompositions with renamed edges, boundaries included; tests compare a few small lattices", "anchors": ["include/square/auxiliaries_system.hpp: SquareAuxiliariesSystem::operator()(replacement), _two_line_to_one_line"]}
{"id": "C76", "title": "The environment of a site is the lattice without it", "statement": "The auxiliaries system with one hole returns a tensor with an edge U0, D0, L0, R0 for each edge U, D, L, R of the site; for every tensor that fits in the hole, the sum over these edges of environment times tensor is the contraction of the lattice with that tensor in place of the site, for either hint. With no hole it returns the contraction of the lattice.", "quantifier": "all lattice sizes, bond dimensions, tensors, positions, hints, tensors put in", "why_tests_cant": "linear in a tensor with unboundedly many elements; boundaries and both directions have separate code", "anchors": ["include/square/auxiliaries_system.hpp: SquareAuxiliariesSystem::operator()(holes)"]}
{"id": "C77", "title": "Lattice requests that are not supported are refused", "statement": "The auxiliaries system throws out_of_range for a replacement or hole outside of the lattice, and NotImplementedError for more than two replacements, for two that are not neighbours, and for more than one hole; it never returns a wrong value for them.", "quantifier": "all lattice sizes, positions, numbers of replacements and holes", "why_tests_cant": "unboundedly many positions", "anchors": ["include/square/auxiliaries_system.hpp: SquareAuxiliariesSystem::operator()"]}
{"id": "C78", "title": "The amplitude of a spin configuration is the contraction with these spins", "statement": "After any sequence of setting and unsetting spins, copying the lattice and changing the cut that leaves every spin set, the amplitude of a SamplingGradientLattice is the contraction of the lattice with the physical edge of every site fixed at its spin (for a cut as in C75). Asking for the amplitude with other spins at no, one or two neighbouring sites gives the amplitude of that other configuration, without changing the present one. initialize_spin sets every spin to the value of the function.", "quantifier": "all lattice sizes, dimensions, tensors, histories of actions, replacements, hints", "why_tests_cant": "the cut tensors are kept incrementally: their correctness is an invariant over unboundedly long histories", "anchors": ["include/square/sampling_gradient_lattice.hpp: SpinConfiguration::set, operator(), initialize_spin"]}
{"id": "C79", "title": "The amplitude is that of the present tensors", "statement": "After any sequence of setting spins and replacing tensors of the lattice, the amplitude is the contraction of the present tensors with the present spins.", "quantifier": "all lattice sizes, dimensions, tensors, histories of actions", "why_tests_cant": "staleness of incrementally kept tensors depends on the history", "anchors": ["include/square/sampling_gradient_lattice.hpp: SpinConfiguration::set", "examples/heisenberg.cpp: gradient descent"]}
{"id": "C80", "title": "The gradient is the covariance of energy and logarithmic derivative", "statement": "The gradient of a site computed from samples is a tensor with the edges of the site whose element at spin p and bond indices u, d, l, r is 2 <O E> - 2 <E> <O>, means over the samples, O being 0 for a sample whose spin at the site is not p and otherwise the conjugate of (contraction of the lattice with these spins and the site replaced by the tensor that is 1 at u, d, l, r and 0 elsewhere) / amplitude.", "quantifier": "all lattice sizes, dimensions, tensors, sites, elements, numbers of samples, configurations, real and complex scalars", "why_tests_cant": "every element is a sum over unboundedly many samples of a contraction of the whole lattice", "anchors": ["include/square/sampling_gradient_lattice.hpp: markov (calculate_gradient)"]}
{"id": "C81", "title": "An exact lattice holds the wave function of the network it is made from", "statement": "Converting a SamplingGradientLattice into an ExactLattice never fails, gives one tensor with one edge P-i-j of the physical dimension for every site and no other, and its elements are, up to one common factor, the contractions of the lattice with the physical edges fixed at the configuration, if that wave function is not zero.", "quantifier": "all lattice sizes (also one row or column), bond and physical dimensions, tensors, configurations", "why_tests_cant": "the vector has exponentially many elements, each a sum over all bonds; tests look at a few small lattices", "anchors": ["include/square/conversion.hpp: ExactLattice(SamplingGradientLattice)"]}
{"id": "C82", "title": "Lattices made from a simple update lattice include the environments once", "statement": "Converting a SimpleUpdateLattice into an ExactLattice or a SamplingGradientLattice never fails; the wave function of the result is, up to one common factor, the contraction of the lattice with every environment multiplied in exactly once on its bond (bonds without environment count as ones), if that wave function is not zero.", "quantifier": "all lattice sizes, dimensions, tensors, sets of bonds with environments, singular values, configurations", "why_tests_cant": "an environment applied twice, not at all or on the wrong side changes every element, for unboundedly many bonds", "anchors": ["include/square/conversion.hpp: ExactLattice(SimpleUpdateLattice), SamplingGradientLattice(SimpleUpdateLattice)"]}
{"id": "C83", "title": "Observing an exact lattice gives expectation values", "statement": "observe(positions, A) of an ExactLattice v is <v|A v>/<v|v>, A acting on the given sites (edge Ik and Ok on the k-th position) and <f|g> the sum of conj(f(s)) g(s) over all configurations; denominator() is <v|v>; observe_energy() is <v|H v>/<v|v> divided by the number of sites, H the sum of the Hamiltonian terms.", "quantifier": "all lattice sizes, dimensions, vectors, operators on any number of different sites in any order, sets of terms, real and complex scalars", "why_tests_cant": "sums over exponentially many configurations; operators on any subset of the sites in any order", "anchors": ["include/square/exact_lattice.hpp: observe, denominator, observe_energy"]}
{"id": "C84", "title": "Exact imaginary time evolution applies a power of a - H and reports the energy", "statement": "update(n, approximate_energy) of an ExactLattice v, with a = |approximate_energy| M N, leaves (a - H)^n v up to a factor if that is not zero; for an eigenvector of H of largest modulus one the energy returned is the eigenvalue divided by the number of sites.", "quantifier": "all lattice sizes, dimensions, vectors, sets of terms, numbers of steps, approximate energies", "why_tests_cant": "a statement about an unbounded number of steps on vectors of unbounded size", "anchors": ["include/square/exact_lattice.hpp: update"]}
{"id": "C85", "title": "A step of the simple update applies the operator of its term", "statement": "After one step of the simple update with an operator on one site, or on two neighbouring sites (left or upper one first), the contraction of the lattice with its environments is, up to one common factor, the operator applied to the contraction before; provided dimension_virtual is at least d*d times the bond dimension (nothing truncated), no environment value on another bond of the two sites is zero, and no LAPACK failure was reported. A step on one site leaves the environments as they are. The same holds for any number of such steps after one another.", "quantifier": "all lattice sizes, bond and physical dimensions, tensors, bonds with and without environments, operators, sequences of terms", "why_tests_cant": "environments have to be multiplied in and divided out on exactly the right sides of every site for unboundedly many bonds; each amplitude is a sum over all bonds", "anchors": ["include/square/simple_update_lattice.hpp: _single_term_simple_update, _single_term_simple_update_single_site, _single_term_simple_update_horizontal_bond, _single_term_simple_update_vertical_bond"]}
{"id": "C86", "title": "The simple update respects the order of the positions of a term", "statement": "With the two neighbouring positions of a term given in either order, a step of the simple update applies the operator with its edges I0, O0 on the first position and I1, O1 on the second, as ExactLattice does.", "quantifier": "all lattice sizes, dimensions, tensors, environments, operators, both orders", "why_tests_cant": "only operators that are not symmetric show the difference", "anchors": ["include/square/simple_update_lattice.hpp: _single_term_simple_update", "include/square/exact_lattice.hpp: observe"]}
{"id": "C87", "title": "Files of lattices of tensors give back the lattice", "statement": "For network, simple update, exact and sampling lattices: loading what dump wrote, in any process with the same names and into any lattice object, reads exactly what was written and gives a lattice of the same size and dimensions, with the same terms, equal tensors on all sites, the same environments (simple update), an equal state vector (exact), and for a sampling lattice the same dimension_cut and spins; the amplitude of the loaded sampling lattice is the contraction of the tensors that were written at the spins that were written.", "quantifier": "all lattice sizes, tensors, sets of terms, environments, partly or fully set spins, previous contents of the object loaded into", "why_tests_cant": "round trips over unbounded data; a field missed by one of dump and load shifts everything behind it", "anchors": ["include/square/abstract_network_lattice.hpp: dump, load", "include/square/simple_update_lattice.hpp: dump, load", "include/square/exact_lattice.hpp: dump, load", "include/square/sampling_gradient_lattice.hpp: dump, load"]}
{"id": "C88", "title": "The order in which a network of tensors is contracted does not matter", "statement": "Contracting three tensors in either order, (A B) C or A (B C), over the same pairs of edges succeeds in both cases and gives the same tensor: same edges in the same order, same arrows, same elements including the signs of the fermions.", "quantifier": "all tensors and pairs of matching edges; without symmetry any number of pairs between each two of the three, with symmetry also bosonic and fermionic charges", "why_tests_cant": "each element is a sum over all values of all contracted edges; the signs depend on all charges of all blocks", "anchors": ["include/TAT/contract.hpp: contract_with_fuse, contract_without_fuse"]}
{"id": "C89", "title": "A lattice of the simple update stays a lattice", "statement": "A new lattice of M rows, N columns, dimensions D and d has on every site a tensor with exactly the edges of its place and these dimensions.  Every term of an update with an operator for one site or for two neighbours, in either order and for every dimension_virtual of at least one, either throws an exception that reports a failure of LAPACK or gives again a lattice whose tensors have the edges of their places, whose two ends of every bond agree, and whose environments fit their bonds; no bond becomes larger than the largest of D and the dimensions asked for.  The next term then works again.  The whole update with any number of processes ends on all of them with the same such lattice.", "quantifier": "all lattice sizes and dimensions, contents of the tensors (generators), numbers and orders of terms, operators, cuts, numbers of processes, interleavings", "why_tests_cant": "an invariant over unboundedly many steps with cuts that leave out singular values; a step that leaves a wrong edge or environment is only noticed by a later step elsewhere", "anchors": ["include/square/abstract_network_lattice.hpp: AbstractNetworkLattice(M, N, D, d)", "include/square/exact_lattice.hpp: ExactLattice(M, N, d)", "include/square/simple_update_lattice.hpp: update, _single_term_simple_update"]}
{"id": "C90", "title": "The Heisenberg model: S.S exchanges spins, and the setters cover the lattice", "statement": "The operator SS applied to two different sites of a state of spins 1/2 gives half of the state with the two spins exchanged minus a quarter of the state, in whichever order the two sites are named.  An exact update with SS on any pairs of sites therefore keeps the number of spins that are down: a state without components outside this sector has none after any number of steps, unless it has become zero.  set_all_site, set_all_vertical_bond and set_all_horizontal_bond put the operator on every site, or every pair of a site and the one below it or to its right inside the lattice, replace what was there, and leave all other terms as they were.  A new lattice with these terms goes through any simple update with any number of processes, and stays a lattice.", "quantifier": "all states, pairs of sites, lattice sizes (negative ones too for the setters), terms that were set before, numbers of steps and processes", "why_tests_cant": "a wrong sign or index of Sy or a bond missing at the border gives a Hamiltonian that is still an operator; tests compare energies of a few small lattices with tolerances", "anchors": ["include/square/basic.hpp: common_tensor Sx, Sy, Sz, SxSx, SySy, SzSz, SS", "include/square/abstract_lattice.hpp: set_all_site, set_all_vertical_bond, set_all_horizontal_bond", "include/square/exact_lattice.hpp: update"]}
{"id": "C91", "title": "Seeds: the same random numbers in all processes, or different ones", "statement": "seed with zero in all processes, or merge_seed whatever the engines were, leaves the same engine in all processes, and seed with numbers other than zero the engine of that number.  After split_seed from the same engine in all processes, no two processes ever draw the same random number at the same step, so that they sample independently.", "quantifier": "all numbers of processes, interleavings, seeds and states of the engines, numbers of draws", "why_tests_cant": "a collision needs particular seeds out of 2^32, and then gives error bars that are too small rather than an error", "anchors": ["include/square/basic.hpp: random::get_seed, random::seed, random::split_seed, random::merge_seed"]}
{"id": "C92", "title": "The spin operators obey the algebra of spins, and operators mean the same everywhere", "statement": "Sx, Sy and Sz, applied to a state by an update, satisfy Sx Sy - Sy Sx = i Sz and cyclically.  What sampling measures for an operator at a configuration is the component of the state to which an update would have applied the operator, divided by the amplitude.", "quantifier": "all states, sites and configurations; complex numbers for the algebra", "why_tests_cant": "for real symmetric operators and for products of an even number of Sy both readings of the indices agree; energies in tests are of such operators", "anchors": ["include/square/basic.hpp: common_tensor Sx, Sy, Sz", "include/square/exact_lattice.hpp: update", "include/square/simple_update_lattice.hpp: _single_term_simple_update", "include/square/sampling_gradient_lattice.hpp: markov, _find_element"]}
{"id": "C93", "title": "The gradient of Markov sampling tends to the derivative of the energy", "statement": "For real tensors, a symmetric Hamiltonian and samples whose frequencies tend to the squared amplitudes, every element of the gradient of every site tends to the derivative of the energy <psi|H|psi> / <psi|psi> by that element of that tensor.", "quantifier": "all lattice sizes, dimensions, real tensors, symmetric Hamiltonians, sites, elements, sequences of sample lists whose frequencies converge", "why_tests_cant": "a limit over unboundedly many samples, compared with a derivative; tests compare one noisy estimate with a finite difference at best", "anchors": ["include/square/sampling_gradient_lattice.hpp: markov (165-182, 219-231, 263-270)"]}
{"id": "C94", "title": "The statistical error returned by Markov sampling is that of the mean", "statement": "For at least two steps the squared error returned for an observer is not negative, is zero exactly if all sampled values are equal, and its mean over all runs is the mean squared deviation of the returned mean from the expectation value; the error printed for the energy is that of the energy in the same sense; a run of one step has an error as well.", "quantifier": "all numbers of steps, distributions, observers, Hamiltonians", "why_tests_cant": "a statement about means over all random choices", "anchors": ["include/square/sampling_gradient_lattice.hpp: markov (215-216, 236-260)"]}
{"id": "C95", "title": "The simple update applies the exponential of minus the time step times the term", "statement": "For every term of the Hamiltonian and every time step, the operator that an update applies acts on the same sites with the same spins as the term, and its matrix is the power of the Pade approximation of order (8, 8) that approximates exp(-delta_t term) with scaling and squaring.  So a state that the term multiplies by a number is multiplied by the same approximation of exp(-delta_t number): the eigenstates of a term stay what they are, only their weights change.  Operators that commute with the term (conserved quantities) commute with the evolution operator, and a symmetric term has a symmetric evolution operator.", "quantifier": "all numbers of sites, spin dimensions, operators, time steps", "why_tests_cant": "an identity between matrices of any size; a test sees the lattice after many updates, never this operator", "anchors": ["include/square/simple_update_lattice.hpp: update (60-72)", "include/TAT/exponential.hpp: exponential (155-242)"]}
{"id": "C96", "title": "Contraction is linear in both operands", "statement": "For tensors without symmetry, contracting the sum of two tensors with a third one gives the sum of the two contractions, on either side, and a number can be taken out of either operand; the tensors added may have their edges in different orders.  The edges that are not joined have different names.", "quantifier": "all tensors without symmetry, edge orders, pairs of joined edges of equal dimensions, numbers", "why_tests_cant": "an identity between four library calls for tensors of every rank and size; a test compares a few small ones", "anchors": ["include/TAT/contract.hpp: contract_with_fuse, gemm_batch", "include/TAT/scalar.hpp: operators +, * (OP macros, 30-134)"]}
{"id": "C97", "title": "Conjugation goes through a contraction", "statement": "For tensors without symmetry, and for tensors with a bosonic symmetry that are joined by one pair of edges (or by any number if every charge is its own opposite), contracting the conjugates of two tensors gives the conjugate of their contraction, for real and complex scalars.  The edges that are not joined have different names.", "quantifier": "all tensors without symmetry or with a bosonic one, edge orders, charges, dimensions, pairs of joined edges", "why_tests_cant": "an identity between four library calls for tensors of every rank and size; a test compares a few small ones", "anchors": ["include/TAT/tensor_miscellaneous.hpp: conjugate (125-183)", "include/TAT/contract.hpp: contract_with_fuse, contract_without_fuse"]}
{"id": "C98", "title": "contract_all_edge with a conjugate is the overlap", "statement": "For tensors without symmetry with the same edges in any order, t.contract_all_edge(u.conjugate()) has no edge left and its element is the sum over all indices of the element of t times the conjugate of the element of u with the same named indices; t.contract_all_edge() is the sum of x conj(x) over the elements of t, for real scalars the square of norm<2>(), which is zero for the zero tensor only.", "quantifier": "all ranks, dimensions, edge orders and elements, real and complex scalars", "why_tests_cant": "relates contraction, conjugation and norm for tensors of every shape; a test compares a few small ones", "anchors": ["include/TAT/tensor.hpp: contract_all_edge (590-607), norm (416-448)", "include/TAT/tensor_miscellaneous.hpp: conjugate (125-175)", "include/TAT/contract.hpp: contract_with_fuse"]}
{"id": "C99", "title": "contract_all_edge of a symmetric tensor with its conjugate is the sum of squares", "statement": "For a tensor with symmetry, t.contract_all_edge() has no edge left and its element is the sum over the elements of t of x conj(x).", "quantifier": "all symmetries, ranks, charges, dimensions and elements", "why_tests_cant": "the tensors for which it fails have several edges whose charges are not their own opposites; a test with one edge or with parities passes", "anchors": ["include/TAT/tensor.hpp: contract_all_edge (590-607)", "include/TAT/tensor_miscellaneous.hpp: conjugate (125-175)", "include/TAT/contract.hpp: contract_without_fuse"]}
