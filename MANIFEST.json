{
 "claims": [
  {
   "property": "C01",
   "status": "proved",
   "theorems": [
    "C01_charges_form_ordered_group",
    "C01_fermion_number_wraps",
    "C01_parity_is_fermion_number_parity",
    "C01_u1_machine_arithmetic"
   ],
   "note": "U1 group laws are over Z; the 32-bit operations are shown to agree with them whenever they do not overflow (overflow is undefined behaviour in C++)."
  },
  {
   "property": "C02",
   "status": "proved",
   "theorems": [
    "C02_block_structure",
    "C02_bad_names_rejected",
    "C02_wellformed_meaning",
    "C02_constructed_wellformed"
   ],
   "note": ""
  },
  {
   "property": "C03",
   "status": "proved",
   "theorems": [
    "C03_pruning",
    "C03_auto_reverse",
    "C03_idempotent"
   ],
   "note": ""
  },
  {
   "property": "C04",
   "status": "proved",
   "theorems": [
    "C04_address_in_block",
    "C04_address_injective",
    "C04_address_surjective",
    "C04_write_then_read",
    "C04_read_is_elem",
    "C04_read_forbidden_throws"
   ],
   "note": ""
  },
  {
   "property": "C50",
   "status": "partial",
   "theorems": [
    "C50_out_of_range_refuted",
    "C50_unknown_charge_reported_partial",
    "C50_missing_name_reported_partial"
   ],
   "note": "The property as stated is false: an index beyond the dimension is not reported (witness). Unknown charges and missing names are reported."
  },
  {
   "property": "C05",
   "status": "proved",
   "theorems": [
    "C05_every_element_copied",
    "C05_matrix_transpose"
   ],
   "note": ""
  },
  {
   "property": "C06",
   "status": "partial",
   "theorems": [
    "C06_reads_in_bounds_refuted",
    "C06_reads_at_worst_one_before_partial",
    "C06_out_of_bounds_iff_fully_contiguous",
    "C06_result_independent_of_stray_read"
   ],
   "note": "The property as stated is false: position -1 of the stride tables is read exactly when the whole block is one contiguous run; the copied data does not depend on the value read."
  },
  {
   "property": "C07",
   "status": "proved",
   "theorems": [
    "C07_transpose_bosonic"
   ],
   "note": "Forbidden in-range coordinates throw in both tensors."
  },
  {
   "property": "C08",
   "status": "proved",
   "theorems": [
    "C08_transpose_sign",
    "C08_sign_multiplicative"
   ],
   "note": ""
  },
  {
   "property": "C09",
   "status": "proved",
   "theorems": [
    "C09_transposes_compose",
    "C09_transpose_back"
   ],
   "note": "Assumes only that negating a scalar twice gives it back."
  },
  {
   "property": "C10",
   "status": "partial",
   "theorems": [
    "C10_bad_names_refuted",
    "C10_duplicate_names_refuted",
    "C10_bad_names_rejected_partial"
   ],
   "note": "The property as stated is false: a list differing from the tensor's names in the first entry only is accepted (witnesses with an unknown and with a repeated name). Every other bad list is rejected."
  },
  {
   "property": "C46",
   "status": "proved",
   "theorems": [
    "C46_rename_keeps_data",
    "C46_rename_distinct",
    "C46_rename_read"
   ],
   "note": ""
  },
  {
   "property": "C11",
   "status": "proved",
   "theorems": [
    "C11_group_sign_is_reversal",
    "C11_merge_sign",
    "C11_split_sign",
    "C11_reverse_sign",
    "C11_reverse_twice",
    "C13_split_undoes_merge_any_arrows"
   ],
   "note": "For every tensor, selection of groups and sign options; splitting what was merged leaves only the sign of reordering the legs (C13)."
  },
  {
   "property": "C12",
   "status": "proved",
   "theorems": [
    "C12_merge_relabels",
    "C12_fuse_bijective"
   ],
   "note": "Groups may be empty, of one edge, or contain unknown names; the merged names must be distinct. For fermionic groups none of whose edges has a fermionic charge the arrow is an uninitialised read: it is a parameter of the environment."
  },
  {
   "property": "C13",
   "status": "proved",
   "theorems": [
    "C13_split_undoes_merge",
    "C13_split_undoes_merge_any_arrows"
   ],
   "note": "Exact restoration when the fermionic arrows of each group agree; otherwise the second theorem says precisely what remains (turned arrows and their sign), which is what the code documents."
  },
  {
   "property": "C19",
   "status": "proved",
   "theorems": [
    "C19_arithmetic",
    "C19_arithmetic_signed",
    "C19_rank_error",
    "C19_dimension_error",
    "C19_number",
    "C19_in_place"
   ],
   "note": "Any binary operation of scalars. Both-absent elements of the union shape are zero even for division. The fermionic variant carries the exchange sign of aligning the second operand and takes the arrows of the first operand without comparing them."
  },
  {
   "property": "C49",
   "status": "proved",
   "theorems": [
    "C49_transform",
    "C49_map",
    "C49_transform_at",
    "C49_set",
    "C49_test",
    "C49_zero",
    "C49_norm_power",
    "C49_norm_count",
    "C49_norm_max"
   ],
   "note": "Scalars are an abstract type; std::abs/pow/norm are abstract functions, the count needs exact conversion of sizes."
  },
  {
   "property": "C20",
   "status": "proved",
   "theorems": [
    "C20_conjugate",
    "C20_conjugate_legs",
    "C20_involution"
   ],
   "note": "negation of charges, flipped arrows, reversal sign, element conjugation; involution for exact negation and conjugation"
  },
  {
   "property": "C21",
   "status": "proved",
   "theorems": [
    "C21_multiple",
    "C21_undo",
    "C21_bad_direction",
    "C21_misfit",
    "C21_missing_name"
   ],
   "note": "a missing name is silently ignored (stated as a theorem)"
  },
  {
   "property": "C22",
   "status": "proved",
   "theorems": [
    "C22_identity"
   ],
   "note": ""
  },
  {
   "property": "C23",
   "status": "partial",
   "theorems": [
    "C23_identity_symmetric_refuted",
    "C23_identity_symmetric_partial",
    "C23_matrix_opposite"
   ],
   "note": "false of the code for rank 4 and more (refutation with a U1 witness); proved for tensors whose blocks all have opposite charges on each pair, e.g. matrices"
  },
  {
   "property": "C14",
   "status": "proved",
   "theorems": [
    "C14_contract_plain",
    "C14_fused_shapes_differ",
    "C14_missing_names_ignored",
    "C14_duplicate_names_rejected"
   ],
   "note": "Exact arithmetic (sums may be reordered); both tensors have their block. Edges contracted with each other must have equal dimension, see C51."
  },
  {
   "property": "C16",
   "status": "partial",
   "theorems": [
    "C16_contract_several_refuted"
   ],
   "note": "False of the code (U1 witness with two pairs)."
  },
  {
   "property": "C17",
   "status": "partial",
   "theorems": [
    "C17_partial_overlap_refuted"
   ],
   "note": "False of the code: std::out_of_range (U1 witness)."
  },
  {
   "property": "C51",
   "status": "partial",
   "theorems": [
    "C51_dimension_mismatch_refuted",
    "C51_dimension_mismatch_accepted_refuted"
   ],
   "note": "False of the code: undefined behaviour in one order of the operands, a silently computed tensor in the other."
  },
  {
   "property": "C15",
   "status": "proved",
   "theorems": [
    "C15_contract_symmetric"
   ],
   "note": "Exact arithmetic; the first tensor has at least one block; names left over are distinct (otherwise the code reports duplicated names)."
  },
  {
   "property": "C27",
   "status": "proved",
   "theorems": [
    "C27_interning",
    "C27_string_stable",
    "C27_total_order",
    "C27_table_round_trip"
   ],
   "note": "ids are natural numbers (tables below 2^31 names)"
  },
  {
   "property": "C52",
   "status": "partial",
   "theorems": [
    "C52_load_keeps_names_refuted",
    "C52_name_changes_refuted",
    "C52_load_keeps_names_partial"
   ],
   "note": "False of the code: names created after saving become dangling and are handed out again. Holds for tables that extend the present one."
  },
  {
   "property": "C47",
   "status": "proved",
   "theorems": [
    "C47_timers",
    "C47_exactly_once"
   ],
   "note": ""
  },
  {
   "property": "C35",
   "status": "proved",
   "theorems": [
    "C35_allocations_disjoint"
   ],
   "note": "The upstream resource is assumed to behave like an allocator (fresh, 16-aligned memory); size_t arithmetic wraps modulo 2^64."
  },
  {
   "property": "C36",
   "status": "proved",
   "theorems": [
    "C36_default_restored",
    "C36_innermost_serves"
   ],
   "note": ""
  },
  {
   "property": "C53",
   "status": "partial",
   "theorems": [
    "C53_empty_request_refuted",
    "C53_large_alignment_refuted"
   ],
   "note": "False of the code in both parts (witnesses). The library itself never makes such requests through std::vector/std::map."
  },
  {
   "property": "C37",
   "status": "proved",
   "theorems": [
    "C37_cut_keeps_largest",
    "C37_no_cut"
   ],
   "note": "The values computed by LAPACK are an input; any strict total order on them. Also valid with zeros as long as enough values are positive (C38_zeros_partial)."
  },
  {
   "property": "C38",
   "status": "partial",
   "theorems": [
    "C38_zeros_refuted",
    "C38_too_many_refuted",
    "C38_zeros_partial"
   ],
   "note": "False of the code: once the positive values are used up the neutral charge is chosen whether it exists or has values left (std::out_of_range, padding, or a read past the end). Proved when the cut does not exceed the number of positive values."
  },
  {
   "property": "C31",
   "status": "proved",
   "theorems": [
    "C31_reads_are_current",
    "C31_every_cell_readable"
   ],
   "note": "User functions are total and pure and return by value; one value type; arguments evaluated left to right; one graph. References obtained by an evaluation are shown to stay valid until used."
  },
  {
   "property": "C32",
   "status": "partial",
   "theorems": [
    "C32_younger_nodes_refuted",
    "C32_restored_partial",
    "C31_reads_are_current"
   ],
   "note": "The second half is false of the code: a node created after the dump and read before the load keeps its value (witness). The first half is proved for every history, including nested dumps and loads."
  },
  {
   "property": "C33",
   "status": "proved",
   "theorems": [
    "C33_broadcast_delivers",
    "C33_broadcasts_in_a_row",
    "C33_invalid_root"
   ],
   "note": "All process counts, roots, values, interleavings and buffering choices; with one process an invalid root is not reported (the code skips the check), as the statement says."
  },
  {
   "property": "C34",
   "status": "proved",
   "theorems": [
    "C34_reduce_combines",
    "C34_tree_is_fixed",
    "C34_reduce_folds",
    "C34_invalid_root"
   ],
   "note": "All process counts, roots, functions, interleavings and buffering choices."
  },
  {
   "property": "C40",
   "status": "proved",
   "theorems": [
    "C40_every_term_once",
    "C40_schedule_found",
    "C40_no_common_site",
    "C40_environment_unread"
   ],
   "note": ""
  },
  {
   "property": "C41",
   "status": "proved",
   "theorems": [
    "C41_group_is_sequential",
    "C41_update_is_sequential",
    "C41_own_operator"
   ],
   "note": "Any number of processes, any interleaving and buffering, any total local update functions (tensor operations are parameters)."
  },
  {
   "property": "C42",
   "status": "proved",
   "theorems": [
    "C42_every_term_once",
    "C42_schedule_found",
    "C42_only_failure"
   ],
   "note": ""
  },
  {
   "property": "C54",
   "status": "partial",
   "theorems": [
    "C54_site_order_refuted",
    "C54_order_ignored",
    "C54_ascending_partial"
   ],
   "note": "False of the code: the left or upper site always counts as the first (witness). Proved when the sites are listed in that order."
  },
  {
   "property": "C43",
   "status": "proved",
   "theorems": [
    "C43_term_detailed_balance",
    "C43_sweep_detailed_balance",
    "C43_stationary",
    "C43_amplitude"
   ],
   "note": "Exact real arithmetic, ideal random numbers, the amplitude of a configuration as a function of it. For sweeps the terms have no zero row (a zero row makes the program throw, C45)."
  },
  {
   "property": "C44",
   "status": "proved",
   "theorems": [
    "C44_valid",
    "C44_at_most_once",
    "C44_at_least_once"
   ],
   "note": "The number of steps is the exact power; the code computes it with std::pow in double precision, exact below 2^53 only."
  },
  {
   "property": "C45",
   "status": "partial",
   "theorems": [
    "C45_measures_always_refuted",
    "C45_measure_zero_row",
    "C45_hop_zero_row",
    "C45_measures_partial"
   ],
   "note": "False of the code: a zero row makes measuring and hopping throw std::out_of_range (witness, and for all such rows). Measuring succeeds for every operator without zero rows."
  },
  {
   "property": "C55",
   "status": "partial",
   "theorems": [
    "C55_exact_refuted",
    "C55_exact_partial"
   ],
   "note": "False of the code when an amplitude is zero (division by zero). Proved for wave functions without zero amplitudes."
  },
  {
   "property": "C56",
   "status": "partial",
   "theorems": [
    "C56_current_refuted",
    "C56_current_partial"
   ],
   "note": "False of the code: the elements are cached under the address of the tensor. Proved while each address keeps its tensor and dimension."
  },
  {
   "property": "C57",
   "status": "proved",
   "theorems": [
    "C57_never_nan",
    "C57_unbiased"
   ],
   "note": "Exact real arithmetic, ideal random numbers; the variances and the gradient are not modelled."
  },
  {
   "property": "C28",
   "status": "proved",
   "theorems": [
    "C28_plain",
    "C28_Z2",
    "C28_U1",
    "C28_Fermi",
    "C28_FermiZ2",
    "C28_FermiU1",
    "C28_fast_names",
    "C28_string_names",
    "C28_sequence",
    "C28_spectra",
    "C28_name_table"
   ],
   "note": "For sizes below 2^64, charges and name numbers that fit an int, and scalars whose bytes determine them. Loading in the same process (C59 treats other processes)."
  },
  {
   "property": "C48",
   "status": "proved",
   "theorems": [
    "C48_lattice_file"
   ],
   "note": "The abstract lattice (size, dimension, terms); the tensors of the lattices derived from it are written with the tensor format of C28."
  },
  {
   "property": "C58",
   "status": "partial",
   "theorems": [
    "C58_truncation_reported_refuted",
    "C58_elements_indeterminate_refuted"
   ],
   "note": "False of the code: nothing checks the state of the stream. For every plain tensor with elements, dropping the last byte loads a tensor whose last element is indeterminate."
  },
  {
   "property": "C59",
   "status": "partial",
   "theorems": [
    "C59_names_elsewhere_refuted",
    "C59_names_elsewhere_partial",
    "C28_string_names"
   ],
   "note": "False of the code for interned names: only their numbers are written. Holds after loading the table of names, and for string names."
  },
  {
   "property": "C29",
   "status": "partial",
   "theorems": [
    "C29_refuted",
    "C29_long_names",
    "C29_partial",
    "C29_names",
    "C29_complex",
    "C29_spectra"
   ],
   "note": "False of the code as stated: a rank one tensor whose name is the empty string prints an empty list and reading throws; a name of more than 255 characters overruns the buffer. Proved for all other plain tensors, for complex elements, interned names and spectra. The codec of the floating point library is a parameter."
  },
  {
   "property": "C30",
   "status": "partial",
   "theorems": [
    "C30_refuted",
    "C30_hangs_Z2",
    "C30_hangs_U1",
    "C30_hangs_Fermi",
    "C30_uncoloured_Z2",
    "C30_uncoloured_U1",
    "C30_uncoloured_Fermi",
    "C30_uncoloured_FermiZ2",
    "C30_uncoloured_FermiU1",
    "C30_FermiZ2_partial",
    "C30_FermiU1_partial",
    "C30_hangs_FermiZ2_number",
    "C30_hangs_FermiU1_number",
    "C30_spectra_hang_Z2",
    "C30_spectra_hang_U1",
    "C30_spectra_hang_Fermi",
    "C30_spectra_FermiZ2",
    "C30_spectra_FermiU1"
   ],
   "note": "False of the code: the colours around the charges make the reader loop for ever for Z2, U1 and Fermi tensors with a block, and for rank zero. Proved for FermiZ2 and FermiU1 tensors of positive rank, and for all kinds if the colours are left out."
  },
  {
   "property": "C18",
   "status": "partial",
   "theorems": [
    "C18_plain",
    "C18_symmetric_partial",
    "C18_undefined",
    "C18_refuted"
   ],
   "note": "Proved for all plain tensors with a block and any number of pairs, and for bosonic symmetric tensors with one pair (any number when charges are their own opposites) that have a block with opposite charges on the paired edges. Refuted for the rest: without such a block trace dereferences blocks.begin() of an empty map (C18_undefined shows this for every such tensor, C18_refuted is a concrete U1 tensor)."
  },
  {
   "property": "C60",
   "status": "partial",
   "theorems": [
    "C60_refuted",
    "C18_symmetric_partial"
   ],
   "note": "Refuted for U1: the tuples of the second merged edge are laid out in ascending order, not in the order of the opposite tuples of the first one, so the sum takes non-diagonal elements (C60_one_by_one shows that tracing one pair after the other gives the right number). Holds for Z2, where every charge is its own opposite (C18_symmetric_partial)."
  },
  {
   "property": "C39",
   "status": "partial",
   "theorems": [
    "C39_pade",
    "C39_squaring",
    "C39_exponential_partial",
    "C39_reversed",
    "C39_shift_undefined",
    "C39_order_undefined",
    "C39_refuted"
   ],
   "note": "C39_squaring holds for every number of squarings. The numerator and denominator are the Pade polynomials for every order q with q(q+1) < 2^31; for larger orders the int arithmetic overflows (C39_order_undefined). C39_exponential_partial puts both together for matrices whose largest magnitude is below 2^30 and positive, given an xGESV that solves systems with an invertible matrix, in exact arithmetic. False elsewhere: the zero matrix is undefined behaviour (int of log2(0), C39_refuted), magnitudes in [2^30, 2^31) give the exponential of the opposite matrix (1 << 31 is negative, C39_reversed), larger ones are undefined (C39_shift_undefined)."
  },
  {
   "property": "C61",
   "status": "partial",
   "theorems": [
    "C61_operator_partial",
    "C61_refuted"
   ],
   "note": "Proved for bosonic tensors with one pair of opposite edges, and with any number of pairs when every charge is its own opposite (plain, Z2), in every order of the names, whether the last name is a row or a column; relies on the matrix exponential of C39 (non-zero blocks, magnitudes below 2^30, xGESV solving invertible systems, exact arithmetic). Refuted for two pairs of U1 edges: the columns are numbered in another order than the rows, the tensor of the identity operator gets a non-diagonal exponential. Fermionic tensors not covered."
  },
  {
   "property": "C24",
   "status": "proved",
   "theorems": [
    "C24_shrink_selects",
    "C24_expand_places",
    "C24_round_trip",
    "C24_unchecked_index"
   ],
   "note": "exact arithmetic. Indices are never compared with the dimensions: C24_unchecked_index shows an out-of-range index silently selecting another slice"
  },
  {
   "property": "C25",
   "status": "partial",
   "theorems": [
    "C25_charged_edge_refused",
    "C25_refuted",
    "C25_no_block",
    "C25_shrink_several_charges_refuted",
    "C25_shrink_selects_partial",
    "C25_expand_places_partial"
   ],
   "note": "false of the code: the total charge of the new edges is never accumulated, so an edge of non-zero charge is always refused and charges not adding up to zero write into an empty map. Proved: what shrink and expand do when the fixed edges have one charge (bosonic), resp. when the charges add up to zero"
  },
  {
   "property": "C26",
   "status": "proved",
   "theorems": [
    "C26_other_tensors_unchanged",
    "C26_as_if_not_shared",
    "C26_lifetime"
   ],
   "note": "for all programs built from construction, copy, move, deep copy, rename, edge_operator, any operation returning a new tensor, destruction, transform/zero/set, element and block writes and in-place arithmetic, including statements that throw; one thread. References kept across a copy are C63, operands aliasing the tensor being changed C62"
  },
  {
   "property": "C62",
   "status": "partial",
   "theorems": [
    "C62_self_tensor_refuted",
    "C62_self_number_refuted",
    "C62_shared_number_partial"
   ],
   "note": "false of the code: operands are read through __restrict pointers or references while the tensor is written, so t += t, and t /= t.const_at(p) for an unshared t, are undefined (the model counts a violated __restrict as undefined behaviour). Proved for operands in another tensor (C26_as_if_not_shared) and for shared tensors"
  },
  {
   "property": "C63",
   "status": "partial",
   "theorems": [
    "C63_refuted",
    "C63_used_at_once_partial"
   ],
   "note": "false of the code: the use count is checked only when the reference is taken; a reference (or a Python block buffer) kept while the tensor is copied or renamed writes into the copy. Proved for a reference used at once"
  },
  {
   "property": "C64",
   "status": "proved",
   "theorems": [
    "C64_contract_fermi"
   ],
   "note": "exact arithmetic; the first tensor has a block; names left over are distinct; arrows of edges without fermions aside (C67); where a fused group has no edge with fermions and is not a single edge the statement assumes that the uninitialised arrow read there has some value (any value)"
  },
  {
   "property": "C65",
   "status": "proved",
   "theorems": [
    "C65_exchange_operands"
   ],
   "note": "exact arithmetic; bosonic and fermionic; equality of all elements and coordinates (arrows: C64, C67)"
  },
  {
   "property": "C66",
   "status": "proved",
   "theorems": [
    "C66_transposed_operands"
   ],
   "note": "exact arithmetic; bosonic and fermionic; equality of all elements and coordinates"
  },
  {
   "property": "C67",
   "status": "partial",
   "theorems": [
    "C67_arrows_determined_refuted",
    "C67_spurious_error_refuted",
    "C64_contract_fermi"
   ],
   "note": "false of the code: edges without fermionic charges fused together get an uninitialised arrow, which stays in the result after splitting; a later contraction then throws Different Fermi Arrow or not. Proved for edges that have a charge with fermions (C64_contract_fermi)"
  },
  {
   "property": "C68",
   "status": "proved",
   "theorems": [
    "C68_qr_product"
   ],
   "note": "exact arithmetic; LAPACK routines are oracles assumed to satisfy their specification when they report success; internal names are not used by the caller; where a group of edges has no edge with fermions and is not a single edge the uninitialised arrow read has some value (any)"
  },
  {
   "property": "C69",
   "status": "proved",
   "theorems": [
    "C69_qr_shape",
    "C69_qr_orthonormal"
   ],
   "note": "as C68; conjugation of scalars respects zero and sign"
  },
  {
   "property": "C70",
   "status": "proved",
   "theorems": [
    "C70_qr_triangular"
   ],
   "note": "as C68"
  },
  {
   "property": "C71",
   "status": "proved",
   "theorems": [
    "C71_svd_product"
   ],
   "note": "exact arithmetic with an associative product; xGESVD is an oracle assumed to satisfy its specification when it reports success; internal names are not used by the caller; where a group of edges has no edge with fermions and is not a single edge the uninitialised arrow read has some value (any)"
  },
  {
   "property": "C72",
   "status": "proved",
   "theorems": [
    "C72_svd_shape",
    "C72_svd_orthonormal"
   ],
   "note": "as C71; conjugation of scalars respects zero and sign"
  },
  {
   "property": "C73",
   "status": "proved",
   "theorems": [
    "C73_svd_truncation"
   ],
   "note": "as C71; the order of the singular values is a strict weak order (no NaN)"
  },
  {
   "property": "C74",
   "status": "partial",
   "theorems": [
    "C74_svd_failure_refuted",
    "C71_svd_product"
   ],
   "note": "false of the code: a failure reported by LAPACK only prints a warning (by default), and svd returns the garbage. C71 covers the runs without failure"
  },
  {
   "property": "C75",
   "status": "proved",
   "theorems": [
    "C75_amplitude"
   ],
   "note": "exact arithmetic with an associative, distributive product; LAPACK routines are oracles assumed to satisfy their specification when they report success; tensors without symmetry; laziness is not part of this model (C31 shows that lazy values are those of their functions)"
  },
  {
   "property": "C76",
   "status": "proved",
   "theorems": [
    "C76_environment",
    "C76_no_hole"
   ],
   "note": "as C75"
  },
  {
   "property": "C77",
   "status": "proved",
   "theorems": [
    "C77_outside",
    "C77_scattered",
    "C77_holes"
   ],
   "note": "positions are natural numbers; replacements in the order of the map"
  },
  {
   "property": "C78",
   "status": "proved",
   "theorems": [
    "C78_amplitude",
    "C78_initialize",
    "C78_replaced"
   ],
   "note": "exact arithmetic and LAPACK as in C75; the cut is the same during a history (changing it renews the configuration, which is an action); C78_replaced needs rows and columns within the cut"
  },
  {
   "property": "C79",
   "status": "partial",
   "theorems": [
    "C79_tensors_changed_refuted",
    "C79_tensors_changed_partial"
   ],
   "note": "false of the code: SpinConfiguration::set returns at once when the spin is the present one, so a site whose tensor was replaced (as examples/heisenberg.cpp does) keeps its old cut tensor. Proved for histories in which a tensor is replaced only while its spin is not set, or its spin is unset or the lattice copied afterwards"
  },
  {
   "property": "C80",
   "status": "proved",
   "theorems": [
    "C80_gradient"
   ],
   "note": "samples are given (configuration, amplitude, energy); which are drawn is C44 and following; for complex scalars square::conj does not compile, the model uses the conjugation that is meant"
  },
  {
   "property": "C81",
   "status": "proved",
   "theorems": [
    "C81_exact_vector"
   ],
   "note": "exact arithmetic in which division undoes multiplication and only zero has modulus zero"
  },
  {
   "property": "C82",
   "status": "proved",
   "theorems": [
    "C82_exact_from_simple",
    "C82_sampling_from_simple"
   ],
   "note": "as C81; environments of the size of their bonds"
  },
  {
   "property": "C83",
   "status": "partial",
   "theorems": [
    "C83_applied",
    "C83_observe_partial",
    "C83_energy_partial",
    "C83_observe_bilinear",
    "C83_observe_refuted"
   ],
   "note": "false of the code for complex scalars: neither factor is conjugated, (1, 2i) observed with the projection onto spin 0 gives -1/3 instead of 1/5. Proved for scalars equal to their conjugates; C83_observe_bilinear says what is computed in general. Exact arithmetic, different positions, one scalar type"
  },
  {
   "property": "C84",
   "status": "partial",
   "theorems": [
    "C84_step",
    "C84_evolution",
    "C84_energy_partial",
    "C84_energy_reported",
    "C84_energy_refuted"
   ],
   "note": "the evolution is proved; the energy returned is a - |a - e|, which is e only if e is below a: proved under that condition, refuted without it (eigenvalue 3, a = 2 gives 1). Exact arithmetic"
  },
  {
   "property": "C85",
   "status": "proved",
   "theorems": [
    "C85_bond",
    "C85_site",
    "C85_sequence"
   ],
   "note": "exact arithmetic in which division undoes multiplication; LAPACK routines are oracles assumed to satisfy their specification when they report success; tensors without symmetry"
  },
  {
   "property": "C86",
   "status": "partial",
   "theorems": [
    "C86_reversed",
    "C86_refuted"
   ],
   "note": "false of the code: the positions only choose the bond, the operator always acts with its first index on the left or upper site (C86_reversed), while ExactLattice uses the order of the positions; witness with a row of three sites"
  },
  {
   "property": "C87",
   "status": "proved",
   "theorems": [
    "C87_network",
    "C87_simple",
    "C87_exact",
    "C87_sampling",
    "C87_sampling_amplitude"
   ],
   "note": "tensors without symmetry; sizes and integers that fit into the types of the code, fewer than 2^31 environments (the loop counter is an int); the amplitude in exact arithmetic with LAPACK routines as oracles"
  },
  {
   "property": "C88",
   "status": "partial",
   "theorems": [
    "C88_triangle",
    "C88_chain",
    "C88_refuted"
   ],
   "note": "exact arithmetic.  Proved for tensors without symmetry and any pairs (C88_triangle), and for symmetric bosonic and fermionic tensors in a chain with one pair between neighbours (C88_chain; for fermions every edge has a charge with fermions, see C67).  False of the code for symmetric tensors joined by several pairs: edges of the intermediate result lose charges, and the second contraction throws std::out_of_range (C88_refuted)"
  },
  {
   "property": "C89",
   "status": "proved",
   "theorems": [
    "C89_new",
    "C89_new_exact",
    "C89_stays",
    "C89_goes_on",
    "C89_update"
   ],
   "note": "exact arithmetic, LAPACK routines as oracles assumed sound (qr_sound, svd_sound); the exponentials of the operators are assumed to be operators on as many sites (exponential); for the whole update the lattice is fine or the QR routines can fail (an exception then ends the process in the code, in the model it stays in the lattice)"
  },
  {
   "property": "C90",
   "status": "proved",
   "theorems": [
    "C90_exchange",
    "C90_sector",
    "C90_all_sites",
    "C90_all_vertical",
    "C90_all_horizontal",
    "C90_update"
   ],
   "note": "exact arithmetic; the conversion of complex numbers to T takes the real part (part), the numbers 1/2 and i are what spin_numbers says.  C90_sector is for the components of the vector of the exact update when (a - H)^k applied to it is not zero.  C90_update: exponentials of the operators are assumed to fit (exponential), the operator of the sites is not that of the bonds"
  },
  {
   "property": "C91",
   "status": "partial",
   "theorems": [
    "C91_seed_zero",
    "C91_seed_given",
    "C91_merge",
    "C91_split_partial",
    "C91_split_refuted",
    "C91_same_numbers",
    "C91_range"
   ],
   "note": "seed and merge_seed are proved in full for any engine.  split_seed is proved when no seed is a multiple of 2^31 - 1 and seeds do not wrap around; otherwise it is false of the code with the default engine of libstdc++: seeding with a multiple of 2^31 - 1 is the same as seeding with the next number (C91_split_refuted, C91_same_numbers: after seed(1475608308) and split_seed the processes 0 and 1 have the same engine).  MPI_Bcast is modelled as the broadcast of mpi.hpp; engine and distribution follow libstdc++"
  },
  {
   "property": "C92",
   "status": "partial",
   "theorems": [
    "C92_reversed",
    "C92_algebra_refuted",
    "C92_measured_refuted",
    "C92_measured_transposed",
    "C92_measured_partial"
   ],
   "note": "false of the code.  The updates contract the edges I of an operator with the state, so that Sy, written as a matrix with row I and column O, is applied transposed: the three commutators have -i instead of i (C92_reversed, for all states; C92_algebra_refuted).  The sampling takes the edges I for the configuration that is measured, the opposite of the updates (C92_measured_refuted, one site, an operator that is not symmetric): for every lattice with real tensors, any sites and any operator without a zero row it measures the transposed operator (C92_measured_transposed), so that symmetric operators mean the same everywhere (C92_measured_partial)"
  },
  {
   "property": "C93",
   "status": "partial",
   "theorems": [
    "C93_derivative_partial",
    "C93_local_energy",
    "C93_symmetric",
    "C93_terms_partial",
    "C93_derivative_refuted"
   ],
   "note": "Scalars are Coq's real numbers.  Proved when no configuration of amplitude zero both would gain amplitude with another value of the element and is reached by the Hamiltonian (h psi <> 0 there); refuted without that condition (one site, amplitudes 0 and 1, the Hamiltonian that flips the spin: derivative 2, computed gradient 0), since such configurations are never sampled.  C93_local_energy: the energy that a step of the sampling computes from the terms of the Hamiltonian is the local energy of their matrix (terms without a zero row, C43); C93_terms_partial: the limit for such Hamiltonians.  No routine of LAPACK reports a failure."
  },
  {
   "property": "C94",
   "status": "partial",
   "theorems": [
    "C94_mean",
    "C94_nonnegative",
    "C94_independent",
    "C94_energy_partial",
    "C94_one_step_refuted",
    "C94_energy_refuted",
    "C94_markov_refuted"
   ],
   "note": "Proved: the values are those whose mean is returned; the squared error is non-negative and vanishes exactly for equal values; it is right on average for independent samples of any finite distribution, and for the energy if its terms are uncorrelated.  Refuted: one step (0 / 0); the energy with correlated terms (covariances are left out); the samples of the Markov chain itself, which are not independent (a Hamiltonian without hops: the error returned is 0)."
  },
  {
   "property": "C95",
   "status": "partial",
   "theorems": [
    "C95_evolution_partial",
    "C95_eigenfunctions_partial",
    "C95_conserved_partial",
    "C95_zero_refuted"
   ],
   "note": "C95_eigenfunctions_partial: eigenfunctions of the term are eigenfunctions of the operator, with the approximation of exp(-delta_t lambda).  C95_conserved_partial: what commutes with the term commutes with the operator, symmetric terms give symmetric operators.  Proved for exact scalars, an xGESV that solves every regular system (an assumption on LAPACK), magnitudes below 2^30 and a denominator with an inverse.  Refuted for the time step zero and for terms that are zero: the logarithm of zero is converted to int, which is undefined.  More than ten sites: the pairs are taken in the order of the sites, the code orders them by name."
  },
  {
   "property": "C96",
   "status": "proved",
   "theorems": [
    "C96_first",
    "C96_second",
    "C96_number"
   ],
   "note": "Exact arithmetic; the edges that remain have different names (no fused edges)."
  },
  {
   "property": "C97",
   "status": "proved",
   "theorems": [
    "C97_conjugate",
    "C97_symmetric"
   ],
   "note": "Exact arithmetic; no fused edges."
  },
  {
   "property": "C98",
   "status": "proved",
   "theorems": [
    "C98_overlap",
    "C98_squares",
    "C98_norm"
   ],
   "note": "Exact arithmetic; C98_norm: scalars are Coq's real numbers."
  },
  {
   "property": "C99",
   "status": "partial",
   "theorems": [
    "C99_squares_partial",
    "C99_u1_refuted",
    "C99_fermi_refuted"
   ],
   "note": "False of the code: with integer charges and several edges different states are paired (as C16), so a tensor with the elements 1 and 2 gives 4, and with fermions -4.  Proved for bosonic symmetries whose charges are their own opposites (Z2) and for tensors with at most one edge; exact arithmetic."
  }
 ]
}