{
 "claims": [
  {
   "property": "C01",
   "status": "proved",
   "theorems": [
    "C01_lookup_within_tolerance"
   ],
   "note": "exact real arithmetic, any tolerance below half a bucket width, any history of calls"
  },
  {
   "property": "C02",
   "status": "proved",
   "theorems": [
    "C02_no_duplicates",
    "C02_large_tolerance_refuted"
   ],
   "note": "the refuted theorem shows the restriction on the tolerance is needed"
  },
  {
   "property": "C03",
   "status": "proved",
   "theorems": [
    "C03_lookups_stable"
   ],
   "note": ""
  },
  {
   "property": "C04",
   "status": "proved",
   "theorems": [
    "C04_collection_exact",
    "C04_survivors_found",
    "C04_forced_collection_runs_refuted"
   ],
   "note": "first theorem holds for every number system including the doubles; the refuted theorem records that a lone unreferenced entry survives a forced collection after clear"
  },
  {
   "property": "C05",
   "status": "proved",
   "theorems": [
    "C05_counter_arithmetic",
    "C05_counter_never_wraps",
    "C05_saturated_forever"
   ],
   "note": ""
  },
  {
   "property": "C16",
   "status": "proved",
   "theorems": [
    "makeDDNode_stacks",
    "stored_nodes_are_normalised"
   ],
   "note": "exact arithmetic, every reachable state; nodes built from stored edges, all nodes ever stored are normalised"
  },
  {
   "property": "C17",
   "status": "proved",
   "theorems": [
    "diagrams_are_canonical"
   ],
   "note": "exact arithmetic, every reachable state"
  },
  {
   "property": "C18",
   "status": "proved",
   "theorems": [
    "vector_round_trip",
    "getVector_round_trip_partial",
    "getVector_zero_refuted"
   ],
   "note": "entry by entry for every vector; the whole list for every vector that is not zero (1 to 63 qubits); getVector is undefined on the zero vector"
  },
  {
   "property": "C19",
   "status": "proved",
   "theorems": [
    "matrix_round_trip",
    "getMatrix_round_trip_partial",
    "getMatrix_zero_refuted"
   ],
   "note": "as C18"
  },
  {
   "property": "C20",
   "status": "partial",
   "theorems": [
    "zero_state",
    "basis_state_partial",
    "product_state",
    "makeBasisState_short_refuted"
   ],
   "note": "start = 0; the version taking bits does not check the length of its list, which the refuted theorem records"
  },
  {
   "property": "C21",
   "status": "proved",
   "theorems": [
    "add_is_addition"
   ],
   "note": ""
  },
  {
   "property": "C22",
   "status": "proved",
   "theorems": [
    "multiply_is_matrix_vector_product"
   ],
   "note": ""
  },
  {
   "property": "C23",
   "status": "proved",
   "theorems": [
    "multiply_is_matrix_product"
   ],
   "note": ""
  },
  {
   "property": "C24",
   "status": "proved",
   "theorems": [
    "transpose_is_transposition",
    "conjugateTranspose_is_adjoint",
    "marks_are_right"
   ],
   "note": ""
  },
  {
   "property": "C25",
   "status": "proved",
   "theorems": [
    "kronecker_vectors"
   ],
   "note": ""
  },
  {
   "property": "C26",
   "status": "partial",
   "theorems": [
    "kronecker_matrices_partial",
    "kronecker_matrices_refuted",
    "kronecker_inner_weight_refuted"
   ],
   "note": "false in general: the identity shortcut drops weights; proved when no block of the first operand is a multiple of the identity, or the first operand is the identity"
  },
  {
   "property": "C27",
   "status": "proved",
   "theorems": [
    "innerProduct_is_inner_product",
    "fidelity_is_squared_overlap",
    "expectationValue_is_expectation"
   ],
   "note": ""
  },
  {
   "property": "C28",
   "status": "proved",
   "theorems": [
    "trace_is_trace",
    "partialTrace_is_partial_trace"
   ],
   "note": ""
  },
  {
   "property": "C29",
   "status": "partial",
   "theorems": [
    "makeIdent_is_identity_partial",
    "makeIdent_stable_partial",
    "makeIdent_shared_partial",
    "makeIdent_history_refuted"
   ],
   "note": "ranges from qubit 0 proved; other ranges depend on the history: after makeIdent(0, msq-1) they give the identity on all qubits from 0 on (makeIdent_shared_partial)"
  },
  {
   "property": "C44",
   "status": "partial",
   "theorems": [
    "getValueByPath_reads",
    "getValueByIndex_reads",
    "getValueByIndices_reads",
    "readers_agree_partial",
    "getMatrix_reads_partial",
    "export_zero_refuted",
    "getValueByIndex_65_refuted"
   ],
   "note": "getVector, export and addAmplitudes for non-zero vectors of 1 to 63 qubits; the refuted theorems show why"
  },
  {
   "property": "C10",
   "status": "proved",
   "theorems": [
    "no_equal_nodes",
    "no_duplicate_nodes",
    "stored_node_found",
    "node_request"
   ],
   "note": "for any arithmetic meeting the record sane, doubles included"
  },
  {
   "property": "C11",
   "status": "proved",
   "theorems": [
    "node_counts",
    "number_counts",
    "active_counts",
    "incRef_decRef"
   ],
   "note": "number counts include the constants pinned at construction; restoring counts assumes that no counter saturates"
  },
  {
   "property": "C12",
   "status": "proved",
   "theorems": [
    "collection_keeps",
    "forced_collection"
   ],
   "note": ""
  },
  {
   "property": "C13",
   "status": "proved",
   "theorems": [
    "cached_results_stored"
   ],
   "note": "addition, multiplication, Kronecker, inner product, transposition caches and the identity table; the Toffoli table is C14"
  },
  {
   "property": "C15",
   "status": "proved",
   "theorems": [
    "no_temporaries_left"
   ],
   "note": ""
  },
  {
   "property": "C06",
   "status": "proved",
   "theorems": [
    "flip_twice",
    "flip_entry",
    "negate_twice",
    "zero_negation",
    "negation_entries",
    "zero_component",
    "flip_value",
    "negate_value",
    "negate_exact"
   ],
   "note": "pointer-level facts for all pointers; value-level facts for any arithmetic whose negation is an involution"
  },
  {
   "property": "C07",
   "status": "partial",
   "theorems": [
    "zero_lookup_partial",
    "zero_lookup_refuted"
   ],
   "note": "the zero-lookup clause holds for values in (-tolerance, tolerance]; it fails at exactly -tolerance, where lookup returns a negative pointer to the zero entry"
  },
  {
   "property": "C08",
   "status": "proved",
   "theorems": [
    "outstanding_distinct",
    "outstanding_count",
    "get_new",
    "temp_new",
    "write_separate",
    "return_reuse"
   ],
   "note": "all sequences of getCached, getTemporary and returnToCache in which a caller returns what it obtained"
  },
  {
   "property": "C09",
   "status": "proved",
   "theorems": [
    "table_answers",
    "table_most_recent",
    "clear_forgets"
   ],
   "note": "all sequences of insertions, lookups and clears of a direct-mapped table with any hash and any comparison"
  },
  {
   "property": "C14",
   "status": "partial",
   "theorems": [
    "toffoli_partial",
    "toffoli_refuted"
   ],
   "note": "the Toffoli table is cleared only when node counts change, so a collection that frees only numbers leaves entries with dangling weights"
  },
  {
   "property": "C43",
   "status": "partial",
   "theorems": [
    "collection_reports_partial",
    "collection_reports_refuted"
   ],
   "note": "the result does not report freed density-matrix nodes"
  },
  {
   "property": "C47",
   "status": "proved",
   "theorems": [
    "package_is_dense",
    "package_is_dense_throughout"
   ],
   "note": "all sequences of the modelled calls, exact arithmetic with tolerance 0"
  },
  {
   "property": "C48",
   "status": "partial",
   "theorems": [
    "node_statistics",
    "number_statistics",
    "cache_peak_refuted"
   ],
   "note": "node and number statistics proved; ComplexCache::getPeakCount never counts"
  },
  {
   "property": "C49",
   "status": "proved",
   "theorems": [
    "programs_safe"
   ],
   "note": "any arithmetic meeting the record sane, doubles included"
  },
  {
   "property": "C30",
   "status": "proved",
   "theorems": [
    "gate_diagram",
    "gate_application"
   ],
   "note": "package for up to 128 qubits; gate_contradictory_controls_refuted and gate_control_on_target_refuted show that the conditions on the controls are needed"
  },
  {
   "property": "C31",
   "status": "partial",
   "theorems": [
    "two_qubit_gate_diagram_partial",
    "two_qubit_gate_128_refuted"
   ],
   "note": "up to 127 qubits; for 128 qubits, which the package supports, n does not fit into a Qubit and the lines above the targets are missing"
  },
  {
   "property": "C34",
   "status": "proved",
   "theorems": [
    "measurement_probabilities"
   ],
   "note": "for every vector but zero, normalised or not; for zero or a qubit above the root see measurement_probabilities_zero_refuted, measurement_probabilities_range_refuted"
  },
  {
   "property": "C35",
   "status": "proved",
   "theorems": [
    "sampling_born",
    "sampling_nonzero",
    "sampling_collapse"
   ],
   "note": "the thresholds are the values the random number generator returns; the generator itself is not modelled"
  },
  {
   "property": "C36",
   "status": "proved",
   "theorems": [
    "collapsing_measurement"
   ],
   "note": ""
  },
  {
   "property": "C37",
   "status": "proved",
   "theorems": [
    "deleteEdge_zeroes_slice"
   ],
   "note": "vectors, matrices and density matrices"
  },
  {
   "property": "C38",
   "status": "proved",
   "theorems": [
    "size_counts_nodes"
   ],
   "note": "modulo 2^32, the width of the counter; any arithmetic, doubles included"
  },
  {
   "property": "C46",
   "status": "proved",
   "theorems": [
    "control_order",
    "control_set"
   ],
   "note": ""
  },
  {
   "property": "C32",
   "status": "proved",
   "theorems": [
    "single_qubit_gates_pauli",
    "two_qubit_gates_pauli",
    "single_qubit_gates_unitary",
    "two_qubit_gates_unitary",
    "daggered_gates_are_adjoints",
    "two_qubit_adjoints",
    "gate_matrices_consistent"
   ],
   "note": "Over the reals, with the real sine and cosine for std::sin and std::cos and sqrt(2)/2 for SQRT2_2."
  },
  {
   "property": "C33",
   "status": "proved",
   "theorems": [
    "controlled_two_qubit_gates",
    "peres_gates_adjoint"
   ],
   "note": "For exact real arithmetic, up to 128 qubits, at most one control per qubit and none on the targets. makeRYYDD, makeRXXDD, makeRZXDD, makeXXMinusYYDD and makeXXPlusYYDD leave their outer gates uncontrolled; the theorem shows that these cancel."
  },
  {
   "property": "C42",
   "status": "partial",
   "theorems": [
    "marks_undone_partial",
    "marks_undone_pair_partial",
    "reading_restores_nodes_partial",
    "marks_of_edge_refuted",
    "marks_negative_zero_refuted",
    "marks_same_node_refuted",
    "reading_twice_refuted"
   ],
   "note": "Nodes and successors are restored exactly for one edge, for two edges to different nodes, and after reading a whole density matrix, unless a weight holds the negative zero pointer. False of the code: the marks of the edge itself are lost, so that reading the same density matrix twice gives different results; negative zero pointers are not restored; two operands with the same node fail an assertion. Products and sums of density matrices are in C53 and C54."
  },
  {
   "property": "C45",
   "status": "proved",
   "theorems": [
    "fraction_lowest_terms",
    "fraction_close",
    "fraction_exact",
    "fraction_zero_maximum_refuted",
    "fraction_large_refuted"
   ],
   "note": "Lowest terms and the bound on the denominator hold in any arithmetic, doubles included, for every run of the loop that is short enough not to wrap the 64-bit integers; termination, closeness and exactness are for exact real arithmetic. Excluded and refuted: maximal denominator 0 (the result is 1/0) and arguments beyond 2^64 (the loop does not end)."
  },
  {
   "property": "C50",
   "status": "partial",
   "theorems": [
    "formatted_value",
    "formatted_defined",
    "text_value_partial",
    "text_value_refuted"
   ],
   "note": "Over the reals; decimals are an uninterpreted token. False of the code: a number whose parts are between one and two tolerances can be written as (1+i), because the real part is dropped before the factor is appended."
  },
  {
   "property": "C39",
   "status": "partial",
   "theorems": [
    "ancillary_reduction_safe",
    "ancillary_reduction_partial",
    "ancillary_reduction_shared_refuted",
    "ancillary_reduction_two_refuted",
    "reduction_range_refuted"
   ],
   "note": "Proved for one ancillary qubit and matrices without scaled copies of blocks; for every set of ancillary qubits the call is defined, keeps all other diagrams and exchanges the reference. False of the code in general: successors that share a node get the result of the first, weight included, and with several ancillary qubits the weight of a rebuilt node is dropped. A vector of qubits that is too short is read past its end (reduction_range_refuted)."
  },
  {
   "property": "C51",
   "status": "partial",
   "theorems": [
    "garbage_reduction_safe",
    "garbage_reduction_refuted",
    "reduction_range_refuted"
   ],
   "note": "Proved: the call is defined, keeps all other diagrams and exchanges the reference. The sums are not what the code computes: weights above one are replaced by one (garbage_reduction_refuted)."
  },
  {
   "property": "C40",
   "status": "partial",
   "theorems": [
    "transfer_same_partial",
    "transfer_stuck",
    "transfer_one_qubit_refuted",
    "transfer_two_qubits_refuted",
    "transfer_identity_refuted",
    "transfer_matrix_refuted"
   ],
   "note": "In exact arithmetic, which vectors are copied is characterised exactly. Proved for every vector of three or more qubits, for vectors of two qubits unless they are a product whose entries on the path to the second amplitude are not zero, and for those of one qubit whose second amplitude is zero (transfer_same_partial). For each of the remaining ones the top of the empty stack is read (transfer_stuck). False for matrices: the traversal reads the top of an empty stack, or misses successors hidden by an entry left on the stack; witnesses computed in doubles."
  },
  {
   "property": "C41",
   "status": "proved",
   "theorems": [
    "serialization_round_trip",
    "serialization_scalar_refuted",
    "serialization_small_package_refuted"
   ],
   "note": "In exact arithmetic. The two refutations show why one or more qubits, and enough qubits in the reading package, are required. The version number at the start of a file is not modelled; the text format is a parameter here, the map from a number to what its text reads back as; the text itself is C66."
  },
  {
   "property": "C52",
   "status": "partial",
   "theorems": [
    "local_check_succeeds",
    "local_check_sound",
    "referenced_is_sound",
    "global_check_defined",
    "global_check_exact",
    "global_check_refuted"
   ],
   "note": "The local check is proved to succeed for every referenced diagram, and to reject every diagram that has an unreferenced node or number or a skipped level. The global check compares the reference count of each node with its occurrences in this one diagram, so it rejects diagrams that are referenced twice or share nodes with others (witness in doubles); proved is that it returns true or throws its own error, never fails to find a counter, and succeeds exactly if every node is counted as often as edges of this diagram lead to it and no number occurs in more weights than it has references (global_check_exact)."
  },
  {
   "property": "C53",
   "status": "proved",
   "theorems": [
    "zero_density",
    "density_sum",
    "density_product",
    "operation_on_density",
    "operation_on_pure_density"
   ],
   "note": "In exact arithmetic, for calls with generateDensityMatrix = false (the default of multiply; applyOperationToDensity has an argument for it)."
  },
  {
   "property": "C54",
   "status": "partial",
   "theorems": [
    "marks_describe_nodes_apply",
    "marks_describe_nodes_revert",
    "reduced_form_result_refuted",
    "density_nodes_unique_refuted",
    "reduced_left_operand_refuted",
    "reduced_square_refuted",
    "lookup_ignores_marks_refuted"
   ],
   "note": "Proved: preparing and reverting an edge changes exactly the nodes it should (in-place model and model with marks beside the state agree). False of the code: a product whose reduced form is zero is cached without the flag and later used as the full product; a reduced left operand or a square violates an assertion; nodes made while others are marked are duplicated; the compute table ignores marks. Witnesses computed in doubles."
  },
  {
   "property": "C55",
   "status": "proved",
   "theorems": [
    "toffoli_hit",
    "toffoli_found"
   ],
   "note": "For the table as such; the package itself never calls insert or lookup of this table."
  },
  {
   "property": "C56",
   "status": "proved",
   "theorems": [
    "density_reading",
    "density_reading_nodes",
    "reduced_reading_hermitian",
    "density_reading_terminal_refuted",
    "marked_reading_full_refuted"
   ],
   "note": "Exact real arithmetic. The refuted theorems record that the zero matrix (terminal root) shifts by -1 and that a matrix stored in full is read wrongly through a marked edge."
  },
  {
   "property": "C57",
   "status": "proved",
   "theorems": [
    "probability_vector",
    "probability_vector_nodes",
    "probability_order_refuted",
    "probability_threshold_refuted",
    "probability_terminal_refuted"
   ],
   "note": "Exact real arithmetic. The refuted theorems record that the strings are in the reverse order of measureAll, that a probability below the threshold can be listed and that the zero matrix shifts by -1."
  },
  {
   "property": "C58",
   "status": "proved",
   "theorems": [
    "stochastic_lookup",
    "stochastic_statistics",
    "density_noise_refused",
    "stochastic_resize_refuted",
    "density_noise_hit",
    "density_noise_found",
    "density_noise_exact",
    "noise_collection"
   ],
   "note": "The refuted theorem records that the number of qubits is not part of the key, so after a resize the table answers with the diagram for the old number of qubits."
  },
  {
   "property": "C59",
   "status": "proved",
   "theorems": [
    "accepted_is_near_identity",
    "identity_is_accepted",
    "exactly_identity",
    "scaled_identity_refuted",
    "small_block_refuted"
   ],
   "note": "Exact real arithmetic, with the angle of a complex number for std::atan2. The refuted theorems record that the weight of the root edge is ignored, so that 2 I counts as close to the identity, and that a block that vanishes within the tolerance is still compared with the identity."
  },
  {
   "property": "C60",
   "status": "proved",
   "theorems": [
    "outcome_fidelity"
   ],
   "note": "Exact real arithmetic."
  },
  {
   "property": "C61",
   "status": "partial",
   "theorems": [
    "extend_partial",
    "extend_below_refuted"
   ],
   "note": "Exact real arithmetic. Missing: l > 0 for a matrix with a block that is a multiple of the identity, where the Kronecker product loses the factor (C26): the refuted theorem has the witness."
  },
  {
   "property": "C62",
   "status": "proved",
   "theorems": [
    "ancillary_reduction_of_flat"
   ],
   "note": "Exact real arithmetic."
  },
  {
   "property": "C63",
   "status": "proved",
   "theorems": [
    "garbage_reduction_of_basis_state",
    "garbage_reduction_of_flat",
    "garbage_reduction_of_columns"
   ],
   "note": "Exact real arithmetic."
  },
  {
   "property": "C64",
   "status": "proved",
   "theorems": [
    "initial_matrix"
   ],
   "note": "Exact real arithmetic."
  },
  {
   "property": "C65",
   "status": "partial",
   "theorems": [
    "mixing_bijective",
    "combining_injective",
    "combining_left_refuted",
    "hash_separates",
    "buckets",
    "cached_hash_defined",
    "cached_hash_separates",
    "cached_hash_refuted",
    "node_buckets",
    "toffoli_buckets"
   ],
   "note": "Missing: the hash of cached edges is not always defined. cached_hash_refuted gives an addition that stores its result under the weight -1, where the cast of a negative number to std::size_t is undefined; cached_hash_defined says exactly when the cast is defined. combining_left_refuted: different left operands can collide. toffoli_buckets: all Toffoli gates with target 0 or a control on qubit 0 share one bucket."
  },
  {
   "property": "C66",
   "status": "proved",
   "theorems": [
    "text_read_back_vector",
    "text_read_back_matrix",
    "text_accepted",
    "text_other_version",
    "text_17_digits_identify",
    "text_determines_weights_refuted",
    "text_readable_refuted",
    "text_unit_refuted",
    "text_capital_refuted",
    "text_index_refuted",
    "text_level_refuted"
   ],
   "note": "The hypotheses exclude what the refutations show: 16 digits do not identify a double; the largest double, rounded to 16 digits, is out of range when read; indices from 2^31 on are written but not read. Of texts not written by the package, the weight i is read as zero, +I passes the expression and then throws invalid_argument, and a level over 127 wraps to a negative one."
  },
  {
   "property": "C67",
   "status": "proved",
   "theorems": [
    "popFirst_queue",
    "weights_listed",
    "graph_drawn",
    "graph_closed",
    "graph_zeros",
    "graph_complete",
    "labels_distinct",
    "labels_repeat",
    "labels_range",
    "labels_unique_refuted",
    "sides",
    "dashed",
    "left_out"
   ],
   "note": "Any arithmetic; completeness and the zeros in drawings of the memory with exact numbers. labels_unique_refuted: nodes 2 MiB apart (32768 vector nodes of 64 bytes) share a label, against the comment that promises 2^20 unique nodes. Fonts and tooltips are not modelled; label texts, colours and widths are in C68."
  },
  {
   "property": "C68",
   "status": "proved",
   "theorems": [
    "phase_value",
    "polar_value",
    "polar_defined",
    "polar_short",
    "phase_fraction",
    "hue_turns",
    "thickness_grows",
    "polar_zero_refuted",
    "hue_below_one_refuted"
   ],
   "note": "Over the reals; magnitude and phase of the number are given (std::sqrt and std::atan2 are not modelled), decimals are an uninterpreted token. The refutations are for doubles: a magnitude equal to the tolerance is written as -+0, a phase slightly over it as an exponential with exponent 0, and a hue can be rounded to 1."
  },
  {
   "property": "C69",
   "status": "proved",
   "theorems": [
    "binary_read_back",
    "binary_determines",
    "binary_size",
    "binary_accepted",
    "binary_other_version",
    "bits_of_doubles",
    "doubles_of_bits",
    "binary_truncated_refuted",
    "binary_one_byte_refuted",
    "binary_kind_refuted"
   ],
   "note": "Little-endian machines; one NaN. The refutations show what is not checked: a file that ends within a node is read without an error, with values left over from the node before; a single byte 1 passes for a file; a vector is read as a matrix."
  },
  {
   "property": "C70",
   "status": "proved",
   "theorems": [
    "ulp_counts",
    "ulp_symmetric",
    "ulp_adds",
    "ulp_zero",
    "ulp_units",
    "nextafter_up",
    "nextafter_down",
    "ulp_ends_refuted"
   ],
   "note": "ulp_ends_refuted: with NaN the loop does not end."
  },
  {
   "property": "C71",
   "status": "proved",
   "theorems": [
    "comparison_consistent",
    "tree_insertion",
    "range_of_qubit",
    "count_of_qubit",
    "found_by_qubit",
    "literals",
    "literal_wraps_refuted"
   ],
   "note": "literal_wraps_refuted: 256_pc is a control on qubit 0, because Qubit has eight bits."
  },
  {
   "property": "C72",
   "status": "partial",
   "theorems": [
    "printVector_lines_partial",
    "printMatrix_lines_partial",
    "print_zero_refuted",
    "print_64_refuted",
    "print_width_refuted"
   ],
   "note": "Proved in exact arithmetic for diagrams on 1 to 63 qubits that are not zero. The claim is false otherwise: the zero vector and matrix make the shift undefined (print_zero_refuted), a vector on 64 qubits prints nothing (print_64_refuted), and 13 characters do not hold every number, contrary to the comment in the code (print_width_refuted)."
  },
  {
   "property": "C73",
   "status": "proved",
   "theorems": [
    "weights_add",
    "weights_sub",
    "weights_mul",
    "weights_div",
    "temporaries_with_results",
    "weights_mag",
    "product_of_small_refuted",
    "quotient_of_small_refuted",
    "crossed_target_refuted"
   ],
   "note": "For all states. In doubles the shortcuts change results: 2^-60 times 2^70 is 0 (product_of_small_refuted) and 2^-60 divided by 2^-61 is 1 (quotient_of_small_refuted). The one kind of aliasing excluded, an operand whose imaginary part is the real part of the target, does give wrong results (crossed_target_refuted)."
  },
  {
   "property": "C74",
   "status": "partial",
   "theorems": [
    "power_of_two_test",
    "vectors_refused_partial",
    "matrices_refused_partial",
    "expectation_refused_partial",
    "long_vector_refuted",
    "large_product_refuted",
    "ragged_matrix_refuted",
    "expectation_zero_refuted",
    "unequal_sum_refuted",
    "state_above_refuted"
   ],
   "note": "Proved for vectors of at most 2^nq amplitudes, matrices with rows of one length and non-zero operands of expectationValue. The claim is false beyond: vectors and products that are too large for the package, ragged matrices and sums of vectors of different sizes are not refused, the zero vector is refused by expectationValue, and states not starting at qubit 0 are read differently by getVector and getValueByPath (the _refuted theorems)."
  },
  {
   "property": "C75",
   "status": "partial",
   "theorems": [
    "table_counters",
    "hit_ratio_partial",
    "hit_ratio_fresh_refuted"
   ],
   "note": "The counters are proved for all histories; the ratio in exact arithmetic when some lookup counts. Without one it is 0/0, not a number (hit_ratio_fresh_refuted)."
  },
  {
   "property": "C76",
   "status": "proved",
   "theorems": [
    "lookup_counted",
    "requests_counted",
    "number_lookup_counted",
    "number_table_counters",
    "entries_accounted",
    "package_numbers_counted"
   ],
   "note": "Collisions of the number table are not modelled, and not part of the claim."
  },
  {
   "property": "C77",
   "status": "partial",
   "theorems": [
    "edge_equal_self",
    "edge_equal_iff",
    "operand_equal_iff",
    "edge_equal_sym",
    "edge_equal_sym_doubles",
    "stored_edges_equal",
    "stored_edges_trans",
    "edge_equal_trans_partial",
    "edge_equal_trans_refuted",
    "operand_equal_self_refuted"
   ],
   "note": "edge_equal_self holds in every number system and edge_equal_sym_doubles in doubles; the others are proved in real arithmetic with any tolerance, the theorems on stored weights for a tolerance that C02 admits. For temporaries transitivity fails (edge_equal_trans_refuted, in doubles), and an operand of a compute table that is not a number does not equal itself (operand_equal_self_refuted). Rounding in the difference of two doubles is not covered."
  }
 ]
}