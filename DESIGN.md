# Design of the verification of cda-tum/dd_package

Source: `/repo/include/dd/*.hpp` (C++17, header only).  Model and proofs:
`rocq/theories/*.v` (Coq 8.16.1, logical prefix `Verif`).  Properties: `properties.jsonl`.
  Which theorems establish which property: `MANIFEST.json`.  Wrong programs the
theorems were tried against: `seeded/LOG.jsonl`.

## 1. How the code is modelled

* **Numbers.** The code computes with `double` (`fp`).  Every model function that
  touches numbers is parameterised by a record `num` (`Num.v`: carrier and the operations
  used by the code).  Two instances: `NumF` (IEEE-754 binary64 from
  `Coq.Floats.SpecFloat`, executable; used for bit-exact counterexamples) and `NumR tol`
  (real numbers: the code without rounding, with tolerance `tol`).
* **Two modes of the theorems.** The record `numx` (`Inv.v`) lists what a proof may use
  about a number system.  Five facts about constants hold for doubles too (record `sane`
  in `Inst.v`: zero is approximately zero, zero is not approximately one, zero has no
  sign, `0 <= 0`, approximate equality is symmetric).  Everything else is available only
  in "exact mode" (`ex X`).  Structural theorems (sharing, reference counts, garbage
  collection, cache balance, absence of undefined behaviour, termination) hold for every
  sane number system, hence for doubles; theorems on values and on canonicity hold for
  `NumR 0`.  Files `PropStruct`, `PropTables`, `PropRun` are of the first kind; most others
  fix `NumR 0`.
* **Memory.** Pointers are addresses (natural numbers) into explicit heaps in the state:
  entries of the table of real numbers, cache entries, vector, matrix and density nodes.
  Chains (linked lists through `next`) are lists of addresses.  Chunked allocation is a
  running index plus the free list.  The sign bit in number pointers is explicit.
* **Control.** Member functions are state transformers with an explicit outcome: a result
  (`Ok`), a thrown exception (`Thr`), or `Bad` (undefined behaviour, failed assertion, out
  of fuel; `Base.v` lists the kinds).  Recursion over diagrams uses fuel; running out of
  it is a `Bad` outcome that the theorems exclude.
* **Hash functions** of the unique and compute tables are parameters (record `cfg`,
  `State.v`), as are table sizes: theorems hold for all of them.
* **Programs.** `Run.v` defines a machine whose instructions are the calls of the public
  interface (`ins`, `exec`, `run`), and what is allowed (`dstep`, `druns`): arguments are
  diagrams the user holds and that are not stale, levels fit the package.  `dstep` also
  says, independently of the diagrams, what dense linear algebra yields for each variable
  (`DV kind level references function`).  `reached nq s V D` is: an allowed program on a new
  package for `nq` qubits ends in state `s` with variables `V`.  Most property theorems
  quantify over all reached states and all diagrams the user holds in them (`usr`,
  `referenced`, `PropBase.v`).

## 2. Files

Model: `Num`, `Base`, `CTable` (ComplexTable.hpp), `State` (ComplexNumbers, Complex, ComplexCache,
Edge, Node, compute tables), `Pkg` (UniqueTable.hpp, most of Package.hpp), `Read`, `Control`, `Gate`,
`Meas`, `Named` (GateMatrixDefinitions.hpp, named gates), `Toffoli`, `Density`, `DensMul`, `Fraction`
(ComplexValue.hpp), `Reduce`, `Serial` (Export.hpp, transfer, deserialize), `Check` (consistency checks), `Noise`, `Close`, `Hash` (the hash functions), `Text` (the text format of files), `Draw` (drawings and weight lists), `Format` (labels of drawings), and the first part of `Run`.

Proof layers: `CTable*` (table of numbers), `Inv`, `InvL` (package invariant), `PrimL`, `NormL`,
`MkL`, `TrL`, `AddL`, `MulL`, `InnerL`, `KronL`, `CanonL`, `IdentL`, `StateL`, `DensL`, `TraceL`, `GateL`,
`GateAct`, `GateAlg`, `NamedL`, `DelL`, `MeasL`, `SampL`, `GcL`, `RefL`, `ReadL`, `ReduceL`, `ReduceB`, `SerialL`,
`SerialW`, `TextL`, `Inst`, `Run`.

Property theorems with examples and `Print Assumptions`: files `Prop*.v`.

## 3. Method

The package invariant `inv` (`Inv.v`) says: every entry of every chain of every unique table is
well formed, in the right bucket, with successors at the level below that are alive; no two nodes of a
table agree in level and successors; weights point to table entries; nodes are normalized (exact mode);
compute table entries that are valid denote what the operation computes (exact mode); free lists and
caches are disjoint from what is in use.  `wp` is a weakest precondition over the outcomes that
excludes `Thr` and `Bad` (apart from what `al0`, `al1` let pass: failing number lookups outside of
exact mode).  Every function gets a specification of the form "from a state with the invariant it
ends in a state with the invariant, all older diagrams denote the same (`step`), the cache slots owned
are as before (`owns`), the result denotes …", proved by induction on levels.  `exec_sp`, `run_sp`
(`Run.v`) combine them for all programs.  Reference counts are handled by `rcok` (`RefL.v`): the count
of every node and number equals the number of references from roots and from referenced nodes,
unless saturated.

## 4. What is modelled and what is not

Modelled, with simplifications (each definition cites its lines):

* `ComplexTable.hpp`: whole class apart from statistics strings and printing.
* `ComplexNumbers.hpp`, `Complex.hpp`, `ComplexCache.hpp`: arithmetic, lookup, caching, reference counts.
* `UniqueTable.hpp`, `ComputeTable.hpp`, `UnaryComputeTable.hpp`, `ToffoliTable.hpp`: lookup, insert, gc,
  clear; statistics as counters where a property needs them.
* `DensityNoiseTable.hpp`, `StochasticNoiseOperationTable.hpp` (`Noise.v`): all functions except the printing
  of statistics; `hash<dEdge>` is a parameter.  As with the Toffoli table they are not part of the package
  state; `gcNoise` is the collection together with them.
* `Package.hpp`: constructors, `normalize`, `makeDDNode`, add, multiply, transpose, kronecker, inner
  product, fidelity, expectation value, trace, partial trace, identity, gates with controls,
  two-qubit and named gates, deleteEdge, size, measurement, reduction of ancillary and garbage qubits,
  reading of amplitudes and matrices, transfer, deserialize, garbage collection, reset.
* `Close.v`: isCloseToIdentity (`std::atan2` is a parameter, the visited set a list), fidelityOfMeasurementOutcomes,
  extend and createInitialMatrix.
* `Hash.v`: the hash functions on 64-bit words, with the addresses as parameters.  The model of the package takes
  arbitrary functions in their place; `PropHash.gH` is the package with these functions.
* Random numbers are arguments (the numbers drawn); `std::cos`, `std::sin` are parameters of the named
  gates (for exact theorems the real functions).
* `std::map`, `std::unordered_map`, `std::set` are association lists.
* Measurement: the traversals use lists for the visited sets, in the order of the code.
* Density matrices: the marks on pointers, the alignment of edges, reading of a density matrix and of its
  probabilities (`Density.v`, on the nodes as rewritten in place), and makeZeroDensityOperator, add, multiply and
  applyOperationToDensity (`DensMul.v`, with the marks kept beside the state; `PropDensMul.v` proves
  that both describe the same nodes).  The noise tables are in `Noise.v`; the library has no functions that apply noise.
* `ComplexValue.hpp`: lowest fraction and formatted text as tokens; decimals are one token.
* `Reduce.v`: the level used after rebuilding a node is that of the rebuilt node (equal to `e.p->v`).
* `Serial.v`: the version number of files is left out; the text format is a parameter giving what the text
  of a number reads back as; the traversal in `transfer` is done before the copying it is
  interleaved with; the traversal loops are bounded by a fuel argument (theorems: exists a bound above
  which the result does not depend on it).
* `Text.v`: the text of files, character by character.  From the C++ library it contains the regular expressions
  (the pattern strings are parsed; matching tries alternatives in order, repetitions longest first, with backtracking), `stoi`, `stod` and
  `operator<<` for doubles with a precision in the "C" locale (format `%.*g`, rounded to nearest with ties to even).  The
  version number is modelled here.  Lines are read before any node is made.  `stod` yields the exact decimal; its rounding to a double is `ofDec`.
* `Draw.v`: a drawing is a list of statements (root, nodes, arrows) without fonts and tooltips; for colours, widths and label texts see `Format.v`.
  `std::priority_queue` is a parameter; the theorems hold for every queue that returns an edge of the highest level.  Addresses are
  a parameter.
* `ControlQ.v`: the tree of `std::set` has any shape; rebalancing is left out, as it keeps the iteration order; an iterator is the list of the elements from there on.
* `Print.v`: the standard output is the returned text; the stream's own failures are left out.  The text of a number with three digits is a parameter in the exact theorems and `showF` (`Text.v`) in the examples over doubles.
* `Arith.v`: `subCached`, `divCached`, `mag`; `arg` is left out.
* `Stats.v`: `hitRatio` of the compute tables; the counters do not wrap. The counters `lookups`, `hits`, `collisions` of the unique tables are in `Pkg.v`; of the number table `lookups`, `hits`, `inserts` are in `CTable.v` and its other counters are left out.
* `Binary.v`: a file is a list of bytes; integers and doubles are stored with the least significant byte first; there is one NaN, without payload; a stream is the bytes left and whether a read has failed; `std::nextafter` is modelled from its specification.
* `Format.v`: magnitude and phase of the number are arguments; the hue is a number, not its three digits.
* `makeIdent`, `makeGateDD`, `makeBasisState` … with a non-zero first qubit (`start`): modelled; the
  value theorems are for `start = 0` unless they say otherwise.

Not modelled: the appearance of drawings (`Export.hpp`: fonts, tables, images); printing of statistics and of the insides of tables (`printInformation`, `debugnode`, …); memory exhaustion.  Exceptions from the allocator are not
modelled; sizes are unbounded unless the code wraps them explicitly (reference counts, `Qubit`, hash
arithmetic, `1 << n`).

## 5. Trusted base

* The Coq 8.16.1 kernel (including `vm_compute`).
* The correspondence between `/repo` and the model.  No code was compiled or run.
* Axioms of the standard library, as listed by `Print Assumptions` under each property theorem and in
  the table below.  No axioms of our own.

Closed under the global context (no axioms):
* `PropArith`: `product_of_small_refuted`, `quotient_of_small_refuted`, `crossed_target_refuted`
* `PropBinary`: `binary_read_back`, `binary_determines`, `binary_size`, `binary_accepted`, `binary_other_version`, `bits_of_doubles`, `doubles_of_bits`, `binary_truncated_refuted`, `binary_one_byte_refuted`, `binary_kind_refuted`
* `PropCTable`: `C02_large_tolerance_refuted`, `C04_collection_exact`, `C04_forced_collection_runs_refuted`, `C05_counter_arithmetic`, `C05_counter_never_wraps`, `C05_saturated_forever`
* `PropCheck`: `local_check_sound`, `global_check_refuted`
* `PropClose`: `small_block_refuted`, `extend_below_refuted`
* `PropControl`: `comparison_consistent`, `tree_insertion`, `range_of_qubit`, `count_of_qubit`, `found_by_qubit`, `literals`, `literal_wraps_refuted`
* `PropDens`: `marks_undone_partial`, `marks_undone_pair_partial`, `reading_restores_nodes_partial`, `marks_of_edge_refuted`, `marks_negative_zero_refuted`, `marks_same_node_refuted`, `reading_twice_refuted`
* `PropDensMul`: `marks_describe_nodes_apply`, `marks_describe_nodes_revert`, `reduced_form_result_refuted`, `density_nodes_unique_refuted`, `reduced_left_operand_refuted`, `reduced_square_refuted`, `lookup_ignores_marks_refuted`
* `PropDensProb`: `probability_order_refuted`, `probability_threshold_refuted`, `probability_terminal_refuted`
* `PropDensRead`: `density_reading_terminal_refuted`, `marked_reading_full_refuted`
* `PropDraw`: `popFirst_queue`, `labels_distinct`, `labels_repeat`, `labels_range`, `labels_unique_refuted`, `sides`, `dashed`, `left_out`
* `PropEqual`: `edge_equal_self`, `edge_equal_sym_doubles`, `edge_equal_trans_refuted`, `operand_equal_self_refuted`
* `PropFormat`: `polar_zero_refuted`, `hue_below_one_refuted`
* `PropFrac`: `fraction_lowest_terms`, `fraction_zero_maximum_refuted`, `text_value_refuted`
* `PropGate`: `two_qubit_gate_128_refuted`, `control_order`, `control_set`
* `PropHash`: `mixing_bijective`, `combining_injective`, `combining_left_refuted`, `hash_separates`, `buckets`, `cached_hash_separates`, `cached_hash_refuted`, `node_buckets`, `toffoli_buckets`
* `PropNoise`: `stochastic_lookup`, `stochastic_statistics`, `density_noise_refused`, `stochastic_resize_refuted`, `density_noise_hit`, `density_noise_found`
* `PropPrim`: `flip_twice`, `flip_entry`, `negate_twice`, `zero_negation`, `negation_entries`, `zero_component`, `flip_value`, `negate_value`, `zero_lookup_partial`, `zero_lookup_refuted`, `outstanding_distinct`, `outstanding_count`, `get_new`, `temp_new`, `write_separate`, `return_reuse`, `table_answers`, `table_most_recent`, `clear_forgets`
* `PropPrint`: `print_zero_refuted`, `print_64_refuted`, `print_width_refuted`
* `PropReduce`: `ancillary_reduction_shared_refuted`, `ancillary_reduction_two_refuted`, `reduction_range_refuted`, `garbage_reduction_refuted`
* `PropRefuse`: `power_of_two_test`, `long_vector_refuted`, `large_product_refuted`, `ragged_matrix_refuted`, `expectation_zero_refuted`, `unequal_sum_refuted`, `state_above_refuted`
* `PropRefute`: `getVector_zero_refuted`, `getMatrix_zero_refuted`, `makeBasisState_short_refuted`, `kronecker_matrices_refuted`, `kronecker_inner_weight_refuted`, `makeIdent_history_refuted`, `export_zero_refuted`, `getValueByIndex_65_refuted`
* `PropSerial`: `transfer_one_qubit_refuted`, `transfer_two_qubits_refuted`, `transfer_identity_refuted`, `transfer_matrix_refuted`, `serialization_scalar_refuted`, `serialization_small_package_refuted`
* `PropStats`: `table_counters`, `hit_ratio_fresh_refuted`
* `PropTables`: `toffoli_refuted`, `collection_reports_refuted`, `cache_peak_refuted`, `toffoli_hit`, `toffoli_found`
* `PropText`: `text_accepted`, `text_other_version`, `text_determines_weights_refuted`, `text_readable_refuted`, `text_capital_refuted`, `text_index_refuted`, `text_level_refuted`
* `PropUStats`: `lookup_counted`, `requests_counted`, `number_lookup_counted`, `number_table_counters`, `entries_accounted`
* `PropUlp`: `ulp_counts`, `ulp_symmetric`, `ulp_adds`, `ulp_zero`, `ulp_units`, `nextafter_up`, `nextafter_down`, `ulp_ends_refuted`

Axioms `ClassicalDedekindReals.sig_forall_dec`, `FunctionalExtensionality.functional_extensionality_dep`:
* `PropHash`: `cached_hash_defined`
* `PropText`: `text_read_back_vector`, `text_read_back_matrix`, `text_17_digits_identify`, `text_unit_refuted`

Axioms `ClassicalDedekindReals.sig_forall_dec`, `ClassicalDedekindReals.sig_not_dec`, `FunctionalExtensionality.functional_extensionality_dep`:
* `PropArith`: `weights_add`, `weights_sub`, `weights_mul`, `weights_div`, `temporaries_with_results`, `weights_mag`
* `PropCTable`: `C01_lookup_within_tolerance`, `C02_no_duplicates`, `C03_lookups_stable`, `C04_survivors_found`
* `PropCheck`: `local_check_succeeds`, `referenced_is_sound`, `global_check_defined`, `global_check_exact`
* `PropClose`: `outcome_fidelity`, `extend_partial`
* `PropDensMul`: `zero_density`, `density_sum`, `density_product`, `operation_on_density`, `operation_on_pure_density`
* `PropDensProb`: `probability_vector`, `probability_vector_nodes`
* `PropDensRead`: `density_reading`, `density_reading_nodes`, `reduced_reading_hermitian`
* `PropDraw`: `weights_listed`, `graph_drawn`, `graph_closed`, `graph_zeros`, `graph_complete`
* `PropEqual`: `edge_equal_iff`, `operand_equal_iff`, `edge_equal_sym`, `stored_edges_equal`, `stored_edges_trans`, `edge_equal_trans_partial`
* `PropFormat`: `thickness_grows`
* `PropFrac`: `fraction_close`, `fraction_exact`, `fraction_large_refuted`
* `PropGate`: `gate_diagram`, `gate_application`, `two_qubit_gate_diagram_partial`, `deleteEdge_zeroes_slice`, `size_counts_nodes`
* `PropMeas`: `measurement_probabilities`, `sampling_born`, `sampling_nonzero`, `sampling_collapse`, `collapsing_measurement`
* `PropNamed`: `controlled_two_qubit_gates`, `peres_gates_adjoint`
* `PropNoise`: `density_noise_exact`, `noise_collection`
* `PropPauli`: `single_qubit_gates_pauli`, `two_qubit_gates_pauli`
* `PropPrim`: `negate_exact`
* `PropPrint`: `printVector_lines_partial`, `printMatrix_lines_partial`
* `PropReduce`: `ancillary_reduction_safe`, `ancillary_reduction_partial`, `garbage_reduction_safe`
* `PropReduceB`: `ancillary_reduction_of_flat`, `garbage_reduction_of_basis_state`, `garbage_reduction_of_flat`, `garbage_reduction_of_columns`, `initial_matrix`
* `PropRefuse`: `vectors_refused_partial`, `matrices_refused_partial`, `expectation_refused_partial`
* `PropRun`: `package_is_dense`, `package_is_dense_throughout`, `programs_safe`
* `PropSem`: `add_is_addition`, `multiply_is_matrix_vector_product`, `multiply_is_matrix_product`, `transpose_is_transposition`, `conjugateTranspose_is_adjoint`, `marks_are_right`, `kronecker_vectors`, `kronecker_matrices_partial`, `innerProduct_is_inner_product`, `fidelity_is_squared_overlap`, `expectationValue_is_expectation`, `trace_is_trace`, `partialTrace_is_partial_trace`
* `PropSerial`: `transfer_same_partial`, `transfer_stuck`, `serialization_round_trip`
* `PropState`: `makeDDNode_stacks`, `stored_nodes_are_normalised`, `diagrams_are_canonical`, `vector_round_trip`, `getVector_round_trip_partial`, `matrix_round_trip`, `getMatrix_round_trip_partial`, `zero_state`, `basis_state_partial`, `product_state`, `makeIdent_is_identity_partial`, `makeIdent_stable_partial`, `makeIdent_shared_partial`, `getValueByPath_reads`, `getValueByIndex_reads`, `getValueByIndices_reads`, `readers_agree_partial`, `getMatrix_reads_partial`
* `PropStats`: `hit_ratio_partial`
* `PropStruct`: `no_equal_nodes`, `no_duplicate_nodes`, `stored_node_found`, `node_request`, `node_counts`, `number_counts`, `active_counts`, `incRef_decRef`, `collection_keeps`, `forced_collection`, `cached_results_stored`, `no_temporaries_left`
* `PropTables`: `toffoli_partial`, `collection_reports_partial`, `node_statistics`, `number_statistics`
* `PropUStats`: `package_numbers_counted`
* `PropUnit`: `single_qubit_gates_unitary`, `two_qubit_gates_unitary`, `daggered_gates_are_adjoints`, `two_qubit_adjoints`, `gate_matrices_consistent`

Axioms `ClassicalDedekindReals.sig_forall_dec`, `ClassicalDedekindReals.sig_not_dec`, `Classical_Prop.classic`, `FunctionalExtensionality.functional_extensionality_dep`:
* `PropClose`: `accepted_is_near_identity`, `identity_is_accepted`, `exactly_identity`, `scaled_identity_refuted`
* `PropFormat`: `phase_value`, `polar_value`, `polar_defined`, `polar_short`, `phase_fraction`, `hue_turns`
* `PropFrac`: `formatted_value`, `formatted_defined`, `text_value_partial`

The first three axioms belong to `Coq.Reals`; `Classical_Prop.classic` comes from the standard library's
theory of decimal/integer parts of reals used for fractions.

## 6. Properties that are false of the code

Where a property fails, the part that holds is proved under a name ending in `_partial` (or with the
hypothesis that excludes the failure in the statement), and a theorem ending in `_refuted` gives a
concrete input, computed bit-exactly in doubles in nearly all cases.  The notes in `MANIFEST.json`
say what goes wrong and the comments at the theorems name the lines.
