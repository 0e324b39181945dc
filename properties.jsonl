{"id": "C01", "title": "Looked-up real numbers are within tolerance", "statement": "Looking up a non-negative real number in the real-number table returns an entry whose stored value differs from the requested value by at most the tolerance, whatever was stored or collected before.", "quantifier": "all non-negative reals, all tolerances below half a bucket width, all histories of lookups, reference changes, garbage collections and clears", "why_tests_cant": "the set of table contents and of query values is infinite and the interesting cases sit on bucket borders", "anchors": ["include/dd/ComplexTable.hpp:lookup", "include/dd/ComplexTable.hpp:findOrInsert", "include/dd/ComplexTable.hpp:insert", "include/dd/ComplexTable.hpp:hash"]}
{"id": "C02", "title": "The real-number table never holds duplicates", "statement": "At every point of every history any two distinct entries of the real-number table differ by more than the tolerance, and every entry differs by more than the tolerance from the shared constants 0, 1/sqrt2 and 1; in particular a lookup creates a new entry only if no stored entry is within tolerance, even if that entry is in a neighbouring bucket.", "quantifier": "all histories of lookups, reference changes, garbage collections and clears; tolerance below half a bucket width", "why_tests_cant": "needs an invariant over unbounded histories; a missed neighbour only shows on rare bucket-border values", "anchors": ["include/dd/ComplexTable.hpp:lookup", "include/dd/ComplexTable.hpp:findOrInsert", "include/dd/ComplexTable.hpp:insert", "include/dd/ComplexTable.hpp:garbageCollect"]}
{"id": "C03", "title": "Lookups are stable", "statement": "Looking up the value of an entry that is in the table returns that very entry, and looking up any value twice in a row returns the same entry both times and leaves the number of entries unchanged the second time.", "quantifier": "all values and all table histories; tolerance below half a bucket width", "why_tests_cant": "pointer identity of weights is what makes diagrams comparable; a violation depends on the exact set of neighbours in the table", "anchors": ["include/dd/ComplexTable.hpp:lookup", "include/dd/ComplexTable.hpp:findOrInsert"]}
{"id": "C04", "title": "Collecting real numbers removes exactly the unreferenced ones", "statement": "A garbage collection of the real-number table that runs removes exactly the entries whose reference count is zero; every referenced entry keeps its pointer, value and count, later lookups still find it, and the reported entry count equals the number of stored entries.", "quantifier": "all table states reachable by any history, forced or unforced collections", "why_tests_cant": "depends on which entries of which chains are unreferenced; linked-list unlinking bugs hide in particular chain shapes", "anchors": ["include/dd/ComplexTable.hpp:garbageCollect", "include/dd/ComplexTable.hpp:returnEntry", "include/dd/ComplexTable.hpp:getEntry"]}
{"id": "C05", "title": "Reference counters saturate and never wrap", "statement": "Reference counters of real numbers and nodes never wrap around: incrementing and then decrementing restores the counter unless the counter reached its maximum, in which case it stays at the maximum for ever and the object is never collected; decrementing a counter that is zero throws.", "quantifier": "all counter values in 0..2^32-1 and all sequences of increments and decrements", "why_tests_cant": "reaching the maximum needs 2^32 references; no test does that", "anchors": ["include/dd/ComplexTable.hpp:incRef", "include/dd/ComplexTable.hpp:decRef", "include/dd/UniqueTable.hpp:incRef", "include/dd/UniqueTable.hpp:decRef"]}
{"id": "C06", "title": "Sign-tagged pointers obey the arithmetic of signs", "statement": "Negating a number twice gives the number back, negation negates the value, conjugation negates only the imaginary part, none of them changes the entry the number is stored in, and the shared zero is its own negation.", "quantifier": "all table entries and all sign combinations", "why_tests_cant": "algebraic law over all pointers", "anchors": ["include/dd/ComplexTable.hpp:flipPointerSign", "include/dd/ComplexTable.hpp:getAlignedPointer", "include/dd/ComplexTable.hpp:setNegativePointer", "include/dd/ComplexNumbers.hpp:neg", "include/dd/ComplexNumbers.hpp:conj"]}
{"id": "C07", "title": "Zero is represented uniquely", "statement": "Looking up a complex number both of whose components are within tolerance of zero returns the shared zero constant, so that comparing with the zero constant by identity detects it.", "quantifier": "all pairs of doubles, including the two boundary values plus and minus tolerance", "why_tests_cant": "the boundary is a single double out of 2^64", "anchors": ["include/dd/ComplexNumbers.hpp:lookup", "include/dd/ComplexTable.hpp:lookup"]}
{"id": "C08", "title": "Temporary complex numbers are never shared", "statement": "Two complex numbers obtained from the cache and not yet returned never share storage, returning one makes its storage available again, the reported cache count is the amount of storage handed out, and writing to one outstanding number never changes another.", "quantifier": "all interleavings of get, temporary-get, return and clear that return every number at most once", "why_tests_cant": "aliasing depends on the full history of gets and returns", "anchors": ["include/dd/ComplexCache.hpp:getCachedComplex", "include/dd/ComplexCache.hpp:getTemporaryComplex", "include/dd/ComplexCache.hpp:returnToCache", "include/dd/ComplexCache.hpp:clear"]}
{"id": "C09", "title": "Compute tables answer only what was recorded", "statement": "A compute-table lookup either misses or returns the result of the most recent insertion, since the last clear, made for operands equal to the requested ones; after a clear every lookup misses.", "quantifier": "all histories of insert, lookup and clear and all hash functions", "why_tests_cant": "wrong hits need hash collisions, whose occurrence depends on addresses", "anchors": ["include/dd/ComputeTable.hpp", "include/dd/UnaryComputeTable.hpp", "include/dd/DensityNoiseTable.hpp", "include/dd/ToffoliTable.hpp", "include/dd/StochasticNoiseOperationTable.hpp"]}
{"id": "C10", "title": "Nodes are unique", "statement": "Asking the unique table for a node with given level and successors returns a node with equal level and equal successors, and two requests with identical level and successors return the same node as long as the first one has not been collected; no two stored nodes on one level with the same hash have equal successors.", "quantifier": "all histories of node requests, reference changes and garbage collections, all hash functions", "why_tests_cant": "depends on chain contents and on all earlier collections", "anchors": ["include/dd/UniqueTable.hpp:lookup", "include/dd/UniqueTable.hpp:searchTable", "include/dd/UniqueTable.hpp:getNode", "include/dd/UniqueTable.hpp:garbageCollect"]}
{"id": "C11", "title": "Reference counts equal the number of references", "statement": "At every point the reference count of every node equals the number of times the user referenced it plus the number of edges from referenced nodes that point to it, and the count of every real number equals the number of user references plus its occurrences as a weight component on the edges of referenced nodes (or the counter is saturated); incRef followed by decRef of the same edge restores all counts.", "quantifier": "all diagrams and all balanced or unbalanced sequences of incRef, decRef, node creation and garbage collection", "why_tests_cant": "global invariant of a shared graph over unbounded histories", "anchors": ["include/dd/UniqueTable.hpp:incRef", "include/dd/UniqueTable.hpp:decRef", "include/dd/Package.hpp:incRef", "include/dd/Package.hpp:decRef", "include/dd/ComplexNumbers.hpp:incRef", "include/dd/ComplexNumbers.hpp:decRef"]}
{"id": "C12", "title": "Garbage collection never damages a referenced diagram", "statement": "After any garbage collection (forced or not) every edge the user has referenced and not released still denotes exactly the same vector or matrix, and every node and weight reachable from it is still stored.", "quantifier": "all package histories, all diagrams, forced and unforced collections", "why_tests_cant": "depends on sharing between diagrams and on the order of reference operations", "anchors": ["include/dd/Package.hpp:garbageCollect", "include/dd/UniqueTable.hpp:garbageCollect", "include/dd/ComplexTable.hpp:garbageCollect"]}
{"id": "C13", "title": "No cached result outlives the things it refers to", "statement": "After a garbage collection, no operation cache of the package returns an edge to a collected node or with a collected weight.", "quantifier": "all package histories and all cache contents", "why_tests_cant": "a stale hit needs a collection between two operations that hash alike", "anchors": ["include/dd/Package.hpp:garbageCollect", "include/dd/Package.hpp:clearComputeTables"]}
{"id": "C14", "title": "The Toffoli cache is safe across garbage collection", "statement": "After a garbage collection the Toffoli table never returns an edge whose node or weight was collected.", "quantifier": "all contents of the Toffoli table and all histories", "why_tests_cant": "needs a weight to be collected while all matrix nodes survive", "anchors": ["include/dd/Package.hpp:garbageCollect", "include/dd/ToffoliTable.hpp"]}
{"id": "C15", "title": "Operations leave no temporaries behind", "statement": "Every operation (building states and matrices, addition, multiplication, Kronecker product, transposition, inner product, trace, reading amplitudes) returns with the number of outstanding temporary complex numbers unchanged and without modifying any temporary number the caller holds.", "quantifier": "all operands, all package states", "why_tests_cant": "leaks depend on which branches (zero results, cache hits) each recursive call takes", "anchors": ["include/dd/Package.hpp:add", "include/dd/Package.hpp:multiply", "include/dd/Package.hpp:kronecker", "include/dd/Package.hpp:innerProduct", "include/dd/Package.hpp:trace", "include/dd/Package.hpp:normalize", "include/dd/Package.hpp:cacheCount"]}
{"id": "C16", "title": "Normalisation preserves meaning and produces a normal form", "statement": "Creating a vector or matrix node from successors yields an edge that denotes exactly the stacked successors; the stored node is normalised (vector: squared magnitudes sum to 1 and the dominant weight is real and positive; matrix: one weight is 1 and no weight is larger in magnitude) and zero weights appear only as the zero edge.", "quantifier": "all successor edges and weights, cached or stored, in exact arithmetic", "why_tests_cant": "universally quantified over weights", "anchors": ["include/dd/Package.hpp:normalize", "include/dd/Package.hpp:makeDDNode"]}
{"id": "C17", "title": "Diagrams are canonical", "statement": "Two edges of the same package over the same number of qubits denote the same vector (or the same matrix) if and only if they are the same edge, i.e. same node and same weight entries.", "quantifier": "all pairs of diagrams in any reachable package state, exact arithmetic with tolerance 0", "why_tests_cant": "quantifies over all pairs of diagrams and construction histories", "anchors": ["include/dd/Package.hpp:normalize", "include/dd/Package.hpp:makeDDNode", "include/dd/UniqueTable.hpp:lookup", "include/dd/ComplexTable.hpp:lookup"]}
{"id": "C18", "title": "State vectors survive conversion", "statement": "Converting any vector with 2^n entries to a diagram and reading it back yields the same vector, entry by entry.", "quantifier": "all n and all vectors of length 2^n, in any package state, exact arithmetic", "why_tests_cant": "infinitely many vectors and package states", "anchors": ["include/dd/Package.hpp:makeStateFromVector", "include/dd/Package.hpp:getVector", "include/dd/Package.hpp:getValueByPath"]}
{"id": "C19", "title": "Matrices survive conversion", "statement": "Converting any 2^n by 2^n matrix to a diagram and reading it back yields the same matrix, entry by entry.", "quantifier": "all n and all matrices, in any package state, exact arithmetic", "why_tests_cant": "infinitely many matrices and package states", "anchors": ["include/dd/Package.hpp:makeDDFromMatrix", "include/dd/Package.hpp:getMatrix", "include/dd/Package.hpp:getValueByPath"]}
{"id": "C20", "title": "Basis and product states are the states they claim to be", "statement": "The zero state, every computational basis state and every product state over {0,1,+,-,R,L} has exactly the amplitudes of the corresponding tensor product; requests for more qubits than the package has, or with too few state entries, throw.", "quantifier": "all n and all state strings", "why_tests_cant": "exponentially many strings for every n", "anchors": ["include/dd/Package.hpp:makeZeroState", "include/dd/Package.hpp:makeBasisState"]}
{"id": "C21", "title": "Addition is addition", "statement": "The sum of two vector (matrix) diagrams over the same qubits denotes the entrywise sum; the operands still denote what they denoted before.", "quantifier": "all pairs of diagrams over n qubits, all package states including all contents of the operation caches, exact arithmetic", "why_tests_cant": "depends on operands and on every earlier operation through the caches", "anchors": ["include/dd/Package.hpp:add", "include/dd/Package.hpp:add2"]}
{"id": "C22", "title": "Matrix-vector multiplication is matrix-vector multiplication", "statement": "Multiplying a matrix diagram with a vector diagram over the same qubits yields the diagram of the matrix-vector product.", "quantifier": "all pairs of diagrams over n qubits, all package states and cache contents, exact arithmetic", "why_tests_cant": "depends on operands and on every earlier operation through the caches", "anchors": ["include/dd/Package.hpp:multiply", "include/dd/Package.hpp:multiply2"]}
{"id": "C23", "title": "Matrix-matrix multiplication is matrix-matrix multiplication", "statement": "Multiplying two matrix diagrams over the same qubits yields the diagram of the matrix product.", "quantifier": "all pairs of diagrams over n qubits, all package states and cache contents, exact arithmetic", "why_tests_cant": "depends on operands and on every earlier operation through the caches", "anchors": ["include/dd/Package.hpp:multiply", "include/dd/Package.hpp:multiply2"]}
{"id": "C24", "title": "Transposition and adjoint", "statement": "transpose returns the transposed matrix and conjugateTranspose the conjugate transpose, for every matrix diagram; the symmetric and identity marks of nodes are only set on nodes denoting symmetric, respectively identity, matrices.", "quantifier": "all matrix diagrams, all package states, exact arithmetic", "why_tests_cant": "shortcuts through cached results and symmetry marks depend on history", "anchors": ["include/dd/Package.hpp:transpose", "include/dd/Package.hpp:conjugateTranspose", "include/dd/Package.hpp:checkSpecialMatrices"]}
{"id": "C25", "title": "Kronecker product of vectors", "statement": "The Kronecker product of two vector diagrams denotes the tensor product of the two vectors, the first operand on the more significant qubits.", "quantifier": "all pairs of vector diagrams, all package states, exact arithmetic", "why_tests_cant": "depends on operands and cache contents", "anchors": ["include/dd/Package.hpp:kronecker", "include/dd/Package.hpp:kronecker2"]}
{"id": "C26", "title": "Kronecker product of matrices", "statement": "The Kronecker product of two matrix diagrams denotes the tensor product of the two matrices, the first operand on the more significant qubits.", "quantifier": "all pairs of matrix diagrams, all package states, exact arithmetic", "why_tests_cant": "the identity shortcut is taken only for particular sub-diagrams and weights", "anchors": ["include/dd/Package.hpp:kronecker", "include/dd/Package.hpp:kronecker2"]}
{"id": "C27", "title": "Inner product, fidelity and expectation value", "statement": "innerProduct(x,y) is the sum over all indices of conj(x_i)*y_i, fidelity is its squared magnitude, and expectationValue(A,x) is the real part of the inner product of x with A applied to x.", "quantifier": "all diagrams over n qubits, all package states, exact arithmetic", "why_tests_cant": "sums over 2^n terms with caching", "anchors": ["include/dd/Package.hpp:innerProduct", "include/dd/Package.hpp:fidelity", "include/dd/Package.hpp:expectationValue"]}
{"id": "C28", "title": "Trace and partial trace", "statement": "trace returns the sum of the diagonal entries and partialTrace returns the matrix obtained by summing over the eliminated qubits.", "quantifier": "all matrix diagrams, all subsets of eliminated qubits, exact arithmetic", "why_tests_cant": "exponentially many subsets and all matrices", "anchors": ["include/dd/Package.hpp:trace", "include/dd/Package.hpp:partialTrace"]}
{"id": "C29", "title": "makeIdent yields the identity on the requested range whatever happened before", "statement": "makeIdent(l,m) denotes the identity on qubits l..m and does not depend on which identities were requested earlier.", "quantifier": "all ranges and all histories of earlier requests", "why_tests_cant": "history dependence through the identity cache", "anchors": ["include/dd/Package.hpp:makeIdent"]}
{"id": "C30", "title": "Gate diagrams", "statement": "makeGateDD for a 2x2 matrix, a target and a set of positive and negative controls on distinct qubits other than the target denotes the 2^n x 2^n matrix that applies the 2x2 matrix to the target where all controls are satisfied and the identity elsewhere.", "quantifier": "all n, targets, control sets with at most one control per qubit and none on the target, 2x2 matrices, package states", "why_tests_cant": "exponentially many control configurations for every n", "anchors": ["include/dd/Package.hpp:makeGateDD"]}
{"id": "C31", "title": "Two-qubit gate diagrams", "statement": "makeTwoQubitGateDD for a 4x4 matrix and two distinct targets denotes the matrix that applies the 4x4 matrix to the two targets (first target most significant) and the identity elsewhere.", "quantifier": "all n, ordered pairs of distinct targets and 4x4 matrices", "why_tests_cant": "quantifies over all positions and matrices", "anchors": ["include/dd/Package.hpp:makeTwoQubitGateDD"]}
{"id": "C32", "title": "Predefined gate matrices are unitary and consistent", "statement": "Every predefined gate matrix is unitary for all parameter values and the daggered versions are the adjoints of the plain ones.", "quantifier": "all real parameter values", "why_tests_cant": "continuous parameters", "anchors": ["include/dd/GateMatrixDefinitions.hpp"]}
{"id": "C33", "title": "Controlled two-qubit gates agree with their matrices", "statement": "The decompositions used for controlled SWAP, iSWAP, DCX, RXX, RYY, RZZ, RZX, ECR, XXMinusYY and XXPlusYY apply, where all controls are satisfied, exactly the uncontrolled gate matrix, and the identity elsewhere.", "quantifier": "all parameter values and control sets", "why_tests_cant": "continuous parameters; tests check the uncontrolled matrices", "anchors": ["include/dd/Package.hpp:makeSWAPDD", "include/dd/Package.hpp:makeiSWAPDD", "include/dd/Package.hpp:makeRXXDD", "include/dd/Package.hpp:makeRZXDD", "include/dd/Package.hpp:makeECRDD", "include/dd/Package.hpp:makeXXMinusYYDD", "include/dd/Package.hpp:makeXXPlusYYDD"]}
{"id": "C34", "title": "Measurement probabilities", "statement": "For a normalised state the probabilities determined for a qubit are the sums of squared magnitudes of the amplitudes with that bit 0 and 1.", "quantifier": "all states, all qubits, exact arithmetic", "why_tests_cant": "sums over exponentially many amplitudes computed by a level-wise traversal of a shared graph", "anchors": ["include/dd/Package.hpp:determineMeasurementProbabilities", "include/dd/Package.hpp:assignProbabilities"]}
{"id": "C35", "title": "Sampling follows the Born rule", "statement": "measureAll returns bit string b exactly when each drawn threshold falls into an interval determined by the bits already drawn, and the product of the interval lengths is the squared magnitude of amplitude b; a bit string with amplitude zero is never returned.", "quantifier": "all normalised states, all threshold sequences in [0,1)", "why_tests_cant": "probability statement over all states and all random draws", "anchors": ["include/dd/Package.hpp:measureAll"]}
{"id": "C36", "title": "Collapsing measurement", "statement": "After measuring one qubit with outcome b the state is the projection onto the outcome divided by the square root of its probability.", "quantifier": "all states, qubits and outcomes with non-zero probability, exact arithmetic", "why_tests_cant": "all states", "anchors": ["include/dd/Package.hpp:measureOneCollapsing"]}
{"id": "C37", "title": "Deleting an edge zeroes exactly one slice", "statement": "deleteEdge(e,v,i) denotes the vector (matrix) with all entries whose digit at level v is i set to zero and all other entries unchanged.", "quantifier": "all diagrams, levels and digits, exact arithmetic", "why_tests_cant": "all diagrams with sharing", "anchors": ["include/dd/Package.hpp:deleteEdge"]}
{"id": "C38", "title": "size counts nodes", "statement": "size(e) is the number of distinct nodes reachable from e, including the terminal.", "quantifier": "all diagrams", "why_tests_cant": "graph property over all shared graphs", "anchors": ["include/dd/Package.hpp:size", "include/dd/Package.hpp:nodeCount"]}
{"id": "C39", "title": "Reducing ancillary qubits only touches them", "statement": "reduceAncillae keeps every matrix entry whose row and column are consistent with the ancillaries being zero and sets the entries excluded by the ancillaries to zero.", "quantifier": "all matrices and all ancillary subsets", "why_tests_cant": "depends on sharing between sub-matrices with different weights", "anchors": ["include/dd/Package.hpp:reduceAncillae", "include/dd/Package.hpp:reduceAncillaeRecursion"]}
{"id": "C40", "title": "Transfer between packages", "statement": "Transferring a diagram to another package is defined for every diagram and yields a diagram with the same entries.", "quantifier": "all reachable pairs of package states, all diagrams of the first", "why_tests_cant": "traversal order depends on the sharing structure", "anchors": ["include/dd/Package.hpp:transfer"]}
{"id": "C41", "title": "Serialisation round trip", "statement": "Writing a diagram of one or more qubits, with any sharing of nodes, and reading it back in a package with enough qubits yields a diagram with the same entries: always for the binary format, and for the text format if the text of every number reads back as that number.", "quantifier": "all reachable pairs of package states, all vectors and matrices of one or more qubits in the first, all configurations", "why_tests_cant": "all sharing structures; traversal order determines node numbering", "anchors": ["include/dd/Export.hpp:serialize", "include/dd/Package.hpp:deserialize", "include/dd/Package.hpp:deserializeNode"]}
{"id": "C42", "title": "Conjugation marks on density-matrix nodes are undone exactly", "statement": "Preparing a density-matrix edge for an operation and undoing the preparation restores the edge and all its node's successors exactly.", "quantifier": "all density-matrix nodes and all combinations of marks", "why_tests_cant": "all weights and flag combinations", "anchors": ["include/dd/Node.hpp:dNode", "include/dd/Package.hpp:multiply"]}
{"id": "C43", "title": "garbageCollect reports whether something was collected", "statement": "garbageCollect returns true if and only if at least one node or number was collected.", "quantifier": "all package states", "why_tests_cant": "needs a state in which only one particular table has garbage", "anchors": ["include/dd/Package.hpp:garbageCollect"]}
{"id": "C44", "title": "Reading amplitudes", "statement": "getValueByPath, getVector, exported amplitude lists and addAmplitudes agree with each other for every index, for any number of qubits the package supports.", "quantifier": "all diagrams, all indices, up to 128 qubits", "why_tests_cant": "2^n indices; large n", "anchors": ["include/dd/Package.hpp:getValueByPath", "include/dd/Package.hpp:getVector", "include/dd/Package.hpp:exportAmplitudes", "include/dd/Package.hpp:addAmplitudes"]}
{"id": "C45", "title": "Fractions are printed in lowest terms", "statement": "getLowestFraction returns a fraction with numerator and denominator without common factor and denominator between 1 and the given maximum. It approximates its argument up to the tolerance plus one over the denominator times the maximum plus one, and returns fractions within the maximum exactly.", "quantifier": "all maximal denominators from 1 and all non-negative arguments that are small enough for the 64-bit numerators not to wrap around", "why_tests_cant": "infinitely many arguments", "anchors": ["include/dd/ComplexValue.hpp:getLowestFraction"]}
{"id": "C46", "title": "Control sets are ordered consistently", "statement": "The order on controls is a strict total order compatible with equality, so that a control set holds no duplicates and iterates by increasing qubit.", "quantifier": "all pairs and triples of controls", "why_tests_cant": "law over all triples", "anchors": ["include/dd/Control.hpp"]}
{"id": "C47", "title": "The package behaves like dense linear algebra over any history", "statement": "For every sequence of API calls (building, adding, multiplying, transposing, taking Kronecker products, referencing, dereferencing, collecting garbage) every diagram the user may still use denotes the vector or matrix that the same sequence of dense linear-algebra operations yields.", "quantifier": "all finite sequences of API calls in which unreferenced diagrams are not used after a garbage collection, exact arithmetic", "why_tests_cant": "unbounded histories with caches, sharing and collections", "anchors": ["include/dd/Package.hpp:Package"]}
{"id": "C48", "title": "Statistics counters add up", "statement": "The reported number of stored real numbers and nodes equals the number actually stored, the peak is at least the current count, and every lookup is counted as a hit or an insertion; the same holds for the peak of the cache.", "quantifier": "all histories", "why_tests_cant": "unbounded histories", "anchors": ["include/dd/ComplexTable.hpp:getCount", "include/dd/ComplexTable.hpp:getPeakCount", "include/dd/UniqueTable.hpp:getNodeCount", "include/dd/UniqueTable.hpp:getPeakNodeCount", "include/dd/ComplexCache.hpp:getPeakCount"]}
{"id": "C49", "title": "Programs within their domains are safe in double arithmetic", "statement": "A program of API calls each used within its documented domain never throws, never dereferences a null or dangling pointer, never indexes out of range, never shifts too far, never returns storage twice and always ends, whatever the rounding of the arithmetic; it can stop only where a number has no bucket (NaN or infinity) or at a failing assertion.", "quantifier": "all finite sequences of modelled API calls, all table and hash configurations, any arithmetic meeting five sanity facts, IEEE doubles among them", "why_tests_cant": "unbounded histories, inputs and hash functions", "anchors": ["include/dd/Package.hpp:Package"]}
{"id": "C50", "title": "Formatted text reads as the number", "statement": "The text written for a real or imaginary part, and for a complex number, reads as a number that differs from the given one by a small multiple of the tolerance, and contains the imaginary unit exactly for imaginary parts.", "quantifier": "all numbers, all formatting branches", "why_tests_cant": "infinitely many numbers; the branches depend on the outcome of three searches for fractions", "anchors": ["include/dd/ComplexValue.hpp:printFormatted", "include/dd/ComplexValue.hpp:toString"]}
{"id": "C51", "title": "Reducing garbage qubits adds up their amplitudes", "statement": "reduceGarbage replaces the amplitudes (or matrix rows or columns) that differ only in a garbage qubit by their sum at the value zero of that qubit and zero at the value one; it is defined for every diagram and every set of garbage qubits and exchanges the reference held to its argument for one to its result.", "quantifier": "all diagrams and all garbage subsets", "why_tests_cant": "depends on sharing between parts with different weights and on the size of intermediate weights", "anchors": ["include/dd/Package.hpp:reduceGarbage", "include/dd/Package.hpp:reduceGarbageRecursion"]}
{"id": "C52", "title": "Built-in consistency checks", "statement": "The package's own consistency checks accept every diagram that the user has referenced, in every reachable state, and change nothing.", "quantifier": "all reachable package states, all number systems including doubles, all referenced diagrams", "why_tests_cant": "the checks depend on all reference counts of nodes and numbers below the root, for any history of operations and collections", "anchors": ["include/dd/Package.hpp:isLocallyConsistent", "include/dd/Package.hpp:isGloballyConsistent"]}
{"id": "C53", "title": "Operations on density matrices", "statement": "The zero density operator, sums and products of density matrices and operators, and the application of an operator to a density matrix (U rho U^dagger) have the entries that dense linear algebra gives, leave no node marked and exchange the reference held by the caller, as long as no result is asked for in reduced form; a pure state stays pure.", "quantifier": "all reachable package states, all numbers of qubits, all density matrices and operators held by the user", "why_tests_cant": "the marks on shared nodes and the compute tables make the result depend on all earlier operations", "anchors": ["include/dd/Package.hpp:makeZeroDensityOperator", "include/dd/Package.hpp:applyOperationToDensity", "include/dd/Package.hpp:multiply2", "include/dd/Package.hpp:add2"]}
{"id": "C54", "title": "Density matrices in reduced form", "statement": "Asking for the reduced form (generateDensityMatrix) changes how a density matrix is stored but not what is read from it; marks put on shared nodes during an operation are those of the diagram being traversed, are removed afterwards, and nodes stay unique.", "quantifier": "all circuits applied to a density matrix, all choices of generateDensityMatrix, all nodes", "why_tests_cant": "wrong entries appear only when a product with a zero reduced form is later needed in full, or when marked nodes meet in a table", "anchors": ["include/dd/Package.hpp:multiply2", "include/dd/Package.hpp:applyOperationToDensity", "include/dd/Node.hpp:alignDensityNodeNode", "include/dd/Node.hpp:revertDmChangesToNode"]}
{"id": "C55", "title": "The Toffoli table returns what was stored for the same gate", "statement": "Whatever sequence of insertions, lookups and clears went before, a hit in the Toffoli table is the edge last stored for the same number of qubits, controls and target since the last clear, and an edge just stored is found.", "quantifier": "all sequences of calls, all gates", "why_tests_cant": "different gates share a slot (every gate with a control on qubit 0 hashes to slot 0), so hits and misses depend on the order of all calls", "anchors": ["include/dd/ToffoliTable.hpp:lookup", "include/dd/ToffoliTable.hpp:insert", "include/dd/ToffoliTable.hpp:clear"]}
{"id": "C56", "title": "Reading a density matrix returns its entries", "statement": "getDensityMatrix on an unmarked edge fills a matrix of 2^n rows and columns with exactly the entries of the diagram and writes nothing else; on an edge marked as density matrix it returns the stored diagonal and upper right quadrants and the conjugate transpose of successor 2 in the lower left, a Hermitian matrix if the diagram is in reduced form; all nodes are left as they were.", "quantifier": "all density matrix diagrams with 1 to 63 qubits, all table contents, all reachable package states", "why_tests_cant": "the nodes are rewritten in place during the traversal and restored; tests read a few matrices whose entries are all real", "anchors": ["include/dd/Package.hpp:getDensityMatrix", "include/dd/Node.hpp:applyDmChangesToNode", "include/dd/Node.hpp:revertDmChangesToNode"]}
{"id": "C57", "title": "Measurement probabilities of a density matrix", "statement": "getProbVectorFromDensityMatrix on a positive semidefinite density matrix fails no assertion and returns each basis state at most once, each with exactly its entry on the diagonal, and returns every basis state whose entry exceeds the threshold; character j of a string is the value of qubit j.", "quantifier": "all reachable density matrices with 1 to 63 qubits that satisfy the conditions on 2 x 2 minors, all thresholds not below 0", "why_tests_cant": "the tests use states for which all probabilities are equal, so neither the order of the qubits nor the threshold matters", "anchors": ["include/dd/Package.hpp:getProbVectorFromDensityMatrix", "include/dd/Package.hpp:intToString"]}
{"id": "C58", "title": "The noise tables answer truthfully and hold nothing collected", "statement": "The table of stochastic noise operations returns exactly the edge last stored for an operation and qubit since the last clear, and throws for a qubit it does not have. A hit in the table of density noise is the result stored last for that node, those qubits and a weight equal within the tolerance, since the last clear, and a result just stored is found. After a garbage collection neither table refers to a collected node or number.", "quantifier": "all sequences of insertions, lookups, resizes and clears, any hash and number of buckets, all reachable states", "why_tests_cant": "the package never fills these tables itself and the tests do not use them; a stale entry shows only if memory is reused after a collection", "anchors": ["include/dd/StochasticNoiseOperationTable.hpp:lookup", "include/dd/StochasticNoiseOperationTable.hpp:insert", "include/dd/StochasticNoiseOperationTable.hpp:clear", "include/dd/DensityNoiseTable.hpp:lookup", "include/dd/DensityNoiseTable.hpp:insert", "include/dd/DensityNoiseTable.hpp:clear", "include/dd/Package.hpp:garbageCollect"]}
{"id": "C59", "title": "isCloseToIdentity accepts multiples of the identity and only matrices near one", "statement": "isCloseToIdentity with tolerance t returns for every matrix and leaves the package unchanged. If it returns true for a matrix other than zero, the matrix is a multiple of one whose entries off the diagonal have squared magnitude at most t and in which every block has all squared magnitudes at most t or has its upper left entry within 2 n t of one, as has the whole matrix, for n qubits. Every multiple of the identity, also with blocks of ancillary qubits set to zero, is accepted with every tolerance; with tolerance zero nothing else is.", "quantifier": "all reachable states, all matrix diagrams of any number of qubits, all tolerances not below 0", "why_tests_cant": "the tests try a handful of matrices of at most three qubits; what an accepted matrix can look like, and how the deviations of the levels add up, is a statement about all matrices", "anchors": ["include/dd/Package.hpp:isCloseToIdentity", "include/dd/Package.hpp:isCloseToIdentityRecursive"]}
{"id": "C60", "title": "fidelityOfMeasurementOutcomes sums over all basis states", "statement": "fidelityOfMeasurementOutcomes returns the sum over the basis states of the magnitude of the amplitude times the square root of the listed probability, states that are not listed counting as impossible, and leaves the package unchanged.", "quantifier": "all reachable states, all vector diagrams of at most 64 qubits, all lists of probabilities", "why_tests_cant": "the test uses one state of two qubits with two non-zero amplitudes", "anchors": ["include/dd/Package.hpp:fidelityOfMeasurementOutcomes", "include/dd/Package.hpp:fidelityOfMeasurementOutcomesRecursive"]}
{"id": "C61", "title": "extend puts identities above and below a matrix", "statement": "extend(e, h, l) returns the Kronecker product of the identity on h qubits, e, and the identity on l qubits, and changes no other diagram.", "quantifier": "all reachable states, all matrix diagrams, all h and l such that the result fits into the package", "why_tests_cant": "the test extends one matrix for which the weight of the root is one", "anchors": ["include/dd/Package.hpp:extend"]}
{"id": "C62", "title": "Reducing several ancillary qubits is exact on flat matrices", "statement": "For a matrix whose entries are all zero or one fixed value, such as the matrix of a reversible classical circuit, reduceAncillae sets exactly the entries to zero whose column (row, if not regular) is excluded by some ancillary qubit and keeps all others, whatever the set of ancillary qubits; the reference held to the argument becomes one to the result.", "quantifier": "all reachable states, all such matrices of any number of qubits, all sets of ancillary qubits, both values of regular", "why_tests_cant": "the tests reduce single qubits of small matrices; the order of the rebuilding of shared nodes matters only with several ancillary qubits on several levels", "anchors": ["include/dd/Package.hpp:reduceAncillae", "include/dd/Package.hpp:reduceAncillaeRecursion"]}
{"id": "C63", "title": "Reducing garbage qubits is exact on basis states and permutation matrices", "statement": "reduceGarbage turns a multiple, of magnitude at most one, of a basis state into the same multiple of the basis state with the garbage qubits set to zero; in a matrix whose entries are zero or one fixed value of magnitude at most one, with no two non-zero entries that differ only in the rows (columns, if not regular) of garbage qubits, it moves every entry to row (column) zero of the garbage qubits and leaves zero elsewhere.", "quantifier": "all reachable states, all such vectors and matrices of any number of qubits, all sets of garbage qubits, both values of regular", "why_tests_cant": "the tests use two or three fixed states and single garbage qubits", "anchors": ["include/dd/Package.hpp:reduceGarbage", "include/dd/Package.hpp:reduceGarbageRecursion"]}
{"id": "C64", "title": "createInitialMatrix gives the identity without the ancillary columns", "statement": "createInitialMatrix(n, ancillary) returns a referenced diagram for the identity on n qubits in which the diagonal entries with an ancillary qubit equal to one are replaced by zero, and changes no other diagram.", "quantifier": "all reachable states, all n up to the size of the package, all sets of ancillary qubits", "why_tests_cant": "no test calls it, and the result depends on the nodes already stored", "anchors": ["include/dd/Package.hpp:createInitialMatrix", "include/dd/Package.hpp:reduceAncillae", "include/dd/Package.hpp:makeIdent"]}
{"id": "C65", "title": "The hash functions keep keys apart and are defined", "statement": "murmur64 permutes the 64-bit words; combineHash is injective in its right operand; with a power of two of buckets the hash of an edge, a pair of edges or a node is the number of a bucket, and every bucket is reached; weights with the same real part, edges to the same node and nodes that differ only in the imaginary part of the last weight have different hashes before masking. The hash of a cached edge is defined for every key of the tables for additions.", "quantifier": "all words, all assignments of distinct even addresses to the entries, all edges and nodes, all doubles", "why_tests_cant": "hash values depend on addresses and are never looked at; the conversion of a negative number is undefined behaviour that a given compiler resolves silently", "anchors": ["include/dd/Definitions.hpp:murmur64", "include/dd/Definitions.hpp:combineHash", "include/dd/Complex.hpp:hash<Complex>", "include/dd/Edge.hpp:hash<Edge>", "include/dd/Edge.hpp:hash<CachedEdge>", "include/dd/ComplexValue.hpp:hash<ComplexValue>", "include/dd/UniqueTable.hpp:hash", "include/dd/ComputeTable.hpp:hash", "include/dd/ToffoliTable.hpp:hash"]}
{"id": "C66", "title": "Files in text format are read back as they were written", "statement": "The text written for a decision diagram is accepted by the regular expressions of the reader, line by line; the reader finds the same node indices, levels, absent successors and successor indices, and for every weight the parts it finds agree with those written up to half a unit of the last digit printed (16 digits; 17 for the root of a matrix), parts within the tolerance being zero. 17 digits identify a normal double. Conversely a text that is read has version 1 and consists of lines that say what is read, with spaces and comments ignored; a file of another version is refused.", "quantifier": "all files with indices below 2^31, levels below 128 and finite weights, with two or four successors per node", "why_tests_cant": "the reader is three nested regular expressions with optional groups, lookahead and backtracking over printed doubles; tests only see the few numbers that occur in small diagrams", "anchors": ["include/dd/Export.hpp:serialize", "include/dd/Export.hpp:serializeMatrix", "include/dd/Package.hpp:deserialize", "include/dd/ComplexValue.hpp:toString", "include/dd/ComplexValue.hpp:fromString"]}
{"id": "C67", "title": "Drawings and weight lists show the diagram, each node once", "statement": "exportEdgeWeights writes the weight of the root and then, for every node that can be reached without edges of weight about zero, once and from the highest level downwards, the weights of its other edges, the last successor first. toDot draws the arrow to the root and, for every node that can be reached through drawn arrows, once and from the highest level downwards, the node and its arrows; every arrow starts at a declared node and ends at a declared node one level below or at the terminal; a zero is shown exactly at the successors without an arrow. With exact numbers all nodes of the diagram are drawn. Nodes at even addresses within 2 MiB get different labels. The package does not change.", "quantifier": "all reachable package states, all diagrams held in them, all drawing styles and every order in which the priority queue treats edges to the same level", "why_tests_cant": "the tests only print drawings; the order depends on the library's queue and the labels on addresses", "anchors": ["include/dd/Export.hpp:toDot", "include/dd/Export.hpp:exportEdgeWeights", "include/dd/Export.hpp:modernNode", "include/dd/Export.hpp:classicNode", "include/dd/Export.hpp:memoryNode", "include/dd/Export.hpp:bwEdge", "include/dd/Export.hpp:coloredEdge", "include/dd/Export.hpp:memoryEdge"]}
{"id": "C68", "title": "Labels of drawings read as the number; hue and width follow phase and magnitude", "statement": "The text conditionalFormat writes for a complex number in polar form reads as a number whose parts differ from the given ones by at most (\u03c0 + \u03c0\u00b2 |a|) times the tolerance; numbers up to 2^40 have a text; a phase that is a fraction of \u03c0 with a denominator up to 1024 is written as that fraction with the right sign. The hue of colorFromPhase is the phase in turns, from 0 to below 1. The width is three times the magnitude, at least 0.3.", "quantifier": "all magnitudes and phases, all formatting branches", "why_tests_cant": "infinitely many numbers; the branches depend on the outcome of up to six searches for fractions", "anchors": ["include/dd/Export.hpp:conditionalFormat", "include/dd/Export.hpp:printPhaseFormatted", "include/dd/Export.hpp:colorFromPhase", "include/dd/Export.hpp:thicknessFromMagnitude"]}
{"id": "C69", "title": "Files in binary format are read back bit for bit", "statement": "For every file that can be written in binary format (64-bit indices, levels of type Qubit, the right number of successors, any doubles), reading the bytes written gives the same version, weight of the root, nodes, successors and weights, bit for bit; fewer than eight further bytes are ignored. The number of bytes is 24 plus 9 + 24 n for each node with n successors. Conversely a file of such a length that is read consists of the bytes of what is read, NaN aside. A file with another version is refused. Doubles and 64-bit words correspond.", "quantifier": "all files, all doubles, all byte sequences", "why_tests_cant": "infinitely many files; the tests read back two diagrams, and no test reads a damaged file", "anchors": ["include/dd/ComplexValue.hpp:readBinary", "include/dd/ComplexTable.hpp:Entry::writeBinary", "include/dd/Complex.hpp:writeBinary", "include/dd/Export.hpp:serialize", "include/dd/Export.hpp:serializeMatrix", "include/dd/Package.hpp:deserialize"]}
{"id": "C70", "title": "ulpDistance counts the doubles between its arguments", "statement": "For doubles other than NaN, ulpDistance(a, b) ends and returns the number of doubles x with a < x <= b or b <= x < a, the two zeros counting once; it does not wrap around. It is symmetric, zero only for equal numbers, additive along the line, and for numbers with the same sign and exponent the difference in units of the last place. nextafter gives the neighbour in the direction of its second argument.", "quantifier": "all pairs of doubles, including subnormal numbers, zeros and infinities", "why_tests_cant": "2^128 pairs, and up to 2^64 rounds of the loop", "anchors": ["include/dd/Definitions.hpp:ulpDistance"]}
{"id": "C71", "title": "Controls can be looked up by qubit", "statement": "For every set of controls, whatever the shape of its search tree, the elements found for a qubit (equal_range, count, find) are exactly the controls on this qubit that were inserted, the negative one first; the comparison of controls with qubits is consistent with the order of controls. Inserting into the tree is inserting into the set. The literals _pc and _nc denote controls on the given qubit for numbers below 128.", "quantifier": "all sequences of insertions, all tree shapes, all qubits", "why_tests_cant": "a comparison that is only partly consistent fails for some tree shapes only", "anchors": ["include/dd/Control.hpp:CompareControl", "include/dd/Control.hpp:operator\"\"_pc"]}
{"id": "C72", "title": "Printed vectors and matrices list the entries in order", "statement": "printVector writes one line per amplitude in the order of the indices: the binary digits of the index with the top qubit first, a colon, and the amplitude with three digits in a right-aligned field of 13 characters. printMatrix writes one line per row with the entries in such fields. Printing changes no diagram.", "quantifier": "all reachable states, all vectors and matrices, all numbers of qubits", "why_tests_cant": "the order of bits and entries and the absence of side effects concern every diagram; outputs are only looked at", "anchors": ["include/dd/Package.hpp:printVector", "include/dd/Package.hpp:printMatrix", "include/dd/ComplexValue.hpp:toString"]}
{"id": "C73", "title": "Arithmetic on weights is complex arithmetic", "statement": "In exact arithmetic, add, sub, mul and div write the sum, difference, product and quotient of their operands into the target and touch nothing else, also when the target is itself an operand; dividing a number by itself gives 1. The variants taking a temporary (addCached, ...) use exactly two entries of the cache, which can be given back, and change no diagram. mag is the magnitude.", "quantifier": "all states, all weights, all ways in which target and operands coincide", "why_tests_cant": "aliasing between target and operands and the shortcuts for 0 and 1 concern infinitely many combinations", "anchors": ["include/dd/ComplexNumbers.hpp:add", "include/dd/ComplexNumbers.hpp:sub", "include/dd/ComplexNumbers.hpp:mul", "include/dd/ComplexNumbers.hpp:div", "include/dd/ComplexNumbers.hpp:subCached", "include/dd/ComplexNumbers.hpp:divCached"]}
{"id": "C74", "title": "Inputs that do not fit are refused without side effects", "statement": "makeStateFromVector and makeDDFromMatrix throw invalid_argument exactly for inputs whose size is not a power of two or that are not square, and expectationValue for operators and states on different numbers of qubits; the package is then unchanged, and the next operation works as before.", "quantifier": "all reachable states, all lengths, all shapes", "why_tests_cant": "the test on lengths is a bit trick, to be right for every length; side effects of refused calls show only later", "anchors": ["include/dd/Package.hpp:makeStateFromVector", "include/dd/Package.hpp:makeDDFromMatrix", "include/dd/Package.hpp:expectationValue"]}
{"id": "C75", "title": "The statistics of the compute tables count the lookups", "statement": "After any sequence of lookups, insertions and clearings, hits is the number of lookups that were answered and lookups the number of all lookups (for the unary tables and the Toffoli table: since they were last cleared); the hit ratio is their quotient, between 0 and 1.", "quantifier": "all sequences of calls, all keys, hash values and comparisons", "why_tests_cant": "sequences are unbounded; statistics are printed but not checked", "anchors": ["include/dd/ComputeTable.hpp:hitRatio", "include/dd/UnaryComputeTable.hpp:hitRatio", "include/dd/ToffoliTable.hpp:hitRatio"]}
{"id": "C76", "title": "The statistics of the unique tables and of the number table add up", "statement": "Every lookup in a unique table is counted once, either as a hit, with as many collisions as nodes were passed in the bucket, or as a new node after the whole bucket was passed; a sequence of requests raises hits and node count together by the number of requests. In the table of real numbers hits plus inserts equals lookups, the number of lookups since the table was last cleared, after any sequence of lookups, reference changes, collections and clearings, and in every state of the package; its entries present and those reported as collected add up to the inserts.", "quantifier": "all states, all requests and sequences of requests, all histories of the number table", "why_tests_cant": "states and sequences are unbounded; statistics are printed but hardly checked", "anchors": ["include/dd/UniqueTable.hpp:lookup", "include/dd/UniqueTable.hpp:searchTable", "include/dd/ComplexTable.hpp:lookup", "include/dd/ComplexTable.hpp:findOrInsert"]}
{"id": "C77", "title": "Comparing edges is an equivalence", "statement": "Two edges compare equal if and only if they lead to the same node and the real and the imaginary parts of their weights are at most the tolerance apart; the comparison is reflexive and symmetric. For weights stored in the table of numbers, equal edges have weights of the same value, so the comparison is transitive.", "quantifier": "all states, all edges, all tolerances below 1/4 and reachable number tables", "why_tests_cant": "edges, weights and histories of the table are unbounded", "anchors": ["include/dd/Edge.hpp:operator==", "include/dd/Complex.hpp:approximatelyEquals", "include/dd/ComplexValue.hpp:approximatelyEquals", "include/dd/ComplexTable.hpp:approximatelyEquals"]}
