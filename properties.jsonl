{"id": "C01", "title": "Unitary construction only changes the global phase", "statement": "If Unitary(d, M) is given a unitary d x d matrix M it succeeds, and get_matrix() is M times one complex number of modulus 1, with determinant exactly 1.", "quantifier": "every dimension d >= 1 and every d x d unitary matrix", "why_tests_cant": "Tests try a handful of 2x2..8x8 matrices; the claim is about a continuum of matrices of every size.", "anchors": ["stoqcompiler/unitary/unitary.py:Unitary.__init__"]}
{"id": "C02", "title": "Unitary construction rejects what is not a d x d unitary", "statement": "Unitary(d, M) raises AssertionError when d = 0, when M's shape is not (d, d), or when some entry of M M^dagger differs from the identity by more than 1e-8 + 1e-5 * (identity entry); and whatever it accepts has every entry of M M^dagger within that tolerance (after components below 1e-12 are cleared) and a stored determinant of exactly 1. Acceptance does not imply exact unitarity.", "quantifier": "every dimension, every array shape and content", "why_tests_cant": "Tests use two rejected matrices; soundness and completeness of the check range over all matrices.", "anchors": ["stoqcompiler/unitary/unitary.py:Unitary.__init__"]}
{"id": "C03", "title": "inverse() is a two-sided inverse and an involution", "statement": "For a unitary U, U.inverse() has matrix exactly U^dagger; multiplying it with U on either side gives the identity matrix; inverse().inverse() gives back the same matrix, name, parameters and is_inverse flag.", "quantifier": "every Unitary object built from an exactly unitary matrix, any dimension", "why_tests_cant": "Tests check one fixed and one random 2x2 matrix up to numerical closeness.", "anchors": ["stoqcompiler/unitary/unitary.py:Unitary.inverse"]}
{"id": "C04", "title": "left_multiply / right_multiply are the exact matrix products in the documented order", "statement": "u.left_multiply(f) has matrix F.U and u.right_multiply(f) has matrix U.F, with no phase change; both are associative; both raise AssertionError when dimensions differ.", "quantifier": "all pairs/triples of Unitary objects of any dimensions", "why_tests_cant": "Order and associativity are universally quantified algebraic laws.", "anchors": ["stoqcompiler/unitary/unitary.py:Unitary.left_multiply", "stoqcompiler/unitary/unitary.py:Unitary.right_multiply"]}
{"id": "C05", "title": "tensor() is the exact Kronecker product", "statement": "u.tensor(v) has dimension dim(u)*dim(v) and matrix kron(U, V) with no phase change, and tensor products multiply componentwise: (A tensor B)(C tensor D) = (AC) tensor (BD).", "quantifier": "all pairs of Unitary objects of any dimensions", "why_tests_cant": "The absence of a phase change depends on the determinant of a Kronecker product for every size.", "anchors": ["stoqcompiler/unitary/unitary.py:Unitary.tensor"]}
{"id": "C06", "title": "distance_from is a phase-blind dissimilarity in [0, 1]", "statement": "For unitaries of the same dimension the distance is between 0 and 1, symmetric, 0 exactly when the two matrices are equal up to a global phase, and unchanged when either argument is multiplied by a phase or when both are multiplied on the same side by the same unitary. A dimension mismatch raises AssertionError.", "quantifier": "all pairs (and triples) of unitary matrices of any dimension", "why_tests_cant": "The bound and the zero case need a Cauchy-Schwarz argument with its equality case.", "anchors": ["stoqcompiler/unitary/unitary.py:Unitary.distance_from"]}
{"id": "C07", "title": "close_to with a threshold means overlap >= threshold", "statement": "close_to(u, t) holds iff |tr(U^dagger V)|/d >= t; it is monotone in t; always true for t <= 0 and always false for t > 1 on unitaries; without a threshold it holds iff the distance is at most 1e-8; with t = 1 it holds iff the matrices agree up to phase. So 'threshold None' and 'threshold 1.0' are not the same test.", "quantifier": "all pairs of unitaries, all real thresholds", "why_tests_cant": "A decision rule over a continuum of thresholds and matrices.", "anchors": ["stoqcompiler/unitary/unitary.py:Unitary.close_to", "stoqcompiler/compiler/compiler.py:Compiler.compile"]}
{"id": "C08", "title": "Rewrapping a Unitary's matrix does not change it", "statement": "Unitary(u.get_dimension(), u.get_matrix()) has exactly the same matrix as u.", "quantifier": "every Unitary object built from an exactly unitary matrix", "why_tests_cant": "The principal-root phase convention could in principle keep rotating; idempotence must hold for all matrices.", "anchors": ["stoqcompiler/unitary/unitary.py:Unitary.__init__", "stoqcompiler/unitary/unitary_sequence.py:UnitarySequence._save_undo_state"]}
{"id": "C09", "title": "get_full_unitary applies the gate to exactly the named qubits", "statement": "For an entry with gate U on qubits qs (qubit 0 most significant), get_full_unitary(2^n) has entry (i, j) equal to U at the sub-indices read off i and j at positions qs (in the listed order) when i and j agree on all other qubits, and 0 otherwise.", "quantifier": "every n, every list of distinct qubits below n in any order, every gate", "why_tests_cant": "The index arithmetic (permutation order, mixed-radix digits) has n! * 2^n cases; tests try CNOT on 2 orders.", "anchors": ["stoqcompiler/unitary/unitary_sequence_entry.py:UnitarySequenceEntry.get_full_unitary", "stoqcompiler/unitary/unitary_sequence_entry.py:UnitarySequenceEntry.get_permute_matrix"]}
{"id": "C10", "title": "get_permute_matrix is a permutation matrix", "statement": "For valid arguments the returned matrix has exactly one 1 in each row and each column and is inverted by its transpose.", "quantifier": "every n and every valid qubit list", "why_tests_cant": "Bijectivity of the index map for every size.", "anchors": ["stoqcompiler/unitary/unitary_sequence_entry.py:UnitarySequenceEntry.get_permute_matrix"]}
{"id": "C11", "title": "Embedding respects gate algebra", "statement": "Embedding on a fixed qubit list turns gate products into products and gate inverses into inverses, and embeddings on disjoint qubit lists commute.", "quantifier": "every n, all qubit lists, all gates", "why_tests_cant": "Universally quantified algebraic laws over all placements.", "anchors": ["stoqcompiler/unitary/unitary_sequence_entry.py:UnitarySequenceEntry.get_full_unitary"]}
{"id": "C12", "title": "The per-entry cache of full unitaries is transparent", "statement": "Repeated or interleaved get_full_unitary calls with any system dimensions return the same unitaries as a fresh entry would.", "quantifier": "every history of get_full_unitary calls with any dimensions on any entry", "why_tests_cant": "Cache coherence is a property of all call histories.", "anchors": ["stoqcompiler/unitary/unitary_sequence_entry.py:UnitarySequenceEntry.get_full_unitary"]}
{"id": "C13", "title": "Entry construction accepts exactly the well-formed placements", "statement": "UnitarySequenceEntry(u, qs) succeeds iff qs is non-empty, has no repetitions, contains no negative index and 2^len(qs) is u's dimension.", "quantifier": "every unitary and every integer list", "why_tests_cant": "Both directions of an iff over all lists.", "anchors": ["stoqcompiler/unitary/unitary_sequence_entry.py:UnitarySequenceEntry.__init__"]}
{"id": "C14", "title": "product() always equals the ordered product of the entries", "statement": "After any history of append/remove/undo/product/combine/get_sequence_entries calls on any number of sequences that may share entry objects, product() of each sequence returns the matrix product of the embedded gates of its current entries, first entry rightmost.", "quantifier": "every finite history of API calls, every power-of-two dimension, every set of unitary gates", "why_tests_cant": "The incrementally maintained product is correct only if every one of unboundedly many histories keeps it in sync.", "anchors": ["stoqcompiler/unitary/unitary_sequence.py:UnitarySequence.product", "stoqcompiler/unitary/unitary_sequence.py:UnitarySequence.append_first", "stoqcompiler/unitary/unitary_sequence.py:UnitarySequence.append_last", "stoqcompiler/unitary/unitary_sequence.py:UnitarySequence.remove_first", "stoqcompiler/unitary/unitary_sequence.py:UnitarySequence.remove_last", "stoqcompiler/unitary/unitary_sequence.py:UnitarySequence.undo"]}
{"id": "C15", "title": "The maintained product drifts only linearly with the 1e-12 clean-up", "statement": "With the constructor's clearing of components below eps, after k product-changing calls the maintained product is within k * c(d) * eps (Frobenius norm) of the exact ordered product, as long as that bound is small.", "quantifier": "every eps, dimension, history length k and history", "why_tests_cant": "A quantitative bound over all histories and all matrices.", "anchors": ["stoqcompiler/unitary/unitary.py:Unitary.__init__", "stoqcompiler/unitary/unitary_sequence.py:UnitarySequence"]}
{"id": "C16", "title": "undo() restores the last saved state exactly once", "statement": "undo() restores the entries and the product that the sequence had just before the latest change made with save_undo=True, regardless of how many unsaved changes, no-op removals and product() calls came in between; a second undo() without an intervening saved change raises AssertionError and changes nothing.", "quantifier": "every history of operations with arbitrary save_undo flags", "why_tests_cant": "Histories with mixed save flags are unbounded.", "anchors": ["stoqcompiler/unitary/unitary_sequence.py:UnitarySequence.undo", "stoqcompiler/unitary/unitary_sequence.py:UnitarySequence._save_undo_state"]}
{"id": "C17", "title": "combine() concatenates", "statement": "combine(s1, ..., sk) has the concatenated entries in order, and product Pk ... P1; it leaves the inputs' entries unchanged; mixed dimensions or zero arguments raise AssertionError.", "quantifier": "every k and all sequences, including repeated arguments", "why_tests_cant": "All lists of sequences.", "anchors": ["stoqcompiler/unitary/unitary_sequence.py:UnitarySequence.combine"]}
{"id": "C18", "title": "inverse() of a sequence without repeated entry objects is its inverse", "statement": "If every entry object occurs in the sequence once, or any odd number of times, inverse() has the reversed entries, each with the inverted gate, and its entries multiply to the inverse of the original product, which is also its product().", "quantifier": "every sequence of any length and dimension", "why_tests_cant": "Needs induction over the length and the store.", "anchors": ["stoqcompiler/unitary/unitary_sequence.py:UnitarySequence.inverse"]}
{"id": "C19", "title": "inverse() of a sequence with a repeated entry object is wrong", "statement": "When the same UnitarySequenceEntry object occurs twice in a sequence, inverse() inverts it twice: the entries of the result do not multiply to its reported product().", "quantifier": "existence (violation of C18 without its proviso)", "why_tests_cant": "No test shares entry objects and calls inverse(); the failure depends on object identity.", "anchors": ["stoqcompiler/unitary/unitary_sequence.py:UnitarySequence.inverse"]}
{"id": "C20", "title": "Sequences are isolated from each other", "statement": "Operations on one sequence, and on entries obtained from get_sequence_entries(), never change the entries or product reported by another sequence, even when both were built from the same entry objects.", "quantifier": "every history over any number of sequences sharing entries", "why_tests_cant": "Aliasing bugs show only in particular interleavings of calls.", "anchors": ["stoqcompiler/unitary/unitary_sequence.py:UnitarySequence.__init__", "stoqcompiler/unitary/unitary_sequence.py:UnitarySequence.get_sequence_entries", "stoqcompiler/unitary/unitary_sequence.py:UnitarySequence.append_last"]}
{"id": "C21", "title": "Invalid entries are refused without side effects", "statement": "Appending an entry whose gate or qubits do not fit the sequence raises AssertionError and leaves the sequence, including its undo state, unchanged.", "quantifier": "every sequence state and every entry", "why_tests_cant": "All states times all invalid entries.", "anchors": ["stoqcompiler/unitary/unitary_sequence.py:UnitarySequence._assert_is_entry_valid", "stoqcompiler/unitary/unitary_sequence.py:UnitarySequence.append_first", "stoqcompiler/unitary/unitary_sequence.py:UnitarySequence.append_last"]}
{"id": "C22", "title": "Appending to a sequence of power-of-two dimension is all-or-nothing; for other dimensions it is not", "statement": "On a power-of-two dimension an append that passes validation never raises. On a dimension that is not a power of two, an append can raise after the entry list was already changed, leaving product() stale.", "quantifier": "every power-of-two dimension (positive part); existence (negative part)", "why_tests_cant": "Tests never use a non-power-of-two dimension.", "anchors": ["stoqcompiler/unitary/unitary_sequence.py:UnitarySequence.append_last", "stoqcompiler/unitary/unitary_sequence_entry.py:UnitarySequenceEntry.get_full_unitary"]}
{"id": "C23", "title": "Sequences built from numpy arrays are read-only", "statement": "A UnitarySequence constructed from an ndarray of entries supports product(), combine() and get_sequence_entries(), but append_first, append_last, remove_*, and inverse raise AttributeError for every such (non-trivial) call.", "quantifier": "every sequence constructed from an array", "why_tests_cant": "Documented input type for which mutators always fail; tests only call product() on such sequences.", "anchors": ["stoqcompiler/unitary/unitary_sequence.py:UnitarySequence.__init__", "stoqcompiler/unitary/unitary_sequence.py:UnitarySequence.inverse"]}
{"id": "C24", "title": "compile() stops within max_step_count steps", "statement": "compile and compile_layered perform at most max_step_count steps and record exactly one cost per step; if fewer costs are recorded, the result is close to the target at the threshold.", "quantifier": "every target, threshold, step bound and random history", "why_tests_cant": "Randomised loop: every random history must be covered.", "anchors": ["stoqcompiler/compiler/compiler.py:Compiler._compile", "stoqcompiler/compiler/compiler.py:Compiler._compile_layered"]}
{"id": "C25", "title": "The last recorded cost is the distance of the returned sequence", "statement": "If any step was made, cost_by_step[-1] equals target.distance_from(result.compiled_sequence.product()), and each recorded cost is the distance of the sequence at that point.", "quantifier": "every compile call and random history", "why_tests_cant": "All random histories.", "anchors": ["stoqcompiler/compiler/compiler.py:Compiler._compile", "stoqcompiler/compiler/compiler.py:Compiler._compile_layered"]}
{"id": "C26", "title": "The compiled sequence's reported product is the product of its entries", "statement": "For every compile call the returned sequence's product() is the ordered product of the returned entries, and the threshold test was made on that product.", "quantifier": "every compile call and random history", "why_tests_cant": "Accept/undo/recompute interactions over all random histories.", "anchors": ["stoqcompiler/compiler/compiler.py:Compiler._compile", "stoqcompiler/unitary/unitary_sequence.py:UnitarySequence.undo"]}
{"id": "C27", "title": "Compiled sequences use only what the primitives allow", "statement": "Every entry of a compiled sequence is one of the primitives (for parameterised ones, at parameter values inside their ranges) applied to one of its allowed qubit lists, or to distinct system qubits when unrestricted.", "quantifier": "every primitive set, target and random history", "why_tests_cant": "All random histories and primitive sets.", "anchors": ["stoqcompiler/compiler/compiler.py:Compiler.create_random_sequence_entry", "stoqcompiler/compiler/compiler.py:Compiler._make_random_change"]}
{"id": "C28", "title": "compile() never fails on well-formed inputs", "statement": "If all primitives fit the system (power-of-two dimension, allowed qubits below n, unitary gates), the probabilities match and the append probability is in [0, 1], then no random history makes compile raise; in particular undo() always finds a saved state and removals from an empty sequence are harmless.", "quantifier": "every well-formed compiler, target, threshold, step bound and random history", "why_tests_cant": "The absence of exceptions over all random histories.", "anchors": ["stoqcompiler/compiler/compiler.py:Compiler._compile", "stoqcompiler/compiler/compiler.py:Compiler._make_random_change", "stoqcompiler/compiler/compiler.py:Compiler._accept_proposed_change"]}
{"id": "C29", "title": "Steps that do not increase the cost are always accepted; rejected steps leave no trace", "statement": "A proposed change whose cost is not larger is accepted with certainty; a larger cost is accepted exactly when the uniform draw is below exp(-beta * increase); a rejected change leaves entries and product as they were.", "quantifier": "every step of every compile call, every beta and draw", "why_tests_cant": "Decision rule over a continuum of costs/draws.", "anchors": ["stoqcompiler/compiler/compiler.py:Compiler._accept_proposed_change", "stoqcompiler/compiler/compiler.py:Compiler._compile"]}
{"id": "C30", "title": "The annealing parameter follows min(k * rate, cap) across calls and is never reset", "statement": "After k compilation steps in total over all compile/compile_layered calls on one Compiler (non-negative rate), beta = min(k * annealing_rate, (2^dimension)^2); a second compile call starts from the first call's beta.", "quantifier": "every history of compile calls", "why_tests_cant": "Property of call histories, not of one call.", "anchors": ["stoqcompiler/compiler/compiler.py:Compiler.__init__", "stoqcompiler/compiler/compiler.py:Compiler._compile"]}
{"id": "C31", "title": "Append actions have total probability append_probability", "statement": "A step appends iff the uniform draw is below append_probability, with each of the four actions owning an interval of the stated length; an append_probability outside [0, 1] makes the step raise ValueError.", "quantifier": "every append_probability and draw", "why_tests_cant": "A continuum of draws and probabilities.", "anchors": ["stoqcompiler/compiler/compiler.py:Compiler._make_random_change", "stoqcompiler/compiler/compiler.py:Compiler._make_random_change_layered"]}
{"id": "C32", "title": "Layered compilation keeps whole layers", "statement": "With non-negative counts, the sequence returned by compile_layered is a concatenation of layers, each containing for every primitive exactly its count of entries; hence its length is a multiple of the layer length.", "quantifier": "every count table, target and random history", "why_tests_cant": "All random histories of layer insertions/removals at both ends with undo.", "anchors": ["stoqcompiler/compiler/compiler.py:Compiler._compile_layered", "stoqcompiler/compiler/compiler.py:Compiler._make_random_change_layered", "stoqcompiler/compiler/compiler.py:Compiler.create_random_layer"]}
{"id": "C33", "title": "Negative counts break the layer structure silently", "statement": "A negative count passes all checks but makes the layer length disagree with the number of entries a layer adds, so the length of the result is no longer a multiple of it.", "quantifier": "existence (violation of C32 without its proviso)", "why_tests_cant": "Tests only use positive counts.", "anchors": ["stoqcompiler/compiler/compiler.py:Compiler._make_random_change_layered", "stoqcompiler/verification/verification.py:Verification.generate_layered_rav_sequence"]}
{"id": "C34", "title": "Probabilities are not filtered along with unusable primitives", "statement": "If some primitive has an empty allowed_apply_to list, it is skipped, but explicit unitary_primitive_probabilities are not shortened, so every append step raises ValueError although all constructor checks passed.", "quantifier": "every compiler with explicit probabilities (one per primitive) and at least one primitive with an empty allowed list", "why_tests_cant": "No test combines the two optional features.", "anchors": ["stoqcompiler/compiler/compiler.py:Compiler.create_random_sequence_entry"]}
{"id": "C35", "title": "RAV sequences are a random part followed by its compiled inverse", "statement": "generate_rav_sequence returns sequence_length random entries followed by the compiled entries; the distance of the whole product from the identity equals the distance of the compiled part from the inverse of the random part, so if compilation reached the threshold, the whole is within the threshold of the identity.", "quantifier": "every primitive set, length, threshold and random history", "why_tests_cant": "All random histories; the distance identity needs unitary invariance of the distance.", "anchors": ["stoqcompiler/verification/verification.py:Verification.generate_rav_sequence"]}
{"id": "C36", "title": "RAV without inversion returns just the random part", "statement": "With threshold 0 or max_step_count 0, generate_rav_sequence returns exactly sequence_length entries and no costs; generate_xeb_sequence returns exactly layer_count layers.", "quantifier": "every primitive set/count table, length and random history", "why_tests_cant": "All lengths and random histories.", "anchors": ["stoqcompiler/verification/verification.py:Verification.generate_rav_sequence", "stoqcompiler/verification/verification.py:Verification.generate_xeb_sequence"]}
{"id": "C37", "title": "Layered RAV sequences consist of whole layers and invert themselves", "statement": "generate_layered_rav_sequence returns layer_count random layers followed by whole compiled layers, and the whole is as close to the identity as the compiled part is to the inverse of the random part.", "quantifier": "every count table with non-negative counts, layer count, threshold and random history", "why_tests_cant": "All random histories.", "anchors": ["stoqcompiler/verification/verification.py:Verification.generate_layered_rav_sequence"]}
{"id": "C38", "title": "HamiltonianTerm splits a matrix into norm and normalised part", "statement": "For a non-zero Hermitian matrix the coefficient is positive, coefficient * normalized matrix is exactly the matrix, and the normalized matrix has operator norm 1; the zero matrix is rejected.", "quantifier": "every dimension and Hermitian matrix", "why_tests_cant": "All matrices.", "anchors": ["stoqcompiler/hamiltonian/hamiltonian_term.py:HamiltonianTerm.__init__"]}
{"id": "C39", "title": "Time evolution is a unitary one-parameter group", "statement": "For Hermitian h, time_evolution(h, t) succeeds for every real t; evolving by s then t equals evolving by s+t up to global phase; evolving by -t is the inverse up to phase; evolving by 0 is the identity; the matrix is exp(+i h t) up to phase.", "quantifier": "every Hermitian matrix and all real times", "why_tests_cant": "Continuum of matrices and times.", "anchors": ["stoqcompiler/unitary/unitary_definitions.py:UnitaryDefinitions.time_evolution", "stoqcompiler/unitary/parameterized_unitary_definitions.py:ParameterizedUnitaryDefinitions.time_evolution"]}
{"id": "C40", "title": "The ideal sequence reproduces the exact evolution", "statement": "get_ideal_sequence(t, N) has N entries and its product is at distance 0 from get_time_evolution_operator(t).", "quantifier": "every Hamiltonian, time and N >= 1", "why_tests_cant": "Test checks N = 1000 for one Hamiltonian up to tolerance.", "anchors": ["stoqcompiler/hamiltonian/hamiltonian.py:Hamiltonian.get_ideal_sequence", "stoqcompiler/hamiltonian/hamiltonian.py:Hamiltonian.get_time_evolution_operator"]}
{"id": "C41", "title": "Trotter sequences apply every term once per step", "statement": "get_trotter_sequence(t, N, randomize) has N * #terms entries; every block of #terms entries applies each term exactly once for time t/N, whatever the shuffles.", "quantifier": "every Hamiltonian, N and every shuffle outcome", "why_tests_cant": "All shuffle outcomes.", "anchors": ["stoqcompiler/hamiltonian/hamiltonian.py:Hamiltonian.get_trotter_sequence"]}
{"id": "C42", "title": "Trotter sequences converge to the exact evolution", "statement": "For every Hamiltonian and time the distance between the Trotter product with N steps (randomised or not) and the exact evolution tends to 0 as N grows; if the terms commute it is 0 for every N.", "quantifier": "every Hamiltonian, time, shuffle history and tolerance", "why_tests_cant": "A limit statement.", "anchors": ["stoqcompiler/hamiltonian/hamiltonian.py:Hamiltonian.get_trotter_sequence"]}
{"id": "C43", "title": "QDRIFT samples terms in proportion to their norms with the right step", "statement": "get_qdrift_sequence(t, N) has N entries, each evolving a normalised term for time (sum of coefficients) * t / N; term k is drawn exactly for uniform draws in an interval of length coefficient_k / sum; and the expected total generator is the full Hamiltonian times t.", "quantifier": "every Hamiltonian, time, N and draw", "why_tests_cant": "A statement about the sampling distribution, not about samples.", "anchors": ["stoqcompiler/hamiltonian/hamiltonian.py:Hamiltonian.get_qdrift_sequence"]}
{"id": "C44", "title": "STOQ primitives are exactly the intended term subsets", "statement": "Without simultaneous terms the primitives are the single terms in order; with them, every non-empty subset of term indices occurs exactly once; each is parameterised by a time in [-max_t_step, max_t_step].", "quantifier": "every Hamiltonian with any number of terms", "why_tests_cant": "2^n - 1 subsets for every n.", "anchors": ["stoqcompiler/hamiltonian/hamiltonian.py:Hamiltonian._get_term_subsets", "stoqcompiler/hamiltonian/hamiltonian.py:Hamiltonian._get_unitary_primitives", "stoqcompiler/hamiltonian/hamiltonian.py:Hamiltonian.compile_stoq_sequence"]}
{"id": "C45", "title": "compile_rav_sequence's random part covers the requested time; with max_t_step = 0 it never returns", "statement": "When the random phase ends, the absolute step times sum to at least the requested time and to less than time + max_t_step; every step time is within max_t_step. With max_t_step = 0 and positive time the phase never ends.", "quantifier": "every Hamiltonian, time, max_t_step and random history", "why_tests_cant": "Includes a non-termination claim.", "anchors": ["stoqcompiler/hamiltonian/hamiltonian.py:Hamiltonian.compile_rav_sequence"]}
{"id": "C46", "title": "The library gates are unitary for all angles and obey their defining identities", "statement": "rx, ry, rz, rphi, rotation_xyz and xx are accepted for every angle and stored without phase change; rphi(t, 0) = rx(t), rphi(t, pi/2) = ry(t), rotations about one axis add their angles, rotation_xyz(a,b,c) = rz(a) ry(b) rz(c), h is self-inverse up to phase, t^4 = z up to phase, cnot, ccnot and qecc_phase_flip are unitary.", "quantifier": "all real angles", "why_tests_cant": "Continuum of angles.", "anchors": ["stoqcompiler/unitary/unitary_definitions.py:UnitaryDefinitions", "stoqcompiler/unitary/parameterized_unitary_definitions.py:ParameterizedUnitaryDefinitions"]}
{"id": "C47", "title": "The global Molmer-Sorensen gate is a one-parameter group on any number of qubits", "statement": "gms(n, a) composed with gms(n, b) equals gms(n, a+b); gms(2, a) = xx(a); gms(n, 0) is the identity; gms(n, pi/4) to the fourth power is the identity up to phase for every n.", "quantifier": "every number of qubits and all angles", "why_tests_cant": "Tests cover n = 3, 4, 5 at one angle.", "anchors": ["stoqcompiler/unitary/unitary_definitions.py:UnitaryDefinitions.gms"]}
{"id": "C48", "title": "rotation_xyz reaches every single-qubit unitary", "statement": "Every 2x2 unitary equals, up to global phase, rotation_xyz at some parameters inside the declared ranges [0, 2 pi].", "quantifier": "every 2x2 unitary", "why_tests_cant": "Existence for a continuum of targets.", "anchors": ["stoqcompiler/unitary/parameterized_unitary_definitions.py:ParameterizedUnitaryDefinitions.rotation_xyz"]}
{"id": "C49", "title": "random_value is always valid", "statement": "random_value() of a parameter lies in [min, max], also when computed in IEEE double rounding (no overflow), so as_unitary on random values never trips the range assertion.", "quantifier": "every parameter range and every sample in [0, 1)", "why_tests_cant": "Rounding corner cases cannot be enumerated.", "anchors": ["stoqcompiler/unitary/parameterized_unitary_parameter.py:ParameterizedUnitaryParameter.random_value", "stoqcompiler/unitary/parameterized_unitary_parameter.py:ParameterizedUnitaryParameter.is_valid"]}
{"id": "C50", "title": "as_unitary validates arity and ranges and records the parameters", "statement": "as_unitary(vs) succeeds only if there are exactly as many values as parameters and each is in range; the result reports for each (distinct) parameter name its value and angle flag; wrong arity raises.", "quantifier": "every parameterised unitary and value list", "why_tests_cant": "All lists of all lengths.", "anchors": ["stoqcompiler/unitary/parameterized_unitary.py:ParameterizedUnitary.as_unitary", "stoqcompiler/unitary/unitary.py:Unitary.get_parameter_value"]}
{"id": "C51", "title": "QASM / JAQAL / display output lists the entries in order on the right qubits", "statement": "The text consists of the header line and one line per entry in application order, naming the entry's operation and exactly its qubits; the entries' names, parameter texts and qubits can be read back from the QASM text.", "quantifier": "every sequence", "why_tests_cant": "Round trip over all sequences.", "anchors": ["stoqcompiler/unitary/unitary_sequence.py:UnitarySequence.get_qasm", "stoqcompiler/unitary/unitary_sequence.py:UnitarySequence.get_jaqal", "stoqcompiler/unitary/unitary_sequence.py:UnitarySequence.get_display_output", "stoqcompiler/unitary/unitary.py:Unitary.get_qasm"]}
{"id": "C52", "title": "Exported text loses the inverse mark", "statement": "get_display_output (and QASM/JAQAL) of a sequence's inverse() does not show which gates are inverted: an entry and its inverse give the same line, although Unitary.get_display_name marks inverses.", "quantifier": "every entry", "why_tests_cant": "Tests only check that the output is non-empty.", "anchors": ["stoqcompiler/unitary/unitary_sequence_entry.py:UnitarySequenceEntry.get_full_unitary", "stoqcompiler/unitary/unitary_sequence.py:UnitarySequence.get_display_output"]}
{"id": "C53", "title": "UnitaryPrimitive accepts exactly well-formed allowed lists", "statement": "UnitaryPrimitive(u, allowed) succeeds iff every allowed list is non-empty, repetition-free, non-negative and of the right length; but lists naming qubits outside the system are only detected when drawn, so compile can raise midway depending on the draws.", "quantifier": "every primitive; existence for the late failure", "why_tests_cant": "Both directions of an iff; failure depends on the random history.", "anchors": ["stoqcompiler/unitary/unitary_primitive.py:UnitaryPrimitive.__init__", "stoqcompiler/compiler/compiler.py:Compiler.create_random_sequence_entry"]}
{"id": "C54", "title": "The square root of the distance obeys the triangle inequality, so errors of composed sequences add", "statement": "For unitaries u, v, w of one dimension sqrt(u.distance_from(w)) <= sqrt(u.distance_from(v)) + sqrt(v.distance_from(w)); and if a, a' and b, b' are pairs of unitaries, the square root of the distance between the products b a and b' a' is at most the sum of the square roots of the distances of the factors.", "quantifier": "all unitaries of any dimension", "why_tests_cant": "Error bounds for composed approximate circuits quantify over all unitaries; sampled matrices rarely come near the bound.", "anchors": ["stoqcompiler/unitary/unitary.py:Unitary.distance_from", "stoqcompiler/unitary/unitary.py:Unitary.left_multiply"]}
{"id": "C55", "title": "Compiling leaves other sequences alone", "statement": "A call of compile or compile_layered, whether it returns or raises, changes neither the entries nor the dimension nor the product() answer of any list-built sequence that existed before the call.", "quantifier": "every reachable state, every other sequence in it, every compiler, target and random history, every clean-up threshold", "why_tests_cant": "Aliasing between entry objects, saved states and cached products depends on the whole call history; a test sees a few histories and random draws.", "anchors": ["stoqcompiler/compiler/compiler.py:Compiler._compile", "stoqcompiler/compiler/compiler.py:Compiler._compile_layered", "stoqcompiler/unitary/unitary_sequence.py:UnitarySequence"]}
{"id": "C56", "title": "An array of several primitives is accepted but never gives a RAV sequence", "statement": "generate_rav_sequence with unitary_primitives given as a numpy array of two or more primitives draws and multiplies the whole random part and then always raises ValueError (truth value of an array), unless the inversion is skipped by threshold 0 or max_step_count 0.", "quantifier": "every array of at least two primitives, every length, threshold, step count and random history", "why_tests_cant": "The failure comes after the random part, on every history; that no history and no argument escapes it is a universal statement.", "anchors": ["stoqcompiler/verification/verification.py:Verification.generate_rav_sequence", "stoqcompiler/compiler/compiler.py:Compiler.compile"]}
{"id": "C57", "title": "Generating verification sequences leaves other sequences alone", "statement": "generate_rav_sequence, generate_layered_rav_sequence and generate_xeb_sequence, whether they return or raise, change neither the entries nor the dimension nor the reported product of any sequence that existed before.", "quantifier": "every set of existing sequences, all arguments, every random history", "why_tests_cant": "Aliasing between sequences depends on the whole history of operations.", "anchors": ["stoqcompiler/verification/verification.py:Verification"]}
{"id": "C58", "title": "The phase-flip correction gate corrects every single phase flip", "statement": "Applied to the three-qubit code word a|+++> + b|---> after a phase flip of any one of the qubits, or of none, qecc_phase_flip leaves a|0> + b|1> in the last qubit and the syndrome of the error in the other two, up to one fixed global phase.", "quantifier": "all complex amplitudes a, b and every single-qubit phase flip", "why_tests_cant": "Continuum of states; the existing test only compares one matrix.", "anchors": ["stoqcompiler/unitary/unitary_definitions.py:UnitaryDefinitions.qecc_phase_flip"]}
{"id": "C59", "title": "The library's parameterised gates are legal compiler primitives", "statement": "At every parameter list inside the declared ranges the callables of rotation_xy, rotation_xyz, xx and gms return a square array of the declared dimension that is exactly unitary, so the compiler can draw them without ever failing.", "quantifier": "every number of qubits (gms) and all parameter values in range", "why_tests_cant": "Continuum of parameter values, unbounded number of qubits.", "anchors": ["stoqcompiler/unitary/parameterized_unitary_definitions.py:ParameterizedUnitaryDefinitions", "stoqcompiler/compiler/compiler.py:Compiler"]}
{"id": "C60", "title": "Sequences of a Hamiltonian do not disturb existing sequences", "statement": "get_ideal_sequence, get_trotter_sequence, get_qdrift_sequence, compile_stoq_sequence and compile_rav_sequence leave the entries, the dimension and the product of every sequence that existed before as they were, whether they return or raise.", "quantifier": "every Hamiltonian, all arguments, every random history, every other list-built sequence", "why_tests_cant": "Absence of interference over all states; tests only look at the result.", "anchors": ["stoqcompiler/hamiltonian/hamiltonian.py:Hamiltonian.get_ideal_sequence", "stoqcompiler/hamiltonian/hamiltonian.py:Hamiltonian.compile_rav_sequence"]}
{"id": "C61", "title": "Hamiltonians of a dimension that is no power of two are accepted but unusable", "statement": "A Hamiltonian whose dimension is not 2, 4, 8, ... is accepted by the constructor and has a time evolution operator, but ideal, Trotter and QDRIFT sequences with at least one step, and STOQ and RAV compilations, never return.", "quantifier": "every such Hamiltonian, all arguments and random histories", "why_tests_cant": "A never-returns claim over all dimensions and arguments.", "anchors": ["stoqcompiler/hamiltonian/hamiltonian.py:Hamiltonian.get_qubit_count", "stoqcompiler/hamiltonian/hamiltonian.py:Hamiltonian.__init__"]}
{"id": "C62", "title": "Every accepted Hamiltonian has a time evolution (refuted)", "statement": "If all terms are accepted by HamiltonianTerm and Hamiltonian, get_time_evolution_operator(t) succeeds for every t. The code violates this: terms are only compared with their adjoint up to a tolerance, which a sum need not satisfy and which a long evolution amplifies.", "quantifier": "every accepted list of terms and every time", "why_tests_cant": "Needs matrices inside the tolerance band; tests use exactly Hermitian ones.", "anchors": ["stoqcompiler/hamiltonian/hamiltonian_term.py:HamiltonianTerm.__init__", "stoqcompiler/hamiltonian/hamiltonian.py:Hamiltonian.get_time_evolution_operator"]}
{"id": "C63", "title": "Every allowed sequence can be the outcome of a compilation", "statement": "If the append probability is positive, then for every list of gates that the primitives stand for (fixed gates, or parameterised ones at values from the lower end up to but not including the upper end of the range; at a listed place, or on any distinct qubits; of a primitive whose probability is not 0) there are answers of the random generator that make compile() return exactly that list, or a shorter initial part which already passes the threshold test. So a target that is a product of N such gates up to a phase can be found within N steps. The same for compile_layered() and lists of layers, in any order inside a layer. Conversely (C27) no gate of a primitive with probability 0 is ever used.", "quantifier": "every compiler with well-formed arguments, every list of gates, every target and threshold", "why_tests_cant": "A statement about the existence of random histories for infinitely many outcomes; a test sees one history at a time.", "anchors": ["stoqcompiler/compiler/compiler.py:Compiler.compile", "stoqcompiler/compiler/compiler.py:Compiler.compile_layered", "stoqcompiler/compiler/compiler.py:Compiler.create_random_sequence_entry", "stoqcompiler/compiler/compiler.py:Compiler._make_random_change"]}
{"id": "C64", "title": "inverse() inverts a gate as many times as its object occurs", "statement": "For every sequence, inverse() returns the reversed entries; the gate of an entry object that occurs m times is inverted m times, so it becomes its adjoint if m is odd and stays itself if m is even. product() of the result always answers the inverse of the original's product(). Hence the entries and the product of the result agree when every m is odd, and C19 is the case of an even m.", "quantifier": "every history of calls, every sequence with any repetitions, every clean-up threshold", "why_tests_cant": "All patterns of shared objects in lists of any length; no test shares entry objects.", "anchors": ["stoqcompiler/unitary/unitary_sequence.py:UnitarySequence.inverse"]}
{"id": "C65", "title": "QDRIFT reproduces the exact evolution in the mean", "statement": "The product of a QDRIFT sequence of N steps for the time t is a function of its N draws (up to a phase and the clean-up). In the mean over independent uniform draws it maps every density matrix X to exp(iHt) X exp(-iHt), up to an error of at most 4 (lambda t)^2 / N times the Frobenius norm of X, where lambda is the sum of the operator norms of the terms. So the average channel converges to the exact one as N grows.", "quantifier": "every Hamiltonian of exactly Hermitian terms, every time, every number of steps, every matrix X, every random generator that keeps to its specification", "why_tests_cant": "A mean over all histories of the random generator and an error bound for all Hamiltonians; a test sees single runs with large errors.", "anchors": ["stoqcompiler/hamiltonian/hamiltonian.py:Hamiltonian.get_qdrift_sequence"]}
{"id": "C66", "title": "Long sequences of accepted gates can make product() raise", "statement": "The limit on the number of product updates in C15 cannot be dropped. For every clean-up threshold up to 1e-10 there is a one-qubit sequence of at most 3e-8/eps gates (30000 at the code's 1e-12), each accepted by the constructor, for which product() raises AssertionError, although the exact ordered product of the stored gates is within 1e-7 of an exactly unitary matrix of determinant 1.", "quantifier": "every threshold in (0, 1e-10]; witness program given for each", "why_tests_cant": "The failing sequence has tens of thousands of entries made from a gate with a component just below the threshold; no test looks for it, and the claim is for every threshold.", "anchors": ["stoqcompiler/unitary/unitary.py:Unitary.__init__", "stoqcompiler/unitary/unitary_sequence.py:UnitarySequence.product"]}
{"id": "C67", "title": "Unitary.random stores what was drawn, and keeps the invariance of the draw", "statement": "Unitary.random(d) never fails on an exactly unitary draw: it stores the drawn matrix times a phase with determinant 1 (up to the clean-up of tiny components). Exceptions of the drawing function are passed on. The phase is chosen so that the stored matrix for a draw W M is W times the stored matrix for M, and the same for M W, for every special unitary W: an invariant distribution of the draws gives an invariant distribution of the stored matrices.", "quantifier": "every dimension, every drawing function, every unitary draw, every special unitary W", "why_tests_cant": "A test draws a few random matrices and checks that they are unitary; a phase convention that biases the result (e.g. dividing by the phase of one entry) passes those tests.", "anchors": ["stoqcompiler/unitary/unitary.py:Unitary.random", "stoqcompiler/unitary/unitary.py:Unitary.__init__"]}
{"id": "C68", "title": "One step of compile() is a step of Metropolis' chain; detailed balance", "statement": "With ideal random answers, the mean of any function of the sequence after one compile step is exactly the mean under: append a random gate first (probability p/2) or last (p/2), remove first ((1-p)/2) or last ((1-p)/2), where a gate is chosen by the primitives' probabilities (equal if none) and then uniformly among its places, followed by acceptance with probability min(1, exp(-beta * cost increase)), beta = min(beta+rate, max_beta). Hence the chance of every other sequence, and detailed balance with respect to exp(-beta cost) times, for each gate, its probability times p/(1-p).", "quantifier": "every state reachable with exact arithmetic, every sequence and target on n qubits, every sensible compiler with fixed gates, every function of the contents, every pair of different sequences", "why_tests_cant": "A test runs a few seeds; a wrong acceptance ratio, a biased choice of the end or of the place, or an append probability split unevenly leaves every single run plausible and changes only the probabilities.", "anchors": ["stoqcompiler/compiler/compiler.py:Compiler._make_random_change", "stoqcompiler/compiler/compiler.py:Compiler._accept_proposed_change", "stoqcompiler/compiler/compiler.py:Compiler.create_random_sequence_entry"]}
{"id": "C69", "title": "The probability law of the results of compile() and compile_layered()", "statement": "With ideal random answers, the joint law of the sequence and the cost list that compile() returns is the law of the annealed Metropolis chain: start at the empty sequence, stop when the cost is at most 1 - threshold (1e-8 without threshold) or after max_step_count steps, before each step raise beta by the rate up to its maximum, record the cost of the sequence kept after each step. Consequently, if some list of m <= max_step_count gates is close enough to the target, the run succeeds with probability at least the product over its gates of (append probability / 2) * (probability of the gate) * exp(-max_beta). The same for compile_layered(), whose proposals are whole layers: one gate for each place of the table, chosen independently, in uniformly random order, put in front (gate by gate, so in reverse) or behind; removals take as many gates as the counts sum up to.", "quantifier": "every state reachable with exact arithmetic, every sensible compiler with fixed gates on n qubits, every target, threshold, step limit, every function of sequence and costs", "why_tests_cant": "The law concerns all answers of the generator at once; a test sees single runs, and errors such as drawing once too often, reusing an answer, annealing after the step or recording the proposed instead of the kept cost only shift probabilities.", "anchors": ["stoqcompiler/compiler/compiler.py:Compiler.compile", "stoqcompiler/compiler/compiler.py:Compiler._compile", "stoqcompiler/compiler/compiler.py:Compiler._make_random_change", "stoqcompiler/compiler/compiler.py:Compiler._accept_proposed_change", "stoqcompiler/compiler/compiler.py:Compiler.compile_layered", "stoqcompiler/compiler/compiler.py:Compiler.create_random_layer", "stoqcompiler/compiler/compiler.py:Compiler._make_random_change_layered"]}
{"id": "C70", "title": "On one qubit nothing drifts out of the constructor's tolerance", "statement": "Clearing small components of a 2 by 2 unitary of determinant 1 and renormalising gives again an exactly unitary matrix of determinant 1 within 8 eps. Hence, on one qubit and with gates whose stored matrices are exactly special unitary (among them all of rotation_xy and rotation_xyz), product() never fails after any number of appends, removals, inversions, combinations and undos and stays within 24 * updates * eps of the true product; append and remove never raise; compile(), compile_layered(), generate_rav_sequence() and generate_layered_rav_sequence() never fail, for every number of steps.", "quantifier": "every threshold up to 1e-3 (1e-10 for the compilers), every program, every angle, every number of updates and steps, every answer of the generator", "why_tests_cant": "C15 and C28 bound the number of updates, and C66 shows that some programs do fail in the long run; no finite test can show that one-qubit programs never do.", "anchors": ["stoqcompiler/unitary/unitary.py:Unitary.__init__", "stoqcompiler/unitary/unitary_sequence.py:UnitarySequence.product", "stoqcompiler/unitary/unitary_sequence.py:UnitarySequence.append_first", "stoqcompiler/unitary/unitary_sequence.py:UnitarySequence.append_last", "stoqcompiler/compiler/compiler.py:Compiler.compile", "stoqcompiler/compiler/compiler.py:Compiler.compile_layered", "stoqcompiler/verification/verification.py:Verification.generate_rav_sequence", "stoqcompiler/verification/verification.py:Verification.generate_layered_rav_sequence"]}
{"id": "C71", "title": "Unitary objects do not interfere through the arrays they hold", "statement": "At the level of mutable Python objects (arrays, parameter dictionaries, qubit lists, Unitary objects), every call of the Unitary class computes what the value-level model says from the present contents of its arguments and changes no existing array, dictionary, list or object. No two Unitary objects ever hold one array; an array passed to the constructor is neither kept nor written. Hence, as long as a client writes only into arrays of its own, every Unitary keeps its value for ever.", "quantifier": "every program of library calls and client actions, every threshold, every object", "why_tests_cant": "Aliasing shows only when a particular object is written after a particular history of calls; a constructor that kept the caller's array when it is already complex (np.asarray instead of astype) passes every test that does not reuse the array.", "anchors": ["stoqcompiler/unitary/unitary.py:Unitary.__init__", "stoqcompiler/unitary/unitary.py:Unitary.get_matrix", "stoqcompiler/unitary/unitary.py:Unitary.inverse", "stoqcompiler/unitary/unitary.py:Unitary.tensor", "stoqcompiler/unitary/unitary.py:Unitary.left_multiply", "stoqcompiler/unitary/unitary.py:Unitary.right_multiply"]}
{"id": "C72", "title": "get_matrix() exposes the array of the object", "statement": "A client that writes into the array returned by get_matrix() changes the matrix of exactly that object to what was written; with zeros, inverse(), distance_from(), left_multiply() and right_multiply() then raise AssertionError. Inverses, tensor products and products made before are not affected.", "quantifier": "every program, every object, every written matrix", "why_tests_cant": "No test writes into a returned matrix; which other objects are affected is a statement about all histories.", "anchors": ["stoqcompiler/unitary/unitary.py:Unitary.get_matrix", "stoqcompiler/unitary/unitary.py:Unitary.inverse", "stoqcompiler/unitary/unitary.py:Unitary.distance_from"]}
{"id": "C73", "title": "Which Unitary objects share parameter dictionaries and qubit lists", "statement": "inverse() and tensor() hand on the dictionary and the list of the object by reference; a product has a new dictionary; everything made without apply_to shares one list, the default argument. A write into a dictionary or list changes exactly the objects that hold it; a write into the list of an object made without apply_to changes all those made without apply_to, before and after.", "quantifier": "every program, every object, every write", "why_tests_cant": "The sharing of the default argument links objects that have nothing to do with each other; no test mutates it.", "anchors": ["stoqcompiler/unitary/unitary.py:Unitary.__init__", "stoqcompiler/unitary/unitary.py:Unitary.inverse", "stoqcompiler/unitary/unitary.py:Unitary.tensor", "stoqcompiler/unitary/unitary.py:Unitary.left_multiply", "stoqcompiler/unitary/unitary.py:Unitary.right_multiply"]}
{"id": "C74", "title": "product() exposes the product a sequence keeps", "statement": "A write into the matrix of the Unitary returned by product() becomes the answer of product() of that sequence from then on, whatever its entries are (refuting C14 for clients that write into results); entries and other sequences are untouched, and undo(), where possible, discards the write.", "quantifier": "every world, every sequence, every written matrix", "why_tests_cant": "No test writes into the result of product().", "anchors": ["stoqcompiler/unitary/unitary_sequence.py:UnitarySequence.product", "stoqcompiler/unitary/unitary_sequence.py:UnitarySequence.undo", "stoqcompiler/unitary/unitary.py:Unitary.get_matrix"]}
{"id": "C75", "title": "Sequences stay within a stated bound of the exact product in floating-point arithmetic", "statement": "In every arithmetic whose matrix operations are each within mu of the exact ones, a matrix unitary up to mu passes the constructor; any list of append/remove/undo/product calls on a sequence of such gates leaves exactly the gates that plain-list bookkeeping predicts and raises nothing (except AssertionError for undo with nothing saved); the product reported, and the distance from a target, are within 16 (K+1) 2^n (sqrt(2^n)+1) (eps + 9 mu) of the exact ones after K calls, as long as that is below 4.5e-9 and 2^n times it below 1/100. Double precision with textbook loops is such an arithmetic, mu = 128 * 4^n * 2^-53, for n <= 23.", "quantifier": "every accurate arithmetic, clean-up threshold, number of qubits, list of gates and list of calls within the bound", "why_tests_cant": "Rounding errors accumulate along sequences; tests run few short ones and compare with loose tolerances.", "anchors": ["stoqcompiler/unitary/unitary.py:Unitary.__init__", "stoqcompiler/unitary/unitary.py:Unitary.distance_from", "stoqcompiler/unitary/unitary_sequence.py:UnitarySequence.product", "stoqcompiler/unitary/unitary_sequence.py:UnitarySequence.undo"]}
{"id": "C76", "title": "The noisy emulator's process matrices are depolarisation followed by the shifted, over-rotated gate", "statement": "In the Pauli basis, gate_R(f, a) maps every matrix X to R X' R^dagger, where X' is X depolarised to the fraction (1-depolarization)^(|a|/(pi/2)) and R is the rotation about the equatorial axis at f + 2 pi r_phase_error by a + sign(a) r_rotation_error; gate_MS likewise with both qubits depolarised for ten times as long; gate_Rz is exact and idle only depolarises. Gates by angle 0 do nothing; with default parameters the named gates are the gates of those names. The over-rotation does not scale with the angle: two quarter turns are not a half turn.", "quantifier": "all error parameters, angles and matrices", "why_tests_cant": "Signs, the order of the two factors and the factors 2 pi and 10 only show at particular angles; there are no tests of this file.", "anchors": ["paper/fig5/noisy.py:JaqalNoisyEmulator.gate_R", "paper/fig5/noisy.py:JaqalNoisyEmulator.gate_MS", "paper/fig5/noisy.py:JaqalNoisyEmulator.gate_Rz", "paper/fig5/noisy.py:JaqalNoisyEmulator.idle"]}
{"id": "C77", "title": "The noisy emulator is physical", "statement": "If 0 <= depolarization <= 1, every circuit of R, MS, Rz and idle operations maps density matrices to density matrices (Hermitian, positive, trace 1), on any number of qubits. A negative depolarization, which is accepted, can give a matrix that is not positive.", "quantifier": "all circuits, numbers of qubits, error parameters and states", "why_tests_cant": "Positivity is a condition on all vectors and all circuits.", "anchors": ["paper/fig5/noisy.py:JaqalNoisyEmulator.gate_R", "paper/fig5/noisy.py:JaqalNoisyEmulator.gate_MS", "paper/fig5/noisy.py:JaqalNoisyEmulator.idle"]}
{"id": "C78", "title": "What mirror circuits show of the emulator's errors", "statement": "Without depolarisation, a circuit followed by its mirror image is the identity for all rotation and phase errors. On one qubit the depolarisation of any circuit depends only on its total duration, and a mirror circuit depolarises by twice its duration and does nothing else. For circuits with MS gates this formula is wrong.", "quantifier": "all circuits, error parameters and matrices; any number of qubits for the first part", "why_tests_cant": "Holds by cancellation for all parameters; no run samples all of them.", "anchors": ["paper/fig5/noisy.py:JaqalNoisyEmulator.gate_R", "paper/fig5/noisy.py:JaqalNoisyEmulator.gate_MS", "paper/fig5/noisy.py:JaqalNoisyEmulator.gateduration_R", "paper/fig5/noisy.py:JaqalNoisyEmulator.gateduration_MS"]}
{"id": "C79", "title": "JAQAL lines of library gates read as native gates of the emulator", "statement": "The lines that get_jaqal writes for rx, ry, rz name native gates that are those rotations. The line of rphi(t, p) lists the angle before the axis, the native R gate takes the axis first, so the line denotes the rotation by p about the axis at t. The line of an inverse is read as the gate itself, and the names of the other library gates are not native gates.", "quantifier": "all angles, thresholds within the drift bound, gates and values", "why_tests_cant": "Tests compare the text only, not its meaning, and only for fixed gates.", "anchors": ["stoqcompiler/unitary/unitary.py:Unitary.get_jaqal", "stoqcompiler/unitary/unitary_definitions.py:UnitaryDefinitions.rphi", "paper/fig5/noisy.py:JaqalNoisyEmulator.gate_R"]}
{"id": "C80", "title": "RAV fidelity estimator of the notebooks is exact", "statement": "For every number of shots, probabilities p of d outcomes, noise fraction and outcome i with p_i not 1/d: the RAV fidelity (measured - 1/d)/(ideal - 1/d) has a value for every list of shots, its mean over independent shots is 1 - lam, and its standard deviation is exactly std_f_rav(K, d, lam, 1 - p_i). Columns of unitary matrices give such probabilities.", "quantifier": "all d, K >= 1, distributions, noise fractions in [0,1]", "why_tests_cant": "There are no tests of the notebooks; a sample mean only agrees up to sampling noise.", "anchors": ["paper/fig3/fig3.ipynb:std_f_rav", "paper/fig5/fig5.ipynb:68-71", "paper/fig4/sequence-generation/ideal_rav_vs_xeb_simulations_3q.ipynb:235-252"]}
{"id": "C81", "title": "XEB fidelity estimator is unbiased, its standard deviation is over-estimated", "statement": "The XEB fidelity has a value for every list of shots when the sum of squares of the ideal probabilities is not 1/d; its mean is 1 - lam. The square of std_f_xeb equals the variance plus the covariances of the measured probabilities, so it is an upper bound, and is exact if and only if one outcome is certain.", "quantifier": "all d, K >= 1, distributions, noise fractions in [0,1]", "why_tests_cant": "The difference vanishes in the cases one would try first (a certain outcome) and is hidden by sampling noise otherwise.", "anchors": ["paper/fig3/fig3.ipynb:std_f_xeb", "paper/fig5/fig5.ipynb:109-114", "paper/fig4/sequence-generation/ideal_rav_vs_xeb_simulations_3q.ipynb:520-525"]}
{"id": "C82", "title": "Defaults of std_f_xeb and the comparison of RAV with XEB", "statement": "No probabilities have the sums of powers 1/2, 1/3, 1/4 that std_f_xeb uses by default; with them it has no value for one qubit. In figure 3 (at least 2 qubits) std_f_rav is at most std_f_xeb for all noise fractions. Without the defaults, the variance of RAV with a certain outcome is at most that of XEB for every distribution.", "quantifier": "all K, N >= 4 (figure 3), all d >= 2 and distributions (comparison), all noise fractions in [0,1]", "why_tests_cant": "Plots show the ordering at finitely many points; that no distribution has the default sums is a statement about all of them.", "anchors": ["paper/fig3/fig3.ipynb:28-40", "paper/fig4/fig4.ipynb:33-47"]}
{"id": "C83", "title": "Simulated RAV fidelity of figure 4", "statement": "The simulation scales the measured probability by d/(d-1), so its mean is (1-lam)(1 - (1-p_i) d/(d-1)): it is 1 - lam only if lam = 1 or p_i = 1. Its variance is that of the formula times the square of (d p_i - 1)/(d - 1). The formula is evaluated for state 0 and the simulation run from state 1; their standard deviations differ in general.", "quantifier": "all d >= 2, K >= 1, distributions, outcomes, noise fractions", "why_tests_cant": "The bias is hidden by sampling noise when p_i is close to 1.", "anchors": ["paper/fig4/sequence-generation/ideal_rav_vs_xeb_simulations_3q.ipynb:235-263", "paper/fig4/fig4.ipynb:181-183"]}
{"id": "C84", "title": "What the cost of an accepted sequence says about its success", "statement": "If product().distance_from(identity) is c then every initial state returns with probability at least (1 - d c)^2 when d c <= 1, and on average at least (1 - c)^2. A bound c of at least 2/d on the cost accepts a matrix that never returns initial state 0; the notebooks' bound 0.05 does so from 6 qubits on.", "quantifier": "all dimensions, unitaries, thresholds of clean-up up to 1, bounds", "why_tests_cant": "Finitely many generated sequences happen to have large success probabilities.", "anchors": ["paper/fig4/sequence-generation/ideal_rav_vs_xeb_simulations_3q.ipynb:148", "paper/fig4/sequence-generation/ideal_rav_vs_xeb_simulations_7q.ipynb:193", "stoqcompiler/unitary/unitary.py:Unitary.distance_from"]}
{"id": "C85", "title": "Gate counts of circuit files", "statement": "For a file written from any sequence by the notebooks, get_layer_count and get_2Q_gate_count both return the number of gates of the sequence whose name starts with MS: the header lines and the end are never counted, no gate line is lost and an empty sequence gives 0.", "quantifier": "all histories of sequences, thresholds, indentations of spaces, register sizes, plain names, number formats", "why_tests_cant": "Off-by-one slices of lines show only for particular files.", "anchors": ["paper/fig5/fig5.ipynb:get_layer_count", "paper/fig8/fig8a.ipynb:get_2Q_gate_count", "paper/fig4/sequence-generation/ideal_rav_vs_xeb_simulations_3q.ipynb:165-175", "stoqcompiler/unitary/unitary_sequence.py:UnitarySequence.get_jaqal"]}
{"id": "C86", "title": "Runs and bins", "statement": "Shots are split into n // k runs of exactly k shots in order, leaving out only the last n mod k; the binning of figures 5 and 8 gives the same slices. Every run has a mean and the mean of the means is the mean of the shots used.", "quantifier": "all lists, all k >= 1", "why_tests_cant": "Data sets in the repository have one length.", "anchors": ["paper/fig8/fig8a.ipynb:74-84", "paper/fig5/fig5.ipynb:302-304"]}
{"id": "C87", "title": "Buckets of figures 10 and 12 leave out their last value", "statement": "The slices cost_by_step[i:i+bucket_size-1] ignore the last value of each full bucket: the results do not depend on it, so for every bucket size from 2 on they are not the means of the buckets, and for size 1 they are undefined.", "quantifier": "all bucket sizes and lists", "why_tests_cant": "A plot hardly changes.", "anchors": ["paper/fig12/fig12.ipynb:105-106", "paper/fig10/fig10.ipynb:89-90"]}
{"id": "C88", "title": "Selection of circuits in figures 8 and 9", "statement": "Of 22 interleaved pairs of circuits discard_odd keeps the first of each pair and all later circuits, in order. The index computed from a file number finds each of 50 results from exactly one even number (and the odd one after it).", "quantifier": "all lists with 22 pairs; all file numbers", "why_tests_cant": "Only one data set exists.", "anchors": ["paper/fig9/fig9a.ipynb:55-57", "paper/fig8/fig8a.ipynb:164-166"]}
{"id": "C89", "title": "RAV fidelity of emulated one-qubit mirror circuits", "statement": "For every one-qubit circuit of native gates and idle times, run by the noisy emulator and followed by its mirror image, the probabilities of the outcomes are those of the notebooks' noise model and the RAV fidelity is (1 - depolarization) to the total duration, whatever the coherent errors.", "quantifier": "all circuits, noise parameters, initial states", "why_tests_cant": "Emulator runs cover finitely many circuits and parameters.", "anchors": ["paper/fig5/noisy.py:JaqalNoisyEmulator", "paper/fig5/fig5.ipynb:68-71"]}
{"id": "C90", "title": "The compiler's annealing loop in floating-point arithmetic", "statement": "In every accurate arithmetic (C75), for every target, list of proposed changes (gates or layers), decision rule on the two costs that accepts equal costs, and closeness test, compile and compile_layered raise nothing; the gates and costs are those of the annealing loop on plain lists with every cost within B of the true cost of the gates held at that time, B = 16 (K+1) 2^n (sqrt(2^n)+1) (eps + 9 mu) for K append/remove calls; the last recorded cost is within B of the true cost of the gates returned; a run stopped by the closeness test returns gates whose true cost is at most the limit plus B; if no decision is closer than B, the gates are those of the exact run. In particular in double precision.", "quantifier": "every accurate arithmetic, target, threshold, number of qubits, list of changes within the bound, decision rule, closeness test", "why_tests_cant": "Whether accumulated rounding makes the reported cost wrong or breaks undo depends on long random runs; tests check few seeds with loose tolerances.", "anchors": ["stoqcompiler/compiler/compiler.py:Compiler._compile", "stoqcompiler/compiler/compiler.py:Compiler._compile_layered", "stoqcompiler/compiler/compiler.py:Compiler._accept_proposed_change", "stoqcompiler/unitary/unitary_sequence.py:UnitarySequence.undo"]}
{"id": "C91", "title": "Error bars of the binned data are too small on average", "statement": "The error bars np.std(bin)/sqrt(bin_size) are those of the successive runs of bin_size values. For a bin of k independent values with any distributions, the mean of the squared bar is (1 - 1/k) Var(average of the bin) + (spread of the true means)/k^2; for equal distributions it is below the variance of the average by the factor 1 - 1/k, while scipy.stats.sem (figure 12) is right in the mean. A bin whose values are all equal, in particular every bin of one value, has bar 0 and makes chi-square undefined.", "quantifier": "all bin sizes, finite distributions, lists of values, fits", "why_tests_cant": "A statement about means over random data; one data set shows nothing of the bias.", "anchors": ["paper/fig5/fig5.ipynb:302-315", "paper/fig8/fig8a.ipynb:276-292", "paper/fig12/fig12.ipynb:131"]}
{"id": "C92", "title": "The object model and the plain-list model agree; compile is simulated annealing", "statement": "In every reachable state each call of append_first, append_last, remove_first, remove_last, undo and product on a sequence object (entries shared in a store, cached full unitaries, cached product, saved state) has exactly the effect, the answer and the exception of the same call on a plain list of gates. A completed call of compile or compile_layered is a run of the annealing loop on plain lists with the same recorded costs and final gates, each proposal being one allowed gate / one layer or a removal, and accepted by Metropolis' rule at beta_k = min(beta + k rate, max_beta). With the clean-up threshold eps > 0, every cost used is within round_bound eps 0 n of 1 - |tr(U^dag V)|/2^n of the exact product of the gates.", "quantifier": "all reachable states, calls, primitives, targets, random draws, step counts, dimensions 2^n", "why_tests_cant": "Equality of two implementations over all call histories; tests sample a few histories.", "anchors": ["stoqcompiler/unitary/unitary_sequence.py:111-265", "stoqcompiler/compiler/compiler.py:100-188", "stoqcompiler/compiler/compiler.py:260-402"]}
{"id": "C93", "title": "Qubit numbers from 62 on defeat the check of qubit numbers", "statement": "The check 2**(np.max(apply_to)+1) <= dimension is computed in 64-bit integers. For programs that name no qubit above 61 it is exact and every call does what it does with unbounded integers. From qubit 62 on the power is not positive, so the constructor of UnitarySequence and append_first/append_last accept the entry for every system large enough for the gate; product() then raises IndexError; when a product is kept, the append raises after the entry was inserted and the kept product stays, so product() later answers the product of the other gates.", "quantifier": "all programs, entries, dimensions, thresholds", "why_tests_cant": "The tests use a handful of qubits; the failure starts at qubit number 62.", "anchors": ["stoqcompiler/unitary/unitary_sequence.py:79-90", "stoqcompiler/unitary/unitary_sequence_entry.py:72", "stoqcompiler/unitary/unitary_sequence_entry.py:114-118", "stoqcompiler/unitary/unitary_sequence.py:130-176"]}
{"id": "C94", "title": "The example notebook prints what is true", "statement": "A cell that compiles a target and prints the length of the sequence, the last cost, the number of steps and the QASM text prints numbers and gates that are right: the cost is the infidelity of the printed gates up to the drift of the clean-up, fewer steps than the limit mean that the target was reached, and the text reads back as the gates. With the notebook's primitives every line is a rotation of one qubit or a coupling of both. The cell raises IndexError exactly when no step is made, which is when the target is the identity up to the tolerance; that never happens to the notebook's first target XX(pi/4), whose distance from XX(b) is 1 - |cos(pi/4 - b)|.", "quantifier": "all random draws, numbers of steps, random targets, states left by earlier cells, thresholds with small drift", "why_tests_cant": "The notebook is run by hand with one seed; cost_by_step[-1] fails only for targets that are already reached.", "anchors": ["examples/stoq_example.ipynb:19-28", "examples/stoq_example.ipynb:47-52", "examples/stoq_example.ipynb:89-94", "stoqcompiler/compiler/compiler.py:74-115", "stoqcompiler/unitary/unitary_sequence.py:102-109"]}
{"id": "C95", "title": "The printed QASM stands for what was compiled", "statement": "str(round(x, k)) prints a decimal number that reads back as the number with at most k decimals nearest to x; decimals with k places are kept and the order is. Angles between 0 and 2 pi are printed as such angles, at most pi/2 * 1e-7 away. Therefore the QASM text of a sequence of the library's parameterised gates on one and two qubits, read back number by number and gate by gate, is a unitary operation within L * 2.36e-7 * sqrt(2^n) (Frobenius) of what L gates on n qubits do, plus the error of the clean-ups; and the cost that the example notebook prints beside it is the distance between the target and the operation of the text within L * 2.36e-7 plus that error.", "quantifier": "all numbers, sequences of any length on any number of qubits, histories, random draws and targets, thresholds with small drift", "why_tests_cant": "The repository does not read its texts back at all; a bound for every angle and every length is not a test.", "anchors": ["stoqcompiler/unitary/unitary.py:121-177", "stoqcompiler/unitary/unitary_sequence.py:281-293", "stoqcompiler/unitary/parameterized_unitary_definitions.py:12-105", "examples/stoq_example.ipynb:47-52"]}
{"id": "C96", "title": "Given enough steps, compile() finds what its gates can express", "statement": "If some sequence of offered gates comes strictly within the threshold of the target, the chance that compile() ends within the threshold tends to 1 as max_step_count grows, geometrically: there are m and rho > 0, the same for every state of the program and every inverse temperature left by earlier compilations, with chance at least 1 - (1 - rho)^(max_step_count // m). The same holds for compile_layered() with offered layers, and for targets that are the inverse of what the gates express, whether or not the inverses of the gates are offered. If no sequence of offered gates comes within the threshold, the chance is 0 for every max_step_count. So the annealing, whose temperature falls, never gets stuck for good.", "quantifier": "all compilers with fixed gates on any number of qubits and positive append probability, targets, thresholds, states, temperatures and step counts", "why_tests_cant": "The tests run each compilation a few times with a fixed number of steps; that a random walk over infinitely many sequences cannot be trapped is a limit statement.", "anchors": ["stoqcompiler/compiler/compiler.py:107-283", "stoqcompiler/compiler/compiler.py:285-402", "tests/test_compiler.py:24-130"]}
{"id": "C97", "title": "compile_layered() is a Metropolis chain over lists of layers", "statement": "One step of compile_layered() replaces the sequence by each other one with the chance that it is proposed (a random layer in random order in front or behind, or as many gates as a layer has taken away at an end) times Metropolis' probability for the change of cost. A layer and its reversal, which is how append_first() puts it, are equally likely. Between any two sequences of whole layers the steps are in detailed balance with the weight exp(-beta * cost) times, for each layer, its probability and the odds of appending: layers are neither preferred nor avoided for the end at which they were added.", "quantifier": "all layer tables of fixed gates with non-negative counts on any number of qubits, targets, states, sequences of whole layers of any length", "why_tests_cant": "Chances are not observed by running; the tests only look at the final distance.", "anchors": ["stoqcompiler/compiler/compiler.py:246-278", "stoqcompiler/compiler/compiler.py:316-402"]}
{"id": "C98", "title": "Compilation with parameterised gates finds what can be built, with chance tending to 1", "statement": "Let the compiler offer parameterised gates whose matrices depend continuously on their parameters (as those of the library do: rotation_xy, rotation_xyz, xx, gms, time_evolution), with random parameters, qubits, ends and acceptances. If some word of gates it can draw, or its inverse, has the target's matrix up to a phase, or comes closer to it than the tolerance, then for every delta > 0 there is a number of steps from which on compile() succeeds with chance at least 1 - delta; the same for compile_layered() with words of whole layers. In particular compile() with the one-qubit rotations of the test suite reaches every one-qubit target.", "quantifier": "all compilers with continuous parameterised or fixed gates on any number of qubits, targets, thresholds, words, starting states, delta > 0", "why_tests_cant": "A run shows one outcome; the tests assert the outcome of single runs that may fail, and the exact word has chance 0.", "anchors": ["stoqcompiler/compiler/compiler.py:106-155", "stoqcompiler/compiler/compiler.py:157-245", "stoqcompiler/compiler/compiler.py:246-278", "stoqcompiler/compiler/compiler.py:316-402", "stoqcompiler/unitary/parameterized_unitary_parameter.py:ParameterizedUnitaryParameter.random_value", "stoqcompiler/unitary/parameterized_unitary_definitions.py:ParameterizedUnitaryDefinitions", "tests/test_compiler.py:96-128"]}
{"id": "C99", "title": "STOQ compilation of a Hamiltonian can succeed, and when", "statement": "For every Hamiltonian, time, threshold below 1 and positive longest gate time, the compiler that STOQ makes from the terms finds the evolution within the threshold with chance at least 1 - delta, given enough steps. compile_stoq_sequence() itself, which stops after 10000 steps, has a positive chance when N rounds of all terms are close enough (Trotter's error), fit into the longest gate time and have at most 10000 gates; when the terms commute any N rounds will do; with simultaneous terms the time only has to be at most 10000 times the longest gate time. Without such a condition it can be impossible: a single term for too long a time is never reached. Any target within the threshold of a sequence of at most 10000 such gates, and the inverse of any such sequence (the target of compile_rav_sequence()), has a positive chance.", "quantifier": "all Hamiltonians on any number of qubits, times, thresholds below 1, longest gate times, with or without simultaneous terms, starting states, delta > 0", "why_tests_cant": "A run shows one outcome for one Hamiltonian; the existence of a short enough sequence and the chance to draw it are not observed.", "anchors": ["stoqcompiler/hamiltonian/hamiltonian.py:190-265", "stoqcompiler/hamiltonian/hamiltonian.py:318-343", "stoqcompiler/compiler/compiler.py:157-245"]}
{"id": "C100", "title": "The inverse part of a RAV sequence is found with chance tending to 1", "statement": "For every accepted set of primitives with continuous parameters and every threshold below 1, generate_rav_sequence() returns a sequence within the threshold of the identity with chance at least 1 - (1-rho)^(max/m), where m and rho > 0 depend neither on the length of the random part nor on what is drawn for it, so the chance tends to 1 uniformly. The same holds for generate_layered_rav_sequence() with every layer table. With the threshold 1 it fails: there is a set for which no sequence with a non-empty random part is the identity.", "quantifier": "all dimensions 2^n, sets of primitives or layer tables, probabilities, lengths, thresholds below 1, append probabilities, starting states, delta > 0", "why_tests_cant": "A test generates a few sequences with one seed; it cannot show that one number of steps is enough for random parts of every length, nor that an exact inverse is never found.", "anchors": ["stoqcompiler/verification/verification.py:16-98", "stoqcompiler/verification/verification.py:100-170", "stoqcompiler/compiler/compiler.py:157-320"]}
{"id": "C101", "title": "compile_rav_sequence() of a Hamiltonian returns with chance tending to 1, and can succeed", "statement": "The random part of compile_rav_sequence() takes at most k steps with chance at least 1 - k T^2/12 / (k T/2 - time)^2, so the call returns with a chance as close to 1 as desired once enough rounds are allowed; it does not return for every sequence of draws. The mean time spent in k steps is k T/2 and the mean net time is 0.3 k T, and the net time is positive with the chance Chebyshev's inequality gives. For every time and threshold below 1 the chance that the sequence returned is within the threshold of the identity is positive.", "quantifier": "all Hamiltonians on any number of qubits, times, step lengths T > 0, thresholds, numbers of rounds, starting states", "why_tests_cant": "A test runs the loop for one seed; termination of the unbounded loop is a statement about all sequences of draws and holds only with probability one.", "anchors": ["stoqcompiler/hamiltonian/hamiltonian.py:285-343"]}
{"id": "C102", "title": "The older copies of the library beside the notebooks, where they differ", "statement": "close_to() of the copies in paper/fig10-fig12 agrees with the library's for every threshold except 0.0; there the library accepts any two unitaries of one size and the copies only those equal up to a phase and the tolerance. get_display_output() differs in the first line only. The copies' Compiler is abstract: compile() raises AssertionError without gates, ValueError for an array of several, NotImplementedError otherwise, unless a subclass supplies _compile(); compile_layered() raises AttributeError. The gates it keeps always fit the system.", "quantifier": "all unitaries, thresholds, sequences and states, all compilers, subclasses and sequences of calls", "why_tests_cant": "No test of the repository imports the copies, and agreement of two versions is a statement about all arguments.", "anchors": ["paper/fig10/unitary.py:273-279", "paper/fig10/unitary.py:653-655", "paper/fig10/compiler.py:13-50"]}
{"id": "C103", "title": "A QDRIFT sequence is close to the exact evolution with a chance tending to 1", "statement": "The distance 1 - overlap between the exact evolution and the product of get_qdrift_sequence(time, N), averaged over the draws, is at most (sum of the coefficients * time)^2 / N. So one sequence is within delta (plus the clean-up drift) with chance at least 1 - (sum * time)^2 / (N * delta), which tends to 1 as N grows. It is never certain: for some Hamiltonian and time there are, for every N, draws for which the overlap is 0.", "quantifier": "all Hamiltonians of any size and number of terms, all times, all numbers of steps, all delta > 0, all states", "why_tests_cant": "A chance over a continuum of draws, for every number of steps; a test sees single runs.", "anchors": ["stoqcompiler/hamiltonian/hamiltonian.py:154-188"]}
{"id": "C104", "title": "The Trotter error is governed by the commutators of the terms", "statement": "For every order of the terms in every step, the product of get_trotter_sequence(time, N) is within time^2/(2N) * (sum of the Frobenius norms of the commutators of all pairs of terms) of the exact evolution up to a phase, plus the drift of the clean-up, and its infidelity is at most the drift plus the square of that bound over twice the dimension, so of order 1/N^2. The bound is 0 exactly when the terms commute.", "quantifier": "all Hamiltonians of any size and number of terms, all times and numbers of steps, all shuffles, all states", "why_tests_cant": "A bound for all Hamiltonians and all shuffles; tests compare a few products with a tolerance.", "anchors": ["stoqcompiler/hamiltonian/hamiltonian.py:115-152"]}
{"id": "C105", "title": "The JAQAL and display texts stand for what was compiled", "statement": "For every sequence of the library's rotations and couplings, after every history, get_jaqal() and get_display_output() return texts that, read back by an independent reader, stand for a unitary operation within (number of gates) * 3/2 * d * sqrt(dimension) of what the gates do, plus the clean-up error, where d is 0.5e-7 for JAQAL and pi/2 * 1e-3 for the display text. The JAQAL text of a compiled sequence therefore stands for an operation whose distance from the target is the cost that the compiler states, up to these errors. Printed angles stay between 0 and 2 pi.", "quantifier": "all sequences and histories, all numbers of qubits, all angles, all compilations, all seeds", "why_tests_cant": "Needs every angle and every sequence; the tests look at the text of single gates.", "anchors": ["stoqcompiler/unitary/unitary.py:121-147", "stoqcompiler/unitary/unitary.py:179-204", "stoqcompiler/unitary/unitary_sequence.py:267-305"]}
{"id": "C106", "title": "Random orders of the terms cancel the second-order Trotter error in the mean", "statement": "With randomize=True the product of get_trotter_sequence is, up to a phase and the clean-up drift, a function of the orders drawn. What it makes of any matrix X is, in the mean over all orders of all steps, what the exact evolution makes of X, up to 8/3 * (sum of the norms of the terms * |time|)^3 / steps^2 times the size of X. Without random orders no bound of this third order holds, whatever its constant.", "quantifier": "all Hamiltonians, all times, all numbers of steps, all matrices, the mean over all draws of the generator", "why_tests_cant": "A mean over all orders cannot be observed in a run, and one sequence is only accurate to the second order.", "anchors": ["stoqcompiler/hamiltonian/hamiltonian.py:115-152"]}
{"id": "C107", "title": "A compilation places at most one gate per step, and no run beats the best sequence of that many gates", "statement": "The sequence returned by compile() has at most as many gates as costs were recorded, the one returned by compile_layered() at most as many layers, at every clean-up threshold and whatever the random answers. The cost recorded in step k is, up to the clean-up, that of a sequence of at most k allowed gates, so no recorded cost is below the best one of all allowed sequences with that many gates. If no sequence of fewer than k allowed gates meets the tolerance, every run makes at least k steps or all it may make, and a run limited to fewer steps misses the tolerance.", "quantifier": "all compilers, targets, thresholds, step counts and answers of the random generator", "why_tests_cant": "That no run does better is a statement about all runs and all sequences of gates.", "anchors": ["stoqcompiler/compiler/compiler.py:157-187", "stoqcompiler/compiler/compiler.py:246-278", "stoqcompiler/compiler/compiler.py:280-388"]}
{"id": "C108", "title": "What a compilation gives depends on nothing but its arguments and the random answers", "statement": "Two calls of compile() (or compile_layered()) on compilers in the same state, with the same arguments and the same answers of the random generator, end alike: with the same gates, the same kept product and undo state, the same recorded costs, the same annealing state and as many random numbers drawn, or with the same exception. This holds at every clean-up threshold and whatever sequences and entries other code made before either call.", "quantifier": "all pairs of reachable worlds, compilers, targets, thresholds, step counts, layer tables and answers of the random generator", "why_tests_cant": "A repeated run with a fixed seed compares two histories; that no history leaks into the result (shared lists, reused sequences, hidden state) is a statement about all pairs of histories.", "anchors": ["stoqcompiler/compiler/compiler.py:74-187", "stoqcompiler/compiler/compiler.py:246-402"]}
{"id": "C109", "title": "What the sequence generators give depends on nothing but their arguments and the random answers", "statement": "Two calls with the same arguments and the same answers of the random generators of get_ideal_sequence(), get_trotter_sequence(), get_qdrift_sequence(), compile_stoq_sequence(), compile_rav_sequence(), generate_rav_sequence(), generate_layered_rav_sequence() or generate_xeb_sequence() give sequences with the same gates, kept product and undo state, the same costs and as many random numbers drawn, or end with the same exception. This holds at every clean-up threshold and whatever sequences and entries other code made before either call.", "quantifier": "all pairs of reachable worlds, Hamiltonians, primitives, layer tables, times, step counts, thresholds and answers of the random generators", "why_tests_cant": "That no history leaks into the result is a statement about all pairs of histories.", "anchors": ["stoqcompiler/hamiltonian/hamiltonian.py:86-343", "stoqcompiler/verification/verification.py:15-206", "stoqcompiler/unitary/unitary_sequence.py:44-77"]}
{"id": "C110", "title": "A compilation does not see the global phase of its target", "statement": "Two calls of compile() or compile_layered() whose targets differ only by a global phase, with the same compiler, other arguments and random answers, give the same recorded costs, annealing state, number of random numbers drawn and sequence (gates, kept product and undo state), or end with the same exception. This holds at every clean-up threshold when the clean-up changes neither target matrix, and on one and two qubits whatever it changes. Without the clean-up the constructor takes c M when it takes M, for every |c| = 1; with it, for c in {1, i, -1, -i}.", "quantifier": "all pairs of reachable worlds, targets, phases, clean-up thresholds, compilers and answers of the random generators", "why_tests_cant": "The phase ranges over a continuum and the claim is about whole runs with every acceptance decision in them.", "anchors": ["stoqcompiler/compiler/compiler.py:143-402", "stoqcompiler/unitary/unitary.py:34-82", "stoqcompiler/unitary/unitary.py:243-327"]}
{"id": "C111", "title": "The elapsed time in a CompilerResult is that of the compilation and influences nothing", "statement": "compile() and compile_layered() give the sequence and costs, leave the state and raise the exceptions they would without reading the clock. total_elapsed_time is not negative, not less than the time the compilation loop took and not more than the time of the whole call, whatever time readings of the clock and the loop take.", "quantifier": "all durations of clock readings and of loops (any non-negative functions of the moment and the state), states, compilers, targets, thresholds, step limits and random answers", "why_tests_cant": "The durations are not under the control of a test.", "anchors": ["stoqcompiler/compiler/compiler.py:103-110", "stoqcompiler/compiler/compiler.py:147-155", "stoqcompiler/compiler/compiler_result.py:9-32"]}
{"id": "C112", "title": "Terms that are Hermitian only within the tolerance have a time evolution for short times, close to that of their Hermitian part", "statement": "If HamiltonianTerm and Hamiltonian accept some terms, the sum H of their matrices passes numpy's comparison with its adjoint (which one accepted term always does) and delta is at least the Frobenius norm of H - H^dagger, then get_time_evolution_operator(t) succeeds whenever e = exp(delta |t| / 2) - 1 + sqrt(2) d eps is at most 4.5e-9 and d e at most 1/200. The result is then within 2.2 sqrt(d) e of a phase times the evolution under (H + H^dagger) / 2. For one accepted term with entries of modulus at most m this is so whenever d (1e-8 + 1e-5 m) |t| <= 8e-9 (d up to a million, the code's threshold).", "quantifier": "every accepted list of terms, every dimension, every time and clean-up threshold within the stated bounds", "why_tests_cant": "Continuum of matrices inside the tolerance band and of times.", "anchors": ["stoqcompiler/hamiltonian/hamiltonian_term.py:HamiltonianTerm.__init__", "stoqcompiler/hamiltonian/hamiltonian.py:70-84", "stoqcompiler/unitary/unitary_definitions.py:UnitaryDefinitions.time_evolution"]}
{"id": "C113", "title": "The weighted random choices work in double precision", "statement": "With every operation rounded to double precision, numpy's choice with weights accepts up to a million non-negative weights that add up to 1 within 2^-27, never gives a number outside the list or one whose weight is 0, and inverts the distribution of the weights up to n 2^-48; it gives what the choice in real numbers gives unless the sample is that close to a border. It raises ValueError for no weights, a wrong number of them, a negative one, or a sum at least 2^-25 away from 1. In get_qdrift_sequence() the quotients coefficients / np.sum(coefficients) always pass the check, in whatever order np.sum adds, and a term is chosen in proportion to its coefficient up to n 2^-48. The compiler's choice of an action never fails for append_probability in [0, 1], and never appends at 0 nor removes at 1.", "quantifier": "every list of weights or coefficients (up to a million), every order of summation, every append probability and every sample in [0, 1)", "why_tests_cant": "Rounding of the sums differs for every list; near misses of the check are rare.", "anchors": ["stoqcompiler/hamiltonian/hamiltonian.py:174-180", "stoqcompiler/compiler/compiler.py:224-225", "stoqcompiler/compiler/compiler.py:323-331", "stoqcompiler/compiler/compiler.py:357-365"]}
{"id": "C114", "title": "A compilation does not see the global phases of its primitives", "statement": "Two calls of compile() or compile_layered() with compilers that differ only by phases 1, i, -1, -i of their primitives (any phases when nothing is cleaned up), with the same other arguments and random answers, record the same costs, end in the same annealing state after as many random numbers, and give the same gates on the same qubits up to such phases; or both end with the same exception. The targets may differ by a global phase as well (as in C110). A matrix on n qubits and its multiple by such a phase are both refused by the constructor with the same exception or give such a pair of gates, and any two constructed gates on one or two qubits that differ by a global phase are such a pair. The same calls on two new sequences with such gates give such gates and such products, or the same exception.", "quantifier": "all pairs of reachable worlds, compilers of dimension 2^n, targets, clean-up thresholds and answers of the random generators", "why_tests_cant": "Every gate, kept product, undo state and acceptance decision of a whole run is involved, for every choice of phases.", "anchors": ["stoqcompiler/compiler/compiler.py:74-402", "stoqcompiler/unitary/unitary.py:34-82", "stoqcompiler/unitary/unitary.py:243-342", "stoqcompiler/unitary/unitary_sequence.py:75-305"]}
{"id": "C115", "title": "A compilation does not see the numbers of the qubits", "statement": "Two calls of compile() or compile_layered() whose targets and whose primitives' allowed qubits differ by a renumbering of the n qubits, with the same other arguments and random answers, record the same costs, end in the same annealing state after as many random numbers, and give the same gates on the renumbered qubits; or both end with the same exception. A matrix and the same matrix with the qubits renumbered are both refused by the constructor with the same exception or give two such unitaries, and the full gate and the ordered product of gates on renumbered qubits are the renumbered matrices. With primitives that may act anywhere it fails for equal random answers, but holds for compile() when the drawn orders of the qubits are renumbered as well. The same calls on two new sequences, on renumbered qubits, give the renumbered gates and products, or the same exception.", "quantifier": "all renumberings of n > 0 qubits, pairs of reachable worlds, compilers of dimension 2^n, targets, clean-up thresholds and answers of the random generators", "why_tests_cant": "Every permutation matrix, kept product, undo state and acceptance decision of a whole run is involved, for every renumbering and every number of qubits.", "anchors": ["stoqcompiler/compiler/compiler.py:74-402", "stoqcompiler/unitary/unitary.py:34-82", "stoqcompiler/unitary/unitary_sequence_entry.py:21-169", "stoqcompiler/unitary/unitary_sequence.py:75-305"]}
