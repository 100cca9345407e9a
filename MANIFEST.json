{
 "claims": [
  {
   "property": "C01",
   "status": "proved",
   "theorems": [
    "C01_constructor_changes_phase_only",
    "C01_default_is_identity"
   ],
   "note": "For every clean-up threshold eps, for unitary matrices without components in (0, eps); float rounding is not modelled."
  },
  {
   "property": "C02",
   "status": "proved",
   "theorems": [
    "C02_constructor_rejects",
    "C02_accepted_are_near_unitary",
    "C02_constructor_decides",
    "C02_acceptance_is_not_exact"
   ],
   "note": "The decision statement is for dimensions below about 10^8, where the tolerance forces a non-zero determinant."
  },
  {
   "property": "C03",
   "status": "proved",
   "theorems": [
    "C03_inverse"
   ],
   "note": "For matrices without components in (0, eps)."
  },
  {
   "property": "C04",
   "status": "proved",
   "theorems": [
    "C04_left_multiply",
    "C04_right_multiply",
    "C04_associative",
    "C04_dimension_mismatch"
   ],
   "note": "Single products for every eps under the no-small-components hypothesis, associativity at eps = 0."
  },
  {
   "property": "C05",
   "status": "proved",
   "theorems": [
    "C05_tensor",
    "C05_mixed_product"
   ],
   "note": "Kronecker product for every eps under the no-small-components hypothesis, mixed product at eps = 0."
  },
  {
   "property": "C06",
   "status": "proved",
   "theorems": [
    "C06_distance_range",
    "C06_distance_symmetric",
    "C06_distance_phase_blind",
    "C06_distance_common_factor",
    "C06_dimension_mismatch"
   ],
   "note": ""
  },
  {
   "property": "C07",
   "status": "proved",
   "theorems": [
    "C07_array",
    "C07_array_refuted",
    "C07_close_to",
    "C07_none_differs_from_one"
   ],
   "note": ""
  },
  {
   "property": "C08",
   "status": "proved",
   "theorems": [
    "C08_rewrap"
   ],
   "note": ""
  },
  {
   "property": "C09",
   "status": "proved",
   "theorems": [
    "C09_full_unitary_is_embedding",
    "C09_only_enough_qubits"
   ],
   "note": "For gates built from exactly unitary matrices without components in (0, eps); success only on power-of-two dimensions is proved for every gate."
  },
  {
   "property": "C10",
   "status": "proved",
   "theorems": [
    "C10_permute_matrix"
   ],
   "note": ""
  },
  {
   "property": "C11",
   "status": "proved",
   "theorems": [
    "C11_embedding_of_product",
    "C11_embedding_of_inverse",
    "C11_disjoint_gates_commute"
   ],
   "note": "Products at eps = 0; inverses and commutation for every eps."
  },
  {
   "property": "C12",
   "status": "proved",
   "theorems": [
    "C12_cache_transparent"
   ],
   "note": "For every gate, every eps and every list of dimensions."
  },
  {
   "property": "C13",
   "status": "proved",
   "theorems": [
    "C13_entry_constructor"
   ],
   "note": "Includes which exception is raised."
  },
  {
   "property": "C14",
   "status": "proved",
   "theorems": [
    "C14_product_is_ordered_product"
   ],
   "note": "At eps = 0 (exact arithmetic); sequences of power-of-two dimension; gates built from exactly unitary matrices; inverse() only of sequences in which no object occurs an even number of times (C19, C64 show why). With the clean-up see C15."
  },
  {
   "property": "C15",
   "status": "proved",
   "theorems": [
    "C15_product_drift",
    "C15_product_drift_clean"
   ],
   "note": "Constant 7 d (sqrt d + 1) per update; 2 d (sqrt d + 1) when no gate has a stored component in (0, eps)."
  },
  {
   "property": "C16",
   "status": "proved",
   "theorems": [
    "C16_undo_restores_entries",
    "C16_undo_restores_product",
    "C16_undo_only_once",
    "C16_nothing_to_undo"
   ],
   "note": "Entries and the refusal of a second undo for every eps and every dimension; the product at eps = 0."
  },
  {
   "property": "C17",
   "status": "proved",
   "theorems": [
    "C17_combine",
    "C17_combine_refuses"
   ],
   "note": "Success and contents at eps = 0, refusals for every eps."
  },
  {
   "property": "C18",
   "status": "proved",
   "theorems": [
    "C18_inverse"
   ],
   "note": "At eps = 0, power-of-two dimensions, list-built sequences."
  },
  {
   "property": "C19",
   "status": "proved",
   "theorems": [
    "C19_inverse_repeated_entry_refuted"
   ],
   "note": "Refutation with a witness, for every eps in [0, 1/5]."
  },
  {
   "property": "C20",
   "status": "proved",
   "theorems": [
    "C20_isolation"
   ],
   "note": "For every eps, every dimension and every gate."
  },
  {
   "property": "C21",
   "status": "proved",
   "theorems": [
    "C21_append_refuses",
    "C21_new_refuses"
   ],
   "note": "For every eps; the whole state is unchanged."
  },
  {
   "property": "C22",
   "status": "proved",
   "theorems": [
    "C22_append_all_or_nothing",
    "C22_append_other_dimension_refuted"
   ],
   "note": "Success on power-of-two dimensions at eps = 0; the failure on every other dimension for every eps (append without save_undo, right after product())."
  },
  {
   "property": "C23",
   "status": "proved",
   "theorems": [
    "C23_array_read_only",
    "C23_array_attribute_error"
   ],
   "note": "Refusal and unchanged contents for every eps; the exception's class at eps = 0 on power-of-two dimensions."
  },
  {
   "property": "C24",
   "status": "proved",
   "theorems": [
    "C24_compile_steps",
    "C24_compile_layered_steps",
    "C24_loop_ends"
   ],
   "note": "For every eps, every compiler and every reachable state."
  },
  {
   "property": "C25",
   "status": "proved",
   "theorems": [
    "C25_last_cost",
    "C25_last_cost_layered",
    "C25_every_cost",
    "C25_every_cost_layered",
    "C25_last_cost_any_eps",
    "C25_last_cost_layered_any_eps",
    "C25_last_cost_drift",
    "C25_last_cost_layered_drift"
   ],
   "note": "Exactly equal at eps = 0; for every eps, world and compiler the last cost is the distance to the reported product or to the unitary it is the constructor's copy of (undo() restores a copy); within the drift regime the two differ by at most 3 drift bounds; the prefix statement for every eps."
  },
  {
   "property": "C26",
   "status": "proved",
   "theorems": [
    "C26_product_of_result",
    "C26_product_of_layered_result",
    "C26_product_of_result_drift",
    "C26_product_of_layered_result_drift"
   ],
   "note": "Exact at eps = 0; for eps > 0 up to the drift bound, while it is below the construction tolerances."
  },
  {
   "property": "C27",
   "status": "proved",
   "theorems": [
    "C27_only_allowed",
    "C27_only_allowed_layered"
   ],
   "note": "For every eps and every compiler."
  },
  {
   "property": "C28",
   "status": "proved",
   "theorems": [
    "C28_compile_never_fails",
    "C28_compile_layered_never_fails",
    "C28_compile_never_fails_drift",
    "C28_compile_layered_never_fails_drift"
   ],
   "note": "At eps = 0 for any number of steps; for eps > 0 while the worst-case drift bound is below the construction tolerances (about 100 steps on one qubit for eps = 1e-12)."
  },
  {
   "property": "C29",
   "status": "proved",
   "theorems": [
    "C29_step",
    "C29_step_layered",
    "C29_rejected_product",
    "C29_rejected_product_layered"
   ],
   "note": "Acceptance for every eps; the product after a rejected step at eps = 0."
  },
  {
   "property": "C30",
   "status": "proved",
   "theorems": [
    "C30_annealing"
   ],
   "note": "For any rate, also a negative one."
  },
  {
   "property": "C31",
   "status": "proved",
   "theorems": [
    "C31_action_intervals",
    "C31_refuses",
    "C31_effect",
    "C31_effect_layered",
    "C31_remove"
   ],
   "note": "The probability of an action is the length of its interval of the uniform draw."
  },
  {
   "property": "C32",
   "status": "proved",
   "theorems": [
    "C32_whole_layers"
   ],
   "note": "For every eps."
  },
  {
   "property": "C33",
   "status": "proved",
   "theorems": [
    "C33_negative_counts_refuted",
    "C33_negative_counts_add_nothing"
   ],
   "note": "Refutation with a witness."
  },
  {
   "property": "C34",
   "status": "proved",
   "theorems": [
    "C34_append_raises",
    "C34_only_empty_result"
   ],
   "note": "For every eps."
  },
  {
   "property": "C35",
   "status": "proved",
   "theorems": [
    "C35_random_then_compiled",
    "C35_distance_from_identity",
    "C35_never_fails",
    "C35_never_fails_drift"
   ],
   "note": "Structure for every eps and every call that returns; the distance statement at eps = 0; absence of exceptions at eps = 0 and, with a drift bound, at every eps."
  },
  {
   "property": "C36",
   "status": "proved",
   "theorems": [
    "C36_no_inversion",
    "C36_xeb"
   ],
   "note": "For every eps."
  },
  {
   "property": "C37",
   "status": "proved",
   "theorems": [
    "C37_layers_then_compiled",
    "C37_distance_from_identity",
    "C37_never_fails",
    "C37_never_fails_drift"
   ],
   "note": "Structure for every eps (whole compiled layers need non-negative counts, see C33); the distance statement at eps = 0; absence of exceptions also with a drift bound."
  },
  {
   "property": "C38",
   "status": "proved",
   "theorems": [
    "C38_coefficient_is_norm",
    "C38_rejected_matrices",
    "C38_hamiltonian"
   ],
   "note": "Every dimension; the SVD is the operator norm (rounding not modelled). Also the acceptance of lists of terms by Hamiltonian."
  },
  {
   "property": "C39",
   "status": "proved",
   "theorems": [
    "C39_evolution",
    "C39_exact",
    "C39_group",
    "C39_family",
    "C39_closed_form",
    "C39_rotations"
   ],
   "note": "Exactly Hermitian h; exp(i h t) exactly up to phase for eps = 0 and within drift_bound otherwise. The closed forms link it to the gate library."
  },
  {
   "property": "C40",
   "status": "proved",
   "theorems": [
    "C40_ideal"
   ],
   "note": "Within drift_bound eps n (2 N); exactly 0 for eps = 0."
  },
  {
   "property": "C41",
   "status": "proved",
   "theorems": [
    "C41_blocks",
    "C41_zero_steps",
    "C41_negative_steps"
   ],
   "note": "Every shuffle history; also zero and negative numbers of steps."
  },
  {
   "property": "C42",
   "status": "proved",
   "theorems": [
    "C42_trotter_error",
    "C42_commuting",
    "C42_convergence"
   ],
   "note": "Explicit error bound 2 S^2/N exp(S/N) with S = |t| * sum of Frobenius norms, plus drift_bound; limit statement for eps = 0."
  },
  {
   "property": "C43",
   "status": "proved",
   "theorems": [
    "C43_sampling",
    "C43_average"
   ],
   "note": "Selection by the uniform draw with interval lengths c_k / sum, and the mean generator as a Riemann integral over the draw. Convergence of the averaged channel: C65."
  },
  {
   "property": "C44",
   "status": "proved",
   "theorems": [
    "C44_term_subsets",
    "C44_primitives",
    "C44_compiled",
    "C44_exact",
    "C44_drift"
   ],
   "note": "Subsets, primitives, and what compile_stoq_sequence returns; the drift version needs a threshold small enough for 10000 product updates (eps_code is larger), the structure theorem needs only small_drift eps n 1."
  },
  {
   "property": "C45",
   "status": "proved",
   "theorems": [
    "C45_random_part",
    "C45_never_returns",
    "C45_returns_when_time_is_reached",
    "C45_returns_with_cleanup",
    "C45_terminates",
    "C45_distance_from_identity"
   ],
   "note": "Random part, non-termination for max_t_step = 0 (for every fuel), termination and the metric."
  },
  {
   "property": "C46",
   "status": "proved",
   "theorems": [
    "C46_rotations",
    "C46_rphi_axes",
    "C46_angles_add",
    "C46_rotation_xyz",
    "C46_rotation_xy",
    "C46_xx",
    "C46_xx_family",
    "C46_paulis",
    "C46_h_t",
    "C46_h_self_inverse",
    "C46_t_fourth",
    "C46_controlled_nots",
    "C46_qecc"
   ],
   "note": "All angles; with the clean-up at eps within drift_bound, exactly when the matrix has no component in (0, eps)."
  },
  {
   "property": "C47",
   "status": "proved",
   "theorems": [
    "C47_gms",
    "C47_gms_family",
    "C47_angles_add",
    "C47_special_cases",
    "C47_fourth_power"
   ],
   "note": "Every number of qubits. With eps > 0 for angles whose sine and cosine are 0 or at least eps; with eps = 0 for all angles."
  },
  {
   "property": "C48",
   "status": "proved",
   "theorems": [
    "C48_every_unitary"
   ],
   "note": "Exact up to phase when the target (times the phase) has no component in (0, eps), else within drift_bound."
  },
  {
   "property": "C49",
   "status": "proved",
   "theorems": [
    "C49_random_value_in_doubles",
    "C49_overflow_refuted",
    "C49_exactly",
    "C49_random_value_in_reals",
    "C49_as_unitary"
   ],
   "note": "Proved in IEEE binary64 for every accepted range whose difference does not overflow and every sample in [0,1); C49_overflow_refuted and C49_exactly show that the overflow condition is needed: for finite bounds further apart than the largest double the claim is false. Bounds are doubles."
  },
  {
   "property": "C50",
   "status": "proved",
   "theorems": [
    "C50_success",
    "C50_failure"
   ],
   "note": "For every eps, every family and every list of values."
  },
  {
   "property": "C51",
   "status": "proved",
   "theorems": [
    "C51_texts_read_back",
    "C51_texts_exist",
    "C51_texts_exist_drift",
    "C51_texts_change_nothing",
    "C51_unitary_read_back"
   ],
   "note": "For every history, in all three formats: reading the text back gives names, parameters and qubits of the entries in order, provided names contain no punctuation or white space. What round() and str() print of a number is a parameter of the model; only its character set is assumed. Existence of the texts for exact histories and, at the code's threshold, for bounded histories without inverse()."
  },
  {
   "property": "C52",
   "status": "proved",
   "theorems": [
    "C52_inverse_text_is_reversed",
    "C52_same_line",
    "C52_display_name_marks_inverse",
    "C52_text_refuted"
   ],
   "note": "The text of inverse() consists of the same lines in reverse order in all formats; C52_text_refuted is a sequence and its inverse with equal texts but different products, so the exported text does not determine the operation."
  },
  {
   "property": "C53",
   "status": "proved",
   "theorems": [
    "C53_late_failure",
    "C53_primitive_constructor"
   ],
   "note": "Constructor as an equivalence; the late failure with two random histories, at eps = 0."
  },
  {
   "property": "C54",
   "status": "proved",
   "theorems": [
    "C54_sqrt_distance_triangle",
    "C54_errors_add"
   ],
   "note": "At eps = 0 (the clean-up adds the drift bounded in C15)."
  },
  {
   "property": "C55",
   "status": "proved",
   "theorems": [
    "C55_compile_isolation"
   ],
   "note": "For every eps."
  },
  {
   "property": "C56",
   "status": "proved",
   "theorems": [
    "C56_array_never_returns",
    "C56_array_value_error"
   ],
   "note": "That no call returns is proved for every eps; the exact exception at eps = 0."
  },
  {
   "property": "C57",
   "status": "proved",
   "theorems": [
    "C57_rav_isolation",
    "C57_layered_rav_isolation"
   ],
   "note": "For every eps; sequences built from lists."
  },
  {
   "property": "C58",
   "status": "proved",
   "theorems": [
    "C58_corrects_phase_flips"
   ],
   "note": "For every eps up to 1/3."
  },
  {
   "property": "C59",
   "status": "proved",
   "theorems": [
    "C59_library_families",
    "C59_library_gms"
   ],
   "note": "Exact arithmetic (eps = 0)."
  },
  {
   "property": "C60",
   "status": "proved",
   "theorems": [
    "C60_sequences",
    "C60_compilations"
   ],
   "note": "Every eps, every Hamiltonian object; other sequences must be list-built (as in C57)."
  },
  {
   "property": "C61",
   "status": "proved",
   "theorems": [
    "C61_no_sequence",
    "C61_no_compilation"
   ],
   "note": "Every eps."
  },
  {
   "property": "C62",
   "status": "proved",
   "theorems": [
    "C62_scalar_refuted",
    "C62_sum_refuted"
   ],
   "note": "Refuted with two witnesses; C39 is the positive statement for exactly Hermitian matrices, C112 for nearly Hermitian ones at short times."
  },
  {
   "property": "C63",
   "status": "proved",
   "theorems": [
    "C63_every_sequence",
    "C63_every_sequence_layered",
    "C63_every_sequence_drift",
    "C63_every_sequence_layered_drift",
    "C63_expressible_is_found",
    "C63_expressible_is_found_layered"
   ],
   "note": "Random answers are recorded on a tape and played back; exact arithmetic and, with the drift bound, the clean-up at any eps. Reals, so the upper end of a parameter range is never drawn (for doubles see C49)."
  },
  {
   "property": "C64",
   "status": "proved",
   "theorems": [
    "C64_inverse_entries",
    "C64_parity",
    "C64_never_fails"
   ],
   "note": "Entries: every eps, every history. Parity of the matrices: gates stored exactly (clean). The call itself succeeds: eps = 0."
  },
  {
   "property": "C65",
   "status": "proved",
   "theorems": [
    "C65_mean_of_qdrift",
    "C65_mean_is_determined"
   ],
   "note": "Mean = iterated Riemann integral over N uniform numbers (SpecChannel.mean); error bound in the Frobenius norm; the product of each run is within drift_bound of a phase times the drawn operator."
  },
  {
   "property": "C66",
   "status": "proved",
   "theorems": [
    "C66_long_sequence_refuted"
   ],
   "note": "Refutation with a witness program for each threshold. In exact real arithmetic with the clean-up; rounding is not part of it."
  },
  {
   "property": "C67",
   "status": "proved",
   "theorems": [
    "C67_random",
    "C67_random_raises",
    "C67_random_invariant"
   ],
   "note": "The drawing function (scipy.stats.unitary_group.rvs) is an arbitrary function; that its draws are unitary and Haar distributed is scipy's part. The invariance is proved for each draw, at threshold 0; distributions are not formalised."
  },
  {
   "property": "C68",
   "status": "proved",
   "theorems": [
    "C68_step_mean",
    "C68_step_chance",
    "C68_chance_unique",
    "C68_detailed_balance"
   ],
   "note": "Means are over ideal independent uniform answers to the questions the program asks (SpecChain.v: average, unique by C68_chance_unique); exact arithmetic (threshold 0); primitives with a fixed gate (families have a continuous law and are not covered)."
  },
  {
   "property": "C69",
   "status": "proved",
   "theorems": [
    "C69_compile_mean",
    "C69_success_chance",
    "C69_compile_layered_mean",
    "C69_success_chance_layered"
   ],
   "note": "Exact arithmetic (eps = 0), primitives that are fixed gates; the mean is over ideal answers (uniform numbers, integers and orders, independent), as a decision tree. The case shows the chance 1 - 2^-m for every m."
  },
  {
   "property": "C70",
   "status": "proved",
   "theorems": [
    "C70_gates",
    "C70_rotations",
    "C70_product",
    "C70_updates",
    "C70_compile",
    "C70_compile_layered",
    "C70_rav",
    "C70_layered_rav"
   ],
   "note": "In exact real arithmetic with the clean-up; rounding is not part of it. inverse() under the condition of C22 (odd multiplicities). The gates C66 fails with are not exact: one of their components was cleared without determinant 1."
  },
  {
   "property": "C71",
   "status": "proved",
   "theorems": [
    "C71_calls_compute_values",
    "C71_calls_change_nothing",
    "C71_arrays_not_shared",
    "C71_client_arrays_not_kept",
    "C71_values_are_constant"
   ],
   "note": "Model of references: ModelAlias.v. In-place writes keep the shape of an array. Objects made by a call that raises, and the temporary inverse inside distance_from, are unreachable and left out."
  },
  {
   "property": "C72",
   "status": "proved",
   "theorems": [
    "C72_write_through_get_matrix",
    "C72_zeros_break_the_object",
    "C72_isolation_refuted"
   ],
   "note": "Includes C72_isolation_refuted: the code does not protect the object from its clients."
  },
  {
   "property": "C73",
   "status": "proved",
   "theorems": [
    "C73_inverse_and_tensor_share",
    "C73_products_share_the_default_list",
    "C73_constructor_sharing",
    "C73_write_dictionary",
    "C73_write_list",
    "C73_default_list_leaks",
    "C73_parameters_refuted",
    "C73_default_refuted"
   ],
   "note": "Includes two refuted forms of independence (parameters of an inverse; the default list)."
  },
  {
   "property": "C74",
   "status": "proved",
   "theorems": [
    "C74_kept_product_is_exposed",
    "C74_undo_discards_the_write",
    "C74_product_refuted"
   ],
   "note": "Includes C74_product_refuted."
  },
  {
   "property": "C75",
   "status": "proved",
   "theorems": [
    "C75_gate",
    "C75_product",
    "C75_undo_with_nothing_saved",
    "C75_distance",
    "C75_double_is_accurate",
    "C75_double_product",
    "C75_double_distance",
    "C75_exact_constructor",
    "C75_exact_full",
    "C75_exact_distance",
    "C75_exact_is_accurate"
   ],
   "note": "The operations are those of UnitarySequence without inverse() and combine(); LAPACK's determinant, numpy's complex power and its norm are taken as correctly rounded in the double-precision instance, and overflow is left out. In exact arithmetic the rounded constructor, embedding and distance are those of the model (also proved)."
  },
  {
   "property": "C76",
   "status": "proved",
   "theorems": [
    "C76_gate_R",
    "C76_gate_MS",
    "C76_gate_Rz",
    "C76_idle",
    "C76_idle_beside",
    "C76_zero_angle",
    "C76_named_gates",
    "C76_named_gates_two_qubits",
    "C76_over_rotation_scales_refuted"
   ],
   "note": "qscout's U_R, U_Rz, U_MS and pygsti's unitary_to_pauligate are external and modelled from their documentation."
  },
  {
   "property": "C77",
   "status": "proved",
   "theorems": [
    "C77_physical",
    "C77_negative_refuted"
   ],
   "note": "How the external emulator applies a process matrix to some of the qubits is part of the specification (on_qubits). depolarization > 1 (NaN in numpy) is not modelled."
  },
  {
   "property": "C78",
   "status": "proved",
   "theorems": [
    "C78_mirror",
    "C78_one_qubit",
    "C78_one_qubit_mirror",
    "C78_two_qubits_refuted"
   ],
   "note": "Includes the refutation for two qubits."
  },
  {
   "property": "C79",
   "status": "proved",
   "theorems": [
    "C79_jaqal_lines",
    "C79_rphi_refuted",
    "C79_inverse",
    "C79_other_names"
   ],
   "note": "Values are compared before they are rounded to 7 digits. The code says of get_jaqal that its output is very likely not valid JAQAL; the refutation says what the line of rphi means to a reader of the native gate set."
  },
  {
   "property": "C80",
   "status": "proved",
   "theorems": [
    "C80_output_probabilities",
    "C80_rav_fidelity"
   ],
   "note": "Means over shots are sums over all outcomes; the shots are independent by definition of shots_mean."
  },
  {
   "property": "C81",
   "status": "proved",
   "theorems": [
    "C81_xeb_fidelity",
    "C81_std_exact_refuted"
   ],
   "note": "The refutation is a case with two outcomes and 100 shots; the theorem says it is so for all probabilities but the certain ones."
  },
  {
   "property": "C82",
   "status": "proved",
   "theorems": [
    "C82_default_sums_impossible",
    "C82_one_qubit_undefined",
    "C82_figure_3",
    "C82_rav_below_xeb"
   ],
   "note": ""
  },
  {
   "property": "C83",
   "status": "proved",
   "theorems": [
    "C83_simulated_rav",
    "C83_simulation_unbiased_refuted",
    "C83_same_state_refuted"
   ],
   "note": "A uniform draw below the probability is a shot with that probability; the generator itself is not modelled."
  },
  {
   "property": "C84",
   "status": "proved",
   "theorems": [
    "C84_cost_bounds_success",
    "C84_accepted_guarantees_refuted"
   ],
   "note": "The bounds on final_cost are 0.02 (2 qubits), 0.03 (3), 0.05 (4 to 7) and 0.06 (8)."
  },
  {
   "property": "C85",
   "status": "proved",
   "theorems": [
    "C85_gate_counts"
   ],
   "note": ""
  },
  {
   "property": "C86",
   "status": "proved",
   "theorems": [
    "C86_runs",
    "C86_means"
   ],
   "note": ""
  },
  {
   "property": "C87",
   "status": "proved",
   "theorems": [
    "C87_last_of_bucket_ignored",
    "C87_bucket_means_refuted",
    "C87_size_one_undefined"
   ],
   "note": ""
  },
  {
   "property": "C88",
   "status": "proved",
   "theorems": [
    "C88_discard_odd",
    "C88_file_numbers"
   ],
   "note": ""
  },
  {
   "property": "C89",
   "status": "proved",
   "theorems": [
    "C89_emulated_fidelity"
   ],
   "note": "Uses C78; for MS gates C78_two_qubits_refuted shows that there is no such law."
  },
  {
   "property": "C90",
   "status": "proved",
   "theorems": [
    "C90_compile",
    "C90_result",
    "C90_double_compile"
   ],
   "note": "Random draws are given from outside: the changes, and the decision as an arbitrary function of the two computed costs. K counts all append/remove calls, rejected ones too, because undo passes the saved product through the constructor again."
  },
  {
   "property": "C91",
   "status": "proved",
   "theorems": [
    "C91_bars_of_bins",
    "C91_mean_of_bars",
    "C91_bars_too_small",
    "C91_equal_values"
   ],
   "note": "Curve fitting itself is not modelled: the fitted values are arbitrary numbers."
  },
  {
   "property": "C92",
   "status": "proved",
   "theorems": [
    "C92_methods",
    "C92_compile",
    "C92_layered",
    "C92_anneals",
    "C92_layered_anneals"
   ],
   "note": "Object model and plain-list model with exact arithmetic agree call by call and for whole runs of compile and compile_layered; with eps > 0 the run is annealing with costs within the bound. The plain-list loop is the one C75 and C90 study in inexact arithmetic."
  },
  {
   "property": "C93",
   "status": "proved",
   "theorems": [
    "C93_same",
    "C93_accepted",
    "C93_product_raises",
    "C93_stale_product",
    "C93_refused_refuted",
    "C93_index_error"
   ],
   "note": "The claim that the check keeps gates outside the system away is refuted for qubit numbers from 62 on (witness: one qubit, gate on qubit 62); below that the 64-bit model and the exact model agree on every program. Qubit numbers of 2^63 - 1 and more are not modelled."
  },
  {
   "property": "C94",
   "status": "proved",
   "theorems": [
    "C94_report",
    "C94_notebook",
    "C94_close_target_refuted",
    "C94_coupling_distance"
   ],
   "note": "The claim that the cells always print a report is refuted: a target that is the identity up to the tolerance of close_to makes cost_by_step[-1] raise IndexError. The theorems ask for small drift; at the code's threshold this covers 12 steps per cell in the worst case, without clean-up any number. The elapsed time is left out."
  },
  {
   "property": "C95",
   "status": "proved",
   "theorems": [
    "C95_number",
    "C95_exact",
    "C95_order",
    "C95_angle",
    "C95_gates",
    "C95_text",
    "C95_report",
    "C95_notebook",
    "C95_same_text_refuted"
   ],
   "note": "Numbers are real numbers; the text is Python's for |x| < 10^8 at 7 decimals. That the text determines the gate is refuted: angles that differ by less than the rounding print alike."
  },
  {
   "property": "C96",
   "status": "proved",
   "theorems": [
    "C96_found",
    "C96_limit",
    "C96_found_layered",
    "C96_limit_layered",
    "C96_inverse",
    "C96_inverse_layered",
    "C96_hopeless",
    "C96_hopeless_layered"
   ],
   "note": "Gates are fixed unitaries (no random generating functions) and clean-ups change nothing (eps = 0), as in C69. The case in which the best reachable cost equals the tolerance exactly is not decided beyond C69."
  },
  {
   "property": "C97",
   "status": "proved",
   "theorems": [
    "C97_step_mean",
    "C97_step_chance",
    "C97_reversed_layer",
    "C97_detailed_balance"
   ],
   "note": "Ideal random answers (SpecChain.v), fixed gates, eps = 0, as in C68. Negative counts are excluded from the balance: a layer has then more gates than are taken away (C33)."
  },
  {
   "property": "C98",
   "status": "proved",
   "theorems": [
    "C98_found",
    "C98_limit",
    "C98_within",
    "C98_found_layered",
    "C98_limit_layered",
    "C98_within_layered",
    "C98_inverse",
    "C98_inverse_layered",
    "C98_library_continuous",
    "C98_one_qubit"
   ],
   "note": "Ideal random answers (SpecChain.v), eps = 0, as in C68 and C96. Lower bounds only: an event about random angles need not have an exactly defined mean in the sense of SpecChain.v, so chance_at_least asks for a function below its indicator that has one."
  },
  {
   "property": "C99",
   "status": "proved",
   "theorems": [
    "C99_limit",
    "C99_trotter",
    "C99_commuting",
    "C99_simultaneous",
    "C99_time_refuted",
    "C99_word",
    "C99_inverse"
   ],
   "note": "Ideal random answers (SpecChain.v), exactly Hermitian terms, eps = 0, lower bounds as in C98. The bound of C99_limit is for the compiler with a free number of steps, since the code fixes 10000. The random first half of compile_rav_sequence() is not part of the chances: C99_inverse is about its target for whatever was drawn."
  },
  {
   "property": "C100",
   "status": "proved",
   "theorems": [
    "C100_found",
    "C100_limit",
    "C100_found_layered",
    "C100_limit_layered",
    "C100_exact_refuted"
   ],
   "note": "Ideal random answers (SpecChain.v), eps = 0, lower bounds as in C98. The threshold is strictly between 0 and 1; for 0 and below the code returns the random part only (C35)."
  },
  {
   "property": "C101",
   "status": "proved",
   "theorems": [
    "C101_elapsed_mean",
    "C101_forward_mean",
    "C101_returns",
    "C101_limit",
    "C101_always_refuted",
    "C101_forward",
    "C101_possible"
   ],
   "note": "Ideal random answers (SpecChain.v), eps = 0. C101_forward and the means are about the first k steps as drawn, without the stopping rule. C101_possible gives a positive number, not a useful size: it comes from random parts that go forward and back."
  },
  {
   "property": "C102",
   "status": "proved",
   "theorems": [
    "C102_close_to_same",
    "C102_close_to_zero",
    "C102_close_to_refuted",
    "C102_display",
    "C102_compile",
    "C102_abstract",
    "C102_primitives"
   ],
   "note": "The statement-for-statement identity of the rest of the copies with stoqcompiler/unitary was read off the text (ModelOld.v lists the differences); the theorems are about the parts that differ."
  },
  {
   "property": "C103",
   "status": "proved",
   "theorems": [
    "C103_mean",
    "C103_chance",
    "C103_limit",
    "C103_always_refuted"
   ],
   "note": "Complements C65, which is about the mean channel; this is about the single sequences the caller gets. Draws of np.random.choice are uniform and independent in the model."
  },
  {
   "property": "C104",
   "status": "proved",
   "theorems": [
    "C104_commutator_error",
    "C104_zero_iff_commuting"
   ],
   "note": "Sharper than C42_trotter_error: no exponential factor, no constant but 1/2, and it contains C42_commuting."
  },
  {
   "property": "C105",
   "status": "proved",
   "theorems": [
    "C105_jaqal",
    "C105_display",
    "C105_compiled",
    "C105_angle",
    "C105_same_text_refuted"
   ],
   "note": "The analogue of C95 for the other two formats; inverses are not marked in JAQAL (C79_inverse), so the gates are those of the families themselves. str(round(x, k)) is modelled for |x| < 10^8 and round-half-even of the real value (C95)."
  },
  {
   "property": "C106",
   "status": "proved",
   "theorems": [
    "C106_random_orders",
    "C106_mean_is_determined",
    "C106_fixed_order_refuted"
   ],
   "note": "As the code shuffles the list of the previous step in place, the orders are drawn one after the other from the last one; the mean is the iterated mean over uniform orders (SpecChain). C65 is the analogue for QDRIFT, C104 the bound for a single sequence."
  },
  {
   "property": "C107",
   "status": "proved",
   "theorems": [
    "C107_gates",
    "C107_layered_gates",
    "C107_costs",
    "C107_layered_costs",
    "C107_lower_bound",
    "C107_steps_needed"
   ],
   "note": "The number of gates holds for every clean-up threshold without further conditions; the costs are compared while the clean-up bound is small (SpecRound). C63 gives the converse: every allowed sequence of k gates is the outcome of some run of k steps."
  },
  {
   "property": "C108",
   "status": "proved",
   "theorems": [
    "C108_compile",
    "C108_layered"
   ],
   "note": "The second generator need only answer as the first does from the question reached; the compiler record, with the annealing state left by earlier calls, is an argument."
  },
  {
   "property": "C109",
   "status": "proved",
   "theorems": [
    "C109_ideal",
    "C109_trotter",
    "C109_qdrift",
    "C109_stoq",
    "C109_hamiltonian_rav",
    "C109_rav",
    "C109_layered_rav",
    "C109_xeb"
   ],
   "note": "For compile_rav_sequence() both calls are looked at with the same bound on the rounds of its while loop; running out of it is an outcome of its own, the same on both sides."
  },
  {
   "property": "C110",
   "status": "proved",
   "theorems": [
    "C110_compile",
    "C110_layered",
    "C110_arrays",
    "C110_small"
   ],
   "note": "On three or more qubits with a positive threshold a phase can move a component of the inverse across the threshold, so the claim asks there that the clean-up changes neither matrix. The claim says nothing about rounding of machine numbers."
  },
  {
   "property": "C111",
   "status": "proved",
   "theorems": [
    "C111_compile",
    "C111_layered"
   ],
   "note": "Time is a real number; rounding of the difference of two readings is not modelled. Statements other than the two readings and the loop take no time in the model."
  },
  {
   "property": "C112",
   "status": "proved",
   "theorems": [
    "C112_sum",
    "C112_term",
    "C112_time"
   ],
   "note": "The positive side of C62; C62_scalar_refuted shows that a bound on the time is needed."
  },
  {
   "property": "C113",
   "status": "proved",
   "theorems": [
    "C113_choice",
    "C113_agrees",
    "C113_refused",
    "C113_qdrift",
    "C113_action"
   ],
   "note": "Rounding to 53 bits with gradual underflow; overflow is left out, so the sum of the coefficients has to stay below the largest double. numpy's kahan_sum, cumsum and searchsorted as numpy documents and implements them."
  },
  {
   "property": "C114",
   "status": "proved",
   "theorems": [
    "C114_compile",
    "C114_layered",
    "C114_both",
    "C114_arrays",
    "C114_gates",
    "C114_calls"
   ],
   "note": "The phase of a parameterized primitive may depend on the parameters: the hypothesis asks for results of as_unitary() that differ by a phase, for every list of values."
  },
  {
   "property": "C115",
   "status": "proved",
   "theorems": [
    "C115_compile",
    "C115_layered",
    "C115_arrays",
    "C115_embed",
    "C115_products",
    "C115_calls",
    "C115_unlisted",
    "C115_unlisted_refuted"
   ],
   "note": "With equal random answers the allowed qubits must be listed explicitly (C115_unlisted_refuted); otherwise, for compile(), the drawn orders of the qubits are renumbered too (C115_unlisted). A layered compilation with unlisted qubits is not covered: its shuffles use the same kind of answer."
  }
 ]
}