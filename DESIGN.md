# Formal model of Ikarus in Rocq (Coq 8.16.1)

This document says what is modelled, how the properties of `properties.jsonl` are stated and proved, and what the results rest on.

## Method

* The C++ and Python source in `/repo` is read as text and re-expressed, function by function, as total computable Gallina functions. Every definition
  in a `*_Model.v` file carries a comment with the file and lines it models, and says where it simplifies.
* Loops become structural recursion or folds; `while` loops become recursion on explicit fuel, with the out-of-fuel outcome a distinct result that the
  theorems exclude (or a proof that the fuel suffices).
* A C++ exception is a distinct result (`Err ...`, `None`, `throws`); undefined behaviour (out-of-range access, access to an empty container, read of an
  uninitialised entry, null dereference, use of a destroyed object) is a distinct result as well.
* Calls to code outside the repository (Eigen, dune, Spectra, autodiff, muesli, pybind11, the C++ library) or to user-supplied functions are universally
  quantified function arguments (Section variables, generalised at section end), restricted by an explicit hypothesis ("contract") where the theorem needs one. No axioms are used for them.
  Contracts are shown to be satisfiable by an `Example`.
* Numbers. Where a property is about exact data movement (assembly, reduction, sizes, messages, ownership) the number type is an arbitrary type with
  arbitrary operations, so the theorem also holds for floating point numbers. Where a property is an algebraic or differential identity the numbers are
  real numbers (or elements of a field), i.e. rounding is not modelled. Where NaN or rounding is the point, the IEEE binary64 numbers of `Coq.Floats` are used.
* Each area has `X_Model.v` (the model), `X_Spec.v` (specifications that do not use the model's helpers), `X_Proofs.v` (lemmas) and `X_Props.v`
  (property theorems, each followed by `Print Assumptions` and a non-vacuity `Example`). In small areas specification and proofs are in `X_Props.v`.
* A property that is false of the faithful model gets a theorem `..._refuted` with a witness, and a `..._partial` theorem stating what does hold.
* The theorems are tested against wrong programs: `seeded/LOG.jsonl` has one line per edit of the model with the theorems that failed. The rebuild stops at the first file that breaks. `failed` lists only the lemmas and theorems whose proofs were seen to break there; in many lines these are auxiliary lemmas. `dependents` lists up to eight theorems of the claims whose proofs use the broken lemmas. These names are read off the dependencies of the present files, so they were not run against the edit, and some were added after the attempt; they may hold for the edited program with another proof. A broken proof alone does not show that the statement is false of the edit; an edit that leaves the meaning unchanged can break a proof too. Attempts for which no broken lemma was known because of the time limit were looked at again: two of them turned out to change nothing and are logged without failures, in the others the claim says where the proof stops. Two runs with `gradient_normal` as failed (a sign in `cross` and a sign in `a3Nd` of the shell) also ran into the time limit and were not looked at again. Edits that do not type-check are not logged, and an attempt that was repeated after a theorem was tightened has one line, that of the repetition. Edits without failing theorems that are called not observable were judged by reading, not proved equivalent.

## Trusted base

* The Coq 8.16.1 kernel (and `coqchk`), including the primitive 63-bit integers and binary64 numbers where listed below.
* Axioms: only those of the Coq standard library, see the table. `Print Assumptions` stands under every property theorem.
* The faithfulness of the hand-written model: the code is not extracted nor run against it.
* Contracts on third-party code, each a hypothesis or a parameter of the theorems that use it:
  - Eigen: dense and sparse containers (`+=` on entries, `setFromTriplets` building sorted compressed columns, `linearView`, `coeffRef` inserting entries,
    `SparseMatrix::diagonal` only for stored entries), `inverse()` and the direct solvers as exact solution of the linear system, iterative solvers referring to the matrix
    they were given, `SelfAdjointEigenSolver` (`solvesSymmetric`: ascending eigenvalues of an orthogonal decomposition, or a reported failure), QR least squares, `reshaped` in column-major order.
  - Spectra: returns the requested eigenvalues in ascending order, refuses too small Krylov spaces.
  - dune: `Dune::FloatCmp` (relative weak comparison), quadrature rules (integrate what their order promises), strain expressions of dune-localfefunctions (value, derivative, second
    derivative), index sets (consecutive per geometry type), index merging of dune-functions, Lagrange interpolation, the hierarchic search, `wrap_or_move` and the field lists of dune-vtk.
  - autodiff: exact derivatives, results overwritten. matplot: `logspace`. pybind11: `keep_alive`, reference counts, overloads tried in the order of registration.
    muesli: a material point answers for the state it was given last.
  - C++ library: `std::sort`, `std::unique`, `std::lower_bound`, `std::map` order, life-time rules of `shared_ptr`, `weak_ptr`, `unique_ptr`, `optional` and `function`.

### Axioms by theorem

`sig_forall_dec` and `sig_not_dec` are those of `ClassicalDedekindReals`, `functional_extensionality_dep` is that of `FunctionalExtensionality`, `classic` that of `Classical_Prop`.
`PrimFloat` and `PrimInt63` names are the kernel's primitive types and operations, which `Print Assumptions` lists too. mathcomp seals some constants; that adds no axioms.

* no axioms (closed under the global context) — 271 theorems: C01_constraintsBelow, C01_reduced_numbering, C01_sizes, C02_full_of_reduced, C02_reduced_is_restriction, C02_reduced_of_full, C03_matrix_dense, C03_matrix_sparse, C03_matrix_sparse_repeated, C03_scalar, C03_vector, C04_full_vector, C04_reduced_vector, C05_full_dense, C05_reduced_dense, C06_sparse_dense_agree, C06_sparse_full_exact, C06_unattached_refuted, C07_every_history_succeeds, C07_history_independent, C08_raw_slots, C08_reduced_slots, C08_slots_unique, C09_bound_is_explicit, C09_bound_query_never_false, C09_unbound_throws, C103_copy_is_new, C103_copy_partial, C103_copy_refuted, C103_move, C103_swap, C104_compute_throws, C104_factorize_ignored, C104_last_matrix_partial, C104_last_matrix_refuted, C105_changed_matrix_refuted, C105_direct_partial, C106_before_compute, C106_orderly, C106_usable_partial, C106_usable_refuted, C10_callbacks_in_order, C10_keeps_binding, C10_original_unchanged, C10_pattern_change_refuted, C111_accepted, C117_accepts, C11_flags_reflect_history, C11_no_failure_in_range, C120_fields_partial, C120_moved_refuted, C120_python_partial, C120_python_refuted, C121_files, C121_last_field, C121_one_field_partial, C121_one_field_refuted, C122_components, C122_element_partial, C122_mixed_refuted, C122_no_elements, C122_value_partial, C123_copy_refuted, C123_moved_refuted, C123_no_copies_partial, C123_temporary_refuted, C124_factory, C124_once, C124_twice_refuted, C125_newton, C125_subsidiary, C125_trust_region_partial, C126_calls, C126_newton, C128_bijection, C128_flat_same, C128_flat_unchanged, C128_numbers, C128_order, C129_order, C12_copy_aliases_refuted, C12_copy_contents, C12_dangling_refuted, C12_direct_operations_independent_partial, C12_frame_partial, C132_bound, C132_explicit, C132_option_partial, C132_option_refuted, C132_plain, C133_force_partial, C133_lifetime_refuted, C133_solver_partial, C133_temporary_refuted, C134_overwritten_refuted, C134_reference_partial, C137_alone, C137_basis_refuted, C137_partial, C137_refuted, C138_refuted, C138_stored, C139_gone, C139_partial, C139_refuted, C13_full_update_partial, C13_increment_partial, C13_reduced_update_partial, C13_sync_partial, C13_zero_value_refuted, C149_same, C14_notify_exact, C14_notify_with_releases, C14_released_during_notify, C150_enhanced_partial, C150_order_refuted, C150_refused_refuted, C150_rule_refuted, C150_stress_partial, C151_accepted_strain, C151_accepted_stress, C151_refused_partial, C151_result_refuted, C151_stress_partial, C152_construct_partial, C152_fixed_refuted, C152_results_partial, C152_storage_refuted, C152_success_partial, C152_success_refuted, C153_failed_refuted, C153_first_size_refuted, C153_functions_keep, C153_load_control_partial, C153_path_following_partial, C153_solver_keeps, C155_arc_length_partial, C155_controlled_refuted, C155_full_partial, C155_reduced_refuted, C157_exponents, C15_no_owner_silent_partial, C15_unregister_copy_refuted, C15_unregister_last_owner_partial, C15_unsubscribe_kept_token_refuted, C160_assumed_stress_linear_partial, C160_assumed_stress_residual, C160_eas_linear_partial, C160_eas_residual, C160_start_refuted, C160_success_refuted, C165_component_of_composite_refuted, C165_components_partial, C165_composite_refuted, C169_blocks, C169_empty_refuted, C169_subtract, C169_too_long_refuted, C169_tuple, C169_views, C16_bounded_iterations, C16_setup_rejects, C16_subsidiary_bounded_iterations, C171_first_norm_refuted, C171_success_refuted, C171_told, C172_told_partial, C175_elements, C175_newton, C175_newton_refuted, C175_refuted, C175_states_partial, C175_unchanged_partial, C176_assignment_refuted, C176_default_refuted, C176_interior, C176_order, C176_python, C176_selected, C176_signatures, C176_subspaces, C179_added_once_partial, C179_added_twice_refuted, C179_assumed_refuted, C179_by_name, C179_linear_enhancement_refuted, C179_mixed_partial, C179_nonlinear_enhancement, C179_plain, C17_negative_maxIter_refuted, C17_success_converged_partial, C18_converged_failure_refuted, C18_failure_partial, C19_messages, C19_subsidiary_messages, C20_affine_one_iteration, C21_bordered_system, C21_bordered_system_idbc, C22_equilibrium_start_refuted, C22_functions_keep, C22_increments, C22_success_partial, C22_zero_iterations_partial, C23_load_control, C23_rejects_non_positive_steps, C24_start_not_tBegin_refuted, C25_control_ended_sees_failure, C25_control_ended_success_refuted, C25_load_control_messages_partial, C25_no_control_ended_refuted, C25_path_following_messages_partial, C26_path_following, C26_rejects_non_positive_steps, C27_noop_constant, C33_independent, C33_populated, C33_value_semantics, C34_conversions, C34_default, C34_elastoStatics, C34_has, C35_indices, C36_matrix, C37_written_partial, C41_ct_sqrt, C56_partial, C56_refuted, C57_composite_partial, C57_composite_refuted, C57_power_partial, C57_scalar_partial, C57_scalar_refuted, C58_append, C58_unique_sort, C59_straightest_partial, C59_whole_series_refuted, C59_window_size_refuted, C60_stops, C60_success, C63_last_accepted_partial, C64_messages, C64_solutions, C66_assignment_refuted, C66_insertion_refuted, C68_indices, C81_component, C82_computed, C82_partial_range, C82_vectors, C83_identity_refuted, C83_partial, C83_refuted, C84_global_indices, C89_eas_coupled_newton, C89_eas_no_step_lost, C90_assumed_stress_coupled_newton, C90_initial_state, C90_no_step_lost, C91_assumed_stress_linear_state, C91_eas_linear_state, C92_iteration_partial, C92_stateless_agrees, C93_correction_partial, C93_linear_elements_partial, C93_load_vector_partial, C94_linear_load_control, C95_balanced_partial, C95_imposed_partial, C95_nonlinear_refuted, C95_nonproportional_refuted, C95_unloading_refuted
* `sig_forall_dec`, `functional_extensionality_dep` — 161 theorems: C100_solid_energy, C100_solid_strains, C101_mixed, C107_symmetric, C108_adds_partial, C108_adds_refuted, C108_schur, C109_symmetric, C109_values, C110_constant_gradient, C110_constant_stress, C110_patch_test, C111_gradients_partial, C111_positive_definite, C111_undeformed_partial, C112_adds, C112_symmetric, C114_history, C114_symmetric, C115_adds_partial, C115_adds_refuted, C115_newton, C115_schur, C116_energy_partial, C116_initial, C116_linear_update, C116_linear_vector, C116_stale_refuted, C117_positive_definite, C117_transformation, C118_constant, C118_linear, C118_patch_test, C127_node_partial, C127_search, C127_small_refuted, C129_exact, C129_iterated, C135_buffers, C135_zero_partial, C141_linear, C141_measures, C141_plane_strain, C141_raises, C143_aborts, C143_refuted, C143_values_partial, C144_from_matrix, C144_from_vector, C144_matrix_roundtrip, C144_misuse, C144_types, C144_vector_roundtrip, C146_random_start, C147_sparse, C158_plane_strain_refuted, C158_stresses_partial, C159_diagonal, C159_preconditioners, C160_forces, C160_stress_forces, C160_stress_update, C160_update, C161_initial, C161_linear_solid, C161_load, C161_residual, C162_no_energy, C162_solid_form, C164_forces, C164_load_factor, C164_strains, C164_superposition, C166_correction, C167_numbering, C167_order, C168_equilibrium, C168_forces, C168_gradient, C168_small_forces, C168_strain, C170_diagonal, C170_parts, C170_sum_partial, C173_hooke_isotropic, C173_linear_energy, C173_solid_energy, C174_solid, C182_linearised, C185_compliance_isotropic, C187_energy, C187_unknowns, C188_energy, C188_rest, C189_constant, C189_follows, C189_means, C191_energy, C191_residual, C192_unstressed, C23_exact_increments, C24_exact_from_tBegin_partial, C30_radius_partial, C31_exact_partial, C35_from_to, C35_to, C35_to_from, C36_dot, C36_product, C38_multiplicative2, C38_multiplicative3, C38_transform2, C38_transform3, C40_condensation_partial, C40_nonsymmetric_refuted, C42_energy, C42_implementations, C42_positive, C42_representations, C43_inversion, C43_invertible, C43_representations, C47_available, C47_direct, C47_root, C47_voigt, C48_available, C48_composition, C48_measures, C48_roundtrip, C48_symmetry, C48_voigt, C48_work, C53_admissible, C53_incompressible, C55_from_voigt, C55_hydrostatic_partial, C55_hydrostatic_refuted, C61_displacement_restart_refuted, C61_intermediate, C61_load_control_restart_refuted, C62_load_control, C67_dyadic, C67_identity, C67_ikjl, C67_symmetric, C67_symmetric_identity, C67_two_slots, C69_inverse, C71_strain_measures, C71_vanishing_strain, C81_principal, C88_neohooke, C96_linear_adds, C96_linear_symmetric, C96_nonlinear_adds, C96_nonlinear_symmetric, C97_volume_dead, C97_volume_reference, C97_volume_resultant, C99_tangent
* `sig_forall_dec`, `sig_not_dec`, `classic`, `functional_extensionality_dep` — 146 theorems: C100_equilibrium, C100_shell_equilibrium, C100_solid_equilibrium, C101_shell, C109_displacement_gradient, C109_suitable, C111_compressed_refuted, C113_decomposition, C113_driver, C113_energy_agrees, C113_pressure_partial, C113_pressure_refuted, C116_rate_refuted, C119_accuracy_partial, C119_arguments, C119_arguments_refuted, C119_bracket, C119_converges, C119_result, C119_terminates, C131_curved_refuted, C131_draw_refuted, C131_first_zero, C131_gradient_partial, C131_hessian_partial, C131_jacobian_partial, C131_polynomial, C131_rejected_refuted, C131_straightest, C131_tiny_refuted, C131_zero_refuted, C135_buffers_refuted, C136_refuted, C157_arruda, C157_arruda_refuted, C157_energies, C157_factories, C157_gent, C157_moduli, C160_defect_partial, C160_stress_defect, C162_clapeyron, C162_minimum, C162_one_step, C162_quadratic, C162_solver, C162_unique, C163_neohooke, C164_reciprocal, C168_exact, C168_step, C173_equilibrium, C173_hyperelastic_isotropic, C173_linear_forces, C173_linear_stiffness, C173_load, C173_skill, C173_solid_forces, C173_solid_stiffness, C173_structure, C173_truss_elements, C174_coordinates, C174_skill, C174_units, C177_plane_stress_refuted, C178_plane_stress_refuted, C180_plane_stress_refuted, C182_small_forces, C183_results, C185_assumed_stresses, C185_displacement_gradients, C185_enhanced_strains, C187_decomposed, C187_forces, C187_stiffness, C188_equilibrium, C190_displacement_gradients, C190_green_lagrange, C190_transposed, C191_equilibrium, C192_forces, C192_rotation, C192_shell, C192_solid, C192_stiffness, C192_translation, C193_green_lagrange, C193_transposed, C194_forces, C194_stiffness, C194_update, C195_forces, C195_stiffness, C196_truss, C24_rounding_partial, C24_thousand_partial, C29_arc_length_idbc, C29_arc_length_partial, C29_before_prediction_refuted, C29_displacement_control, C29_load_control, C29_repeated_index_refuted, C42_derivatives, C42_derivatives_voigt, C45_abort, C45_derivatives, C45_reference, C45_symmetry, C46_inversion, C46_rejects, C46_roundtrip, C49_derivatives, C50_reference_partial, C50_reference_refuted, C51_derivatives, C51_equal_stretches, C51_stresses, C52_refuted, C54_force, C54_stiffness, C70_plane_stress_partial, C70_vanishing_refuted, C72_admissible_partial, C72_admissible_refuted, C73_two_point, C74_minimum, C74_modulus, C75_gent, C75_moduli_partial, C75_moduli_refuted, C75_terms, C76_symmetric_partial, C76_symmetric_refuted, C77_reference, C78_deviatoric_stress, C78_isochoric, C78_isotropy, C80_refuted, C81_polar, C81_polar_component_refuted, C85_isotropy, C86_stress, C87_moduli_partial, C87_moduli_refuted, C99_forces, C99_stiffness
* `sig_forall_dec`, `sig_not_dec`, `functional_extensionality_dep` — 143 theorems: C100_shell_energy, C100_shell_rigid, C100_shell_strains, C101_composition, C101_linear_solid, C101_load, C101_solid, C102_adds_partial, C102_adds_refuted, C102_overwrites, C107_forces, C107_tangent, C108_equilibrium, C108_frozen, C109_additive, C109_transposed, C111_eleven_refuted, C111_gauss_partial, C112_forces, C112_stiffness, C114_complementary, C114_forces, C114_tangent, C115_equilibrium, C115_frozen, C116_rate_partial, C130_least_squares, C130_reproduces, C136_partial, C136_scaled, C140_message_refuted, C140_parameters, C140_rejected, C142_tolerance_partial, C142_tolerance_refuted, C145_consistent_partial, C145_energy_partial, C145_within_tolerance_refuted, C146_inner, C147_full, C147_raw, C147_reduced, C148_equilibrium, C148_supports, C149_region, C149_residual_partial, C154_steps, C154_success, C154_supports, C156_arc_length_partial, C156_size_refuted, C156_structure, C158_plane_stress_refuted, C158_vanishing_stress_partial, C159_ends, C159_energy, C159_residual, C159_supports_partial, C161_reactions, C161_truss, C162_solids, C163_inverts, C163_linear, C166_same_run, C167_solver, C173_solid_elements, C173_truss, C174_numbering, C174_same_run, C174_tolerance_refuted, C174_truss, C174_truss_elements, C177_assumed_plane_strain, C177_plane_strain, C177_plane_stress_partial, C177_three_d, C178_plane_strain, C178_plane_stress_partial, C178_three_d, C180_plane_strain, C180_plane_stress_partial, C180_pressure_lost_refuted, C181_energy, C181_forces, C181_plate, C181_stiffness, C182_bar, C183_energy, C184_assumed_stresses, C184_displacement_gradients, C184_enhanced_strains, C186_displacement_gradients, C186_green_lagrange, C189_material, C27_iteration_based, C27_sequence_shrinks, C27_zero_target_rejected, C28_negative_step, C28_predictor, C28_predictor_idbc, C32_trust_region, C39_dependent, C39_orthonormal, C44_plane_stress, C44_reduction, C44_stress_is_tangent_strain, C52_linear_partial, C52_never_raises, C52_partial, C53_conversions, C53_roundtrip, C53_roundtrip_back, C54_equilibrium, C54_reference, C54_skill, C54_symmetric, C54_tension, C55_hydrostatic_state, C55_triaxiality_partial, C55_triaxiality_refuted, C55_von_mises, C61_arc_length_restart_refuted, C61_from_zero_partial, C61_new, C62_displacement_partial, C62_two_dofs_refuted, C70_reduction_partial, C79_axial_force, C79_objectivity, C80_partial, C88_agrees, C88_check_partial, C88_negative_refuted, C96_green_lagrange, C96_linear_forces, C96_linear_stiffness, C96_nonlinear_forces, C96_nonlinear_stiffness, C96_svk, C97_traction_gradient, C97_volume_gradient, C99_adds, C99_symmetric
* `sig_forall_dec` — 17 theorems: C108_symmetric, C127_positions, C127_visits, C129_points, C142_options_partial, C142_options_refuted, C142_parameters, C161_current, C163_returned, C170_shape_refuted, C37_uninitialised_refuted, C40_unsorted_refuted, C52_no_iterations, C68_enlarge_matrix, C68_enlarge_vector, C98_half_load_refuted, C98_no_load_partial
* primitives only: PrimFloat.abs, PrimFloat.add, PrimFloat.div, PrimFloat.eqb, PrimFloat.float, PrimFloat.leb, PrimFloat.ltb, PrimFloat.mul, PrimFloat.opp, PrimFloat.sqrt, PrimFloat.sub — 9 theorems: C125_rejected_refuted, C125_trust_region_refuted, C159_random_refuted, C30_stale_stop_reason_refuted, C30_zero_radius_refuted, C31_rounding_refuted, C63_rejections_refuted, C92_accepted_refuted, C92_rejected_refuted
* primitives only: PrimFloat.add, PrimFloat.div, PrimFloat.float, PrimFloat.leb, PrimFloat.ltb, PrimFloat.mul, PrimFloat.opp, PrimFloat.sqrt, PrimFloat.sub — 3 theorems: C149_iterations_refuted, C149_stops_early_refuted, C149_success_refuted
* primitives only: PrimFloat.float — 2 theorems: C172_count_refuted, C172_norm_refuted
* primitives only: PrimFloat.add, PrimFloat.eqb, PrimFloat.float, PrimFloat.mul — 1 theorem: C06_nonfinite_refuted
* primitives only: PrimFloat.add, PrimFloat.div, PrimFloat.eqb, PrimFloat.float, PrimFloat.ltb, PrimFloat.of_uint63, PrimFloat.sub, PrimInt63.int, PrimInt63.lor, PrimInt63.lsl — 1 theorem: C24_rounding_refuted
* primitives only: PrimFloat.abs, PrimFloat.add, PrimFloat.div, PrimFloat.eqb, PrimFloat.float, PrimFloat.ltb, PrimFloat.mul, PrimFloat.opp, PrimFloat.sqrt, PrimFloat.sub — 1 theorem: C93_load_vector_refuted
* primitives only: PrimFloat.abs, PrimFloat.add, PrimFloat.div, PrimFloat.eqb, PrimFloat.float, PrimFloat.ltb, PrimFloat.opp — 1 theorem: C17_nan_success_refuted
* primitives only: PrimFloat.add, PrimFloat.div, PrimFloat.eqb, PrimFloat.float, PrimFloat.mul, PrimFloat.sqrt, PrimFloat.sub — 1 theorem: C29_zero_load_increment_refuted
* primitives only: PrimFloat.abs, PrimFloat.add, PrimFloat.div, PrimFloat.eqb, PrimFloat.float, PrimFloat.mul, PrimFloat.sqrt, PrimFloat.sub — 1 theorem: C55_von_mises_number_refuted
* primitives only: PrimFloat.abs, PrimFloat.add, PrimFloat.div, PrimFloat.float, PrimFloat.leb, PrimFloat.ltb, PrimFloat.mul, PrimFloat.opp, PrimFloat.sqrt, PrimFloat.sub — 1 theorem: C65_start_vector_refuted
* primitives only: PrimFloat.add, PrimFloat.eqb, PrimFloat.float, PrimFloat.ltb, PrimFloat.mul, PrimFloat.sqrt, PrimFloat.sub — 1 theorem: C59_nan_refuted

## Not modelled

* Grid and function-space construction (dune-grid, dune-functions), which are contracts where results depend on them.
* Text that is printed or logged (the numbers in it are), plots, file formats, the program header printed by `init`, wall-clock time, memory exhaustion, threads.
* Templates and concepts (`concepts.hh`, `traits.hh`, `derivativetraits.hh`, `fetraits.hh`): the model has the instantiated functions; what does not compile is left out.
* Floating-point rounding, except where a theorem says binary64; overflow of machine integers, except in C41 and where stated.
* Just-in-time compilation of Python modules (`python/ikarus/generator.py` and the `__init__.py` files that only build type names).
* Code under `tests`, `docs`, `ikarus/python/test`.

## How the areas are modelled

| files | modelled code and approach |
|---|---|
| Assembler*, AssemblerSparse, AssemblerHistory | flags are a `list bool`; elements are lists of global indices with local vector and matrix; dense matrices are lists of rows, sparse ones compressed columns; the sparse assembler is a state machine (value arrays, appended index caches, flags), invariant by induction over requests. Specification: entry (r,c) is the left fold of `add` over the matching local entries |
| Binding | state machine for binding and manipulators, on top of the sparse assembler; induction over operation lists |
| Dirichlet | heap of flag vectors and backends so that aliasing of copies is expressible; boundary functions are parameters |
| FixBoundary | a grid is the list of its elements with their boundary intersections and degrees of freedom; callbacks are functions on the flag vector; order independence by permutations |
| Broadcast, Lifetime | tokens are reference counted cells; induction over histories of register/copy/drop/notify/trim/subscribe/unsubscribe; Lifetime adds the objects the callbacks refer to |
| Newton*, Idbc, Condensation | solver loop over arbitrary numbers and vectors with residual, tangent, linear solver and update as parameters; `W` is the state outside the solver that listeners may change (internal variables); affine case in mathcomp matrices of any size |
| PathFunctions, Control | the three subsidiary functions over real vectors of any length; runs with message traces over a solver parameter |
| TrustRegion*, TCG | outer loop with parameters for energy, gradient and inner solve; Steihaug loop over real vectors with a symmetric operator, conjugacy invariants; binary64 counterexamples |
| LinearSolver, EigenSolver, EigenDense, LinearAlgebra, BlockVector, DiagonalMatrix | memory cells for matrices; contracts for Eigen and Spectra; condensation and orthogonalisation over the reals for every size; vectors of manifold points, diagonal matrices |
| FERequirements, Factory, PythonLifetime, PythonState, PythonSparse | heaps and ownership; undefined behaviour when a destroyed object is used; induction over histories |
| Tensor, Conversions, Lame, Utils, Results | explicit tensors as memories, real algebra, `ring`/`field`/`nra`; integers for `ct_sqrt` and line segments |
| SVK, NeoHooke*, Volumetric, Deviatoric, Hyperelastic*, Spectral*, Stretches, Objectivity, VanishingStress, NumericalInversion, LambertW | materials over the reals; derivatives with Coquelicot along arbitrary directions; spectral decomposition of symmetric matrices proved to exist; NaN-extended reals for the admissibility check |
| Truss, Element, Shell, Eas*, Pressure*, AssumedStress*, AutoDiff* | integration loops of the elements for any number of nodes and integration points; forces and stiffness are derivatives of the energy (Coquelicot); block elimination (mathcomp) |
| FEHelper, Nodes, FlatBasis, Sanity | index maps, Lagrange nodes, derivative checks |
| FieldShape | components of interpolated fields from the tree of the basis |
| Output, Logger | writer state machine, values in the printed rows |
| PythonBinding, PythonMaterial | binding functions as the argument conversions and copies that pybind11 makes (a contract), then the modelled C++ functions |
| Muesli | the wrapper over an arbitrary material of the muesli library; conversions of tensors and parameters |
| Result | result containers: registered types, Voigt and column-wise conversion |
| VanishingTangent | tangent of materials with vanishing stresses as a Schur complement, consistent with the reduced stress |
| VanishingInversion | strains and inverse moduli of given plane stresses |
| TrustRegionCauchy, TCGReport | decrease of the inner solver compared with steepest descent; report of the inner solver with stop reasons |
| TrussSkill, AssemblyMesh, StructureNewton | composition: element skills, assembly over arbitrary meshes, factory, Newton-Raphson; equilibrium and supports |
| StructureReactions, LinearStructure, LoadCases, FullReduced, Numbering, PatchTest | global balance of reactions and loads; quadratic energy, least energy, one-step solution of linear structures; superposition and reciprocity of load cases; full and reduced systems side by side; order and numbering; patch test of structures |
| SanityZero | derivative checks when an error is exactly zero |
| ElementLife | histories of element objects with enhanced strains or assumed stresses: binding, rules, numbers of parameters, updates, refusals |
| StressResult | calculateStress and calculateAtImpl of the stress results of solids (linearelastic.hh, nonlinearelastic.hh, enhancedassumedstrains.hh, assumedstress.hh); the strain or displacement gradient at the point is an argument |
| PlanePressure | reduction of the deviatoric and the volumetric part (decomposehyperelastic.hh), energy and stresses of the driver and of the stress results (displacementpressure.hh); the two parts are functions of the Green-Lagrange strain |
| FlatShell, ElementKinship, ShellCoordinates, CornerNumbering, CornerModes, CondensedCoordinates, VariantKinship, PressureCoordinates, PressureBody, EnhancedBody, AssumedBody, Corotation, CondensedMotion, AssumedMotion, PressureMotion, TrussMotion (no model of their own) | comparisons of the models Shell, Element, Truss, Eas, AssumedStress and Pressure: flat shells with sheets and plates, nonlinear with linear solids, trusses with bars, shells in other coordinates and parameters, enhanced strains and assumed stresses with the corners numbered in another way and in other coordinates, the variants of the enhanced strains at rest with each other, enhanced strains and assumed stresses after rigid motions, displacements with pressures in other coordinates, after rigid motions and without the pressures, forces and stiffness of solids and shells after rigid motions |
| ResultDispatch | supported result types, overload resolution of calculateAt, lookup by name; what a skill computes is an argument |
| RoundedLoad | load control in binary64 arithmetic: real values with rounding to nearest after each operation (Flocq), gradual underflow, no overflow |
| ControlLogger | what the control logger prints for the messages of the control routines |
| StructureLoad, PathSizes, ArcLengthRun | load control over whole structures; sizes and definedness along path following; what the steps of the arc-length method satisfy |
| MaterialFactory, SmallStrain | factories of the hyperelastic materials: energies, accepted parameters, moduli at small strains |
| ReducedMatrix | materials with vanishing stresses or strains in matrix form, for all strain measures |
| StructureTrust | trust-region solves of whole structures: energy, residual, supports |
| CondensedEquilibrium, EasEquilibrium, AssumedStressEquilibrium | convergence of structures with condensed internal variables; defect of the internal equations |
| ListenerView, TrustListenerView | the values told to the listeners of Newton and trust-region solves |
| Coordinates | the same structure described in two coordinate systems (no model of its own; uses Element, Truss, Hyperelastic and AssemblyMesh) |
| Descriptions | Newton runs of one structure in two coordinate systems, numberings or units (no model of its own; uses StructureNewton) |
## Properties

The theorems of each property and notes are in `MANIFEST.json`.

| id | property | status | files |
|---|---|---|---|
| C01 | Reduced numbering of free dofs | proved | Assembler_Props |
| C02 | Full/reduced vector round trip | proved | Assembler_Props |
| C03 | Raw assembly accumulates every element contribution at its global index | proved | Assembler_Props |
| C04 | Full and reduced vectors are the raw vector with Dirichlet treatment | proved | Assembler_Props |
| C05 | Full and reduced dense matrices are the raw matrix with Dirichlet treatment | proved | Assembler_Props |
| C06 | Sparse and dense assemblers agree | partial | Assembler_Props |
| C07 | Assembler results do not depend on call history | proved | Assembler_Props |
| C08 | Sparse assembly only writes to slots that belong to the addressed entry | proved | Assembler_Props |
| C09 | Binding discipline of assemblers | proved | Binding_Props |
| C10 | Manipulated assemblers apply callbacks in registration order | partial | Binding_Props |
| C11 | Dirichlet flags reflect the history of operations | proved | Dirichlet_Props |
| C12 | Copies of Dirichlet values are independent | partial | Dirichlet_Props |
| C13 | Inhomogeneous boundary values are written at the constrained solution entries | partial | Dirichlet_Props |
| C14 | Notify reaches exactly the live listeners | proved | Broadcast_Props |
| C15 | Unregistering a listener silences it | partial | Broadcast_Props |
| C16 | Newton-Raphson performs a bounded number of iterations | proved | Newton_Props |
| C17 | A successful Newton-Raphson solve is converged | partial | Newton_Props |
| C18 | An unsuccessful Newton-Raphson solve is not converged | partial | Newton_Props |
| C19 | Message protocol of the Newton-Raphson solver | proved | Newton_Props |
| C20 | Newton-Raphson solves affine problems in one iteration | proved | NewtonLinear_Props |
| C21 | Subsidiary-function Newton step solves the bordered linearised system | proved | NewtonLinear_Props |
| C22 | Successful path-following steps satisfy equilibrium and the subsidiary equation | partial | NewtonSteps_Props, Newton_Props |
| C23 | Load control applies equal load increments and stops at the first failure | proved | Control_Props |
| C24 | Load control ends at tEnd | partial | Control_Props, RoundedLoad_Props |
| C25 | Message protocol of control routines | partial | Control_Props |
| C26 | Path following stops at the first failure and counts steps | proved | Control_Props |
| C27 | Adaptive step sizing only shrinks the step | proved | Control_Props |
| C28 | Arc-length predictor satisfies the arc-length equation | proved | PathFunctions_Props |
| C29 | Subsidiary functions report exact derivatives | partial | PathFunctions_Props |
| C30 | Trust-region radius stays in (0, maximum radius] | partial | TrustRegion_Props |
| C31 | Trust-region never accepts a significant energy increase and rejection restores the state | partial | TrustRegion_Props |
| C32 | Truncated conjugate gradient stays inside the trust region and decreases the model | proved | TCG_Props |
| C33 | Requirement copies are deep and access errors are explicit | proved | FERequirements_Props |
| C34 | Affordance conversions are consistent | proved | FERequirements_Props |
| C35 | Voigt conversion round trips | proved | Tensor_Props |
| C36 | Voigt products reproduce tensor contractions | proved | Tensor_Props |
| C37 | Voigt matrix to fourth-order tensor round trip has minor symmetries | partial | Tensor_Props |
| C38 | Strain transformation matrix | proved | Tensor_Props |
| C39 | Orthonormalisation | proved | LinearAlgebra_Props |
| C40 | Static condensation eliminates the condensed unknowns exactly | partial | LinearAlgebra_Props |
| C41 | Compile-time square root | proved | Utils_Props |
| C42 | St. Venant-Kirchhoff consistency | proved | SVK_Props |
| C43 | St. Venant-Kirchhoff inversion round trip | proved | SVK_Props |
| C44 | Plane-stress reduction of SVK | proved | VanishingStress_Props |
| C45 | Neo-Hooke stress and tangent are derivatives of the energy | proved | NeoHooke_Props |
| C46 | Neo-Hooke closed-form inversion | proved | NeoHookeInversion_Props |
| C47 | Strain measure conversions | proved | Conversions_Props |
| C48 | Stress measure conversions are invertible | proved | Conversions_Props |
| C49 | Volumetric functions: derivatives | proved | Volumetric_Props |
| C50 | Volumetric functions: reference state | partial | Volumetric_Props |
| C51 | Deviatoric functions: derivatives | proved | Deviatoric_Props |
| C52 | Numerical material inversion reports non-convergence | partial | NumericalInversion_Props |
| C53 | Elastic constant conversions are mutually consistent | proved | Lame_Props |
| C54 | Truss forces and stiffness derive from its energy | proved | TrussSkill_Props, Truss_Props |
| C55 | Stress result evaluators | partial | Results_Props |
| C56 | Eigenvalue solver set-up covers the whole spectrum | partial | EigenSolver_Props |
| C57 | Element-local increments are addressed consistently | partial | FEHelper_Props |
| C58 | Sorting and unique helpers | proved | Utils_Props |
| C59 | findLineSegment returns the straightest window | partial | Utils_Props |
| C60 | Stopping criterion of the trust-region solver is sound | proved | TrustRegion_Props |
| C61 | Path following continues from the given state | partial | PathFunctions_Props |
| C62 | Load- and displacement-control predictors satisfy their constraint | partial | PathFunctions_Props |
| C63 | Trust-region success means a stationary point or an accepted tiny step | partial | TrustRegion_Props |
| C64 | Trust-region message protocol | proved | TrustRegion_Props |
| C65 | Truncated conjugate gradient with a start vector stays in the trust region | partial | TCG_Props |
| C66 | References taken from a requirement stay usable while it lives | partial | FERequirements_Props |
| C67 | Fourth-order tensor products act as documented | proved | Tensor_Props |
| C68 | Reduced and full Voigt quantities correspond | proved | LinearAlgebra_Props |
| C69 | Reduced compliance is the inverse of the condensed stiffness | proved | LinearAlgebra_Props |
| C70 | Vanishing-stress materials have zero fixed stresses | partial | NeoHookeInversion_Props, VanishingStress_Props |
| C71 | Vanishing-strain materials are restrictions | proved | ReducedMatrix_Props, VanishingStress_Props |
| C72 | Neo-Hooke inversion returns an admissible strain | partial | NeoHookeInversion_Props |
| C73 | Two-point moduli are the tangent of the PK1 stress | proved | Conversions_Props |
| C74 | Volumetric functions are normalised and minimal at J = 1 | proved | Volumetric_Props |
| C75 | Deviatoric functions provide energy, stresses and moduli together | partial | Deviatoric_Props |
| C76 | Principal moduli are symmetric | partial | Deviatoric_Props |
| C77 | The undeformed configuration is free of energy and stress | proved | Deviatoric_Props |
| C78 | Deviatoric functions ignore changes of volume and the numbering of principal directions | proved | Deviatoric_Props |
| C79 | Truss results are objective and agree with the nodal forces | proved | Truss_Props |
| C80 | Numerical material inversion returns moduli of the returned strain | partial | NumericalInversion_Props |
| C81 | Principal and polar stresses | partial | Results_Props |
| C82 | Eigenvalue solvers hand out results of a successful computation only | proved | EigenSolver_Props |
| C83 | Eigenvalue solver for dense matrices checks the sizes | partial | EigenSolver_Props |
| C84 | The global indices of an element cover its local dofs exactly once | proved | FEHelper_Props |
| C85 | Hyperelastic materials are isotropic | proved | Hyperelastic_Props |
| C86 | Stresses of hyperelastic materials are twice the derivative of the energy | proved | Hyperelastic_Props |
| C87 | Tangent moduli of hyperelastic materials are twice the derivative of the stresses | partial | Hyperelastic_Props |
| C88 | Tensors whose determinant is not positive are refused | partial | HyperelasticCheck_Props |
| C89 | Newton steps with enhanced strains are Newton steps of the coupled equations | proved | Condensation_Props |
| C90 | Newton steps with assumed stresses are Newton steps of the coupled equations | proved | Condensation_Props |
| C91 | Internal variables of linear elements do not depend on how they were obtained | proved | Condensation_Props |
| C92 | Internal variables follow the trust-region solver | partial | TrustRegionState_Props |
| C93 | Load vector in path following with internal variables | partial | NewtonLoad_Props |
| C94 | Load control with prescribed displacements on linear structures | proved | Idbc_Props |
| C95 | A successful load step with prescribed displacements is balanced and has the prescribed displacements | partial | Idbc_Props |
| C96 | Forces and stiffness of solid elements derive from the element energy | proved | Element_Props |
| C97 | Volume and boundary loads derive from their potential | proved | Element_Props |
| C98 | An incompletely specified boundary load has no effect | partial | Element_Props |
| C99 | Forces and stiffness of the Kirchhoff-Love shell derive from its energy | proved | Shell_Props |
| C100 | Rigid motions cause neither strains nor energy, and internal forces are self-equilibrated | proved | Objectivity_Props |
| C101 | An element composed of skills is consistent if its skills are | proved | Element_Props, Shell_Props |
| C102 | The shell element adds its stiffness to the given matrix | partial | Shell_Props |
| C103 | A copied linear solver solves like the original | partial | LinearSolver_Props |
| C104 | A linear solver solves with the last matrix it was given | partial | LinearSolver_Props |
| C105 | A matrix may be changed after it has been factorised | partial | LinearSolver_Props |
| C106 | Every linear solver that can be made can be used | partial | LinearSolver_Props |
| C107 | Forces and matrices of enhanced assumed strain elements are derivatives of one energy | proved | Eas_Props |
| C108 | Static condensation keeps the element consistent | partial | Condensation_Props, EasEquilibrium_Props, Eas_Props |
| C109 | Enhanced strains have the derivatives the elements use | proved | EasStrains_Props |
| C110 | Enhanced assumed strain elements pass the patch test | proved | EasModes_Props |
| C111 | The internal variables of enhanced assumed strain elements can be eliminated | partial | EasGradientInvertible_Props, EasInvertible_Props |
| C112 | Forces and matrices of displacement-pressure elements are derivatives of one energy | proved | Pressure_Props |
| C113 | A displacement-pressure element behaves like the material it is given | partial | PressureMaterial_Props |
| C114 | Assumed stress elements are consistent with one mixed functional | proved | AssumedStress_Props |
| C115 | Condensing the stress parameters gives the Newton step of the mixed problem | partial | AssumedStress_Props |
| C116 | The energy an assumed stress element reports belongs to its forces | partial | AssumedStressEnergy_Props |
| C117 | The condensation of an assumed stress element exists | proved | AssumedStressModes_Props |
| C118 | Assumed stress elements pass the patch test | proved | AssumedStressModes_Props |
| C119 | The principal branch of Lambert's function is computed, or the argument is refused | partial | LambertW_Props |
| C120 | Output files contain the requested fields with the values of the time of writing | partial | Output_Props |
| C121 | The control writer writes one file with the solution for every change of the solution | partial | Output_Props |
| C122 | Results are evaluated at the element they are asked for | partial | Output_Props |
| C123 | A subscribed listener handles every message as long as it exists, and nothing else does | partial | Lifetime_Props |
| C124 | The elements of a control routine are told every correction once | partial | Lifetime_Props |
| C125 | The table printed for a solve shows the iterations | partial | Logger_Props |
| C126 | A generic listener is called for its message only | proved | Logger_Props |
| C127 | Nodes are found by position | partial | Nodes_Props |
| C128 | The flat basis numbers all degrees of freedom consecutively | proved | FlatBasis_Props |
| C129 | The tensor product rule integrates first along the new direction | proved | Sanity_Props |
| C130 | The fitted polynomial is closest to the data | proved | Sanity_Props |
| C131 | The derivative checks accept right and reject wrong derivatives | partial | SanityZero_Props, Sanity_Props |
| C132 | A function made from an assembler gives its forces and stiffness for ever | partial | Factory_Props |
| C133 | A solver made by the factory works independently of the factory | partial | Factory_Props |
| C134 | What a function returned does not change | partial | Factory_Props |
| C135 | Automatic differentiation gives what the element computes itself | partial | AutoDiff_Props |
| C136 | Stresses and moduli by automatic differentiation are those of the material | partial | AutoDiffMaterial_Props |
| C137 | Python objects keep alive what they use | partial | PythonLifetime_Props |
| C138 | Looking at a sparse matrix in a Python callback changes nothing | partial | PythonSparse_Props |
| C139 | An assembler bound in Python evaluates the requirement it was bound to last | partial | PythonBinding_Props |
| C140 | Python materials have the elastic constants given by keyword | partial | PythonMaterial_Props |
| C141 | Python material functions do not depend on the strain measure used | proved | PythonMaterial_Props |
| C142 | Options of Python materials take effect | partial | PythonMaterial_Props |
| C143 | Muesli materials are evaluated at the strain passed, independent of history | partial | Muesli_Props |
| C144 | Vector and matrix form of a result hold the same numbers | proved | Result_Props |
| C145 | The tangent of a material with vanishing stresses is the derivative of its stresses | partial | VanishingTangent_Props |
| C146 | Trust-region steps are at least as good as steepest descent | proved | TrustRegionCauchy_Props |
| C147 | Assembled forces and matrices derive from the assembled energy | proved | AssemblyMesh_Props |
| C148 | A structure reported as converged is in equilibrium and its supports have not moved | proved | StructureNewton_Props |
| C149 | What the truncated conjugate gradient solver reports is true | partial | TCGReport_Props |
| C150 | A reused element object behaves like a new one | partial | ElementLife_Props |
| C151 | Enhanced strains and assumed stresses are refused for elements that do not support them | partial | ElementLife_Props |
| C152 | The solver for dense generalised eigenvalue problems can be built and says whether it succeeded | partial | EigenDense_Props |
| C153 | The log of a control routine shows its steps | partial | ControlLogger_Props |
| C154 | Every load step reported as solved is in equilibrium with its loads | proved | StructureLoad_Props |
| C155 | Path following can be used with full and with reduced systems | partial | PathSizes_Props |
| C156 | Every arc-length step reported as solved is an equilibrium point at the wanted distance | partial | ArcLengthRun_Props |
| C157 | Hyperelastic materials linearise to linear elasticity with the moduli of their parameters | partial | SmallStrain_Props |
| C158 | Reduced materials give the same stresses and tangents in matrix form as in Voigt form | partial | ReducedMatrix_Props |
| C159 | A trust-region solve lowers the energy of a structure, leaves its supports at rest and reports the true residual | partial | StructureTrust_Props |
| C160 | A structure with internal variables that is reported as converged is in equilibrium, internal variables included | partial | AssumedStressEquilibrium_Props, CondensedEquilibrium_Props, EasEquilibrium_Props |
| C161 | The reactions of a structure in equilibrium balance its loads, in force and in moment | proved | StructureReactions_Props |
| C162 | A linear structure is solved in one step and its solution has the least potential energy | proved | LinearStructure_Props |
| C163 | Plane stress materials return the strain and the compliance of a given plane stress | proved | VanishingInversion_Props |
| C164 | Load cases of a linear structure superpose and are reciprocal | proved | LoadCases_Props |
| C165 | Interpolated fields have the components of their basis | partial | FieldShape_Props |
| C166 | Full and reduced systems lead through the same states | proved | FullReduced_Props |
| C167 | Results do not depend on the order of elements, and renumbered structures have renumbered results | proved | Numbering_Props |
| C168 | Structures of solid elements pass the patch test | proved | PatchTest_Props |
| C169 | Corrections and views of vectors of manifold points reach the right points | partial | BlockVector_Props |
| C170 | Diagonal matrices mix correctly with full matrices | partial | DiagonalMatrix_Props |
| C171 | What the listeners of a Newton solver are told is what happens | partial | ListenerView_Props |
| C172 | What the listeners of the trust-region solver are told is what happens | partial | TrustListenerView_Props |
| C173 | Results do not depend on the coordinate system | proved | Coordinates_Props, ShellCoordinates_Props |
| C174 | A Newton solver goes through the same states whatever coordinates, numbering and units a structure is described in | partial | Descriptions_Props |
| C175 | In Python, an assembler uses the internal variables of its elements as last updated | partial | PythonState_Props |
| C176 | fixBoundaryDOFs fixes exactly the degrees of freedom on the selected parts of the boundary | partial | FixBoundary_Props |
| C177 | The full stress results contain the stress results in the plane | partial | StressResult_Props |
| C178 | Kirchhoff and Cauchy stress results are those of the deformed body | partial | StressResult_Props |
| C179 | An element offers exactly the results it can compute, each once, under its name | partial | ResultDispatch_Props |
| C180 | Displacement-pressure elements with plane materials compute the stresses of the plane body | partial | PlanePressure_Props |
| C181 | A flat Kirchhoff-Love shell is a plane stress sheet and a Kirchhoff plate | proved | FlatShell_Props |
| C182 | Nonlinear solids linearise to linear solids, and trusses on a line are one-dimensional solids | proved | ElementKinship_Props |
| C183 | What a shell computes depends neither on the coordinates nor on the parametrisation of its surface | proved | ShellCoordinates_Props |
| C184 | Elements with enhanced strains or assumed stresses do not depend on how their corners are numbered | proved | CornerNumbering_Props |
| C185 | Elements with enhanced strains or assumed stresses do not depend on the coordinate system | proved | CondensedCoordinates_Props |
| C186 | In small displacements all variants of the enhanced strains are the same element | proved | VariantKinship_Props |
| C187 | Displacement-pressure elements do not depend on the coordinate system | proved | PressureCoordinates_Props |
| C188 | Rigid motions do nothing to displacement-pressure elements | proved | PressureBody_Props |
| C189 | The pressure of a displacement-pressure element is the modulus times the change of volume, in the mean | proved | PressureBody_Props |
| C190 | Rigid motions do nothing to elements with enhanced strains | proved | EnhancedBody_Props |
| C191 | Rigid motions do nothing to elements with assumed stresses | proved | AssumedBody_Props |
| C192 | Forces and stiffness turn with the element | proved | Corotation_Props |
| C193 | Elements with enhanced strains turn with their forces | proved | CondensedMotion_Props |
| C194 | Elements with assumed stresses turn with their forces | proved | AssumedMotion_Props |
| C195 | Displacement-pressure elements turn with their forces | proved | PressureMotion_Props |
| C196 | Trusses turn with their forces | proved | TrussMotion_Props |
