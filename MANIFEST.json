{
 "claims": [
  {
   "property": "C01",
   "status": "proved",
   "theorems": [
    "C01_constraintsBelow",
    "C01_sizes",
    "C01_reduced_numbering"
   ],
   "note": ""
  },
  {
   "property": "C02",
   "status": "proved",
   "theorems": [
    "C02_reduced_of_full",
    "C02_full_of_reduced",
    "C02_reduced_is_restriction"
   ],
   "note": ""
  },
  {
   "property": "C03",
   "status": "proved",
   "theorems": [
    "C03_scalar",
    "C03_vector",
    "C03_matrix_dense",
    "C03_matrix_sparse",
    "C03_matrix_sparse_repeated"
   ],
   "note": "Within an element that repeats a dof the sparse assembler adds the same summands column by column; the dense one row by row."
  },
  {
   "property": "C04",
   "status": "proved",
   "theorems": [
    "C04_full_vector",
    "C04_reduced_vector"
   ],
   "note": ""
  },
  {
   "property": "C05",
   "status": "proved",
   "theorems": [
    "C05_full_dense",
    "C05_reduced_dense"
   ],
   "note": ""
  },
  {
   "property": "C06",
   "status": "partial",
   "theorems": [
    "C06_sparse_dense_agree",
    "C06_sparse_full_exact",
    "C06_nonfinite_refuted",
    "C06_unattached_refuted"
   ],
   "note": "Raw and Reduced agree for every number type. Full agrees when x*0 = 0 and every constrained dof belongs to an element; with an infinite stiffness the sparse result is NaN where the dense one is 0, and with a constrained dof that belongs to no element the sparse assembler writes to a diagonal entry that is not stored, which Eigen does not allow (both refuted with witnesses)."
  },
  {
   "property": "C07",
   "status": "proved",
   "theorems": [
    "C07_history_independent",
    "C07_every_history_succeeds"
   ],
   "note": "Every history of requests. A request that fails (C06_unattached_refuted) ends the history."
  },
  {
   "property": "C08",
   "status": "proved",
   "theorems": [
    "C08_raw_slots",
    "C08_reduced_slots",
    "C08_slots_unique"
   ],
   "note": ""
  },
  {
   "property": "C09",
   "status": "proved",
   "theorems": [
    "C09_unbound_throws",
    "C09_bound_is_explicit",
    "C09_bound_query_never_false"
   ],
   "note": "bound() throws instead of returning false."
  },
  {
   "property": "C10",
   "status": "partial",
   "theorems": [
    "C10_callbacks_in_order",
    "C10_keeps_binding",
    "C10_original_unchanged",
    "C10_pattern_change_refuted"
   ],
   "note": "Holds for matrix callbacks that keep the sparsity pattern. A callback that changes the pattern of the sparse matrix invalidates the cached slots (refuted with witness). The const reference to the base and throwing callbacks are not modelled."
  },
  {
   "property": "C11",
   "status": "proved",
   "theorems": [
    "C11_flags_reflect_history",
    "C11_no_failure_in_range"
   ],
   "note": ""
  },
  {
   "property": "C12",
   "status": "partial",
   "theorems": [
    "C12_copy_aliases_refuted",
    "C12_dangling_refuted",
    "C12_copy_contents",
    "C12_frame_partial",
    "C12_direct_operations_independent_partial"
   ],
   "note": "False as stated: the backend of a copy refers to the original's flags (refuted with witnesses, aliasing and dangling). Partial: operations that bypass the backend touch only their own object."
  },
  {
   "property": "C13",
   "status": "partial",
   "theorems": [
    "C13_zero_value_refuted",
    "C13_sync_partial",
    "C13_reduced_update_partial",
    "C13_full_update_partial",
    "C13_increment_partial"
   ],
   "note": "False for a prescribed value that becomes zero (refuted). Partial: exact result of the update for every list of functions and load factor."
  },
  {
   "property": "C14",
   "status": "proved",
   "theorems": [
    "C14_notify_exact",
    "C14_notify_with_releases",
    "C14_released_during_notify"
   ],
   "note": "Callbacks may release or copy tokens while a notification runs; registering from inside a callback is undefined behaviour and excluded."
  },
  {
   "property": "C15",
   "status": "partial",
   "theorems": [
    "C15_unregister_copy_refuted",
    "C15_unsubscribe_kept_token_refuted",
    "C15_no_owner_silent_partial",
    "C15_unregister_last_owner_partial"
   ],
   "note": "False while another owner of the token exists (refuted). Partial: releasing the last owner silences the callback in every later history."
  },
  {
   "property": "C16",
   "status": "proved",
   "theorems": [
    "C16_bounded_iterations",
    "C16_setup_rejects",
    "C16_subsidiary_bounded_iterations"
   ],
   "note": "A negative maxIter passes the set-up; then no iteration is made."
  },
  {
   "property": "C17",
   "status": "partial",
   "theorems": [
    "C17_nan_success_refuted",
    "C17_negative_maxIter_refuted",
    "C17_success_converged_partial"
   ],
   "note": "False for NaN residuals and for a negative maxIter (refuted). Partial: otherwise the reported norm is the norm of the returned solution and not above the tolerance. With an IDBC force and no iteration the tested residual includes the force."
  },
  {
   "property": "C18",
   "status": "partial",
   "theorems": [
    "C18_converged_failure_refuted",
    "C18_failure_partial"
   ],
   "note": "False when convergence is reached in the last permitted iteration (refuted). Partial: failure is reported exactly when all permitted iterations were used."
  },
  {
   "property": "C19",
   "status": "proved",
   "theorems": [
    "C19_messages",
    "C19_subsidiary_messages"
   ],
   "note": "The subsidiary solver sends the same messages with SOLUTION_CHANGED before CORRECTIONNORM_UPDATED."
  },
  {
   "property": "C20",
   "status": "proved",
   "theorems": [
    "C20_affine_one_iteration"
   ],
   "note": "Over every field; the linear solver is assumed exact."
  },
  {
   "property": "C21",
   "status": "proved",
   "theorems": [
    "C21_bordered_system",
    "C21_bordered_system_idbc"
   ],
   "note": "Over every field; the linear solver is assumed exact."
  },
  {
   "property": "C22",
   "status": "partial",
   "theorems": [
    "C22_equilibrium_start_refuted",
    "C22_success_partial",
    "C22_zero_iterations_partial",
    "C22_increments",
    "C22_functions_keep"
   ],
   "note": "False when the start value is already in equilibrium: the subsidiary equation is not tested then (refuted). Partial: holds whenever at least one iteration is made. In every case the increments that the subsidiary function sees are those by which solution and load factor have moved."
  },
  {
   "property": "C23",
   "status": "proved",
   "theorems": [
    "C23_load_control",
    "C23_rejects_non_positive_steps",
    "C23_exact_increments"
   ],
   "note": ""
  },
  {
   "property": "C24",
   "status": "partial",
   "theorems": [
    "C24_start_not_tBegin_refuted",
    "C24_rounding_refuted",
    "C24_exact_from_tBegin_partial",
    "C24_rounding_partial",
    "C24_thousand_partial"
   ],
   "note": "False: the run starts from the load factor in the requirements, not tBegin, and repeated floating-point addition misses tEnd (refuted). Partial: started at tBegin, tEnd is reached in exact arithmetic, and in binary64 arithmetic without overflow up to a proved bound (relative error below 1e-12 for up to 1000 steps)."
  },
  {
   "property": "C25",
   "status": "partial",
   "theorems": [
    "C25_load_control_messages_partial",
    "C25_path_following_messages_partial",
    "C25_control_ended_success_refuted",
    "C25_control_ended_sees_failure",
    "C25_no_control_ended_refuted"
   ],
   "note": "Order and content of all messages are exact. CONTROL_ENDED carries success=false although the run succeeded, and it is missing after a failed solve (refuted)."
  },
  {
   "property": "C26",
   "status": "proved",
   "theorems": [
    "C26_path_following",
    "C26_rejects_non_positive_steps"
   ],
   "note": "An exception of the step sizing or the prediction ends the run (outcome Threw)."
  },
  {
   "property": "C27",
   "status": "proved",
   "theorems": [
    "C27_iteration_based",
    "C27_sequence_shrinks",
    "C27_zero_target_rejected",
    "C27_noop_constant"
   ],
   "note": ""
  },
  {
   "property": "C28",
   "status": "proved",
   "theorems": [
    "C28_predictor",
    "C28_predictor_idbc",
    "C28_negative_step"
   ],
   "note": "Exact arithmetic. With prescribed displacements these enter the equation too; they are assumed proportional to the load factor and satisfied by the solution the prediction starts from."
  },
  {
   "property": "C29",
   "status": "partial",
   "theorems": [
    "C29_arc_length_partial",
    "C29_arc_length_idbc",
    "C29_load_control",
    "C29_displacement_control",
    "C29_before_prediction_refuted",
    "C29_zero_load_increment_refuted",
    "C29_repeated_index_refuted"
   ],
   "note": "Load and displacement control hold in full (distinct indices). Arc length: holds after the initial prediction for a non-zero load increment; before it the reported derivatives are zero, and for a zero load increment NaN (refuted)."
  },
  {
   "property": "C61",
   "status": "partial",
   "theorems": [
    "C61_arc_length_restart_refuted",
    "C61_load_control_restart_refuted",
    "C61_displacement_restart_refuted",
    "C61_from_zero_partial",
    "C61_intermediate",
    "C61_new"
   ],
   "note": "False for the first step: the load factor (or the solution, for displacement control) is overwritten (refuted). Partial: starting from zero, and for all later steps."
  },
  {
   "property": "C62",
   "status": "partial",
   "theorems": [
    "C62_load_control",
    "C62_two_dofs_refuted",
    "C62_displacement_partial"
   ],
   "note": "False for two or more controlled dofs: the predicted increment has length stepSize*sqrt(k) (refuted)."
  },
  {
   "property": "C30",
   "status": "partial",
   "theorems": [
    "C30_radius_partial",
    "C30_zero_radius_refuted",
    "C30_stale_stop_reason_refuted"
   ],
   "note": "Partial: exact arithmetic, positive rho_reg, 'boundary hit' as reported by the inner solver. False for rho_reg = 0 (radius 0) and when the inner solver returns early and its old stop reason is still stored (refuted with the modelled inner solver)."
  },
  {
   "property": "C31",
   "status": "partial",
   "theorems": [
    "C31_exact_partial",
    "C31_rounding_refuted"
   ],
   "note": "Acceptance and restoration hold in exact arithmetic; in binary64 a rejected step is undone only up to rounding (refuted)."
  },
  {
   "property": "C60",
   "status": "proved",
   "theorems": [
    "C60_stops",
    "C60_success"
   ],
   "note": "The correction norm is that of the last proposed step, also if it was rejected (see C63)."
  },
  {
   "property": "C63",
   "status": "partial",
   "theorems": [
    "C63_last_accepted_partial",
    "C63_rejections_refuted"
   ],
   "note": "False: a history of rejected steps ends with success although the gradient is large (refuted, NaN energy). Partial: the three possible reasons for success."
  },
  {
   "property": "C64",
   "status": "proved",
   "theorems": [
    "C64_messages",
    "C64_solutions"
   ],
   "note": ""
  },
  {
   "property": "C32",
   "status": "proved",
   "theorems": [
    "C32_trust_region"
   ],
   "note": ""
  },
  {
   "property": "C65",
   "status": "partial",
   "theorems": [
    "C65_start_vector_refuted",
    "C32_trust_region"
   ],
   "note": "False for a start vector other than zero (refuted); the zero start vector is C32."
  },
  {
   "property": "C33",
   "status": "proved",
   "theorems": [
    "C33_value_semantics",
    "C33_independent",
    "C33_populated"
   ],
   "note": ""
  },
  {
   "property": "C34",
   "status": "proved",
   "theorems": [
    "C34_conversions",
    "C34_has",
    "C34_elastoStatics",
    "C34_default"
   ],
   "note": ""
  },
  {
   "property": "C66",
   "status": "partial",
   "theorems": [
    "C66_assignment_refuted",
    "C66_insertion_refuted",
    "C33_value_semantics"
   ],
   "note": "False: assignment and insertion replace the storage, a reference taken before dangles (refuted). C33_value_semantics says exactly how long a reference stays usable."
  },
  {
   "property": "C41",
   "status": "proved",
   "theorems": [
    "C41_ct_sqrt"
   ],
   "note": ""
  },
  {
   "property": "C58",
   "status": "proved",
   "theorems": [
    "C58_unique_sort",
    "C58_append"
   ],
   "note": "std::sort enters by its contract."
  },
  {
   "property": "C59",
   "status": "partial",
   "theorems": [
    "C59_straightest_partial",
    "C59_window_size_refuted",
    "C59_whole_series_refuted",
    "C59_nan_refuted"
   ],
   "note": "False as stated: the window has one point more than segmentSize, a window as long as the series reads an empty list, and a NaN residual in the first window wins. Proved when the residuals are totally ordered and segmentSize is less than the number of points, for windows of segmentSize + 1 points."
  },
  {
   "property": "C35",
   "status": "proved",
   "theorems": [
    "C35_to",
    "C35_from_to",
    "C35_to_from",
    "C35_indices"
   ],
   "note": ""
  },
  {
   "property": "C36",
   "status": "proved",
   "theorems": [
    "C36_dot",
    "C36_matrix",
    "C36_product"
   ],
   "note": ""
  },
  {
   "property": "C37",
   "status": "partial",
   "theorems": [
    "C37_uninitialised_refuted",
    "C37_written_partial"
   ],
   "note": "False: only the entries with ordered index pairs are written, the others are uninitialised (refuted). The written entries are right."
  },
  {
   "property": "C38",
   "status": "proved",
   "theorems": [
    "C38_transform2",
    "C38_transform3",
    "C38_multiplicative2",
    "C38_multiplicative3"
   ],
   "note": ""
  },
  {
   "property": "C67",
   "status": "proved",
   "theorems": [
    "C67_dyadic",
    "C67_symmetric_identity",
    "C67_symmetric",
    "C67_identity",
    "C67_ikjl",
    "C67_two_slots"
   ],
   "note": ""
  },
  {
   "property": "C39",
   "status": "proved",
   "theorems": [
    "C39_orthonormal",
    "C39_dependent"
   ],
   "note": ""
  },
  {
   "property": "C40",
   "status": "partial",
   "theorems": [
    "C40_condensation_partial",
    "C40_unsorted_refuted",
    "C40_nonsymmetric_refuted"
   ],
   "note": "Proved for every size, symmetric matrix and increasing index array. False for unsorted index arrays (writes out of range), and without symmetry."
  },
  {
   "property": "C68",
   "status": "proved",
   "theorems": [
    "C68_indices",
    "C68_enlarge_vector",
    "C68_enlarge_matrix"
   ],
   "note": "std::ranges::sort enters by its contract."
  },
  {
   "property": "C69",
   "status": "proved",
   "theorems": [
    "C69_inverse"
   ],
   "note": ""
  },
  {
   "property": "C42",
   "status": "proved",
   "theorems": [
    "C42_representations",
    "C42_implementations",
    "C42_derivatives",
    "C42_derivatives_voigt",
    "C42_energy",
    "C42_positive"
   ],
   "note": "Over the real numbers."
  },
  {
   "property": "C43",
   "status": "proved",
   "theorems": [
    "C43_invertible",
    "C43_inversion",
    "C43_representations"
   ],
   "note": "Eigen's inverse() enters by its contract: it inverts the matrix if an inverse exists."
  },
  {
   "property": "C44",
   "status": "proved",
   "theorems": [
    "C44_reduction",
    "C44_stress_is_tangent_strain",
    "C44_plane_stress"
   ],
   "note": "Every set of fixed components. Over the real numbers the stress reduction stops when the fixed normal stresses are within the (absolute) tolerance, so the claims about stress are up to the tolerance; exact as soon as one iteration is made."
  },
  {
   "property": "C71",
   "status": "proved",
   "theorems": [
    "C71_vanishing_strain",
    "C71_strain_measures"
   ],
   "note": "Voigt results; C71_strain_measures covers energy, stresses and moduli for every strain measure."
  },
  {
   "property": "C45",
   "status": "proved",
   "theorems": [
    "C45_derivatives",
    "C45_reference",
    "C45_symmetry",
    "C45_abort"
   ],
   "note": "Over the real numbers; determinant and inverse are modelled by cofactors."
  },
  {
   "property": "C46",
   "status": "proved",
   "theorems": [
    "C46_inversion",
    "C46_roundtrip",
    "C46_rejects"
   ],
   "note": "Over the real numbers with the exact principal branch of Lambert's function (its existence is proved, lambert_exists); Eigen's 6x6 inverse enters by its contract. Overflow of exp(b) is outside."
  },
  {
   "property": "C70",
   "status": "partial",
   "theorems": [
    "C70_reduction_partial",
    "C70_plane_stress_partial",
    "C70_vanishing_refuted"
   ],
   "note": "False for fixed shear components: the reduction only sets the shear strain to zero and iterates on normal components, so with Neo-Hooke and fixed pair (0,1) the stress S01 exceeds any tolerance. Proved: the fixed normal stresses are within the tolerance for every material, and for plane stress of Neo-Hooke the two shear stresses are exactly zero."
  },
  {
   "property": "C72",
   "status": "partial",
   "theorems": [
    "C72_admissible_partial",
    "C72_admissible_refuted"
   ],
   "note": "False: for S = diag(2 mu, 2 mu, 0) the program returns a strain with negative diagonal entries without complaint. Proved for stresses whose principal values are below mu."
  },
  {
   "property": "C47",
   "status": "proved",
   "theorems": [
    "C47_direct",
    "C47_root",
    "C47_voigt",
    "C47_available"
   ],
   "note": "Over the real numbers, any dimension; the matrix square root enters by its contract (symmetric positive definite root), which is shown satisfiable in two dimensions. Recovering F from C or E gives the symmetric factor, so equals F only up to the rotation."
  },
  {
   "property": "C48",
   "status": "proved",
   "theorems": [
    "C48_measures",
    "C48_composition",
    "C48_roundtrip",
    "C48_symmetry",
    "C48_work",
    "C48_voigt",
    "C48_available"
   ],
   "note": "Any dimension; Eigen's inverse() and determinant() enter by their contracts."
  },
  {
   "property": "C73",
   "status": "proved",
   "theorems": [
    "C73_two_point"
   ],
   "note": "The material stress is any differentiable function of the Green-Lagrange strain with symmetric values whose derivative is given by minor symmetric moduli."
  },
  {
   "property": "C49",
   "status": "proved",
   "theorems": [
    "C49_derivatives"
   ],
   "note": "Over the real numbers; beta <> 0 for VF4 and VF10, beta <> 1 for VF10."
  },
  {
   "property": "C50",
   "status": "partial",
   "theorems": [
    "C50_reference_partial",
    "C50_reference_refuted"
   ],
   "note": "False for VF10: its energy at J = 1 is 2/(beta-1) for every admissible beta, because the additive constant has the wrong sign. Proved for all other functions."
  },
  {
   "property": "C74",
   "status": "proved",
   "theorems": [
    "C74_modulus",
    "C74_minimum"
   ],
   "note": "VF7 has modulus kappa beta^2, VF0 and VF12 zero; the minimum is proved for all functions but these two."
  },
  {
   "property": "C51",
   "status": "proved",
   "theorems": [
    "C51_derivatives",
    "C51_stresses",
    "C51_equal_stretches"
   ],
   "note": "Over the real numbers, exponents of Ogden terms non-zero. Stresses for any number of terms; moduli for at most three deviatoric Ogden terms, because the call is out of bounds beyond (C75)."
  },
  {
   "property": "C75",
   "status": "partial",
   "theorems": [
    "C75_moduli_refuted",
    "C75_moduli_partial",
    "C75_terms",
    "C75_gent",
    "C51_derivatives"
   ],
   "note": "False for Ogden with deviatoric stretches and four or more terms: secondDerivativeImpl writes lambdaBarPowSum[p] for every term p into an array of three entries (ogden.hh lines 160-162). Proved for all other functions and up to three terms."
  },
  {
   "property": "C76",
   "status": "partial",
   "theorems": [
    "C76_symmetric_refuted",
    "C76_symmetric_partial"
   ],
   "note": "False for stretches that differ by less than the relative tolerance 1e-8 but are not equal: L(i,k,i,k) is then computed from L(i,i,i,i) and L(k,i,k,i) from L(k,k,k,k). Proved for equal and for distinguishable stretches."
  },
  {
   "property": "C77",
   "status": "proved",
   "theorems": [
    "C77_reference"
   ],
   "note": "Under the check done by the constructor of the invariant-based function, and Jm > 0 for Gent."
  },
  {
   "property": "C78",
   "status": "proved",
   "theorems": [
    "C78_isochoric",
    "C78_deviatoric_stress",
    "C78_isotropy"
   ],
   "note": "Over the real numbers."
  },
  {
   "property": "C53",
   "status": "proved",
   "theorems": [
    "C53_conversions",
    "C53_incompressible",
    "C53_roundtrip",
    "C53_roundtrip_back",
    "C53_admissible"
   ],
   "note": "Over the real numbers. The constants are specified by the experiments that define them (uniaxial stress, shear, hydrostatic and uniaxial strain). The pair (E, nu) yields lambda only for nu not equal to 1/2 up to the relative tolerance of the comparison; otherwise the code returns infinity."
  },
  {
   "property": "C54",
   "status": "proved",
   "theorems": [
    "C54_force",
    "C54_stiffness",
    "C54_symmetric",
    "C54_equilibrium",
    "C54_reference",
    "C54_tension",
    "C54_skill",
    "C79_objectivity"
   ],
   "note": "Over the real numbers, for a space of any dimension and corners that do not coincide."
  },
  {
   "property": "C79",
   "status": "proved",
   "theorems": [
    "C79_objectivity",
    "C79_axial_force"
   ],
   "note": "Over the real numbers, for a space of any dimension."
  },
  {
   "property": "C52",
   "status": "partial",
   "theorems": [
    "C52_refuted",
    "C52_partial",
    "C52_never_raises",
    "C52_no_iterations",
    "C52_linear_partial"
   ],
   "note": "False: the test i == maxIter for the error is never true inside the loop over range(maxIter) (numericalmaterialinversion.hh lines 54-63), so that an unconverged strain is returned without error (C52_never_raises). Witness with the default settings and a material with cubic hardening. Proved if one of the iterates 1 .. maxIter-1 converges, and for linear materials."
  },
  {
   "property": "C55",
   "status": "partial",
   "theorems": [
    "C55_from_voigt",
    "C55_von_mises",
    "C55_hydrostatic_state",
    "C55_triaxiality_refuted",
    "C55_triaxiality_partial",
    "C55_von_mises_number_refuted",
    "C55_hydrostatic_partial",
    "C55_hydrostatic_refuted",
    "C81_polar"
   ],
   "note": "Over the real numbers the von Mises stress is as claimed. False: the triaxiality of plane states uses a half of the trace; in binary64 the hydrostatic state of pressure 2.1 gives the square root of a negative number. Triaxiality proved in 3D."
  },
  {
   "property": "C80",
   "status": "partial",
   "theorems": [
    "C80_refuted",
    "C80_partial"
   ],
   "note": "False: the moduli are evaluated before the last update of the strain. Proved: they are the inverse tangent of the iterate from which the returned strain was computed."
  },
  {
   "property": "C81",
   "status": "partial",
   "theorems": [
    "C81_principal",
    "C81_component",
    "C81_polar",
    "C81_polar_component_refuted"
   ],
   "note": "Principal stresses for an eigenvalue solver that meets its contract (ascending eigenvalues of a decomposition). Polar stresses over the real numbers away from the origin. False for negative components of polar stresses: they reach __builtin_unreachable instead of the error. The same is reached by principal components beyond the dimension (C81_component)."
  },
  {
   "property": "C56",
   "status": "partial",
   "theorems": [
    "C56_refuted",
    "C56_partial"
   ],
   "note": "False for n = 3: the solver for the two smallest eigenvalues is requested with a Krylov space of dimension two, which Spectra refuses. Proved for n = 2 and all n >= 4, for solvers of Spectra that meet their contract (the requested eigenvalues in ascending order)."
  },
  {
   "property": "C57",
   "status": "partial",
   "theorems": [
    "C57_power_partial",
    "C57_scalar_refuted",
    "C57_composite_refuted",
    "C57_scalar_partial",
    "C57_composite_partial"
   ],
   "note": "Proved for bases that are powers of a scalar basis. False for scalar and composite bases: the increment is read at the global index. Proved for these without increment and for numberings whose global indices of the element are its positions."
  },
  {
   "property": "C82",
   "status": "proved",
   "theorems": [
    "C82_computed",
    "C82_partial_range",
    "C82_vectors"
   ],
   "note": "The solvers of Spectra are parameters; the range check of their constructor is part of the model."
  },
  {
   "property": "C83",
   "status": "partial",
   "theorems": [
    "C83_refuted",
    "C83_identity_refuted",
    "C83_partial"
   ],
   "note": "False for temporaries with dynamic size: they are moved into a member before the sizes are compared. Proved for all other arguments."
  },
  {
   "property": "C84",
   "status": "proved",
   "theorems": [
    "C84_global_indices"
   ],
   "note": "For trees whose power nodes have children of one kind with equally many shape functions, as dune-functions builds them."
  },
  {
   "property": "C85",
   "status": "proved",
   "theorems": [
    "C85_isotropy"
   ],
   "note": "The eigenvalue solver is a parameter with a contract (sorted eigenvalues, orthogonal eigenvectors); exactSolver_solves shows that the contract can be met. Real arithmetic."
  },
  {
   "property": "C86",
   "status": "proved",
   "theorems": [
    "C86_stress"
   ],
   "note": "For all deviatoric and volumetric functions with valid exponents, repeated eigenvalues included. Real arithmetic, contract for the eigenvalue solver."
  },
  {
   "property": "C87",
   "status": "partial",
   "theorems": [
    "C87_moduli_partial",
    "C87_moduli_refuted"
   ],
   "note": "False for principal stretches that differ by less than the relative tolerance 1e-8 without being equal: the moduli are then not even compatible with symmetric stresses. Proved for all tensors whose principal stretches are pairwise equal or distinguishable, and at most three Ogden terms (C75)."
  },
  {
   "property": "C88",
   "status": "partial",
   "theorems": [
    "C88_negative_refuted",
    "C88_check_partial",
    "C88_neohooke",
    "C88_agrees"
   ],
   "note": "True for NeoHooke. False for the other hyperelastic materials: the root of a negative eigenvalue is a NaN, which passes the check, so no tensor with negative determinant is refused. Proved: exactly the singular tensors without negative eigenvalues are refused."
  },
  {
   "property": "C89",
   "status": "proved",
   "theorems": [
    "C89_eas_coupled_newton",
    "C89_eas_no_step_lost"
   ],
   "note": "Exact arithmetic over any field. Element matrices and forces are arbitrary functions of displacements and internal variables with symmetric stiffness and coupling-block; the linear solver is a contract (it solves solvable systems); DBCOption Full; no subsidiary function."
  },
  {
   "property": "C90",
   "status": "proved",
   "theorems": [
    "C90_assumed_stress_coupled_newton",
    "C90_initial_state",
    "C90_no_step_lost"
   ],
   "note": "As C89. The inversion of the material law is a contract: it returns the strains that belong to the stresses. Partial correctness: only runs that return."
  },
  {
   "property": "C91",
   "status": "proved",
   "theorems": [
    "C91_eas_linear_state",
    "C91_assumed_stress_linear_state"
   ],
   "note": "Elements with constant matrices. Needs at least one iteration."
  },
  {
   "property": "C92",
   "status": "partial",
   "theorems": [
    "C92_accepted_refuted",
    "C92_rejected_refuted",
    "C92_iteration_partial",
    "C92_stateless_agrees"
   ],
   "note": "False: the trust-region solver announces the correction after it was added to the solution and also if it is undone afterwards. Witnesses: a run that reports success with an unsatisfied internal equation, and a run in which only a rejected step changed the internal variables. Proved: what an iteration does to listeners in general, and that without state the solver is that of C30, C31, C63 and C64."
  },
  {
   "property": "C93",
   "status": "partial",
   "theorems": [
    "C93_load_vector_refuted",
    "C93_load_vector_partial",
    "C93_correction_partial",
    "C93_linear_elements_partial"
   ],
   "note": "False for elements whose condensed forces depend on the internal variables at zero displacements. Proved: the vector is the load exactly if the internal forces vanish there, which is so for all linear elements, and then the correction is that of C21. The residual itself is right, so a converged state is an equilibrium state."
  },
  {
   "property": "C94",
   "status": "proved",
   "theorems": [
    "C94_linear_load_control"
   ],
   "note": "Exact arithmetic over any field, DBCOption Full and Reduced, linear solver contract for the treated stiffness. Prescribed displacements proportional to the load factor; no load factor of a step is zero (see C95)."
  },
  {
   "property": "C95",
   "status": "partial",
   "theorems": [
    "C95_imposed_partial",
    "C95_balanced_partial",
    "C95_nonproportional_refuted",
    "C95_nonlinear_refuted",
    "C95_unloading_refuted"
   ],
   "note": "False: the first residual of a step is tested with forces linearised at load factor 1, and if it passes no iteration is made but the displacements are changed afterwards; and prescribed values that are zero are not imposed. Witnesses: a linear spring with a displacement that depends quadratically on the load factor, a cubic spring, and unloading of a linear spring. Proved: nonzero prescribed displacements are imposed at the end of every step, and a step with at least one iteration has tested the residual it returns."
  },
  {
   "property": "C96",
   "status": "proved",
   "theorems": [
    "C96_nonlinear_forces",
    "C96_nonlinear_stiffness",
    "C96_nonlinear_adds",
    "C96_nonlinear_symmetric",
    "C96_linear_forces",
    "C96_linear_stiffness",
    "C96_linear_symmetric",
    "C96_linear_adds",
    "C96_green_lagrange",
    "C96_svk"
   ],
   "note": "Real arithmetic. The strain expression of dune-localfefunctions is a contract (derivative and second derivative of the strain), proved to hold of the Green-Lagrange strain; the material is any pair of stress and tangent that derive from an energy. Without a skill for mixed formulations (isMixed false)."
  },
  {
   "property": "C97",
   "status": "proved",
   "theorems": [
    "C97_volume_gradient",
    "C97_volume_reference",
    "C97_volume_dead",
    "C97_volume_resultant",
    "C97_traction_gradient"
   ],
   "note": "Real arithmetic; the resultant for shape functions that sum up to one."
  },
  {
   "property": "C98",
   "status": "partial",
   "theorems": [
    "C98_no_load_partial",
    "C98_half_load_refuted"
   ],
   "note": "False of the code: traction.hh 74 and 109 return only if both the function and the patch are missing; with only one of them a null pointer or an empty std::function is used. Proved: with neither of them nothing happens."
  },
  {
   "property": "C99",
   "status": "proved",
   "theorems": [
    "C99_forces",
    "C99_stiffness",
    "C99_symmetric",
    "C99_adds",
    "C99_tangent"
   ],
   "note": "Real arithmetic, at displacements where the current surface has a normal at the integration points; the inverse of the metric (Eigen) is a contract. Default membrane strains."
  },
  {
   "property": "C100",
   "status": "proved",
   "theorems": [
    "C100_equilibrium",
    "C100_solid_strains",
    "C100_solid_energy",
    "C100_solid_equilibrium",
    "C100_shell_strains",
    "C100_shell_energy",
    "C100_shell_equilibrium",
    "C100_shell_rigid"
   ],
   "note": "Real arithmetic; isoparametric elements whose shape functions sum up to one (as properties of their derivatives). Solids with Green-Lagrange strains, Kirchhoff-Love shell."
  },
  {
   "property": "C101",
   "status": "proved",
   "theorems": [
    "C101_composition",
    "C101_solid",
    "C101_linear_solid",
    "C101_load",
    "C101_shell",
    "C101_mixed"
   ],
   "note": "The skills of solids, volume loads and shells are shown to have the property; any number and order of skills."
  },
  {
   "property": "C102",
   "status": "partial",
   "theorems": [
    "C102_adds_partial",
    "C102_overwrites",
    "C102_adds_refuted"
   ],
   "note": "False of the code: the last statement of calculateMatrixImpl of the shell overwrites the strictly lower triangle of the given matrix by the transposed upper one. Proved: what is returned for every matrix, and that symmetric matrices are added to."
  },
  {
   "property": "C103",
   "status": "partial",
   "theorems": [
    "C103_copy_is_new",
    "C103_copy_partial",
    "C103_move",
    "C103_swap",
    "C103_copy_refuted"
   ],
   "note": "False of the code: the copy constructor makes a new solver of the same type without the factorisation, and assigning a solver to itself drops its factorisation. Proved: after any history a copy is a new solver of the same type, and original and copy return the same once both are given the same matrix; moving and swapping keep everything. Eigen is a contract."
  },
  {
   "property": "C104",
   "status": "partial",
   "theorems": [
    "C104_last_matrix_partial",
    "C104_compute_throws",
    "C104_factorize_ignored",
    "C104_last_matrix_refuted"
   ],
   "note": "False of the code: factorize with a matrix of the other kind (dense/sparse) does nothing and does not report it, so that the next solve uses an older matrix. Proved: after every history a solve returns the solution for the last matrix of the solver's own kind, and compute throws for the other kind. Eigen is a contract."
  },
  {
   "property": "C105",
   "status": "partial",
   "theorems": [
    "C105_direct_partial",
    "C105_changed_matrix_refuted"
   ],
   "note": "False of the iterative solvers, which refer to the matrix of the caller (contract: documentation of Eigen's iterative solvers). Proved for all direct solvers."
  },
  {
   "property": "C106",
   "status": "partial",
   "theorems": [
    "C106_usable_partial",
    "C106_usable_refuted",
    "C106_before_compute",
    "C106_orderly"
   ],
   "note": "False of the code: a solver of type none, default constructed or moved from is accepted and every call of it dereferences a null pointer. Proved for all other types."
  },
  {
   "property": "C107",
   "status": "proved",
   "theorems": [
    "C107_forces",
    "C107_tangent",
    "C107_symmetric"
   ],
   "note": "For every enhanced strain function with the stated derivatives; C109 shows that those of the code have them."
  },
  {
   "property": "C108",
   "status": "partial",
   "theorems": [
    "C89_eas_coupled_newton",
    "C160_update",
    "C108_schur",
    "C108_frozen",
    "C108_equilibrium",
    "C108_symmetric",
    "C108_adds_partial",
    "C108_adds_refuted"
   ],
   "note": "The condensed matrix and vector are proved. That they are added to what the element had before is false if that part is not symmetric: the lower triangle is overwritten by the upper one. Proved for symmetric contributions."
  },
  {
   "property": "C109",
   "status": "proved",
   "theorems": [
    "C109_additive",
    "C109_displacement_gradient",
    "C109_transposed",
    "C109_values",
    "C109_symmetric",
    "C109_suitable"
   ],
   "note": "Linear and Green-Lagrange strains, displacement gradient and transposed displacement gradient, in two and three dimensions."
  },
  {
   "property": "C110",
   "status": "proved",
   "theorems": [
    "C110_constant_stress",
    "C110_constant_gradient",
    "C110_patch_test"
   ],
   "note": "For rules that are exact for the modes; the two-point Gauss rules are shown to be exact up to degree three."
  },
  {
   "property": "C111",
   "status": "partial",
   "theorems": [
    "C111_positive_definite",
    "C111_gauss_partial",
    "C111_gradients_partial",
    "C111_undeformed_partial",
    "C111_accepted",
    "C111_eleven_refuted",
    "C111_compressed_refuted"
   ],
   "note": "Additive enhancements: proved for all states and all rules that integrate the squares of the modes; false of the code for 11 parameters on elements with linear shape functions (all modes vanish at the integration points, and the code inverts a zero matrix). Enhanced displacement gradients (plain and transposed): proved for every uniform deformation without compressive stress, the undeformed state included; false under compression: a square of St. Venant-Kirchhoff material compressed to 1/sqrt 3 has a singular matrix although the tangent is positive definite. Non-uniform deformations of these elements are not covered."
  },
  {
   "property": "C112",
   "status": "proved",
   "theorems": [
    "C112_forces",
    "C112_stiffness",
    "C112_symmetric",
    "C112_adds"
   ],
   "note": "For every split of a hyperelastic material into two parts and every strain expression with the stated derivatives."
  },
  {
   "property": "C113",
   "status": "partial",
   "theorems": [
    "C113_decomposition",
    "C113_driver",
    "C113_pressure_partial",
    "C113_energy_agrees",
    "C113_pressure_refuted"
   ],
   "note": "The split itself is proved. That the element has the energy of the material it was given is false: eliminating the pressure gives kappa/2 times the square of the volumetric function, so the given energy is met only where that function is 0 or 2. Proved for the volumetric function J - 1: the element then behaves as the material with kappa/2 (J-1)^2. Plane stress and plane strain materials are the subject of C180."
  },
  {
   "property": "C114",
   "status": "proved",
   "theorems": [
    "C114_complementary",
    "C114_forces",
    "C114_tangent",
    "C114_symmetric",
    "C114_history"
   ],
   "note": "The inversion of the material is a contract: it returns strains with the given stresses and the derivative of these strains. With it the stored strains and moduli belong to the stored stress parameters after every history."
  },
  {
   "property": "C115",
   "status": "partial",
   "theorems": [
    "C115_schur",
    "C115_frozen",
    "C115_equilibrium",
    "C115_newton",
    "C115_adds_partial",
    "C115_adds_refuted"
   ],
   "note": "The condensation and the update are proved, given the inverse of H. That the element adds its matrix to the given one is proved for symmetric given matrices and false otherwise: the lower triangle is overwritten by the upper one."
  },
  {
   "property": "C116",
   "status": "partial",
   "theorems": [
    "C116_energy_partial",
    "C116_rate_partial",
    "C116_initial",
    "C116_linear_vector",
    "C116_linear_update",
    "C116_rate_refuted",
    "C116_stale_refuted"
   ],
   "note": "Proved for materials whose complementary energy is half the product of stresses and strains (linear materials). False for other materials (C116_rate_refuted), and an element that was not told the corrections reports no energy (C116_stale_refuted)."
  },
  {
   "property": "C117",
   "status": "proved",
   "theorems": [
    "C117_accepts",
    "C117_transformation",
    "C117_positive_definite"
   ],
   "note": "For every number of stress parameters the element accepts. The quadrature rule has to be exact for polynomials of degree two, which C117_example shows for the rules used."
  },
  {
   "property": "C118",
   "status": "proved",
   "theorems": [
    "C118_constant",
    "C118_patch_test",
    "C118_linear"
   ],
   "note": "For nonlinear elements there are stress parameters in equilibrium with the constant strain at which the forces are those of the displacement based element; for linear elements they are these whatever the stress parameters are."
  },
  {
   "property": "C119",
   "status": "partial",
   "theorems": [
    "C119_arguments",
    "C119_arguments_refuted",
    "C119_bracket",
    "C119_converges",
    "C119_terminates",
    "C119_result",
    "C119_accuracy_partial"
   ],
   "note": "In exact arithmetic with exact exp and log. Convergence and termination for every argument above -1/e; the bound of the error by the tolerance is proved outside of the interval from 1 to exp(1/10), inside it for last corrections below 1/2. Missing: that 20 iterations suffice. Refuted: minus infinity is returned, not refused."
  },
  {
   "property": "C120",
   "status": "partial",
   "theorems": [
    "C120_fields_partial",
    "C120_moved_refuted",
    "C120_python_refuted",
    "C120_python_partial"
   ],
   "note": "Proved for every sequence of requests in which no result is requested as cell and point data at once. For such a request the pointer to the result is forwarded twice: if the library moves from it the second pointer is null and writing is undefined (C120_moved_refuted, a statement about the library as parameter). False for the python interpolation, which ignores its tag. dune-vtk is a contract."
  },
  {
   "property": "C121",
   "status": "partial",
   "theorems": [
    "C121_files",
    "C121_last_field",
    "C121_one_field_partial",
    "C121_one_field_refuted"
   ],
   "note": "Number and names of the files and the last field are proved. False: every file contains the fields of all files before, which all show the present solution."
  },
  {
   "property": "C122",
   "status": "partial",
   "theorems": [
    "C122_element_partial",
    "C122_value_partial",
    "C122_components",
    "C122_no_elements",
    "C122_mixed_refuted"
   ],
   "note": "Proved for grids with one geometry type, and that it is the right element only for these: the index of an element is counted for each geometry type separately (refuted for a mixed grid). That index sets count in the order of the grid view is a contract."
  },
  {
   "property": "C123",
   "status": "partial",
   "theorems": [
    "C123_no_copies_partial",
    "C123_temporary_refuted",
    "C123_moved_refuted",
    "C123_copy_refuted"
   ],
   "note": "Proved for every history without copies and moves of listeners (and with the copies that subscribing an element returns). False with them, because the callbacks refer to the object that subscribed: the pattern auto logger = Logger().subscribeTo(solver), used in tests/src/testpathfollowing.cpp, calls a function of a destroyed object at the next message."
  },
  {
   "property": "C124",
   "status": "partial",
   "theorems": [
    "C124_factory",
    "C124_once",
    "C124_twice_refuted"
   ],
   "note": "Proved for every history before. False if two control routines are made with the same solver and assembler: the elements are subscribed twice."
  },
  {
   "property": "C125",
   "status": "partial",
   "theorems": [
    "C125_newton",
    "C125_subsidiary",
    "C125_trust_region_partial",
    "C125_trust_region_refuted",
    "C125_rejected_refuted"
   ],
   "note": "Proved for both Newton solvers, whatever other listeners do as long as the residual depends on the solution only. False for the trust-region solver: an accepted iteration shows the gradient norm at the solution before the step, a rejected one repeats the row before (zeros in the first row). C125_trust_region_partial says exactly what is printed. The text around the numbers and the rounding to printed digits are not modelled."
  },
  {
   "property": "C126",
   "status": "proved",
   "theorems": [
    "C126_calls",
    "C126_newton"
   ],
   "note": "For every history of messages and every Newton solve."
  },
  {
   "property": "C127",
   "status": "partial",
   "theorems": [
    "C127_visits",
    "C127_positions",
    "C127_search",
    "C127_node_partial",
    "C127_small_refuted"
   ],
   "note": "Visiting nodes, collecting positions and the result of the search are proved for every Lagrange basis. That the position of a node gives the indices of that node is false for elements smaller than the absolute tolerance of the search (1e-8): C127_small_refuted; C127_node_partial proves it when no other node of the element is within the tolerance. The hierarchic search for the element is a contract."
  },
  {
   "property": "C128",
   "status": "proved",
   "theorems": [
    "C128_bijection",
    "C128_numbers",
    "C128_flat_unchanged",
    "C128_flat_same",
    "C128_order"
   ],
   "note": "Bases are trees of Lagrange, power and composite bases with the index merging strategies of dune-functions, whose indices are a contract. The flat numbers follow the lexicographic order of the hierarchical indices (C128_order)."
  },
  {
   "property": "C129",
   "status": "proved",
   "theorems": [
    "C129_iterated",
    "C129_exact",
    "C129_points",
    "C129_order"
   ],
   "note": "For every pair of rules and every function; exactness is inherited from the two rules. Exact arithmetic."
  },
  {
   "property": "C130",
   "status": "proved",
   "theorems": [
    "C130_least_squares",
    "C130_reproduces"
   ],
   "note": "Exact arithmetic; that the QR decomposition of Eigen gives a least squares solution is a contract, shown to be satisfiable by C130_contract_example."
  },
  {
   "property": "C131",
   "status": "partial",
   "theorems": [
    "C131_gradient_partial",
    "C131_jacobian_partial",
    "C131_hessian_partial",
    "C131_polynomial",
    "C131_tiny_refuted",
    "C131_curved_refuted",
    "C131_draw_refuted",
    "C131_first_zero",
    "C131_zero_refuted",
    "C131_rejected_refuted",
    "C131_straightest"
   ],
   "note": "Exact arithmetic, without drawing: correct derivatives pass if the error behaves like a power of the step size of the expected order (in particular for all functions that are a polynomial with one higher term along the direction), and errors of lower order fail if above 1e-10. False in general: wrong derivatives pass if the errors are below the absolute bound 1e-10 (C131_tiny_refuted) or if the curvature is large (C131_curved_refuted). With drawing, the default, eleven values are written into vectors of ten (C131_draw_refuted). If the error at the smallest step is exactly zero, the window chosen is the first one and only the absolute bound decides: a wrong Hessian is accepted (C131_zero_refuted), a right gradient is rejected (C131_rejected_refuted). Missing: errors between the two cases of the partial theorems, rounding."
  },
  {
   "property": "C132",
   "status": "partial",
   "theorems": [
    "C132_explicit",
    "C132_bound",
    "C132_option_partial",
    "C132_plain",
    "C132_option_refuted"
   ],
   "note": "Proved for op(as, affordances, option) and op(as) however the assembler is passed, and for op(as, option) with lvalue pointers, for every later history. With a moved or temporary shared pointer op(as, option) dereferences the pointer after moving from it (C132_option_refuted). Functions made from plain pointers work as long as some shared pointer to the assembler exists; afterwards evaluating them is undefined."
  },
  {
   "property": "C133",
   "status": "partial",
   "theorems": [
    "C133_solver_partial",
    "C133_force_partial",
    "C133_lifetime_refuted",
    "C133_temporary_refuted"
   ],
   "note": "Proved as long as the factory and the pointer variables given to it live unchanged. False without: the update function of the solver refers to the settings inside the factory and to the caller's pointer variable, the force function to the variable (C133_lifetime_refuted, C133_temporary_refuted for a factory that is a temporary)."
  },
  {
   "property": "C134",
   "status": "partial",
   "theorems": [
    "C134_reference_partial",
    "C134_overwritten_refuted"
   ],
   "note": "False as stated: functions return references to buffers of the assembler, which the next evaluation overwrites (C134_overwritten_refuted). Proved up to the next evaluation of the same quantity with the same option."
  },
  {
   "property": "C135",
   "status": "partial",
   "theorems": [
    "C135_zero_partial",
    "C135_buffers",
    "C135_buffers_refuted"
   ],
   "note": "Proved for vectors and matrices set to zero before, as the assemblers do. False otherwise: the element's own functions add to the content, automatic differentiation replaces it; C135_buffers says which. That the autodiff library returns exact derivatives is a contract (satisfiable: C135_example). calculateLocalSystem is left out, it does not compile."
  },
  {
   "property": "C136",
   "status": "partial",
   "theorems": [
    "C136_partial",
    "C136_scaled",
    "C136_refuted"
   ],
   "note": "Proved if strains are passed in the measure the material is written for (right Cauchy-Green for Neo-Hooke and the hyperelastic materials, Green-Lagrange for St. Venant-Kirchhoff). False for the other measure: the derivative factor of the material is applied to derivatives with respect to another strain, so stresses of Neo-Hooke come out doubled for Green-Lagrange strains (C136_refuted); C136_scaled gives the exact factor for every combination, also for moduli. Exact derivatives by the autodiff library are a contract."
  },
  {
   "property": "C137",
   "status": "partial",
   "theorems": [
    "C137_partial",
    "C137_alone",
    "C137_refuted",
    "C137_basis_refuted"
   ],
   "note": "Proved for every sequence of calls and deletions as long as the boundary loads an object was made with still exist; the patches themselves may be deleted. False without them: makeFE copies the load with its pointer to the patch and keeps only the basis alive, so elements (and assemblers of them) read a destroyed patch once load and patch have gone out of scope (C137_refuted). If bound nodes read the basis, as spline nodes do, an assembler whose elements were deleted reads a destroyed basis (C137_basis_refuted). Grids and the Python interpreter are left out."
  },
  {
   "property": "C138",
   "status": "partial",
   "theorems": [
    "C138_stored",
    "C138_refuted"
   ],
   "note": "Proved for stored entries: reading changes nothing, writing changes that entry only. False for entries that are not stored: reading uses coeffRef, which inserts the entry, and the positions the assembler has cached no longer belong to their entries, so the next matrix is wrong (C138_refuted, two bars, entry (0, 2)). That Eigen leaves the matrix uncompressed after the insertion is not modelled, the columns stay packed."
  },
  {
   "property": "C139",
   "status": "partial",
   "theorems": [
    "C139_partial",
    "C139_gone",
    "C139_refuted"
   ],
   "note": "Proved for every program without exceptions while the requirement has a name: evaluations use the values that the inserted array and Scalar had when they were inserted (later changes of them have no effect, both are copied), manipulators have their own binding from the time they are made, writers that of their assembler. False otherwise: bind stores a reference to the requirement and does not keep it alive (flatassembler.hh 107-109), so an assembler bound inside a function reads a destroyed requirement (C139_gone: in every such case). Affordances and Dirichlet options, stored by value, are left out."
  },
  {
   "property": "C140",
   "status": "partial",
   "theorems": [
    "C140_parameters",
    "C140_rejected",
    "C140_message_refuted"
   ],
   "note": "Proved for every material and every accepted pair in either order: the Lame constants of the material created are those of the material (uses the experiments of C53 as the specification); a material is only created from exactly two numbers with accepted names. False: the error message names (Lambda, nu) as valid, which is rejected (and leaves out (Lambda, mu), which is accepted)."
  },
  {
   "property": "C141",
   "status": "proved",
   "theorems": [
    "C141_measures",
    "C141_linear",
    "C141_raises",
    "C141_plane_strain"
   ],
   "note": "Six components for the unreduced material and three components for plane strain; for materials formulated in the Green-Lagrange strain or the right Cauchy-Green tensor (all materials of the library) and linear materials. Plane stress, shell and beam materials with reduced vectors start their iteration from the enlarged strain, see C70."
  },
  {
   "property": "C142",
   "status": "partial",
   "theorems": [
    "C142_tolerance_partial",
    "C142_tolerance_refuted",
    "C142_options_partial",
    "C142_options_refuted",
    "C142_parameters"
   ],
   "note": "False: asPlaneStress, asShellMaterial and asBeamMaterial do not use their argument tol (material.hh 131, 172, 190); the tolerance is always 1e-8, larger than the documented default 1e-12, so a St. Venant-Kirchhoff material at strain 1e-9 keeps a normal stress of 1e-9. The keyword compressible of Arruda-Boyce and Yeoh materials is read and not used (219, 223). Proved: tolerances of at least 1e-8 are met by every material, and the option of Mooney-Rivlin materials is honoured."
  },
  {
   "property": "C143",
   "status": "partial",
   "theorems": [
    "C143_values_partial",
    "C143_aborts",
    "C143_refuted"
   ],
   "note": "Proved for every program of creating, copying and calling wrappers: each call returns the Muesli function for the properties the object was created with (a copy has those of its original) at the strain passed, independent of earlier calls; for finite strain this is the value at every deformation with that right Cauchy-Green tensor. Contracts: Muesli's elastic functions depend on the properties and the state set last only, and on the deformation gradient through F^T F; Eigen's matrix square root is the positive definite root. False: a symmetric tensor that belongs to no deformation is only refused if its determinant is not positive; diag(-1,-1,1) is evaluated."
  },
  {
   "property": "C144",
   "status": "proved",
   "theorems": [
    "C144_from_matrix",
    "C144_from_vector",
    "C144_matrix_roundtrip",
    "C144_vector_roundtrip",
    "C144_misuse",
    "C144_types"
   ],
   "note": "Builds with assertions; the specification is a relation between a vector and a matrix (Voigt notation or column by column) that determines each from the other."
  },
  {
   "property": "C145",
   "status": "partial",
   "theorems": [
    "C145_consistent_partial",
    "C145_within_tolerance_refuted",
    "C145_energy_partial"
   ],
   "note": "Proved for every wrapped material, every set of fixed components and every differentiable family of strains: if the fixed stresses stay the same along the family of strains found by the reduction, the rate of the returned stresses is the returned tangent times the rate of the free strains. Contracts: the wrapped tangent is the derivative of the wrapped stress and symmetric, the matrix inverse inverts. False as stated: while the fixed stress at the strain passed is below the tolerance no iteration is made, and the returned stress then has the slope of the material without reduction (St. Venant-Kirchhoff, plane stress, zero strain: 3 instead of 8/3). The energy returned is a potential of the stresses returned, as far as the fixed stresses are zero (C145_energy_partial; contract: the wrapped stress is the derivative of the wrapped energy)."
  },
  {
   "property": "C146",
   "status": "proved",
   "theorems": [
    "C146_inner",
    "C146_random_start"
   ],
   "note": "Real arithmetic. The inner solver (truncated conjugate gradients) for every dimension, symmetric matrix, symmetric positive definite preconditioner, right-hand side, radius and zero start vector, provided at least one iteration is allowed, the tolerance is at most one and the right-hand side is not counted as zero; the radius is measured in the norm of the inverse preconditioner. With a random start (which may leave the region, C65) the first correction is compared with the steepest descent step, whatever the inner solver returns. Contracts: bilinear scalar product, linear Hessian, the inner solver keeps the radius."
  },
  {
   "property": "C147",
   "status": "proved",
   "theorems": [
    "C147_raw",
    "C147_reduced",
    "C147_full",
    "C147_sparse"
   ],
   "note": "Real arithmetic. Meshes of elements with power bases and any skills whose element forces and matrices derive from the element energy (C54, C56, C60 and others show that for the skills of the library); the displacements lie in the admissible region of every element. The derivative is taken along every differentiable motion. The sparse answers equal the dense ones after every history of requests (for the full option every constrained degree of freedom must belong to an element, C06)."
  },
  {
   "property": "C148",
   "status": "proved",
   "theorems": [
    "C148_equilibrium",
    "C148_supports"
   ],
   "note": "Real arithmetic. Newton-Raphson created by the solver factory for an assembler with reduced or full Dirichlet option and default update function, for every listener, linear solver and start. Equilibrium is that the energy of the structure has, along every motion that leaves the supports at rest, a derivative of at most the tolerance times the length of the velocity. The second theorem assumes that the linear systems met on the way are solved exactly. Elements as in C147."
  },
  {
   "property": "C149",
   "status": "partial",
   "theorems": [
    "C149_same",
    "C149_residual_partial",
    "C149_region",
    "C149_success_refuted",
    "C149_stops_early_refuted",
    "C149_iterations_refuted"
   ],
   "note": "Real arithmetic. For every start vector and preconditioner: the stop reasons other than the boundary ones say the truth about the residual and the error is then that of the returned solution (C149_residual_partial). For the zero start vector (how the trust region uses it): the boundary reasons hold exactly if the step has the length of the radius, and negative curvature means that there is a direction of negative curvature (C149_region). False of the code: after a boundary step the error is that before the step, so that Success may be reported although the residual is above the tolerance (C149_success_refuted); the residual norm is compared with the squared threshold, so that the maximum of iterations is reported as reason after 1 of 10 iterations although the error is above the tolerance (C149_stops_early_refuted); with limit 1 no iteration is made and one is reported (C149_iterations_refuted). Missing: boundary reasons with other start vectors, rounding."
  },
  {
   "property": "C150",
   "status": "partial",
   "theorems": [
    "C150_enhanced_partial",
    "C150_stress_partial",
    "C150_rule_refuted",
    "C150_refused_refuted",
    "C150_order_refuted"
   ],
   "note": "Histories of binding (with and without integration rule), choosing the number of parameters and updating, with exceptions caught. Proved if the skill is listed after the elastic skill, available numbers are asked for, and a rule is always or never given; for assumed stresses also if the inversion of the material does not depend on the strain with which it starts (the old strains are reused as start values). False of the code otherwise: a rule given once is used for all elements bound later without a rule (C150_rule_refuted); a number that was refused with an exception is remembered, the next binding throws and leaves an object that answers with modes and internal variables of the old element for the new element (C150_refused_refuted); if the enhancement is listed before the elastic skill the constructor reads a member of a skill that is not constructed yet (C150_order_refuted)."
  },
  {
   "property": "C151",
   "status": "partial",
   "theorems": [
    "C151_refused_partial",
    "C151_stress_partial",
    "C151_accepted_strain",
    "C151_accepted_stress",
    "C151_result_refuted"
   ],
   "note": "After every history as in C150: forces and matrices are refused exactly if the element is not supported, energies always if strains are enhanced, and updates of the state on unsupported elements. False of the code for results at points: they are computed for elements that cannot be enhanced (C151_result_refuted)."
  },
  {
   "property": "C152",
   "status": "partial",
   "theorems": [
    "C152_construct_partial",
    "C152_results_partial",
    "C152_success_partial",
    "C152_storage_refuted",
    "C152_fixed_refuted",
    "C152_success_refuted"
   ],
   "note": "Eigen's solver is a parameter. Proved: construction for dynamic matrices passed by reference, results are those of the latest computation, success of Eigen is reported as success. False of the code: the number of entries of A instead of the number of rows is passed as size to Eigen's solver, which reserves a matrix with the fourth power of the number of unknowns (C152_storage_refuted) and violates an assertion for matrices of fixed size (C152_fixed_refuted); compute() reports success although Eigen did not converge (C152_success_refuted)."
  },
  {
   "property": "C153",
   "status": "partial",
   "theorems": [
    "C153_load_control_partial",
    "C153_path_following_partial",
    "C153_functions_keep",
    "C153_solver_keeps",
    "C153_failed_refuted",
    "C153_first_size_refuted"
   ],
   "note": "C153_load_control_partial and C153_path_following_partial say exactly what is printed, for every solver, step-sizing rule, listener and outcome. C153_functions_keep and C153_solver_keeps show that the assumptions of the latter hold for the library's functions and solver. The claim is false in two places: after a failed step neither the end nor the iterations spent are printed, and path following shows size zero for its first solve although that solve is done with the step size of the run. Text, rounding and the elapsed time are not modelled."
  },
  {
   "property": "C154",
   "status": "proved",
   "theorems": [
    "C154_steps",
    "C154_success",
    "C154_supports"
   ],
   "note": "Newton's method and load control are the models of C17 and C23, assembly that of C147. Assumed: no inhomogeneous Dirichlet conditions (see C94 and C95 for those), a non-negative iteration limit, and for the supports that the linear systems that arise are solved."
  },
  {
   "property": "C155",
   "status": "partial",
   "theorems": [
    "C155_full_partial",
    "C155_arc_length_partial",
    "C155_reduced_refuted",
    "C155_controlled_refuted"
   ],
   "note": "False for reduced systems: load and displacement control as path following fail in their first iteration, because the increment has the size of the full solution, and the arc-length method fails if the first solve iterates. Proved for full systems, for structures without supports, and for the arc-length method exactly if the start is in equilibrium. Only the sizes of the vectors are modelled."
  },
  {
   "property": "C156",
   "status": "partial",
   "theorems": [
    "C156_arc_length_partial",
    "C156_structure",
    "C156_size_refuted"
   ],
   "note": "False for steps whose prediction is already in equilibrium, as in every linear problem: the solver does not iterate and a changed step size has no effect. Proved for all steps in which the solver iterates, together with equilibrium for all solved steps. Assumed: start in equilibrium at load factor zero (for other starts see C61), systems of full size (see C155), no inhomogeneous Dirichlet conditions, a positive iteration limit."
  },
  {
   "property": "C157",
   "status": "partial",
   "theorems": [
    "C157_moduli",
    "C157_factories",
    "C157_exponents",
    "C157_energies",
    "C157_gent",
    "C157_arruda",
    "C157_arruda_refuted"
   ],
   "note": "Proved for all functions, parameters, volumetric functions (except VF12, whose undeformed state carries stress, see C50) and all results of the eigenvalue solver (any eigenbasis of the identity). False for Arruda-Boyce: the parameter documented as the shear modulus is smaller than the shear modulus by at least the factor 1 + 3/(5 lambdaM^2); what its series is instead is C157_arruda. Deviatoric Ogden needs at most three terms (see C76); Neo-Hooke is C45."
  },
  {
   "property": "C158",
   "status": "partial",
   "theorems": [
    "C158_stresses_partial",
    "C158_vanishing_stress_partial",
    "C158_plane_strain_refuted",
    "C158_plane_stress_refuted"
   ],
   "note": "False for tangents: asked for in matrix form a reduced material returns the tangent of the wrapped material, neither reduced nor condensed and partly uninitialised. False for the normal stress in plane strain: the matrix form says zero, the wrapped material lambda E11. Proved for the stress components that belong to the free strains."
  },
  {
   "property": "C159",
   "status": "partial",
   "theorems": [
    "C159_energy",
    "C159_residual",
    "C159_supports_partial",
    "C159_preconditioners",
    "C159_diagonal",
    "C159_ends",
    "C159_random_refuted"
   ],
   "note": "Real arithmetic, dense assembler, elements as in C147; the inner solver is the modelled truncated conjugate gradient method. Supports: proved for the reduced option with every preconditioner of the right size and random directions, and for the full option without random directions for preconditioners that do not couple supports and free dofs (identity and diagonal proved to be of that kind; assumed of the incomplete Cholesky factorisation). False for the full option with a random start direction: the direction has entries at the supports, the solver reports success with a support moved (binary64 witness with default settings)."
  },
  {
   "property": "C160",
   "status": "partial",
   "theorems": [
    "C160_eas_residual",
    "C160_assumed_stress_residual",
    "C160_eas_linear_partial",
    "C160_assumed_stress_linear_partial",
    "C160_update",
    "C160_defect_partial",
    "C160_forces",
    "C160_stress_update",
    "C160_stress_defect",
    "C160_stress_forces",
    "C160_success_refuted",
    "C160_start_refuted"
   ],
   "note": "Refuted for elements that are not linear (one iteration, condensed residual exactly 0, forces 3 and internal residual -3/2), and for a start in which the internal variables do not belong to the displacements. Proved: where the internal equations hold the tested residual is the plain vector of forces; for linear elements success after at least one iteration is equilibrium including the internal variables; for enhanced strains and for assumed stresses in general the update solves the linearised internal equation exactly, the remaining defect is bounded by half the change of the derivative along the step (attained in the example for assumed stresses), and the vector differs from the forces by that defect only; for assumed stresses the inversion of the material is exact."
  },
  {
   "property": "C161",
   "status": "proved",
   "theorems": [
    "C161_residual",
    "C161_reactions",
    "C161_current",
    "C161_initial",
    "C161_linear_solid",
    "C161_truss",
    "C161_load"
   ],
   "note": "The elements are meshes of elements made of one elastic skill and loads. Solids and shells balance by C100 in the current configuration, linear solids in the initial one."
  },
  {
   "property": "C162",
   "status": "proved",
   "theorems": [
    "C162_quadratic",
    "C162_minimum",
    "C162_unique",
    "C162_clapeyron",
    "C162_solver",
    "C162_one_step",
    "C162_solid_form",
    "C162_no_energy",
    "C162_solids"
   ],
   "note": "Structures whose raw matrix is the same in all states; C162_solids shows that meshes of linear solids under volume loads are such structures."
  },
  {
   "property": "C163",
   "status": "proved",
   "theorems": [
    "C163_returned",
    "C163_inverts",
    "C163_linear",
    "C163_neohooke"
   ],
   "note": "The strain is returned in the strain measure of the wrapped material. For Neo-Hooke the plane stress state is assumed to be found without thickness stress left; St.Venant-Kirchhoff and linear elasticity include the tolerance."
  },
  {
   "property": "C164",
   "status": "proved",
   "theorems": [
    "C164_strains",
    "C164_forces",
    "C164_superposition",
    "C164_load_factor",
    "C164_reciprocal"
   ],
   "note": "Meshes of linear elastic solids in one to three dimensions with any number of volume loads per element; supports may have any prescribed state that superposes, the reciprocity needs homogeneous supports. Exact arithmetic."
  },
  {
   "property": "C165",
   "status": "partial",
   "theorems": [
    "C165_components_partial",
    "C165_component_of_composite_refuted",
    "C165_composite_refuted"
   ],
   "note": "True for scalar and vector bases, components of vectors and the parts of composites. False for a scalar component of a vector inside a composite (documented as working: scalar subspace basis), whose field gets the components of the whole vector, and for composites of different parts."
  },
  {
   "property": "C166",
   "status": "proved",
   "theorems": [
    "C166_correction",
    "C166_same_run"
   ],
   "note": "Exact arithmetic; every state the solver passes has an invertible matrix of the free dofs and its linear systems are solved. Newton-Raphson made by the factory with the default update function."
  },
  {
   "property": "C167",
   "status": "proved",
   "theorems": [
    "C167_order",
    "C167_solver",
    "C167_numbering"
   ],
   "note": "Exact arithmetic (sums of rounded numbers depend on their order). Elements with power bases; dense assembler, with C06 also the sparse one."
  },
  {
   "property": "C168",
   "status": "proved",
   "theorems": [
    "C168_gradient",
    "C168_strain",
    "C168_forces",
    "C168_small_forces",
    "C168_equilibrium",
    "C168_exact",
    "C168_step"
   ],
   "note": "Exact arithmetic. The geometric condition (the quadrature of the derivatives of the shape functions of nodes inside the structure vanishes) is a hypothesis on the mesh, the integration points and the shape functions, which belong to dune; the same for the property that the shape functions represent the places of the nodes. The stress is a function of the Voigt components of the strain. Elements with enhanced strains or assumed stresses have the forces required here with vanishing internal variables or the stress parameters of the uniform stress (C110, C118). Uniqueness and the Newton step are for small strains with a positive definite material matrix; several solutions can exist for finite strains."
  },
  {
   "property": "C169",
   "status": "partial",
   "theorems": [
    "C169_blocks",
    "C169_subtract",
    "C169_tuple",
    "C169_views",
    "C169_too_long_refuted",
    "C169_empty_refuted"
   ],
   "note": "Proved: corrections of block vectors, members of tuple vectors and addInEmbedding (the same loop with the other size), subtraction, refusal of wrong sizes for block vectors and of too short ones for tuple vectors, views of non-empty vectors. False of the code: operator+= of a tuple vector does not compare the sizes and ignores what is left of a correction that is too long; the views read blockedVector[0], which an empty vector does not have. The points are abstract; their coordinates are contiguous."
  },
  {
   "property": "C170",
   "status": "partial",
   "theorems": [
    "C170_diagonal",
    "C170_sum_partial",
    "C170_shape_refuted",
    "C170_parts"
   ],
   "note": "Proved for square matrices. False of the code: a matrix that is not square is accepted if its shorter side has the size of the diagonal matrix. Results are taken as values; Eigen evaluates products and negatives lazily."
  },
  {
   "property": "C171",
   "status": "partial",
   "theorems": [
    "C171_told",
    "C171_success_refuted",
    "C171_first_norm_refuted"
   ],
   "note": "Proved: the whole content of all notifications, for residuals and matrices that the listeners do not change. False of the code: the flag for success is already set while the solver runs and stays set in a solve that fails; with inhomogeneous boundary conditions the residual norm told before the first iteration lacks the forces of the prescribed displacements."
  },
  {
   "property": "C172",
   "status": "partial",
   "theorems": [
    "C172_told_partial",
    "C172_norm_refuted",
    "C172_count_refuted"
   ],
   "note": "Proved: the whole content of all notifications. False of the code: when the update of the residual norm is announced, and until the next step is proposed, the norm told is the one of the solution before the step; the number of iterations is only told at the very end and is -1 before. Listeners do not change the energy."
  },
  {
   "property": "C173",
   "status": "proved",
   "theorems": [
    "C173_solid_energy",
    "C173_solid_forces",
    "C173_solid_stiffness",
    "C173_linear_energy",
    "C173_linear_forces",
    "C173_linear_stiffness",
    "C173_skill",
    "C173_truss",
    "C173_load",
    "C173_hooke_isotropic",
    "C173_hyperelastic_isotropic",
    "C173_structure",
    "C173_equilibrium",
    "C173_truss_elements",
    "C173_solid_elements"
   ],
   "note": "In exact real arithmetic, for rotations and reflections. Materials whose energy does not depend on the coordinate system are assumed in C173_solid_*; C173_hooke_isotropic and C173_hyperelastic_isotropic show that the linear elastic, St.Venant-Kirchhoff and all hyperelastic materials are such. For nonlinear solids the stress must be the derivative of the energy around the state. C173_load is for volume loads. Shells are C183; enhanced strains and assumed stresses are the subject of C185."
  },
  {
   "property": "C174",
   "status": "partial",
   "theorems": [
    "C174_same_run",
    "C174_coordinates",
    "C174_numbering",
    "C174_skill",
    "C174_units",
    "C174_truss",
    "C174_truss_elements",
    "C174_solid",
    "C174_tolerance_refuted"
   ],
   "note": "Proved when the tolerance is converted to the other units too (C174_same_run, C174_units) or the units are the same (C174_coordinates, C174_numbering). Refuted when the same number is given as tolerance: C174_tolerance_refuted has a spring which moves by 3/2 in one unit of force and is reported converged without moving in another. Exact real arithmetic, reduced systems; every linear solve is assumed to give a solution and the reduced matrix to be regular at the states reached. Supports must hold all or no directions of a node if the coordinates are turned."
  },
  {
   "property": "C175",
   "status": "partial",
   "theorems": [
    "C175_elements",
    "C175_states_partial",
    "C175_unchanged_partial",
    "C175_refuted",
    "C175_newton",
    "C175_newton_refuted"
   ],
   "note": "Refuted: the assemblers of the Python module store copies of the elements and give no access to them. C175_refuted: after makeFE, making an assembler and updateState, the element has the new state and the assembler still uses the old one. Proved for every sequence of calls: the state of a Python element (C175_elements), that an assembler, its manipulators and writers use the states the elements had when the assembler was made (C175_states_partial), and that these are the present ones as long as no element was updated since (C175_unchanged_partial). C175_newton: the Newton iteration of ikarus/python/test/helperfunctions.py, which updates all elements in every iteration, finds exactly what it would find without; C175_newton_refuted: it reports success for a state which is no equilibrium with the internal variables of the elements. Elements are abstract states, updateState is any function; requirements, which are shared, and lifetimes (C137) are not part of this model."
  },
  {
   "property": "C176",
   "status": "partial",
   "theorems": [
    "C176_selected",
    "C176_signatures",
    "C176_interior",
    "C176_subspaces",
    "C176_python",
    "C176_order",
    "C176_assignment_refuted",
    "C176_default_refuted"
   ],
   "note": "Proved for functions which fix a degree of freedom if a condition holds (C176_selected, independent of the order of the grid by C176_order; for all subspaces C176_subspaces), for any function: the signatures agree (C176_signatures) and the interior keeps its flags (C176_interior). Refuted for functions which assign their condition: at a corner the intersection visited last decides (C176_assignment_refuted). Refuted in Python for functions with a default value: it counts as a parameter, so that the function gets local instead of global indices (C176_default_refuted). The grid, the basis and forEachBoundaryDOF of dune-functions enter as lists of boundary intersections and their degrees of freedom."
  },
  {
   "property": "C177",
   "status": "partial",
   "theorems": [
    "C177_three_d",
    "C177_plane_strain",
    "C177_assumed_plane_strain",
    "C177_plane_stress_partial",
    "C177_plane_stress_refuted"
   ],
   "note": "Proved for three-dimensional and plane strain materials, any underlying material, for displacement, enhanced strain and assumed stress elements (for the latter under the assumption that the inversion of the material returns a strain with the given stress). Refuted for plane stress: the full result is the stress without thickness strain, so it has a thickness stress and other stresses in the plane (C177_plane_stress_refuted, for every strain with a thickness stress above the tolerance). C177_plane_stress_partial says what both results are for any material and that they agree where the thickness stress vanishes without thickness strain. Displacement-pressure elements are the subject of C180."
  },
  {
   "property": "C178",
   "status": "partial",
   "theorems": [
    "C178_three_d",
    "C178_plane_strain",
    "C178_plane_stress_partial",
    "C178_plane_stress_refuted"
   ],
   "note": "Proved for three-dimensional and plane strain materials, and for the Kirchhoff stress with plane stress. Refuted for the Cauchy stress with plane stress: the thickness stretch is left out of the determinant, so the reported stress is the true one times the thickness stretch (C178_plane_stress_partial for any material, C178_plane_stress_refuted with 15 reported instead of 30)."
  },
  {
   "property": "C179",
   "status": "partial",
   "theorems": [
    "C179_plain",
    "C179_mixed_partial",
    "C179_nonlinear_enhancement",
    "C179_by_name",
    "C179_added_once_partial",
    "C179_assumed_refuted",
    "C179_linear_enhancement_refuted",
    "C179_added_twice_refuted"
   ],
   "note": "Proved for all elements without enhancement and for those with an enhancement of the same kind as the solid, in any order of the skills and with any number of loads. Refuted in three cases: the full stresses of assumed stress elements with a three-dimensional material are never written (C179_assumed_refuted), a nonlinear solid with a linear enhancement compiles and its stresses are never written (C179_linear_enhancement_refuted), and the list of results of enhanced elements has every type twice, so that writers get every field twice (C179_added_twice_refuted)."
  },
  {
   "property": "C180",
   "status": "partial",
   "theorems": [
    "C180_plane_strain",
    "C180_plane_stress_partial",
    "C180_plane_stress_refuted",
    "C180_pressure_lost_refuted"
   ],
   "note": "Proved for plane strain: energy, stresses and full stresses are those of the whole material without thickness strain. Refuted for plane stress: the two parts are reduced separately, each with a thickness strain of its own. C180_plane_stress_partial says what is returned, and that it is right where the two thickness strains agree. As the volumetric stress is a multiple of C^-1, its stresses in the plane vanish with its thickness stress: two pressures give the same stresses up to the tolerance (C180_pressure_lost_refuted). C180_plane_stress_refuted gives a stretched body for which no thickness strain has the returned stresses; its deviatoric function is the Saint Venant-Kirchhoff energy, which is not one of those in the library but meets the same concept. The parts are functions of the Green-Lagrange strain; the moduli of the driver are not covered."
  },
  {
   "property": "C181",
   "status": "proved",
   "theorems": [
    "C181_energy",
    "C181_forces",
    "C181_stiffness",
    "C181_plate"
   ],
   "note": "The shell lies in the plane of its first two coordinates; its Jacobian, the derivatives of its shape functions and their chain rules are given at the integration points, and the sheet has the same points and integration elements. planeStressMatrix is the tangent that C44 proves for planeStress of the Saint Venant-Kirchhoff material. C181_plate is for an affine map to the plane and the undeformed shell; the curvatures are the second derivatives in the plane. Poisson numbers between -1 and 1/2. Real arithmetic."
  },
  {
   "property": "C182",
   "status": "proved",
   "theorems": [
    "C182_linearised",
    "C182_small_forces",
    "C182_bar"
   ],
   "note": "Derivatives of the shape functions are given at the points. The material is any with vanishing stresses at zero strain and moduli C there (C157 proves this of the hyperelastic materials, except with the volumetric function VF12). C182_small_forces additionally takes the moduli as derivative of the stresses at rest. C182_bar is for trusses in one dimension with the first node on the left; rotated trusses are C173. Real arithmetic."
  },
  {
   "property": "C183",
   "status": "proved",
   "theorems": [
    "C183_energy",
    "C183_results"
   ],
   "note": "The two elements have the same nodes and shape functions and integrate over points with the same volumes; the derivatives of position and shape functions are related by the chain rule, first (T) and second (S) derivatives of the old parameters are arbitrary at each point (T invertible). The second fundamental form is the one the geometry reports, whose sign follows the normal. Forces and stiffness for deformed surfaces with a normal at each point. Real arithmetic."
  },
  {
   "property": "C184",
   "status": "proved",
   "theorems": [
    "C184_enhanced_strains",
    "C184_displacement_gradients",
    "C184_assumed_stresses"
   ],
   "note": "The two elements are the same body with its corners numbered in two ways that differ by a symmetry W of the reference square or cube; both rules have the same points up to their order (tensor-product rules with symmetric points do), with the same volumes and the same global derivatives of the shape functions, corner by corner, and Jacobians that differ by W. The matrices that the elements invert are invertible and inverted exactly; the tangents are symmetric for the condensed matrices; the materials depend on the components of the strain they are given only. The correspondence P of the internal variables depends on the symmetry and the variant only. Real arithmetic."
  },
  {
   "property": "C185",
   "status": "proved",
   "theorems": [
    "C185_enhanced_strains",
    "C185_displacement_gradients",
    "C185_assumed_stresses",
    "C185_compliance_isotropic"
   ],
   "note": "In exact real arithmetic, for rotations and reflections. The two elements have the same points of the rule and the same volumes; the global derivatives of the shape functions and the Jacobian at the center are those of the turned element. The energy (for assumed stresses the complementary energy) does not depend on the coordinate system and reads the components of the strain (stress) only; C173_hooke_isotropic, C173_hyperelastic_isotropic and C185_compliance_isotropic show this of the materials. The stress is the derivative of the energy with a symmetric tangent near the displacements and internal variables; the stored strains of assumed stresses are those of the present parameters (C114_history). The matrices that the elements invert are invertible and inverted exactly."
  },
  {
   "property": "C186",
   "status": "proved",
   "theorems": [
    "C186_green_lagrange",
    "C186_displacement_gradients"
   ],
   "note": "In exact real arithmetic, at rest: displacements and internal variables zero. The material is free of stress without strain and has symmetric moduli there; only these enter, so the linear element uses the moduli of the nonlinear material at rest. The Green-Lagrange variant is compared with the linear variant of the same modes for any modes; the displacement gradients and the transposed ones (four modes in two, nine in three dimensions) with the linear variant of four or nine modes. The matrix of the modes is that of the linear variant up to the pairing of the modes and the factor detJ0^2; this needs no inverse. The Jacobian at the center and the matrices that the elements invert are invertible and inverted exactly."
  },
  {
   "property": "C187",
   "status": "proved",
   "theorems": [
    "C187_unknowns",
    "C187_energy",
    "C187_forces",
    "C187_stiffness",
    "C187_decomposed"
   ],
   "note": "In exact real arithmetic, for rotations and reflections. The two elements have the same points of the rule with the same volumes and the same shape functions of the pressure; the global derivatives of the shape functions of the displacements are those of the turned element. The deviatoric and the volumetric energy do not depend on the coordinate system and read the components of the strain only; C187_decomposed shows the first of the two parts of a hyperelastic material in three dimensions, with a solver of eigenvalues that solves. The stresses and moduli are the derivatives of these energies at the strains of the element, for the matrix also at those close to them. kappa is not zero."
  },
  {
   "property": "C188",
   "status": "proved",
   "theorems": [
    "C188_energy",
    "C188_equilibrium",
    "C188_rest"
   ],
   "note": "In exact real arithmetic. The shape functions of the displacements reproduce constants and the coordinates (their derivatives sum to zero and give the identity with the places of the nodes). The materials read the components of the strain only and, for the forces, are derivatives of their energies at the strains of the element. C188_rest in addition needs materials without stress and without change of volume where there is no strain, and vanishing pressures."
  },
  {
   "property": "C189",
   "status": "proved",
   "theorems": [
    "C189_material",
    "C189_follows",
    "C189_means",
    "C189_constant"
   ],
   "note": "In exact real arithmetic, kappa not zero. The change of volume is the energy of the volumetric material (Uhat in the code). C189_follows and C189_constant hold for any functions as stresses; C189_material shows that the stresses and moduli of the combined material are derivatives of its energy. Which material this is for the implemented volumetric functions is the subject of C113: the combined energy is kappa/2 times the square of the volumetric function. C189_constant is for one constant pressure and a total volume that is not zero."
  },
  {
   "property": "C190",
   "status": "proved",
   "theorems": [
    "C190_green_lagrange",
    "C190_transposed",
    "C190_displacement_gradients"
   ],
   "note": "In exact real arithmetic. The shape functions reproduce constants and the coordinates, at the integration points and (for the variants of the displacement gradient) at the center. The material reads the components of the strain only; its stresses and moduli are derivatives of its energy at the strains of the element, for Green-Lagrange strains and the transposed variant at all states close to the given one. With Green-Lagrange strains the modes are any functions; the variants of the displacement gradient have the modes H4 and H9 and a regular Jacobian at the center. With enhanced displacement gradients the internal variables must turn with the element, and the forces are claimed to be balanced where the residuals of the internal variables vanish. The variant with linear strains is not covered: its strains change under rotations."
  },
  {
   "property": "C191",
   "status": "proved",
   "theorems": [
    "C191_energy",
    "C191_residual",
    "C191_equilibrium"
   ],
   "note": "In exact real arithmetic, for Green-Lagrange strains with any stress modes. The shape functions reproduce constants and the coordinates. No assumption on the material, on the stored strains and inverted moduli, or on the computed inverse of H is needed: the claims hold for whatever the element stores. The variant with linear stresses and strains is not covered: its strains change under rotations."
  },
  {
   "property": "C192",
   "status": "proved",
   "theorems": [
    "C192_forces",
    "C192_stiffness",
    "C192_translation",
    "C192_rotation",
    "C192_solid",
    "C192_shell",
    "C192_unstressed"
   ],
   "note": "In exact real arithmetic. C192_forces to C192_rotation are for any energy that rigid motions do not change, with its gradient and the Jacobian of that; C192_solid and C192_shell give the nonlinear solids and the Kirchhoff-Love shells. The shape functions reproduce constants and the coordinates. Solids: the stresses and moduli are derivatives of the energy at all states close to the given one. Shells: the surface has a normal in the given state, and the metric is inverted exactly. Enhanced strains, assumed stresses and displacement-pressure elements are not covered here (see C193, C194 and C195)."
  },
  {
   "property": "C193",
   "status": "proved",
   "theorems": [
    "C193_green_lagrange",
    "C193_transposed"
   ],
   "note": "In exact real arithmetic. For enhanced Green-Lagrange strains and for transposed displacement gradients. The plain displacement gradients are not covered: their internal variables turn with the element (C190). The shape functions reproduce constants and the coordinates, for the gradients also at the center. The stresses and moduli are derivatives of the energy at all states close to the given and to the moved one. The matrix of the internal variables is inverted exactly in both states."
  },
  {
   "property": "C194",
   "status": "proved",
   "theorems": [
    "C194_forces",
    "C194_stiffness",
    "C194_update"
   ],
   "note": "In exact real arithmetic. For assumed second Piola-Kirchhoff stresses. The shape functions reproduce constants and the coordinates. Nothing is required of the material or of what the element stores, and C194_forces and C194_update require nothing of the inversion. C194_stiffness requires that the computed inverse is symmetric, because the element mirrors the upper triangle."
  },
  {
   "property": "C195",
   "status": "proved",
   "theorems": [
    "C195_forces",
    "C195_stiffness"
   ],
   "note": "In exact real arithmetic. The shape functions reproduce constants and the coordinates. The two parts of the material read the components of the strain only, and their stresses and moduli are derivatives of their energies at the given state (C195_forces) or at all states close to it (C195_stiffness). The modulus kappa is not zero."
  },
  {
   "property": "C196",
   "status": "proved",
   "theorems": [
    "C196_truss"
   ],
   "note": "In exact real arithmetic, for the Green-Lagrange strain of the truss. The displacements and the initial places are arbitrary; the division by the squared length is the total division of the model, so a truss of length zero is covered only formally."
  }
 ]
}