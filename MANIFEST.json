{
 "claims": [
  {
   "property": "C01",
   "status": "proved",
   "theorems": [
    "C01_so3_exp_is_rotation"
   ],
   "note": "exact for w=0 or |w|>=1e-5; every w within 1e-30"
  },
  {
   "property": "C02",
   "status": "proved",
   "theorems": [
    "C02_so3_exp_is_matrix_exponential",
    "C02_matrix_exponential_unique",
    "C02_one_parameter_subgroup"
   ],
   "note": "exact outside the Taylor window, within 1e-26 for every w; uniqueness of the matrix exponential proved too"
  },
  {
   "property": "C03",
   "status": "proved",
   "theorems": [
    "C03_ln_of_exp",
    "C03_ln_of_exp_zero",
    "C03_ln_of_exp_small",
    "C03_ln_of_exp_near_pi",
    "C03_ln_of_exp_near_pi_diag",
    "C03_ln_of_exp_refuted"
   ],
   "note": "exact characterisation on [1e-5, pi-6e-8]; the property for every axis is refuted (C03_ln_of_exp_refuted): zero is returned for axes (1,+-1,0) from 90 degrees on; bounds inside both approximation windows"
  },
  {
   "property": "C04",
   "status": "proved",
   "theorems": [
    "C04_exp_of_ln",
    "C04_exp_of_ln_small",
    "C04_exp_of_ln_near_pi",
    "C04_exp_of_ln_refuted"
   ],
   "note": "holds except on the failing set, which is exhibited (C04_exp_of_ln_refuted); in the window (pi-6e-8,pi) within 3e-7, not stated for axes with |x| = |y| and 0 < |z| < 1e-4 there"
  },
  {
   "property": "C05",
   "status": "proved",
   "theorems": [
    "C05_so3_group",
    "C05_any_exact_sequence",
    "C05_any_sequence_drift",
    "C05_adjoint"
   ],
   "note": "exact for exact increments; drift bound for arbitrary increments and any number of calls"
  },
  {
   "property": "C06",
   "status": "proved",
   "theorems": [
    "C06_hat6_vee6",
    "C06_hat3_vee3"
   ],
   "note": ""
  },
  {
   "property": "C07",
   "status": "proved",
   "theorems": [
    "C07_isSO3_accepts_rotations",
    "C07_isSO3_rejects_improper",
    "C07_isSO3_refuted"
   ],
   "note": "exact acceptance condition (determinant only); soundness refuted"
  },
  {
   "property": "C08",
   "status": "proved",
   "theorems": [
    "C08_quaternions",
    "C08_roundtrip_rotation",
    "C08_roundtrip_quaternion",
    "C08_quaternion_product"
   ],
   "note": ""
  },
  {
   "property": "C09",
   "status": "proved",
   "theorems": [
    "C09_rpy",
    "C09_rpy_periodic"
   ],
   "note": ""
  },
  {
   "property": "C10",
   "status": "proved",
   "theorems": [
    "C10_so3_distance",
    "C10_distance_is_relative_angle",
    "C10_distance_zero",
    "C10_distance_zero_refuted",
    "C10_distance_bounds",
    "C10_triangle",
    "C10_triangle_refuted"
   ],
   "note": "all but definiteness; definiteness refuted, and the only possible violations located (C10_distance_zero)"
  },
  {
   "property": "C11",
   "status": "proved",
   "theorems": [
    "C11_se3_group",
    "C11_any_exact_sequence",
    "C11_any_sequence_drift",
    "C11_update_sides"
   ],
   "note": "exact for exact increments; drift bound for arbitrary increments and any number of calls"
  },
  {
   "property": "C12",
   "status": "proved",
   "theorems": [
    "C12_transform_action",
    "C12_transform_array"
   ],
   "note": ""
  },
  {
   "property": "C13",
   "status": "proved",
   "theorems": [
    "C13_se3_exp_rigid",
    "C13_se3_exp_is_matrix_exponential",
    "C13_matrix_exponential_unique"
   ],
   "note": "exact for w=0 or |w|>1e-3, bounds for every xi; uniqueness of the exponential proved"
  },
  {
   "property": "C14",
   "status": "proved",
   "theorems": [
    "C14_ln_of_exp",
    "C14_ln_of_exp_zero",
    "C14_ln_of_exp_small",
    "C14_exp_of_ln",
    "C14_exp_of_ln_small",
    "C14_ln_of_exp_near_pi",
    "C14_exp_of_ln_near_pi",
    "C14_ln_of_exp_refuted"
   ],
   "note": "exact ranges, bounds for small angles, the failing axes characterised and refuted; in the window (pi-6e-8,pi) bounds for all axes but those with |x| = |y| and |z| < 1e-4"
  },
  {
   "property": "C15",
   "status": "proved",
   "theorems": [
    "C15_adjoint",
    "C15_adjoint_exp",
    "C15_adjoint_exp_all"
   ],
   "note": ""
  },
  {
   "property": "C16",
   "status": "proved",
   "theorems": [
    "C16_isSE3_accepts_rigid",
    "C16_isSE3_exact_test",
    "C16_isSE3_refuted"
   ],
   "note": "completeness and the exact acceptance condition; soundness refuted"
  },
  {
   "property": "C17",
   "status": "proved",
   "theorems": [
    "C17_regenerate",
    "C17_regenerate_small",
    "C17_regenerate_refuted"
   ],
   "note": "on the exact range and, with bounds, for small angles; refuted on the failing axes"
  },
  {
   "property": "C18",
   "status": "proved",
   "theorems": [
    "C18_distances",
    "C18_rotation_triangle",
    "C18_distance_symmetric",
    "C18_distance_zero",
    "C18_distance_zero_refuted"
   ],
   "note": "definiteness of distance refuted, with the only possible violations located"
  },
  {
   "property": "C19",
   "status": "proved",
   "theorems": [
    "C19_curly_wedge_bracket",
    "C19_adjoint_automorphism"
   ],
   "note": "plus: Adj is an automorphism of the bracket"
  },
  {
   "property": "C20",
   "status": "proved",
   "theorems": [
    "C20_compound_2nd_order",
    "C20_chain_any_grouping"
   ],
   "note": "any bracketing tree of any size"
  },
  {
   "property": "C21",
   "status": "proved",
   "theorems": [
    "C21_fourth_order_exact_difference",
    "C21_fourth_order_moments",
    "C21_fourth_order_symmetric",
    "C21_fourth_order_certain",
    "C21_fourth_order_moments_refuted",
    "C21_fourth_order_psd_refuted"
   ],
   "note": "exact difference between the code and the fourth-order moments for all symmetric covariances; equality when the first cross block is symmetric; equality in general and positive semidefiniteness refuted"
  },
  {
   "property": "C22",
   "status": "proved",
   "theorems": [
    "C22_wrap_angle"
   ],
   "note": "loops modelled with fuel; termination, range, congruence, uniqueness"
  },
  {
   "property": "C23",
   "status": "proved",
   "theorems": [
    "C23_wrap_angle_double_terminates_iff",
    "C23_wrap_angle_double_range",
    "C23_wrap_angle_double_terminates_refuted"
   ],
   "note": "Flocq binary64; exact termination condition; termination on every finite double refuted"
  },
  {
   "property": "C24",
   "status": "proved",
   "theorems": [
    "C24_kind_kept",
    "C24_pose2d_angle",
    "C24_pose2d_update",
    "C24_plane_unit",
    "C24_plane_update",
    "C24_plane_set_state_refuted",
    "C24_pose3d_update_rigid",
    "C24_pose3d_update",
    "C24_pose3d_update_refuted",
    "C24_auxiliary_kept",
    "C24_update_from_auxiliary",
    "C24_increments"
   ],
   "note": "any sequence of node operations; plane set_state and 3D update on bad axes refuted"
  },
  {
   "property": "C25",
   "status": "proved",
   "theorems": [
    "C25_bookkeep_restore",
    "C25_bookkeep_restore_refuted"
   ],
   "note": "any state-only operations between bookkeeping and restoring; exactness refuted for unwrapped 2D angles"
  },
  {
   "property": "C26",
   "status": "proved",
   "theorems": [
    "C26_robust_weights",
    "C26_ransac_refuted"
   ],
   "note": "weights shown to be derivatives of the documented influence functions; RANSAC refuted"
  },
  {
   "property": "C27",
   "status": "proved",
   "theorems": [
    "C27_ids",
    "C27_last_id",
    "C27_returned_id",
    "C27_returned_factor_id"
   ],
   "note": "any API program; ids of re-added nodes characterised as well"
  },
  {
   "property": "C28",
   "status": "proved",
   "theorems": [
    "C28_dimensions",
    "C28_eigen_counted_refuted"
   ],
   "note": "any API program; eigen factors counted in the observation dimension (refuted)"
  },
  {
   "property": "C29",
   "status": "proved",
   "theorems": [
    "C29_adjacency",
    "C29_adjacency_fresh"
   ],
   "note": "exact multiplicity for any API program including removals"
  },
  {
   "property": "C30",
   "status": "proved",
   "theorems": [
    "C30_readd_node",
    "C30_no_duplicates_refuted"
   ],
   "note": "code always appends: general behaviour proved and the documented promise refuted"
  },
  {
   "property": "C31",
   "status": "proved",
   "theorems": [
    "C31_rm_factor",
    "C31_rm_absent_refuted"
   ],
   "note": "removal of an absent factor is undefined behaviour (refuted)"
  },
  {
   "property": "C32",
   "status": "proved",
   "theorems": [
    "C32_placement",
    "C32_programs",
    "C32_repeated_node_refuted",
    "C32_eigen_factor_refuted",
    "C32_unanchored_refuted"
   ],
   "note": "exact set of sparse entries for every well-formed graph, well-formedness proved for clean programs; three ways to undefined behaviour refuted"
  },
  {
   "property": "C33",
   "status": "proved",
   "theorems": [
    "C33_normal_equations",
    "C33_weights",
    "C33_nonsymmetric_refuted"
   ],
   "note": "symmetric information matrices; the non-symmetric case is refuted"
  },
  {
   "property": "C34",
   "status": "proved",
   "theorems": [
    "C34_gauss_newton",
    "C34_damping"
   ],
   "note": "exactness of the linear solve is a hypothesis on its output; damping proved as L + lambda I"
  },
  {
   "property": "C35",
   "status": "proved",
   "theorems": [
    "C35_anchors",
    "C35_only_active",
    "C35_programs",
    "C35_late_anchor_refuted"
   ],
   "note": "well-formed graphs, arbitrary linear solver; anchoring a node after adding it refuted"
  },
  {
   "property": "C36",
   "status": "proved",
   "theorems": [
    "C36_lm_never_worse",
    "C36_one_pass",
    "C36_trial",
    "C36_nan_refuted"
   ],
   "note": "needs wrapped or wrap-blind residuals for rejected steps; NaN chi2 refuted on the comparison"
  },
  {
   "property": "C37",
   "status": "proved",
   "theorems": [
    "C37_iterations",
    "C37_total",
    "C37_zero_iterations_refuted"
   ],
   "note": "exact iteration counts; maxIters = 0 refuted"
  },
  {
   "property": "C38",
   "status": "proved",
   "theorems": [
    "C38_lambda_ignored"
   ],
   "note": "the negation is proved: solve does not depend on lambda"
  },
  {
   "property": "C39",
   "status": "proved",
   "theorems": [
    "C39_chi2",
    "C39_cached",
    "C39_stale_after_rejection"
   ],
   "note": "staleness after a rejected step proved as well"
  },
  {
   "property": "C40",
   "status": "proved",
   "theorems": [
    "C40_residual",
    "C40_jacobian",
    "C40_updates"
   ],
   "note": "ids in order; includes that the updates performed by the solver are among the curves the Jacobians differentiate along"
  },
  {
   "property": "C41",
   "status": "proved",
   "theorems": [
    "C41_residual",
    "C41_jacobian_iff",
    "C41_jacobian_refuted"
   ],
   "note": "correctness of the Jacobian characterised exactly; refuted at zero residual"
  },
  {
   "property": "C42",
   "status": "proved",
   "theorems": [
    "C42_reversed_iff",
    "C42_odom_reversed_iff",
    "C42_numbering_refuted"
   ],
   "note": "both reversed cases characterised exactly; refuted"
  },
  {
   "property": "C43",
   "status": "proved",
   "theorems": [
    "C43_in_order",
    "C43_reversed",
    "C43_reversed_translation_iff",
    "C43_numbering_refuted"
   ],
   "note": "reversed case characterised; refuted"
  },
  {
   "property": "C44",
   "status": "proved",
   "theorems": [
    "C44_poses2d_iff",
    "C44_poses2d_refuted",
    "C44_odom",
    "C44_poses3d",
    "C44_reversed_refuted"
   ],
   "note": "2D characterised exactly; refuted for 2D poses and for reversed 3D poses"
  },
  {
   "property": "C45",
   "status": "proved",
   "theorems": [
    "C45_residual",
    "C45_jacobian",
    "C45_initialise",
    "C45_close_refuted"
   ],
   "note": "1 mm guard refuted"
  },
  {
   "property": "C46",
   "status": "proved",
   "theorems": [
    "C46_residual",
    "C46_jacobian",
    "C46_no_initialisation",
    "C46_initialise_refuted"
   ],
   "note": "initializeLandmark refuted"
  },
  {
   "property": "C47",
   "status": "proved",
   "theorems": [
    "C47_residual",
    "C47_same_plane",
    "C47_jacobian",
    "C47_update_refuted"
   ],
   "note": "Jacobian along the normalised update refuted"
  },
  {
   "property": "C48",
   "status": "proved",
   "theorems": [
    "C48_prior_residual",
    "C48_relative_residual",
    "C48_half_turn_refuted",
    "C48_prior_jacobian",
    "C48_relative_jacobian",
    "C48_prior_jacobian_iff",
    "C48_relative_jacobian_iff",
    "C48_jacobian_refuted"
   ],
   "note": "zero set of the residual up to the two failing half-turn axes; Jacobian off zero residual refuted"
  },
  {
   "property": "C49",
   "status": "proved",
   "theorems": [
    "C49_residual",
    "C49_jacobian"
   ],
   "note": ""
  },
  {
   "property": "C50",
   "status": "proved",
   "theorems": [
    "C50_residual",
    "C50_distance",
    "C50_jacobian"
   ],
   "note": ""
  },
  {
   "property": "C51",
   "status": "proved",
   "theorems": [
    "C51_gradient_hessian",
    "C51_one_node_gradient",
    "C51_robust_ignored",
    "C51_gradient_refuted",
    "C51_optimum_refuted"
   ],
   "note": "what is computed, plus refutations of the gradient claim and of the fixed point at the optimum"
  },
  {
   "property": "C52",
   "status": "proved",
   "theorems": [
    "C52_in_bounds",
    "C52_programs",
    "C52_anchor_refuted"
   ],
   "note": "bounds without anchors for every solve; with an anchor every solve is out of range"
  },
  {
   "property": "C53",
   "status": "proved",
   "theorems": [
    "C53_lm_never_worse",
    "C53_dense",
    "C53_nan_refuted"
   ],
   "note": "NaN case refuted by witness"
  },
  {
   "property": "C54",
   "status": "proved",
   "theorems": [
    "C54_newton_raphson",
    "C54_levenberg_marquardt",
    "C54_lm_pass",
    "C54_step",
    "C54_total",
    "C54_zero_iterations_refuted"
   ],
   "note": "inverse of the Hessian arbitrary, exact where stated"
  },
  {
   "property": "C55",
   "status": "proved",
   "theorems": [
    "C55_least_squares",
    "C55_unchanged",
    "C55_total",
    "C55_exact_recovery",
    "C55_svd_independent",
    "C55_svd_exists"
   ],
   "note": "exactness of the SVD of this call's matrix is a hypothesis; existence of an exact SVD is proved"
  },
  {
   "property": "C56",
   "status": "proved",
   "theorems": [
    "C56_degenerate_rejected",
    "C56_gaps",
    "C56_symmetric_refuted",
    "C56_small_rejected",
    "C56_small_refuted",
    "C56_python_refuted",
    "C56_python"
   ],
   "note": "degenerate inputs are rejected; symmetric and small clouds refute the converse; the Python call hides the failure (refuted)"
  },
  {
   "property": "C57",
   "status": "proved",
   "theorems": [
    "C57_iterations",
    "C57_defined",
    "C57_rigid",
    "C57_aligned_gicp",
    "C57_aligned_weighted",
    "C57_weighted_steps",
    "C57_gicp_steps",
    "C57_linearisation",
    "C57_descent",
    "C57_stationary",
    "C57_gicp_refuted"
   ],
   "note": "exact inverses are hypotheses where stated; gicp minimality refuted by a witness"
  },
  {
   "property": "C58",
   "status": "proved",
   "theorems": [
    "C58_plane",
    "C58_unique",
    "C58_exact",
    "C58_normal",
    "C58_centroid",
    "C58_eigen_exists"
   ],
   "note": "exactness of the eigen solver on this call's matrix is a hypothesis; existence is proved"
  },
  {
   "property": "C59",
   "status": "proved",
   "theorems": [
    "C59_counts",
    "C59_total",
    "C59_defined",
    "C59_mean",
    "C59_mean_fresh",
    "C59_mean_stale_refuted",
    "C59_clear_unusable"
   ],
   "note": "programs without clear_points; stale means and clear_points are shown as defects"
  },
  {
   "property": "C60",
   "status": "proved",
   "theorems": [
    "C60_least",
    "C60_eigen_exists",
    "C60_short_trajectory",
    "C60_fresh",
    "C60_stale",
    "C60_below_distances",
    "C60_coplanar",
    "C60_all_points_refuted",
    "C60_frame_refuted"
   ],
   "note": "exactness of the eigen solver on this call's matrix is a hypothesis, existence proved; use of all points and frame independence refuted"
  },
  {
   "property": "C61",
   "status": "proved",
   "theorems": [
    "C61_fixed_plane",
    "C61_estimated_plane",
    "C61_defined",
    "C61_hessian_translation",
    "C61_hessian_axis",
    "C61_hessian_refuted"
   ],
   "note": "the estimated-plane derivative assumes an exact eigen solver and a simple smallest eigenvalue; Hessian for rotations refuted, excess characterised"
  },
  {
   "property": "C62",
   "status": "proved",
   "theorems": [
    "C62_index_range",
    "C62_index_exact",
    "C62_index_refuted",
    "C62_scene",
    "C62_counts",
    "C62_truth",
    "C62_on_planes",
    "C62_registration"
   ],
   "note": "Random engines are arbitrary draws. C62_index_refuted is the witness for 8486572 points and 2051 planes (out-of-range read). C62_on_planes and C62_registration assume the rotation between consecutive poses is zero or at least 1e-5 (otherwise the Taylor branch of exp makes poses rigid only up to 1e-30)."
  },
  {
   "property": "C63",
   "status": "proved",
   "theorems": [
    "C63_total",
    "C63_within_elapsed",
    "C63_precision",
    "C63_overlap_refuted",
    "C63_no_start",
    "C63_shares"
   ],
   "note": "Clock readings are arguments; doubles are modelled as integers (exact below 2^53 microseconds). C63_overlap_refuted shows consecutive stops overlap."
  },
  {
   "property": "C64",
   "status": "proved",
   "theorems": [
    "C64_destructor_cycles",
    "C64_leak_refuted"
   ],
   "note": "leak characterised exactly; absence of leaks refuted"
  },
  {
   "property": "C65",
   "status": "proved",
   "theorems": [
    "C65_python_sessions",
    "C65_equal_ids_refuted"
   ],
   "note": "fclass abstracts the factor classes; equal ids refuted"
  },
  {
   "property": "C66",
   "status": "proved",
   "theorems": [
    "C66_sessions",
    "C66_lm_never_worse"
   ],
   "note": "linear solver and robust option arbitrary"
  },
  {
   "property": "C67",
   "status": "proved",
   "theorems": [
    "C67_incremental",
    "C67_defined",
    "C67_get_error_kept",
    "C67_repeat_refuted"
   ],
   "note": "distinct times; a repeated time is refuted"
  },
  {
   "property": "C68",
   "status": "proved",
   "theorems": [
    "C68_defined",
    "C68_accounting",
    "C68_error",
    "C68_total_unique",
    "C68_points_in_use"
   ],
   "note": "exactness of the eigen solver is a hypothesis where the value of the error is stated; planes passed to add_plane were not cleared"
  },
  {
   "property": "C69",
   "status": "proved",
   "theorems": [
    "C69_trajectory",
    "C69_set_last_pose",
    "C69_one_pose_refuted",
    "C69_constant_velocity",
    "C69_reset"
   ],
   "note": "set_last_pose with one pose refuted; the path statement needs ln(exp(ln T)) = ln T for poses set by the user"
  },
  {
   "property": "C70",
   "status": "proved",
   "theorems": [
    "C70_not_worse",
    "C70_ends_on_path",
    "C70_off_path_refuted"
   ],
   "note": "start on a constant-velocity path; refuted off it"
  },
  {
   "property": "C71",
   "status": "proved",
   "theorems": [
    "C71_alignment",
    "C71_exact",
    "C71_late_plane_throws",
    "C71_mispaired_refuted"
   ],
   "note": "exact SVD (existence proved); planes missing from the first scan: out of range, or wrong pairs (refuted)"
  },
  {
   "property": "C72",
   "status": "proved",
   "theorems": [
    "C72_codes",
    "C72_no_ops",
    "C72_single_ignored",
    "C72_second_order",
    "C72_keeps"
   ],
   "note": "definedness of the two gradient modes is not claimed"
  },
  {
   "property": "C73",
   "status": "proved",
   "theorems": [
    "C73_defined",
    "C73_gradient",
    "C73_two_poses",
    "C73_three_poses_refuted",
    "C73_hessian_two_poses",
    "C73_hessian_refuted"
   ],
   "note": "The two- and three-pose statements are about the update the optimizer applies; C73_gradient describes the curve whose derivative the code computes for any number of poses. The eigen solver is assumed exact."
  },
  {
   "property": "C74",
   "status": "proved",
   "theorems": [
    "C74_defined",
    "C74_mean_square",
    "C74_zero",
    "C74_common_motion",
    "C74_short_refuted",
    "C74_zero_refuted"
   ],
   "note": "The assert on the length is off in the default (Release) build."
  },
  {
   "property": "C75",
   "status": "proved",
   "theorems": [
    "C75_add_node",
    "C75_add_factor",
    "C75_chi2_solve",
    "C75_cached",
    "C75_chi2_after_solve_refuted"
   ],
   "note": "The values that solve computes are the subject of C33-C37."
  },
  {
   "property": "C76",
   "status": "proved",
   "theorems": [
    "C76_step",
    "C76_one_node_factors",
    "C76_same_step_refuted"
   ],
   "note": "The Gauss-Newton system and the inverse are assumed to be solved exactly."
  },
  {
   "property": "C77",
   "status": "proved",
   "theorems": [
    "C77_newest",
    "C77_alone",
    "C77_older_error",
    "C77_older_error_fixed",
    "C77_older_one_iteration",
    "C77_independent_refuted"
   ],
   "note": "C77_independent_refuted is the negation of independence. The theorems about earlier registrations need no assumption on the eigen solver."
  },
  {
   "property": "C78",
   "status": "proved",
   "theorems": [
    "C78_defined",
    "C78_report",
    "C78_last_solve",
    "C78_never_solved",
    "C78_eigenvalues",
    "C78_eigenvalues_gradient",
    "C78_eigenvalues_stale",
    "C78_planes_refuted",
    "C78_range_refuted",
    "C78_initial_error_refuted"
   ],
   "note": "C78_planes_refuted, C78_range_refuted and C78_initial_error_refuted show what a user would expect and does not get. The eigenvalue routine is any function."
  },
  {
   "property": "C79",
   "status": "proved",
   "theorems": [
    "C79_sessions",
    "C79_costs",
    "C79_exact_solver",
    "C79_initialise_refuted",
    "C79_odometry_refuted",
    "C79_close_refuted"
   ],
   "note": "C79_initialise_refuted, C79_odometry_refuted and C79_close_refuted are the three things that fail. The linear solver is any exact one; C79_exact_solver shows that there is one (Gaussian elimination)."
  },
  {
   "property": "C80",
   "status": "proved",
   "theorems": [
    "C80_held",
    "C80_posed",
    "C80_floating",
    "C80_isolated",
    "C80_one_landmark",
    "C80_centre"
   ],
   "note": "Held is sufficient, not necessary: a pose that sees two anchored landmarks is determined too. Floating sets are planar; C80_centre is about sets without landmark observations, since these see shifts when closer than 1e-3."
  },
  {
   "property": "C81",
   "status": "proved",
   "theorems": [
    "C81_best",
    "C81_start",
    "C81_again",
    "C81_mean"
   ],
   "note": "For the quadratic cost (the default of FGraph) and a linear solver that solves nonsingular systems exactly. The poses have invertible linear parts; the mean needs rigid poses."
  },
  {
   "property": "C82",
   "status": "proved",
   "theorems": [
    "C82_costs",
    "C82_origin_refuted",
    "C82_quarter_turn_refuted",
    "C82_other_frame",
    "C82_map"
   ],
   "note": "Costs: for errors below a quarter turn and, when the origins differ, rotation errors that are zero or above 0.005 (the series of the code are cut off below). Maps: Gauss-Newton with the quadratic cost and an exact linear solver. Solving with free 3D poses is not covered: every pose update passes through exp(ln(.)), which is exact only up to the truncation. The two dependences on the frame are refutations of the unconditional statement."
  },
  {
   "property": "C83",
   "status": "proved",
   "theorems": [
    "C83_excess",
    "C83_distance",
    "C83_passes"
   ],
   "note": "For the quadratic cost and an exact linear solver. The bound is for any mu > 0 and says something when c < 1, i.e. mu > 1/400000."
  },
  {
   "property": "C84",
   "status": "proved",
   "theorems": [
    "C84_order",
    "C84_shares",
    "C84_shares_robust_refuted"
   ],
   "note": "For an exact linear solver, in real arithmetic. C84_shares_robust_refuted: with CAUCHY a prior entered in two shares moves the pose to x = -1/3 instead of -1/5."
  },
  {
   "property": "C85",
   "status": "proved",
   "theorems": [
    "C85_balanced",
    "C85_consistent",
    "C85_fixed",
    "C85_unsettled_refuted"
   ],
   "note": "For an exact linear solver, in real arithmetic. The rotation condition is the one of C17. C85_unsettled_refuted: the half turn about (1,1,0)."
  },
  {
   "property": "C86",
   "status": "proved",
   "theorems": [
    "C86_headings",
    "C86_tree",
    "C86_one_step_refuted"
   ],
   "note": "For an exact linear solver, in real arithmetic. C86_one_step_refuted: a pose that faces an anchor the wrong way has chi2 ((pi/2-1)^2+1)/2 after one step."
  },
  {
   "property": "C87",
   "status": "proved",
   "theorems": [
    "C87_parts",
    "C87_lm_refuted"
   ],
   "note": "For an exact linear solver, in real arithmetic. C87_lm_refuted: Levenberg-Marquardt on two unconnected parts changes nothing, for every number of iterations, while one of the parts alone is improved."
  },
  {
   "property": "C88",
   "status": "proved",
   "theorems": [
    "C88_ignored",
    "C88_scale",
    "C88_scale_robust_refuted",
    "C88_scale_lm_refuted"
   ],
   "note": "For an exact linear solver, in real arithmetic. C88_scale_robust_refuted: Cauchy, two priors, steps -1/5 and -1/7 after doubling all informations. C88_scale_lm_refuted: one prior, one iteration."
  },
  {
   "property": "C89",
   "status": "proved",
   "theorems": [
    "C89_stationary",
    "C89_downhill",
    "C89_landmarks",
    "C89_least_squares",
    "C89_lm_refuted",
    "C89_3d_refuted"
   ],
   "note": "For an exact linear solver, in real arithmetic; the downhill claim is to first order (a full step may overshoot). C89_lm_refuted: Cauchy, two conflicting priors, any number of iterations. C89_3d_refuted: two priors on a 3D pose, both methods, any robust function."
  },
  {
   "property": "C90",
   "status": "proved",
   "theorems": [
    "C90_converges",
    "C90_progress",
    "C90_accepted",
    "C90_tolerance",
    "C90_robust_refuted",
    "C90_3d_refuted"
   ],
   "note": "For an exact linear solver, in real arithmetic (rounding could make a decrease look like an increase). C90_robust_refuted: Cauchy, two conflicting priors. C90_3d_refuted: the graph of C87_lm_refuted. Planes are not covered by C90_converges: their update is followed by a normalisation."
  },
  {
   "property": "C91",
   "status": "proved",
   "theorems": [
    "C91_located",
    "C91_localise",
    "C91_landmarks",
    "C91_planes",
    "C91_mixed",
    "C91_line",
    "C91_corridor",
    "C91_unique_3d",
    "C91_unique_2d"
   ],
   "note": "Extends C80. Exact singularity in real arithmetic; how close to singular a scene may be before rounding matters is not covered."
  },
  {
   "property": "C92",
   "status": "proved",
   "theorems": [
    "C92_right",
    "C92_optimum",
    "C92_planes",
    "C92_walls_refuted",
    "C92_close_refuted",
    "C92_half_turn_refuted"
   ],
   "note": "Exact zeros in real arithmetic; how far a map with a small chi2 can be from the truth is not covered. Poses that only see planes are pinned by C92_planes, not by the induction."
  },
  {
   "property": "C93",
   "status": "proved",
   "theorems": [
    "C93_all_poses_defined",
    "C93_momentum_defined",
    "C93_all_poses",
    "C93_alpha",
    "C93_downhill",
    "C93_momentum",
    "C93_single_refuted",
    "C93_unseen_refuted"
   ],
   "note": "The eigenvalue solver is exact. The gradient is the true one where every plane has one best fit only. set_beta_parameter is not part of the statement: beta is 0.1 as constructed."
  },
  {
   "property": "C94",
   "status": "proved",
   "theorems": [
    "C94_bounds",
    "C94_rotation",
    "C94_zero",
    "C94_far",
    "C94_vanishes",
    "C94_best_refuted"
   ],
   "note": "The eigenvalue solver is exact. That the trajectories agree up to the frame is a hypothesis (it holds for set_last_pose with translations, see the example); what the solvers do in another frame is not covered."
  },
  {
   "property": "C95",
   "status": "proved",
   "theorems": [
    "C95_covariance",
    "C95_compound",
    "C95_grows",
    "C95_frame_refuted"
   ],
   "note": "At poses that agree with the increments (where the residuals are zero); away from them the Jacobian is another one. RANSAC keeps stale weights and is left out."
  },
  {
   "property": "C96",
   "status": "proved",
   "theorems": [
    "C96_inverse",
    "C96_more",
    "C96_determined",
    "C96_leaf",
    "C96_moved_refuted"
   ],
   "note": "For the same states of the old nodes; without that it is false (C96_moved_refuted). RANSAC keeps stale weights and is left out."
  },
  {
   "property": "C97",
   "status": "proved",
   "theorems": [
    "C97_branch",
    "C97_uncertainty",
    "C97_again"
   ],
   "note": "Gauss-Newton only: the damping of Levenberg-Marquardt couples the branch to the rest. RANSAC keeps stale weights and is left out."
  },
  {
   "property": "C98",
   "status": "proved",
   "theorems": [
    "C98_fit",
    "C98_mean",
    "C98_chi2"
   ],
   "note": "The average is over finitely many runs whose second moments are exactly the inverse of the weights; no probability theory. The runs have the same A and W, so the robust types with weights that depend on the residuals are covered only where the weights agree."
  },
  {
   "property": "C99",
   "status": "proved",
   "theorems": [
    "C99_determined",
    "C99_fixed"
   ],
   "note": "The anchors have the states that the nodes had: both graphs are linearised at the same states. RANSAC keeps stale weights and is left out."
  },
  {
   "property": "C100",
   "status": "proved",
   "theorems": [
    "C100_update",
    "C100_quadratic"
   ],
   "note": "Both graphs are linearised at the same states. RANSAC keeps stale weights and is left out. C100_quadratic: for the quadratic cost N is the inverse of the information as passed. The solution is that of the normal equations, which the solver subtracts from the states."
  },
  {
   "property": "C101",
   "status": "proved",
   "theorems": [
    "C101_order",
    "C101_shares"
   ],
   "note": "Both graphs are linearised at the same states. Robust types and shares do not mix (C84_shares_robust_refuted). RANSAC keeps stale weights and is left out."
  },
  {
   "property": "C102",
   "status": "proved",
   "theorems": [
    "C102_turned",
    "C102_position"
   ],
   "note": "The sessions are those of C79: what C79 excludes (turned initialisation from a relative pose, anisotropic landmark observations, untouched odometry informations) is excluded here too. Gauss-Newton solves are well posed."
  },
  {
   "property": "C103",
   "status": "proved",
   "theorems": [
    "C103_ignored",
    "C103_scale"
   ],
   "note": "Both graphs are linearised at the same states. The scaling is stated for the quadratic cost: robust functions compare residuals with a fixed threshold (C88_scale_robust_refuted)."
  },
  {
   "property": "C104",
   "status": "proved",
   "theorems": [
    "C104_uncorrelated",
    "C104_difference",
    "C104_alone"
   ],
   "note": "A part and the whole graph are linearised at the same states. RANSAC keeps stale weights and is left out."
  },
  {
   "property": "C105",
   "status": "proved",
   "theorems": [
    "C105_covariance",
    "C105_solve"
   ],
   "note": "The two graphs are linearised at the same states. RANSAC keeps stale weights and is left out. The statement about solve is for Gauss-Newton: Levenberg-Marquardt adds the same lambda to both matrices."
  }
 ]
}