{
 "claims": [
  {
   "property": "C01",
   "status": "proved",
   "theorems": [
    "C01_grid_is_a_map"
   ],
   "note": ""
  },
  {
   "property": "C02",
   "status": "partial",
   "theorems": [
    "C02_counter_exact_partial",
    "C02_single_grid_partial",
    "C02_counter_never_undercounts",
    "C02_counter_refuted",
    "C02_detected_flag_refuted"
   ],
   "note": "The unrestricted claim is false for the code: a corner added twice is counted twice, and after intersect the flag can stay set on an empty grid. Proved for all histories without duplicate adds (any number of grids, with intersections); lower bound for all histories."
  },
  {
   "property": "C03",
   "status": "proved",
   "theorems": [
    "C03_measurements"
   ],
   "note": ""
  },
  {
   "property": "C04",
   "status": "proved",
   "theorems": [
    "C04_pairwise_intersect"
   ],
   "note": ""
  },
  {
   "property": "C05",
   "status": "proved",
   "theorems": [
    "C05_many_way_intersect"
   ],
   "note": ""
  },
  {
   "property": "C06",
   "status": "partial",
   "theorems": [
    "C06_intersect_flag_partial",
    "C06_intersect_flag_refuted"
   ],
   "note": "The claim is false for the code (witness: disjoint grids). Proved: the flag is set whenever a corner remains."
  },
  {
   "property": "C07",
   "status": "proved",
   "theorems": [
    "C07_common_measurements"
   ],
   "note": ""
  },
  {
   "property": "C08",
   "status": "proved",
   "theorems": [
    "C08_tag_ids"
   ],
   "note": ""
  },
  {
   "property": "C09",
   "status": "partial",
   "theorems": [
    "C09_sample_result",
    "C09_sample_stops",
    "C09_sample_diverges_refuted"
   ],
   "note": "Proved for grids without duplicate adds; with a duplicate add the loop never ends (refuted)."
  },
  {
   "property": "C10",
   "status": "proved",
   "theorems": [
    "C10_object_points",
    "C10_fiducial_corners_domain",
    "C10_distinct_points",
    "C10_center"
   ],
   "note": ""
  },
  {
   "property": "C11",
   "status": "partial",
   "theorems": [
    "C11_out_of_range_partial",
    "C11_one_past_end_refuted",
    "C11_rejected_add_visible_refuted"
   ],
   "note": "False for tag_id = rows*cols (out-of-bounds write) and a rejected add changes counter and flag; proved for all other ids."
  },
  {
   "property": "C12",
   "status": "partial",
   "theorems": [
    "C12_save_load_partial",
    "C12_save_load_rounded",
    "C12_undetected_refuted",
    "C12_load_smaller_refuted"
   ],
   "note": "Proved for grids with at least one corner; false for empty grids. Text formatting is abstracted by rounding functions."
  },
  {
   "property": "C13",
   "status": "proved",
   "theorems": [
    "C13_fully_observable",
    "C13_duplicate_adds_refuted"
   ],
   "note": ""
  },
  {
   "property": "C14",
   "status": "partial",
   "theorems": [
    "C14_detect_single",
    "C14_detect_worker",
    "C14_v3_refuted"
   ],
   "note": "Proved for the default detector (both entry points); the v3 path passes ids on unchecked (refuted)."
  },
  {
   "property": "C15",
   "status": "proved",
   "theorems": [
    "C15_schedule_independent",
    "C15_fair_schedules_finish",
    "C15_single_image_differs_refuted"
   ],
   "note": "Schedule independence proved w.r.t. the worker run alone; the single-image entry point uses other thresholds (refuted)."
  },
  {
   "property": "C16",
   "status": "proved",
   "theorems": [
    "C16_timeline"
   ],
   "note": ""
  },
  {
   "property": "C17",
   "status": "proved",
   "theorems": [
    "C17_ordered_set"
   ],
   "note": ""
  },
  {
   "property": "C18",
   "status": "partial",
   "theorems": [
    "C18_slice",
    "C18_slice_domain",
    "C18_extend",
    "C18_pop_front_partial",
    "C18_pop_front_refuted",
    "C18_all_true"
   ],
   "note": "slice/extend/all_true proved in full; pop_front does not keep the order (refuted), proved: it removes the first element up to permutation and moves the last to the front."
  },
  {
   "property": "C19",
   "status": "partial",
   "theorems": [
    "C19_set_union",
    "C19_set_diff",
    "C19_set_symmetric_diff",
    "C19_intersection_partial",
    "C19_intersection_refuted"
   ],
   "note": "intersection counts repeated elements (refuted); proved for duplicate-free vectors."
  },
  {
   "property": "C20",
   "status": "partial",
   "theorems": [
    "C20_ceres_tables",
    "C20_ceres_remove_param",
    "C20_ceres_residuals",
    "C20_base_tables_partial",
    "C20_base_tables_refuted"
   ],
   "note": "Proved in full for the ceres back end (ceres::Problem modelled as the graph it documents). False for the base class: its parameter-to-residual table keeps removed residuals (refuted), everything else proved."
  },
  {
   "property": "C21",
   "status": "partial",
   "theorems": [
    "C21_ceres_removal_order",
    "C21_base_removal_order_partial",
    "C21_base_removal_order_refuted"
   ],
   "note": "Proved for the ceres back end; the base class throws when two parameters sharing a residual are both removed (refuted), proved for parameters without common residual."
  },
  {
   "property": "C22",
   "status": "partial",
   "theorems": [
    "C22_layout_partial",
    "C22_layout_defined",
    "C22_layout_refuted",
    "C22_no_camera_refuted"
   ],
   "note": "Proved for the five parameter types the layout knows and at least one free camera; other types are aliased to column 0 and no free camera is UB (refuted)."
  },
  {
   "property": "C23",
   "status": "proved",
   "theorems": [
    "C23_normal_equations",
    "C23_in_bounds"
   ],
   "note": "Exact real arithmetic; residual blocks without repeated parameters, supported parameter types (see C22)."
  },
  {
   "property": "C24",
   "status": "proved",
   "theorems": [
    "C24_lm_step",
    "C24_lm_never_worse",
    "C24_lm_iterations",
    "C24_unregistered_refuted"
   ],
   "note": "Arbitrary linear solver oracle and cost function with NaN/inf; assumes optimised parameters are registered (needed: refuted otherwise)."
  },
  {
   "property": "C25",
   "status": "partial",
   "theorems": [
    "C25_gn_never_worse_partial",
    "C25_gn_iterations",
    "C25_gn_nan_refuted"
   ],
   "note": "A NaN cost is kept (refuted); proved when no cost is NaN."
  },
  {
   "property": "C46",
   "status": "proved",
   "theorems": [
    "C46_rotation_group",
    "C46_tf_inv_two_sided",
    "C46_tf_inv_iff_orthonormal",
    "C46_rigid_group",
    "C46_tf_point",
    "C46_rotation_builders",
    "C46_rvec2rot_rodrigues",
    "C46_Exp_is_rvec2rot",
    "C46_euler_conventions",
    "C46_quaternion_conversion",
    "C46_rvec2rot_small_angle_refuted",
    "C46_rvec2rot_small_angle_defect"
   ],
   "note": "Exact real arithmetic. rvec2rot / lie::Exp are rotations outside their small-angle branch only; inside it they are not (refuted, exact defect proved)."
  },
  {
   "property": "C47",
   "status": "proved",
   "theorems": [
    "C47_product_matrices",
    "C47_unit_closed",
    "C47_quat2rot_homomorphism",
    "C47_quat2rot_sandwich"
   ],
   "note": ""
  },
  {
   "property": "C48",
   "status": "partial",
   "theorems": [
    "C48_quat_delta_norm",
    "C48_plus_keeps_unit_norm_partial",
    "C48_plus_keeps_unit_norm_refuted",
    "C48_plus_norm_drift",
    "C48_zero_update",
    "C48_minus_undoes_plus",
    "C48_update_meaning",
    "C48_ceres_plus_unit",
    "C48_ceres_zero_update",
    "C48_ceres_zero_update_refuted",
    "C48_solvers_agree",
    "C48_lift_plus_jacobian",
    "C48_plus_jacobian_is_derivative",
    "C48_pose_diff"
   ],
   "note": "Unit norm is exact except for increments in the series branch of sinc, where it shrinks (refuted exactly, drift bounded for any number of updates); the ceres Plus(x,0) may flip the quaternion sign (refuted), the transform is unchanged."
  },
  {
   "property": "C26",
   "status": "proved",
   "theorems": [
    "C26_insert_history",
    "C26_constructor",
    "C26_self_insert_refuted"
   ],
   "note": "Pose estimation (PnP) is an arbitrary function returning rigid transforms or failing; inserting a camera paired with itself breaks the claim (refuted; the constructor never does)."
  },
  {
   "property": "C27",
   "status": "partial",
   "theorems": [
    "C27_links",
    "C27_find_complete",
    "C27_find_partial",
    "C27_connected_pair_refuted"
   ],
   "note": "False for the code: for two cameras without a directly stored pair the search throws out_of_range at once, even when both see the target in the same view (refuted). Proved: complete description of find on every chain, and success with the right transform for all directly linked pairs."
  },
  {
   "property": "C28",
   "status": "partial",
   "theorems": [
    "C28_filter_view_partial",
    "C28_map_overload",
    "C28_one_sided_refuted",
    "C28_map_overload_refuted"
   ],
   "note": "Exact effect proved for every reachable calibrator. As stated (error magnitude above the camera's threshold) false: the comparison is one sided, and the per-camera overload applies every camera's threshold to all cameras."
  },
  {
   "property": "C29",
   "status": "partial",
   "theorems": [
    "C29_correspondence",
    "C29_add_view",
    "C29_add_then_remove",
    "C29_remove_view",
    "C29_remove_all_views",
    "C29_repeated_timestamp_refuted"
   ],
   "note": "Proved for every history in which each added view has a timestamp without a view; refuted for repeated timestamps."
  },
  {
   "property": "C30",
   "status": "partial",
   "theorems": [
    "C30_rejected_view_restored_partial",
    "C30_decision",
    "C30_existing_timestamp_refuted"
   ],
   "note": "Optimiser outcome and information are arbitrary. Proved for new timestamps; refuted when the timestamp already has a view."
  },
  {
   "property": "C31",
   "status": "partial",
   "theorems": [
    "C31_gain_test",
    "C31_baseline_monotone",
    "C31_infinite_information_refuted"
   ],
   "note": "Finite information values; the baseline (log det covariance) drops by at least twice the threshold per accepted view. Refuted for infinite values (inf - inf)."
  },
  {
   "property": "C32",
   "status": "partial",
   "theorems": [
    "C32_fixed_intrinsics_partial",
    "C32_fixed_extrinsics_refuted"
   ],
   "note": "Fixed intrinsics are kept; user-fixed extrinsics are un-fixed and overwritten (refuted)."
  },
  {
   "property": "C33",
   "status": "partial",
   "theorems": [
    "C33_round_trip",
    "C33_exact_decomposition_partial",
    "C33_nsec_bounds",
    "C33_nsec_range_refuted",
    "C33_negative_stamp_refuted"
   ],
   "note": "binary64 arithmetic (Flocq). The round trip holds for all 2^64 stamps; 0 <= nsec < 1e9 holds up to 2^52 ns, is within -1400..1e9 up to 2^62 ns and is false for epoch stamps (refuted)."
  },
  {
   "property": "C34",
   "status": "partial",
   "theorems": [
    "C34_lerp_timestamps_partial",
    "C34_members",
    "C34_strict_bounds_refuted",
    "C34_argument_order_refuted",
    "C34_empty_input_refuted"
   ],
   "note": "Exact result for all non-empty inputs; documented strictness and argument order independence are false."
  },
  {
   "property": "C35",
   "status": "partial",
   "theorems": [
    "C35_values_on_segment_partial",
    "C35_exact_when_dense",
    "C35_out_of_bounds_refuted",
    "C35_last_stamp_dropped_refuted",
    "C35_neighbours_refuted",
    "C35_float_test_exact"
   ],
   "note": "Exact piecewise linear interpolation when a requested stamp lies between any two consecutive samples; otherwise out-of-bounds reads, dropped stamps and chords over several samples are possible (refuted)."
  },
  {
   "property": "C36",
   "status": "partial",
   "theorems": [
    "C36_interp_poses_partial",
    "C36_closest_poses_partial",
    "C36_shared_interval_refuted",
    "C36_late_start_refuted",
    "C36_closest_never_complete_refuted",
    "C36_closest_out_of_bounds_refuted",
    "C36_closest_wrong_refuted"
   ],
   "note": "Proved for separated request times; refuted otherwise. closest_poses never returns one pose per requested time without reading out of bounds."
  },
  {
   "property": "C37",
   "status": "partial",
   "theorems": [
    "C37_trim_keeps_one_before",
    "C37_trim_nothing_before",
    "C37_trim_never_empties",
    "C37_all_before_emptied_refuted"
   ],
   "note": "Holds for every buffer covering the cut time; a buffer entirely before it loses its last sample (refuted)."
  },
  {
   "property": "C38",
   "status": "partial",
   "theorems": [
    "C38_extract_partial",
    "C38_rest_covers_next",
    "C38_start_uninitialised_refuted",
    "C38_end_not_interpolated_refuted",
    "C38_short_interval_refuted",
    "C38_start_before_buffer_refuted"
   ],
   "note": "Exact description for intervals starting at a sample; the interpolated end samples are uninitialised / not interpolated (refuted for every buffer)."
  },
  {
   "property": "C61",
   "status": "partial",
   "theorems": [
    "C61_seconds_round_trip",
    "C61_seconds_accuracy",
    "C61_epoch_round_trip_refuted"
   ],
   "note": "Exact up to 2^51 ns, within 2 us up to 2^62 ns, not the identity on epoch stamps (refuted)."
  },
  {
   "property": "C62",
   "status": "partial",
   "theorems": [
    "C62_synchronises_partial",
    "C62_different_lengths_refuted",
    "C62_out_of_bounds_refuted"
   ],
   "note": "Proved when the faster signal has a stamp between any two consecutive samples of the slower one; refuted otherwise."
  },
  {
   "property": "C39",
   "status": "proved",
   "theorems": [
    "C39_unsigned",
    "C39_signed"
   ],
   "note": "All buffers and offsets within bounds; shifts and conversions modelled with wrap-around (gcc), out-of-bounds reads are Undef."
  },
  {
   "property": "C40",
   "status": "partial",
   "theorems": [
    "C40_fields",
    "C40_round_trip_partial",
    "C40_single_column_refuted",
    "C40_short_row_refuted"
   ],
   "note": "Holds for at least one row and two columns up to the %f rounding of half a unit of the sixth decimal (exact for numbers with six decimals); a single column loses all data (refuted)."
  },
  {
   "property": "C41",
   "status": "partial",
   "theorems": [
    "C41_iarray_values",
    "C41_iarray_exact",
    "C41_load_iarrays",
    "C41_iarray_overflow_refuted",
    "C41_unterminated_refuted",
    "C41_darray_overflow_refuted",
    "C41_darray_partial",
    "C41_csv_data_square_partial",
    "C41_csv_data_not_square_refuted",
    "C41_long_header_refuted",
    "C41_missing_file_refuted"
   ],
   "note": "Integer lines hold; every well-formed line of reals overflows its buffer and csv_data is undefined for every non-square table (refuted). Lines below 1023 and tokens up to 100 characters."
  },
  {
   "property": "C42",
   "status": "partial",
   "theorems": [
    "C42_check_partial",
    "C42_shape_mismatch_refuted",
    "C42_nan_refuted"
   ],
   "note": "Exact for non-empty matrices of equal shape without NaN; empty, mismatched or NaN matrices are reported as matching (refuted)."
  },
  {
   "property": "C44",
   "status": "partial",
   "theorems": [
    "C44_path_split_partial",
    "C44_trailing_slash_refuted",
    "C44_paths_join_partial",
    "C44_too_many_up_refuted",
    "C44_empty_result_refuted",
    "C44_join_wrong_refuted",
    "C44_dir_and_name",
    "C44_dir_name_refuted",
    "C44_extension",
    "C44_no_dot_refuted",
    "C44_dotted_directory_refuted",
    "C44_strip",
    "C44_strip_all_refuted",
    "C44_file_copy"
   ],
   "note": "Exact for all strings on each side of the case split; the general claims fail for trailing slashes, inner or too many '..', names without separator or dot (refuted)."
  },
  {
   "property": "C43",
   "status": "proved",
   "theorems": [
    "C43_layout",
    "C43_unload_layout",
    "C43_matrix_round_trip",
    "C43_vector_round_trip",
    "C43_mat2array_layout",
    "C43_mat2vec_layout",
    "C43_vecs2mat_layout",
    "C43_hstack",
    "C43_vstack",
    "C43_nonempty_output_refuted",
    "C43_array2vec_refuted"
   ],
   "note": "All shapes and entry types. Unpacking appends, so the round trip fails for a non-empty output vector, and array2vec has no effect (refuted extras)."
  },
  {
   "property": "C45",
   "status": "partial",
   "theorems": [
    "C45_vector_partial",
    "C45_long_vector_refuted",
    "C45_fixed_matrix_partial",
    "C45_fixed_dims_refuted",
    "C45_dynamic_matrix_partial",
    "C45_surplus_refuted"
   ],
   "note": "Exact acceptance conditions for all nodes; too short inputs throw, surplus values and inconsistent rows/cols fields are accepted (refuted). yaml-cpp modelled by its documented behaviour."
  },
  {
   "property": "C63",
   "status": "partial",
   "theorems": [
    "C63_missing_key",
    "C63_present",
    "C63_vector_appends_refuted"
   ],
   "note": "Holds for scalars, fixed and dynamic vectors and matrices; std::vector variables are appended to (refuted)."
  },
  {
   "property": "C49",
   "status": "partial",
   "theorems": [
    "C49_congruent",
    "C49_range_partial",
    "C49_radians_partial",
    "C49_negative_angles_refuted"
   ],
   "note": "Congruence for all angles; the interval exactly for angles >= -180 (wrap180) / >= -360 (wrap360) and the wrapped boundary values, false below (fmod truncates towards zero)."
  },
  {
   "property": "C50",
   "status": "partial",
   "theorems": [
    "C50_closest_point",
    "C50_left_right",
    "C50_cross_track_partial",
    "C50_cross_track_refuted",
    "C50_circles_partial",
    "C50_concentric_refuted",
    "C50_fit_circle"
   ],
   "note": "closest_point, point_left_right and fit_circle in full; intersect_circles complete for different centres (a single returned point is within 1e-10 of every common point), NaN points for coinciding circles; cross_track_error uses x coordinates twice and is not the distance to the line."
  },
  {
   "property": "C51",
   "status": "partial",
   "theorems": [
    "C51_mean",
    "C51_var",
    "C51_degenerate",
    "C51_rmse",
    "C51_max",
    "C51_median",
    "C51_median_empty_refuted",
    "C51_binomial",
    "C51_binomial_domain",
    "C51_binomial_diverges_refuted",
    "C51_vector_mean_partial",
    "C51_vector_mean_refuted"
   ],
   "note": "Scalar statistics and binomial in full (with exact domains); the means of 2- and 3-vectors multiply by a single precision reciprocal: relative error 2^-24 proved, exactness refuted."
  },
  {
   "property": "C59",
   "status": "proved",
   "theorems": [
    "C59_linspace",
    "C59_degenerate"
   ],
   "note": ""
  },
  {
   "property": "C64",
   "status": "partial",
   "theorems": [
    "C64_lookat",
    "C64_parallel_up_refuted"
   ],
   "note": "Proved whenever the viewing direction is not parallel to the up axis; otherwise the function inverts a singular matrix (proved)."
  },
  {
   "property": "C65",
   "status": "partial",
   "theorems": [
    "C65_offset_then_diff_partial",
    "C65_offset_refuted",
    "C65_dist",
    "C65_asymmetric_refuted"
   ],
   "note": "Exact result proved; the offset function exchanges north and east and omits the conversion to degrees (refuted), and the distance is not symmetric (refuted)."
  },
  {
   "property": "C66",
   "status": "partial",
   "theorems": [
    "C66_sinc",
    "C66_circle_sphere",
    "C66_latitude_refuted"
   ],
   "note": "sinc and radii in full; the angle convention documented for sphere is wrong (refuted)."
  },
  {
   "property": "C67",
   "status": "partial",
   "theorems": [
    "C67_randf",
    "C67_randi_partial",
    "C67_randi_refuted",
    "C67_fltcmp",
    "C67_fltcmp_transitive_refuted"
   ],
   "note": "randf and fltcmp/sign in full; randi returns values in [ub, ub+|lb|-1] and is undefined for lb = 0 (refuted)."
  },
  {
   "property": "C52",
   "status": "partial",
   "theorems": [
    "C52_radtan4",
    "C52_equi4_partial",
    "C52_equi4_on_axis",
    "C52_pinhole_partial",
    "C52_border_refuted",
    "C52_depends_on_ray",
    "C52_focal_fov"
   ],
   "note": "radtan4 in full; equi4 and plain pinhole accept the closed rectangle [0,w]x[0,h] (the stated agreement is refuted), equi4 skips distortion within 1e-8 of the axis."
  },
  {
   "property": "C53",
   "status": "partial",
   "theorems": [
    "C53_radtan4_point",
    "C53_radtan4_params",
    "C53_equi4_point_partial",
    "C53_equi4_params_partial",
    "C53_pinhole"
   ],
   "note": "Directional derivatives (hence every entry) for pinhole and radtan4 at every non-zero depth; equi4 for radius above 1e-8."
  },
  {
   "property": "C54",
   "status": "partial",
   "theorems": [
    "C54_distort_centre",
    "C54_projection_smooth",
    "C54_centre_refuted",
    "C54_off_centre_partial"
   ],
   "note": "Refuted: at the image centre undistortion, back projection and Jacobians are NaN although the projection is smooth there; finite everywhere else."
  },
  {
   "property": "C68",
   "status": "partial",
   "theorems": [
    "C68_radtan4_plain_partial",
    "C68_radtan4_fixpoint_partial",
    "C68_radtan4_refuted",
    "C68_radtan4_converges_partial",
    "C68_radtan4_ray_partial",
    "C68_equi4_partial",
    "C68_equi4_plain_partial"
   ],
   "note": "Exact without distortion; equi4 with moderate coefficients up to 3/4 rad within 1e-10 rad (contraction); radtan4 with distortion strength up to 1/4 within about 1e-14 (quadratic convergence of the five Gauss-Newton steps); radtan4 can hit a singular Jacobian for strong distortion (refuted)."
  },
  {
   "property": "C55",
   "status": "partial",
   "theorems": [
    "C55_schur_partial",
    "C55_check_refuted"
   ],
   "note": "Eigen-solver modelled by its contract (any orthonormal eigenvectors). Proved when the marginal block exceeds 1e-8; for other invertible blocks the function reports success with a wrong system (refuted)."
  },
  {
   "property": "C69",
   "status": "partial",
   "theorems": [
    "C69_prior_partial",
    "C69_cutoff_refuted",
    "C69_layout_partial",
    "C69_hessian_partial",
    "C69_layout_refuted"
   ],
   "note": "Any sizes and rank deficiencies, provided no eigenvalue lies strictly between 0 and the cut-offs (refuted otherwise) and the free parameters have a supported type (refuted otherwise)."
  },
  {
   "property": "C56",
   "status": "partial",
   "theorems": [
    "C56_value",
    "C56_weight_partial",
    "C56_unit_slope_refuted",
    "C56_unit_slope_partial",
    "C56_curvature_refuted"
   ],
   "note": "Real arithmetic; chi squared quantile arbitrary. Value and weight in full (weight w_q exactly at the quantile); slope and value at zero are within eps of 1 and 0, not exact; the reported second derivative is always the smallest positive number instead of the (negative) second derivative (refuted)."
  },
  {
   "property": "C57",
   "status": "partial",
   "theorems": [
    "C57_reached_partial",
    "C57_no_overlap_refuted"
   ],
   "note": "Complete description for all grids and histories; without a shared corner the call returns true (refuted)."
  },
  {
   "property": "C58",
   "status": "proved",
   "theorems": [
    "C58_fully_observable",
    "C58_target_grid",
    "C58_origin",
    "C58_candidate_fills",
    "C58_init_poses",
    "C58_nbv_poses",
    "C58_nbv_poses_all"
   ],
   "note": "Camera projection is an arbitrary function; exact arithmetic; range counts >= 0."
  },
  {
   "property": "C60",
   "status": "partial",
   "theorems": [
    "C60_sort_partial",
    "C60_sort_refuted",
    "C60_max_per_cell",
    "C60_grid",
    "C60_grid_bound_partial",
    "C60_grid_refuted"
   ],
   "note": "Detectors are arbitrary functions of the region. Sorting is only by the integer part of the response (refuted otherwise); the grid functions return for images at least as large as the grid (endless otherwise, refuted), with an exact bound on the count; the requested maximum itself is exceeded in general (refuted)."
  },
  {
   "property": "C70",
   "status": "proved",
   "theorems": [
    "C70_kinematics",
    "C70_sphere",
    "C70_closed",
    "C70_errors",
    "C70_saved_imu"
   ],
   "note": "Exact real arithmetic; decimal multiples of M_PI read as the real multiples."
  },
  {
   "property": "C71",
   "status": "partial",
   "theorems": [
    "C71_best_partial",
    "C71_failed_refuted"
   ],
   "note": "Proved whenever the current determinant is at most one or every evaluation succeeded; otherwise a failed evaluation (information 0) can be selected (refuted)."
  },
  {
   "property": "C72",
   "status": "partial",
   "theorems": [
    "C72_in_range",
    "C72_simulate",
    "C72_eval_partial",
    "C72_eval_refuted"
   ],
   "note": "IEEE double arithmetic. Queries and the simulation loops in full; nbt_eval recomputes the end time from seconds, exact up to 2^51 ns from zero, and otherwise can run past the end and abort (refuted)."
  },
  {
   "property": "C73",
   "status": "partial",
   "theorems": [
    "C73_reproj_partial",
    "C73_mocap_partial",
    "C73_fiducial_partial",
    "C73_invalid_view",
    "C73_fiducial_invalid_refuted",
    "C73_behind_camera_refuted",
    "C73_pose_prior_error",
    "C73_pose_prior_partial",
    "C73_pose_prior_ceres_refuted",
    "C73_linear_prior",
    "C73_linear_prior_refuted"
   ],
   "note": "Derivatives proved for all three visual residuals with respect to every block (radtan4: all valid points; equi4: points more than 1e-8 off axis) and for the priors (pose prior: orientation error below 120 degrees). Refuted: fiducial residual keeps non-zero full Jacobians when invalid, fish-eye residual uses an unwritten pixel behind the camera, priors dereference a null pointer when used through ceres."
  },
  {
   "property": "C74",
   "status": "partial",
   "theorems": [
    "C74_slerp",
    "C74_slerp_ends",
    "C74_interp_pose_partial",
    "C74_interp_pose_refuted",
    "C74_lerp_pose_partial"
   ],
   "note": "slerp in full (exact angle; within 0.03 per cent in the branch for close orientations). interp_pose/lerp_pose: translation and axis right, but the rotation runs backwards (arguments of Eigen's slerp swapped): refuted for every pair of poses with different rotations. Orientations with |dot| >= 1 - 2^-52 only at the end points."
  },
  {
   "property": "C75",
   "status": "partial",
   "theorems": [
    "C75_kinematics_partial",
    "C75_ends_refuted",
    "C75_waypoints_partial",
    "C75_waypoints_refuted"
   ],
   "note": "Eigen's spline is represented by its contract (passes through the data, reports its derivatives). Kinematics proved away from the first and last 1e-4 of the duration and for rotation vectors longer than 1e-12; way points when consecutive rotation vectors are within pi or all rotations share an axis. Refuted: the pose is frozen in the first/last 1e-4 while a velocity is reported; the wrap-around step changes the orientation of a way point (180 degrees about x, then about y)."
  },
  {
   "property": "C76",
   "status": "partial",
   "theorems": [
    "C76_measurement",
    "C76_first_interval_refuted",
    "C76_noise_refuted",
    "C76_bias",
    "C76_bias_start"
   ],
   "note": "Readings are the true angular velocity and specific force for every rotation; the noise and bias have no effect (refuted) and the rate check is inverted: the first call fails exactly when the interval is right (refuted). Exact real arithmetic."
  },
  {
   "property": "C77",
   "status": "proved",
   "theorems": [
    "C77_circle",
    "C77_features",
    "C77_observations",
    "C77_timeline"
   ],
   "note": "Exact real arithmetic (accumulated times are exact sums); the additional noisy copies of the camera poses are not modelled."
  },
  {
   "property": "C78",
   "status": "partial",
   "theorems": [
    "C78_angles_partial",
    "C78_unique_partial",
    "C78_gimbal_lock_refuted"
   ],
   "note": "Exact for every rotation whose pitch is not +-90 degrees; there the rotation is lost whatever atan2(0,0) returns (refuted). Exact real arithmetic."
  },
  {
   "property": "C79",
   "status": "partial",
   "theorems": [
    "C79_vecs2rot_partial",
    "C79_opposite_refuted",
    "C79_init_attitude",
    "C79_short_buffer_refuted"
   ],
   "note": "imu_init_attitude in full for every non-zero mean acceleration; vecs2rot is the zero matrix for exactly opposite vectors (refuted); too short buffers are read out of bounds. Exact real arithmetic."
  },
  {
   "property": "C80",
   "status": "partial",
   "theorems": [
    "C80_fiducial_partial",
    "C80_undo_refuted"
   ],
   "note": "All histories in which the pitch stays below 90 degrees; beyond that the yaw flips by 180 degrees and undoing an increment does not restore the pose (refuted)."
  },
  {
   "property": "C81",
   "status": "partial",
   "theorems": [
    "C81_add_noise_partial"
   ],
   "note": "Every rigid pose whose pitch is not +-90 degrees (see C78 for that case)."
  },
  {
   "property": "C82",
   "status": "partial",
   "theorems": [
    "C82_outcome",
    "C82_empty_window",
    "C82_straight_motion",
    "C82_at_rest",
    "C82_rotation_partial",
    "C82_constant_rate",
    "C82_late_start",
    "C82_late_start_refuted",
    "C82_velocity_partial",
    "C82_covariance",
    "C82_cov_accel_noise",
    "C82_cov_bias",
    "C82_cov_attitude",
    "C82_cov_still_gyro_partial",
    "C82_cov_still_gyro_bias_partial",
    "C82_cov_still_accel_bias_partial",
    "C82_cov_chain_refuted",
    "C82_jacobian_pose_partial",
    "C82_jacobian_accel_partial",
    "C82_jacobian_gyro_partial",
    "C82_jacobian_gyro_rotation_refuted"
   ],
   "note": "A window that starts between two samples uses the earlier sample as it is (refuted); the orientation/gyro-bias block of the Jacobian leaves out the right Jacobian (refuted). Rotation about a fixed axis, steps of zero or more than 2e-6 rad (the code's sinc series is not exact below); Jacobians for windows between two samples and steps of zero or at least 1e-4 rad. The covariance is characterised in closed form for the accelerometer noise (any rotation), the biases and the orientation, and without rotation for the velocity; its position part counts the effect of gyroscope noise twice, so that one propagation and two chained ones disagree (refuted: 9/4 against 1/4). Exact real arithmetic."
  },
  {
   "property": "C83",
   "status": "partial",
   "theorems": [
    "C83_straight",
    "C83_rotation_partial",
    "C83_inside_interval",
    "C83_rotation_refuted",
    "C83_zero_at_propagation_partial",
    "C83_jacobian_pose_i_partial",
    "C83_jacobian_pose_j_partial",
    "C83_jacobian_speed",
    "C83_jacobian_bias_j",
    "C83_jacobian_gyro_i_partial",
    "C83_jacobian_accel_i",
    "C83_information"
   ],
   "note": "Wrong for windows strictly inside one sampling interval (refuted). Pose Jacobians for orientations whose rotation matrix has positive trace (one branch of the conversion to a quaternion); gyro-bias Jacobian and agreement with propagation for windows between two samples and steps of zero or at least 1e-4 rad. The square root of the information matrix and the weighting are not modelled; exact real arithmetic."
  },
  {
   "property": "C84",
   "status": "partial",
   "theorems": [
    "C84_outcome",
    "C84_unbounded_delay",
    "C84_delay_is_shift"
   ],
   "note": "The shift is exact. The claim that evaluation is always defined fails: C84_outcome gives the exact condition, C84_unbounded_delay a delay for every buffer that makes it read out of bounds."
  },
  {
   "property": "C85",
   "status": "partial",
   "theorems": [
    "C85_window",
    "C85_bounded",
    "C85_prior",
    "C85_marginalize",
    "C85_no_undefined",
    "C85_failures",
    "C85_view_added",
    "C85_waits",
    "C85_drops",
    "C85_first_view",
    "C85_delay_forgotten_refuted",
    "C85_other_camera_refuted",
    "C85_mixed_frames_refuted"
   ],
   "note": "Window, problem and prior for all histories (resets excluded when marginalising, see C89). Refuted: the prior keeps nothing about the time delay; a detection in another camera than 0 at the start throws; frames of different cameras with different stamps are merged into one view."
  },
  {
   "property": "C86",
   "status": "partial",
   "theorems": [
    "C86_order",
    "C86_samples",
    "C86_evaluates",
    "C86_slow_imu_refuted",
    "C86_late_imu_refuted",
    "C86_load_data"
   ],
   "note": "For all chronological histories every link covers its interval. Refuted: an IMU slower than the 5 samples per view needed aborts; IMU samples arriving late give a window that is not covered. Replaying a recording with distinct IMU stamps is chronological whatever the order of the files."
  },
  {
   "property": "C87",
   "status": "partial",
   "theorems": [
    "C87_fixed_partial",
    "C87_delay_partial",
    "C87_declared",
    "C87_delay_freed_refuted",
    "C87_delay_moves_refuted"
   ],
   "note": "Holds for cameras and extrinsics; the time delay is freed by solve whether or not it was declared fixed (refuted)."
  },
  {
   "property": "C88",
   "status": "partial",
   "theorems": [
    "C88_first_view",
    "C88_preset_refuted",
    "C88_next_view"
   ],
   "note": "First view without a preset target and all later ones; a preset target pose is not what the calibrator uses (refuted)."
  },
  {
   "property": "C89",
   "status": "partial",
   "theorems": [
    "C89_reset",
    "C89_prior_kept_refuted",
    "C89_restart_refuted"
   ],
   "note": "Everything is removed; but the object keeps the pointer to the prior it has removed, and the next marginalisation fails (refuted)."
  },
  {
   "property": "C90",
   "status": "partial",
   "theorems": [
    "C90_cost_partial",
    "C90_newest_refuted",
    "C90_layout_partial",
    "C90_hessian_partial",
    "C90_hessian_fails",
    "C90_delay_refuted"
   ],
   "note": "All reachable states. The reprojection residuals of the newest view are left out (refuted); the Hessian is exact when the time delay is fixed; a free delay has no column although the matrix has one more than needed, so it is singular (refuted)."
  },
  {
   "property": "C91",
   "status": "partial",
   "theorems": [
    "C91_save_load",
    "C91_load",
    "C91_accessors",
    "C91_exchanged_refuted",
    "C91_true_biases_refuted"
   ],
   "note": "Constructor, accessors, saved and loaded results agree; the IMU residual reads the two biases in the other order, so that it vanishes for the exchanged biases and not for the true ones (refuted)."
  },
  {
   "property": "C92",
   "status": "partial",
   "theorems": [
    "C92_rejects_partial",
    "C92_one_sided_refuted",
    "C92_uniform_refuted",
    "C92_single",
    "C92_unprojectable_refuted"
   ],
   "note": "All reachable states and estimates: exactly the corners with a residual component above the threshold are lost. Refuted: large negative residuals are kept; if all errors of a view are equal every corner with a positive component is lost; a corner that cannot be projected makes the result undefined."
  },
  {
   "property": "C93",
   "status": "partial",
   "theorems": [
    "C93_sync_partial",
    "C93_exact_partial",
    "C93_shared_interval_refuted",
    "C93_too_few_refuted",
    "C93_coincident_refuted",
    "C93_no_overlap_refuted",
    "C93_orientation_refuted"
   ],
   "note": "Holds for every recording in which a body sample lies between any two frames. Refuted: of two frames between the same two samples the second is extrapolated from the wrong samples or gets no pose, a frame at the time of a sample is interpolated across it, no common time span reads beyond a vector, and with lerp_pose the orientation runs backwards between the samples."
  },
  {
   "property": "C94",
   "status": "partial",
   "theorems": [
    "C94_start",
    "C94_exact",
    "C94_none_refuted",
    "C94_short_refuted"
   ],
   "note": "For every recording with a pose per frame and a usable frame: the extrinsics come from the last usable frame, exact data gives the exact extrinsics and zero residuals, and all else starts as given. Refuted: no usable frame and fewer poses than frames are not reported but undefined."
  },
  {
   "property": "C95",
   "status": "partial",
   "theorems": [
    "C95_solve",
    "C95_errors",
    "C95_loop",
    "C95_nbv",
    "C95_again_refuted",
    "C95_nbv_after_refuted",
    "C95_solve_after_nbv_refuted"
   ],
   "note": "For every recording, solver, information measure and prefix of the selection loop: after a first call the problem holds exactly the residuals in use and their parameters, never aborts, and is undefined only if no reprojection error can be computed. Refuted: a second solve() or solve_nbv() evaluates freed residuals, and solve() after a solve_nbv() that rejected a view aborts because the pose is gone."
  },
  {
   "property": "C96",
   "status": "partial",
   "theorems": [
    "C96_rule",
    "C96_bound",
    "C96_baseline_refuted",
    "C96_failed_refuted"
   ],
   "note": "The exact rule, for all histories, and the bound on the number of views it gives. Refuted: the fifth view is compared with zero and not with the information of the first four, and if the information cannot be computed the view is kept."
  },
  {
   "property": "C97",
   "status": "partial",
   "theorems": [
    "C97_restored_partial",
    "C97_eighth_refuted",
    "C97_outliers_refuted"
   ],
   "note": "All extrinsics, target and body poses, information and views are restored, and the camera if it is fixed or has at most 7 parameters. Refuted: the eighth camera parameter is never restored, and measurements of other views filtered out while the rejected view was tried stay removed."
  },
  {
   "property": "C98",
   "status": "partial",
   "theorems": [
    "C98_filter",
    "C98_one_sided_refuted",
    "C98_few"
   ],
   "note": "Exact set and count for every consistent state: a measurement is removed iff a component of its residual exceeds the threshold, and the state stays consistent. Refuted: large negative residuals are kept; with fewer than two measurements nothing is removed."
  },
  {
   "property": "C99",
   "status": "partial",
   "theorems": [
    "C99_rows_solve",
    "C99_rows_nbv",
    "C99_header_refuted",
    "C99_fixed"
   ],
   "note": "The exact rows after solve() and solve_nbv(), and fixed parameters are saved as given. Refuted: if the target pose could not be estimated in a frame its row is still written and the header's count is too small."
  },
  {
   "property": "C100",
   "status": "partial",
   "theorems": [
    "C100_covariance_partial",
    "C100_unobserved_partial",
    "C100_unknown_type_refuted",
    "C100_weak_refuted",
    "C100_check_refuted"
   ],
   "note": "Over the reals, for all residuals and Jacobians: the result is the block of the inverse of J^T J, positive definite, None if singular; proved if all involved free parameters have one of the five known types (or are asked for) and the marginal block's eigenvalues exceed 1e-8. Refuted without these: a parameter of another type (time delay) shares column 0 and gives a covariance of a singular problem; eigenvalues below 1e-8 make it fail although the covariance exists, or (the check adds up entries that cancel) return a covariance that does not exist. The eigen-solver is its contract; rounding is not modelled."
  },
  {
   "property": "C101",
   "status": "partial",
   "theorems": [
    "C101_ceres_partial",
    "C101_failure_partial",
    "C101_fixed_refuted"
   ],
   "note": "Every entry of the matrix for every list of different, non-fixed parameters, failures exactly when the library has no block, never undefined. Refuted: a fixed parameter among them overwrites the covariance of the first parameter, or is written past the end of the matrix. ceres::Covariance is an abstract function."
  },
  {
   "property": "C102",
   "status": "partial",
   "theorems": [
    "C102_score_partial",
    "C102_fixed_camera_refuted",
    "C102_unseen_camera_refuted",
    "C102_no_pose_refuted"
   ],
   "note": "Over the reals, for every problem in which all cameras are estimated and have been seen, every pose has been seen and is estimated, and the marginal block's eigenvalues exceed the cut-off: the score is log2 of the determinant of the covariance block of cameras and free extrinsics of the inverse of J^T J of all residuals together, infinite if J^T J is singular. Refuted: a fixed camera is counted, so that the score is about components of a pose; a camera only the candidate sees has no influence (it shares the columns of the new pose); without an estimated pose the evaluation is undefined behaviour. Eigen's eigen-solver and SVD enter by their contracts."
  },
  {
   "property": "C103",
   "status": "partial",
   "theorems": [
    "C103_find_partial",
    "C103_fast_partial",
    "C103_checked",
    "C103_positive_refuted",
    "C103_race_refuted",
    "C103_numbering_refuted",
    "C103_data_refuted",
    "C103_existing_view_refuted",
    "C103_no_stamps_refuted"
   ],
   "note": "For every reachable calibrator and all candidates: each is scored with the problem plus that candidate only, the smallest negative score (first of equals) is selected and everything but the recorded calibration data is restored. Needs: no view one nanosecond after the last timestamp; fresh pose and residual objects. Refuted without: a view there is removed; no timestamps is undefined; the simulated detections stay in the data; if no score is negative, candidate 0 of camera 0 is reported with a gain that no candidate has; in the fast version two cameras on different threads race, and cameras not numbered from 0 terminate the program. Missing: NaN scores are treated as no score; the values _calc_info computes are C100-C102."
  },
  {
   "property": "C104",
   "status": "partial",
   "theorems": [
    "C104_view_partial",
    "C104_outliers_partial",
    "C104_filter_all",
    "C104_thresholds",
    "C104_residuals",
    "C104_added",
    "C104_empty_refuted",
    "C104_spread_refuted",
    "C104_outliers_back_refuted",
    "C104_no_info_refuted"
   ],
   "note": "For every reachable calibrator whose views are complete (add_view establishes it: C104_added), all residual values, solver results and information values: what happens to each view, estimates restored, count, termination without undefined behaviour. Assumes that relative pose estimation succeeds when a view is added back and fresh pose and residual objects. Refuted: no views is undefined; equal residuals are all removed (threshold is the spread about the mean, compared with the distance from zero); if the information without the view cannot be computed its outliers come back; if it cannot be computed with the view the estimates are not restored. A view whose outlier-free grid is empty disappears although it is counted as kept (in the statement)."
  },
  {
   "property": "C105",
   "status": "partial",
   "theorems": [
    "C105_problem_partial",
    "C105_marginalize",
    "C105_undefined",
    "C105_remove_all",
    "C105_remove_all_refuted",
    "C105_empty_view_refuted",
    "C105_all_fixed_refuted",
    "C105_no_views_refuted"
   ],
   "note": "For every reachable calibrator (any order of adding, judging, removing, filtering, solving, marginalising): problem = residuals of the views + prior, exact effect of marginalize(), exact conditions under which it is undefined, each shown to occur; remove_all_views() aborts after any marginalisation. Assumes views get timestamps that have no view yet, new objects are fresh, and that the new prior's parameter blocks are those form_hessian computes (C69). The values inside the prior are C69; the undefined cases are Eigen decompositions of empty matrices."
  },
  {
   "property": "C106",
   "status": "partial",
   "theorems": [
    "C106_candidates",
    "C106_stamps",
    "C106_detected",
    "C106_motion",
    "C106_no_pose_refuted",
    "C106_few_refuted",
    "C106_ends_refuted",
    "C106_static_refuted",
    "C106_tags_refuted"
   ],
   "note": "Over the reals (acos of a trace rounded beyond 3 would be NaN and break the map's order: not modelled), for all data with calibrated cameras: exact set and order of the candidates, what the key measures. Refuted: no estimable frame is undefined (size() - 1 wraps), one or two abort, the ends are never used, a static camera has one candidate however many frames, and the detections counted for a frame are those of another one. grid.estimate is an arbitrary result per grid."
  },
  {
   "property": "C107",
   "status": "partial",
   "theorems": [
    "C107_early",
    "C107_views",
    "C107_window",
    "C107_newest",
    "C107_reach"
   ],
   "note": "Over views as in C28 / C105, with the results of the solver, PnP, information and outlier filter arbitrary functions of the state. Partial: C107_newest and C107_reach are without the outlier filter (with it, C107_views and C107_window hold); the shuffling, the printing and the final filter and solve after the loop are not part of it (C104 is about the filter)."
  },
  {
   "property": "C108",
   "status": "partial",
   "theorems": [
    "C108_load_poses",
    "C108_bad_line",
    "C108_round_trip",
    "C108_save_short",
    "C108_load_imu",
    "C108_imu_swapped_refuted",
    "C108_camera_poses"
   ],
   "note": "Over the text of the file and real numbers, with trusted models of fgets, fscanf and fprintf. Refuted: reading back what save_imu_data wrote. Partial: exponents, inf, nan, hexadecimal and rounding to double are not modelled; rotations read back are close to, not exactly, rotations (the quaternion is not normalised); times outside int64 and more than 7 numbers in a line are modelled but nothing is proved about them."
  },
  {
   "property": "C109",
   "status": "partial",
   "theorems": [
    "C109_rank",
    "C109_solve",
    "C109_runs",
    "C109_marginal",
    "C109_unobservable_refuted",
    "C109_pattern_refuted",
    "C109_convert"
   ],
   "note": "Over the reals, SuiteSparseQR and JacobiSVD by contract. Refuted: unobservable parameters are left out of the determinant instead of making it infinite; a symbolic factorisation is reused for another pattern (sizes and number of entries are all that is compared), which C109_runs therefore excludes. Partial: if singular values that are not zero are dropped only optimality in the left part is proved; that SuiteSparse's own rank detection agrees is part of the contract; the Jacobian is given."
  },
  {
   "property": "C110",
   "status": "partial",
   "theorems": [
    "C110_views",
    "C110_missing",
    "C110_sign_refuted",
    "C110_stamp_refuted"
   ],
   "note": "Over arbitrary directory listings; reading one grid file is an arbitrary function of camera and name (C12 is about it), pose estimation an arbitrary result. Refuted: names of 2^63 and more; files whose contents carry another time than their name. Partial: C110_views excludes these two cases; the state left behind by an exception in the middle of loading is not stated."
  },
  {
   "property": "C111",
   "status": "partial",
   "theorems": [
    "C111_frames",
    "C111_times",
    "C111_ends",
    "C111_incomplete",
    "C111_rig",
    "C111_timeline"
   ],
   "note": "Over the reals with arbitrary projections. C111_rig shows the simulated IMU and camera data of nbt_eval to be consistent with the calibrator's geometry only for identity IMU extrinsics. Partial: rounding, overflow of the times and the length of the loop in doubles (C72) are not part of it; dt <= 0 is excluded."
  }
 ]
}