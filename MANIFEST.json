{
 "claims": [
  {
   "property": "C01",
   "status": "proved",
   "theorems": [
    "C01_cell_batch_statistics"
   ],
   "note": "exact real arithmetic; every history"
  },
  {
   "property": "C02",
   "status": "proved",
   "theorems": [
    "C02_cell_order_independent"
   ],
   "note": "exact real arithmetic"
  },
  {
   "property": "C03",
   "status": "proved",
   "theorems": [
    "C03_cell_covariance_psd",
    "C03_cell_information_psd"
   ],
   "note": "exact real arithmetic; information part under the eigenvalue contract"
  },
  {
   "property": "C04",
   "status": "proved",
   "theorems": [
    "C04_cell_score_range",
    "C04_cell_score_at_mean",
    "C04_cell_few_points_zero"
   ],
   "note": "exact real arithmetic under the eigenvalue contract"
  },
  {
   "property": "C05",
   "status": "proved",
   "theorems": [
    "C05_cell_gaussian_score"
   ],
   "note": "exact real arithmetic under the eigenvalue contract"
  },
  {
   "property": "C06",
   "status": "partial",
   "theorems": [
    "C06_regularised_score_refuted",
    "C06_regularised_score_partial",
    "C06_score_partial"
   ],
   "note": "false as stated: refuted by five collinear points; the partial theorem gives the exact relation to the regularised score"
  },
  {
   "property": "C07",
   "status": "partial",
   "theorems": [
    "C07_score_is_number_refuted",
    "C07_score_is_number_partial",
    "C07_spread_partial"
   ],
   "note": "false as stated: five coincident points give NaN in binary64; cells with fewer than five points score 0 in every arithmetic, and cells whose points spread more than the rounding noise score between 0 and 1 in binary64"
  },
  {
   "property": "C08",
   "status": "proved",
   "theorems": [
    "C08_compute_idempotent",
    "C08_compute_up_to_date"
   ],
   "note": "every arithmetic, including binary64"
  },
  {
   "property": "C09",
   "status": "proved",
   "theorems": [
    "C09_ndt_index_in_bounds",
    "C09_ndt_only_conversion_undefined",
    "C09_ndt_index_defined_iff",
    "C09_ndt_nan_coordinate_undefined"
   ],
   "note": "every arithmetic, including binary64"
  },
  {
   "property": "C10",
   "status": "proved",
   "theorems": [
    "C10_ndt_covers_rectangle",
    "C10_ndt_separates_squares",
    "C10_ndt_left_below_outside"
   ],
   "note": "exact real arithmetic"
  },
  {
   "property": "C11",
   "status": "proved",
   "theorems": [
    "C11_ndt_cell_contents",
    "C11_ndt_cell_history"
   ],
   "note": "exact real arithmetic; the cell-by-cell statement in every arithmetic"
  },
  {
   "property": "C12",
   "status": "proved",
   "theorems": [
    "C12_ndt_likelihoods",
    "C12_point_likelihood"
   ],
   "note": "exact real arithmetic, eigenvalue contract, no cell with five or more coincident points"
  },
  {
   "property": "C13",
   "status": "proved",
   "theorems": [
    "C13_add_scans_covers"
   ],
   "note": "exact real arithmetic"
  },
  {
   "property": "C14",
   "status": "partial",
   "theorems": [
    "C14_map_size_refuted",
    "C14_map_size_partial"
   ],
   "note": "false as stated (the upper bound starts at the smallest positive double); the partial theorem gives the exact extent when some range reaches positive coordinates"
  },
  {
   "property": "C15",
   "status": "partial",
   "theorems": [
    "C15_empty_range_refuted",
    "C15_every_cell_size_refuted"
   ],
   "note": "false as stated: undefined conversion in binary64, for every cell size up to 2^900; no positive part"
  },
  {
   "property": "C16",
   "status": "proved",
   "theorems": [
    "C16_no_map_inert",
    "C16_initially_and_after_reset"
   ],
   "note": "every arithmetic"
  },
  {
   "property": "C17",
   "status": "proved",
   "theorems": [
    "C17_match_scan_best",
    "C17_offsets_in_window"
   ],
   "note": "exact real arithmetic"
  },
  {
   "property": "C18",
   "status": "proved",
   "theorems": [
    "C18_match_score_is_score_at_corrected_pose"
   ],
   "note": "exact real arithmetic"
  },
  {
   "property": "C19",
   "status": "partial",
   "theorems": [
    "C19_matching_not_worse_refuted",
    "C19_matching_not_worse_partial"
   ],
   "note": "false as stated when the window is not a whole number of steps; proved for windows that are"
  },
  {
   "property": "C20",
   "status": "proved",
   "theorems": [
    "C20_scores_normalised"
   ],
   "note": "exact real arithmetic, eigenvalue contract, no cell with five or more coincident points"
  },
  {
   "property": "C21",
   "status": "partial",
   "theorems": [
    "C21_covariance_refuted",
    "C21_covariance_partial"
   ],
   "note": "false as stated: the mean term is added, not subtracted; the partial theorem gives the exact excess"
  },
  {
   "property": "C22",
   "status": "proved",
   "theorems": [
    "C22_covariance_psd"
   ],
   "note": "exact real arithmetic, eigenvalue contract, no cell with five or more coincident points"
  },
  {
   "property": "C23",
   "status": "proved",
   "theorems": [
    "C23_beam_subsampling"
   ],
   "note": "binary64, up to 2^52 points"
  },
  {
   "property": "C24",
   "status": "partial",
   "theorems": [
    "C24_finite_refuted",
    "C24_silent_map_refuted",
    "C24_finite_partial",
    "C24_covariance_partial"
   ],
   "note": "false as stated in binary64 (empty scan; map without scoring cells); score finite for non-empty scans on maps with finite likelihoods; covariance finite with a non-negative diagonal once the score is at most -2^-200"
  },
  {
   "property": "C25",
   "status": "partial",
   "theorems": [
    "C25_search_terminates",
    "C25_search_count",
    "C25_search_terminates_refuted",
    "C25_search_terminates_partial"
   ],
   "note": "proved in exact arithmetic; false in binary64 for tiny resolutions, proved there for resolution >= 2^-51 window widths"
  },
  {
   "property": "C26",
   "status": "partial",
   "theorems": [
    "C26_default_search_refuted",
    "C26_default_angular_partial",
    "C26_loop_range_partial"
   ],
   "note": "false as stated: 21 linear offsets and no exact zero; the angular count 80 holds"
  },
  {
   "property": "C27",
   "status": "proved",
   "theorems": [
    "C27_barycenter_never_stale",
    "C27_barycenter_is_centroid",
    "C27_getters"
   ],
   "note": "no staleness in every arithmetic; centroid in exact real arithmetic"
  },
  {
   "property": "C28",
   "status": "proved",
   "theorems": [
    "C28_constraint_reproduces_relative_pose",
    "C28_transform_unique"
   ],
   "note": "exact real arithmetic"
  },
  {
   "property": "C29",
   "status": "proved",
   "theorems": [
    "C29_fresh_constraint_zero_residual",
    "C29_zero_residual_only_there"
   ],
   "note": "exact real arithmetic"
  },
  {
   "property": "C30",
   "status": "proved",
   "theorems": [
    "C30_residual_frame_invariant"
   ],
   "note": "exact real arithmetic"
  },
  {
   "property": "C31",
   "status": "proved",
   "theorems": [
    "C31_normalize_angle"
   ],
   "note": "exact real arithmetic"
  },
  {
   "property": "C32",
   "status": "partial",
   "theorems": [
    "C32_actual_weighting_partial",
    "C32_mahalanobis_diagonal_partial",
    "C32_mahalanobis_refuted"
   ],
   "note": "false as stated: the Cholesky factor is not transposed; true exactly for diagonal information matrices"
  },
  {
   "property": "C33",
   "status": "proved",
   "theorems": [
    "C33_save_load_lossless"
   ],
   "note": "every arithmetic; serialisation lossless, reader keeps the order within a topic"
  },
  {
   "property": "C34",
   "status": "partial",
   "theorems": [
    "C34_find_nearest_refuted",
    "C34_find_nearest_partial",
    "C34_find_nearest_squared_partial"
   ],
   "note": "false as stated: the distance is compared with the squared distance; the partial theorem gives the exact result (nanoflann contract)"
  },
  {
   "property": "C35",
   "status": "proved",
   "theorems": [
    "C35_find_nearest_bounds",
    "C35_find_nearest_indices"
   ],
   "note": "bounds in every arithmetic; indices under the nanoflann contract"
  },
  {
   "property": "C36",
   "status": "proved",
   "theorems": [
    "C36_graph_message_shows_graph",
    "C36_graph_message_defined_iff"
   ],
   "note": "every arithmetic"
  },
  {
   "property": "C37",
   "status": "proved",
   "theorems": [
    "C37_ray_confined"
   ],
   "note": "integer model; rays for which 2*(|dx|+|dy|) fits an int"
  },
  {
   "property": "C38",
   "status": "partial",
   "theorems": [
    "C38_hit_cell_refuted",
    "C38_hit_cell_partial"
   ],
   "note": "false as stated for slopes between 1/2 and 1; the partial theorem gives the exact hit cell of every ray"
  },
  {
   "property": "C39",
   "status": "proved",
   "theorems": [
    "C39_cell_values",
    "C39_cell_values_b64",
    "C39_default_threshold_b64"
   ],
   "note": "exact real arithmetic; the value of a cell also in binary64"
  },
  {
   "property": "C40",
   "status": "partial",
   "theorems": [
    "C40_grid_contains_scans_refuted",
    "C40_grid_contains_scans_partial"
   ],
   "note": "false as stated: bounds ignore the sensor poses; proved (exact arithmetic) when the sensors lie in the padded box of the points"
  },
  {
   "property": "C41",
   "status": "partial",
   "theorems": [
    "C41_render_after_change_refuted",
    "C41_render_growing_partial",
    "C41_render_moved_partial"
   ],
   "note": "false as stated: bounds are not recomputed when poses change; proved for histories that only add scans and for moves within the bounds"
  },
  {
   "property": "C42",
   "status": "partial",
   "theorems": [
    "C42_incremental_bounds_partial",
    "C42_no_new_points_partial",
    "C42_incremental_bounds_b64_refuted",
    "C42_incremental_bounds_b64_partial"
   ],
   "note": "proved in exact arithmetic; false in binary64 (drift by at most one cell per render)"
  },
  {
   "property": "C43",
   "status": "proved",
   "theorems": [
    "C43_leaf_count_exact",
    "C43_leaf_count_double",
    "C43_insert_total",
    "C43_bin_values"
   ],
   "note": "exact and binary64 arithmetic; no overflow while keys are below 2^30; leaf values in exact arithmetic"
  },
  {
   "property": "C44",
   "status": "proved",
   "theorems": [
    "C44_weights_distribution",
    "C44_construction_and_motion_total"
   ],
   "note": "exact real arithmetic; discrete_distribution only returns indices of positive weight"
  },
  {
   "property": "C45",
   "status": "proved",
   "theorems": [
    "C45_resample_size",
    "C45_resample_total"
   ],
   "note": "every arithmetic, up to the faults listed; no fault in exact arithmetic for particles within 2^28 m; weights are the previous ones up to renormalisation"
  },
  {
   "property": "C46",
   "status": "proved",
   "theorems": [
    "C46_weighted_statistics"
   ],
   "note": "exact real arithmetic"
  },
  {
   "property": "C47",
   "status": "partial",
   "theorems": [
    "C47_heading_variance_refuted",
    "C47_heading_variance_initial_partial",
    "C47_heading_variance_accumulates_partial"
   ],
   "note": "false as stated: the entry is never reset; the partial theorems give the exact accumulation law"
  },
  {
   "property": "C48",
   "status": "partial",
   "theorems": [
    "C48_resample_bias_refuted",
    "C48_squared_weights_partial",
    "C48_uniform_weights_partial"
   ],
   "note": "false as stated: drawn particles keep their weights; the partial theorems give the exact law (squared weights), unbiased for equal weights"
  },
  {
   "property": "C49",
   "status": "partial",
   "theorems": [
    "C49_unexplained_measure_refuted",
    "C49_explained_measure_partial"
   ],
   "note": "false as stated for every filter (0/0); weights finite in binary64 when some score is not 0"
  },
  {
   "property": "C50",
   "status": "proved",
   "theorems": [
    "C50_noise_free_motion",
    "C50_short_motion",
    "C50_count"
   ],
   "note": "exact real arithmetic"
  },
  {
   "property": "C51",
   "status": "proved",
   "theorems": [
    "C51_reverse_noise",
    "C51_noise_inputs"
   ],
   "note": "exact real arithmetic"
  },
  {
   "property": "C52",
   "status": "proved",
   "theorems": [
    "C52_cloud_message"
   ],
   "note": "exact real arithmetic; tf2::getYaw as published"
  },
  {
   "property": "C53",
   "status": "proved",
   "theorems": [
    "C53_failed_optimization_changes_nothing",
    "C53_result_reports_usability",
    "C53_only_poses_change"
   ],
   "note": "every arithmetic, every solver behaviour"
  },
  {
   "property": "C54",
   "status": "proved",
   "theorems": [
    "C54_first_scan_anchors"
   ],
   "note": "every arithmetic; the solver keeps constant parameter blocks; scan ids distinct as int"
  },
  {
   "property": "C55",
   "status": "proved",
   "theorems": [
    "C55_every_constraint_once",
    "C55_in_the_node"
   ],
   "note": "every arithmetic, every solver behaviour"
  },
  {
   "property": "C56",
   "status": "partial",
   "theorems": [
    "C56_loaded_map_refuted",
    "C56_problem_of_any_call_partial",
    "C56_fresh_solver_partial"
   ],
   "note": "false as stated: the solver keeps the old problem; the partial theorems give the exact problem solved, correct for an unused solver"
  },
  {
   "property": "C57",
   "status": "proved",
   "theorems": [
    "C57_enough_motion",
    "C57_ignored_scan"
   ],
   "note": "exact real arithmetic; a rejected scan changes nothing in every arithmetic"
  },
  {
   "property": "C58",
   "status": "proved",
   "theorems": [
    "C58_odometry_rigid",
    "C58_relative_motion_exists",
    "C58_scan_pose"
   ],
   "note": "exact real arithmetic"
  },
  {
   "property": "C59",
   "status": "proved",
   "theorems": [
    "C59_transform_consistent",
    "C59_transform_rigid",
    "C59_message"
   ],
   "note": "exact real arithmetic; tf2 lookups and broadcasts are trusted"
  },
  {
   "property": "C60",
   "status": "partial",
   "theorems": [
    "C60_upright_points",
    "C60_upright_filter_double",
    "C60_inverted_refuted",
    "C60_inverted_empty_refuted",
    "C60_inverted_points_partial"
   ],
   "note": "false as stated for inverted lasers (reading 0 dropped, empty message read out of bounds); proved for upright lasers (exact and binary64) and, for inverted ones, for the readings that are used"
  },
  {
   "property": "C61",
   "status": "partial",
   "theorems": [
    "C61_finite_points_refuted",
    "C61_finite_points_partial"
   ],
   "note": "false as stated: a reading of -inf gives a non-finite point; proved in binary64 for the other readings under size bounds"
  },
  {
   "property": "C62",
   "status": "partial",
   "theorems": [
    "C62_motion_compensation_refuted",
    "C62_heading_refuted",
    "C62_translation_partial",
    "C62_rotation_partial",
    "C62_motion_partial",
    "C62_rest_partial",
    "C62_turning_partial"
   ],
   "note": "false as stated; the partial theorems give the exact position of every point of a message for every constant motion: exact at rest, within one reading of turn when turning on the spot"
  },
  {
   "property": "C63",
   "status": "partial",
   "theorems": [
    "C63_rolling_window_refuted",
    "C63_rolling_window_fault_refuted",
    "C63_rolling_window_partial",
    "C63_default_depth_partial"
   ],
   "note": "false as stated: the window is hard-coded to 10; proved for rolling_depth 10, exact behaviour for every depth"
  },
  {
   "property": "C64",
   "status": "partial",
   "theorems": [
    "C64_graph_well_formed_refuted",
    "C64_graph_well_formed_partial"
   ],
   "note": "false as stated: a map loaded between the two halves of a loop closure leaves a constraint to a missing scan; proved in every arithmetic for maps loaded while the loop-closure thread sleeps (and fewer than 2^31 scans)"
  },
  {
   "property": "C65",
   "status": "partial",
   "theorems": [
    "C65_graph_well_formed_for_others_refuted",
    "C65_publisher_out_of_bounds_refuted",
    "C65_graph_well_formed_for_others_partial"
   ],
   "note": "false as stated: the constraint of a laser scan is in the graph before its scan, and other threads may hold the lock in between; proved: with the guard of C64 this is the only exception"
  },
  {
   "property": "C66",
   "status": "partial",
   "theorems": [
    "C66_updates_published_refuted",
    "C66_updates_published_partial",
    "C66_flag_publishes",
    "C66_at_rest_partial"
   ],
   "note": "false as stated: a scan added by an initial pose does not set the update flag; proved in every arithmetic and schedule: this is the only exception"
  },
  {
   "property": "C67",
   "status": "proved",
   "theorems": [
    "C67_paused_until_initial_pose",
    "C67_load_pauses",
    "C67_disable_pauses",
    "C67_file_start_pauses",
    "C67_enable_does_not_resume"
   ],
   "note": "every arithmetic and schedule"
  },
  {
   "property": "C68",
   "status": "proved",
   "theorems": [
    "C68_configure_mapping_bits",
    "C68_configure_load",
    "C68_configure_save",
    "C68_configure_other_bits"
   ],
   "note": "every arithmetic; file contents are what rosbag2 returns"
  },
  {
   "property": "C69",
   "status": "proved",
   "theorems": [
    "C69_initial_pose_ignored",
    "C69_initial_pose_mapping",
    "C69_initial_pose_localizing",
    "C69_initial_pose_filter"
   ],
   "note": "exact real arithmetic for the distance (10 is compared with the squared distance, C34); the rest in every arithmetic"
  },
  {
   "property": "C70",
   "status": "proved",
   "theorems": [
    "C70_loop_closures_vetted"
   ],
   "note": "every arithmetic and schedule, loads included; assumes that nanoflann returns indices of its points"
  },
  {
   "property": "C71",
   "status": "partial",
   "theorems": [
    "C71_region_refuted",
    "C71_region_partial"
   ],
   "note": "false as stated: the scan after the candidate is never used; the partial theorem gives the region used"
  },
  {
   "property": "C72",
   "status": "partial",
   "theorems": [
    "C72_typical_response_refuted",
    "C72_empty_scan_spoils",
    "C72_nan_is_final",
    "C72_typical_response_partial",
    "C72_typical_response_b64_partial"
   ],
   "note": "false as stated: a scan without returns makes it NaN for ever; proved exactly for spread-out scans, and in binary64 for scores in the range"
  },
  {
   "property": "C73",
   "status": "proved",
   "theorems": [
    "C73_publisher_role",
    "C73_loop_closure_role"
   ],
   "note": "every arithmetic and schedule; the loop-closure thread changes poses of scans"
  },
  {
   "property": "C74",
   "status": "proved",
   "theorems": [
    "C74_waiting_for_a_running_thread",
    "C74_holder_never_waits",
    "C74_released_soon"
   ],
   "note": "every arithmetic and schedule"
  },
  {
   "property": "C75",
   "status": "partial",
   "theorems": [
    "C75_missing_matcher_refuted",
    "C75_missing_scan_refuted",
    "C75_reads_in_range_partial",
    "C75_matcher_exists_partial",
    "C75_laser_matchers_exist"
   ],
   "note": "false as stated, both halves; proved in every arithmetic for maps loaded while the loop-closure thread sleeps and after the first laser message"
  },
  {
   "property": "C76",
   "status": "partial",
   "theorems": [
    "C76_global_map_kept_refuted",
    "C76_global_map_kept_partial"
   ],
   "note": "false as stated: loop closure resets the global matcher also when the filter is used; proved in every arithmetic with mapping disabled and no requests"
  },
  {
   "property": "C77",
   "status": "partial",
   "theorems": [
    "C77_transform_pairs_refuted",
    "C77_transform_pairs_partial"
   ],
   "note": "false as stated: an initial pose is stored without the mutex; proved in every arithmetic when the publisher does not read in between"
  },
  {
   "property": "C78",
   "status": "partial",
   "theorems": [
    "C78_optimization_cadence_refuted",
    "C78_optimization_cadence_partial"
   ],
   "note": "false as stated: loading a smaller map wraps the unsigned difference; proved in every arithmetic without load requests"
  },
  {
   "property": "C79",
   "status": "partial",
   "theorems": [
    "C79_measured_motion_refuted",
    "C79_measured_motion_partial",
    "C79_every_history_partial"
   ],
   "note": "false as stated: the previous scan may have been moved by a loop closure; proved in exact arithmetic for laser messages only, and, for every history and schedule, that the constraint leads from the newest scan, where it then is, to the pose predicted by odometry and corrected by the match"
  },
  {
   "property": "C80",
   "status": "proved",
   "theorems": [
    "C80_optimize_defined_iff",
    "C80_single_scan_aborts"
   ],
   "note": "every arithmetic"
  },
  {
   "property": "C81",
   "status": "partial",
   "theorems": [
    "C81_free_cells_on_line_refuted",
    "C81_free_cells_on_line_partial"
   ],
   "note": "false as stated: up to one and a half cells on shallow rays; the partial theorem proves this bound, and half a cell for steep rays"
  },
  {
   "property": "C82",
   "status": "proved",
   "theorems": [
    "C82_mounting_learned_once",
    "C82_mounting_kept"
   ],
   "note": "every arithmetic and schedule; laser messages have a frame name"
  },
  {
   "property": "C83",
   "status": "partial",
   "theorems": [
    "C83_upside_down_refuted",
    "C83_upside_down_partial",
    "C83_threshold_partial"
   ],
   "note": "false as stated: a tilt of 4.6 degrees counts as upside down; proved that a laser counts as upside down exactly when |qx| or |qy| exceeds 0.02, so that upside-down lasers are recognised and level ones are not mistaken"
  },
  {
   "property": "C84",
   "status": "proved",
   "theorems": [
    "C84_range_limit",
    "C84_matcher_settings"
   ],
   "note": "every arithmetic and schedule"
  },
  {
   "property": "C85",
   "status": "proved",
   "theorems": [
    "C85_mapping_scan",
    "C85_first_scan"
   ],
   "note": "every arithmetic; the matcher and constraint contents are those of C13-C27"
  },
  {
   "property": "C86",
   "status": "proved",
   "theorems": [
    "C86_tracking_scan"
   ],
   "note": "every arithmetic"
  },
  {
   "property": "C87",
   "status": "proved",
   "theorems": [
    "C87_filter_scan",
    "C87_filter_motion"
   ],
   "note": "every arithmetic; the motion in exact real arithmetic"
  },
  {
   "property": "C88",
   "status": "proved",
   "theorems": [
    "C88_loop_closed"
   ],
   "note": "every arithmetic"
  },
  {
   "property": "C89",
   "status": "partial",
   "theorems": [
    "C89_sweep_time_refuted",
    "C89_sweep_time_partial",
    "C89_sweep_defined_partial"
   ],
   "note": "false as stated: undefined conversion for a message without readings; proved exactly for messages with readings"
  },
  {
   "property": "C90",
   "status": "proved",
   "theorems": [
    "C90_callback_steps",
    "C90_callbacks_finish"
   ],
   "note": "every arithmetic; uses excluded middle for the fairness argument; library calls are single steps"
  },
  {
   "property": "C91",
   "status": "proved",
   "theorems": [
    "C91_pass_finishes"
   ],
   "note": "every arithmetic; as C90"
  },
  {
   "property": "C92",
   "status": "partial",
   "theorems": [
    "C92_every_scan_considered_partial",
    "C92_every_scan_considered_refuted"
   ],
   "note": "false as stated: global_scans_processed_ is not reset when a map is loaded; proved in every arithmetic without loads"
  },
  {
   "property": "C93",
   "status": "proved",
   "theorems": [
    "C93_update_published",
    "C93_scan_published"
   ],
   "note": "every arithmetic; as C90"
  },
  {
   "property": "C94",
   "status": "proved",
   "theorems": [
    "C94_transform_published"
   ],
   "note": "every arithmetic; as C90"
  },
  {
   "property": "C95",
   "status": "proved",
   "theorems": [
    "C95_graph_grows"
   ],
   "note": "every arithmetic"
  },
  {
   "property": "C96",
   "status": "proved",
   "theorems": [
    "C96_spanning",
    "C96_saved_spanning"
   ],
   "note": "every arithmetic; fewer than 2^31 scans"
  },
  {
   "property": "C97",
   "status": "partial",
   "theorems": [
    "C97_optimizer_safe_refuted",
    "C97_optimizer_safe_partial"
   ],
   "note": "false as stated: the laser callback appends the constraint before the scan and the optimizer may run in between; proved in every arithmetic when it does not and no map is loaded"
  },
  {
   "property": "C98",
   "status": "proved",
   "theorems": [
    "C98_first_scan_stays",
    "C98_map_at_origin"
   ],
   "note": "every arithmetic; under the contract of Ceres; fewer than 2^31 scans"
  },
  {
   "property": "C99",
   "status": "partial",
   "theorems": [
    "C99_graph_guarded",
    "C99_scans_guarded_refuted",
    "C99_scans_guarded_partial",
    "C99_poses_guarded_partial"
   ],
   "note": "false as stated: the correction of a loop closure moves a scan without the mutex and an initial pose is stored without the other one; proved in every arithmetic that these are the only exceptions"
  },
  {
   "property": "C100",
   "status": "partial",
   "theorems": [
    "C100_same_node",
    "C100_nothing_runs",
    "C100_destructor_hangs",
    "C100_threads_end",
    "C100_unload_partial",
    "C100_unload_refuted"
   ],
   "note": "false as stated: the threads end only when rclcpp::ok() is false, so destroying the node without shutting the context down hangs; proved in every arithmetic: after shutdown both threads end and the destructor returns, and then nothing runs"
  },
  {
   "property": "C101",
   "status": "partial",
   "theorems": [
    "C101_map_frozen_partial",
    "C101_localization_keeps_map",
    "C101_map_settles",
    "C101_map_frozen_refuted"
   ],
   "note": "false as stated: a loop closure under way when mapping is switched off is still added; proved in every arithmetic: once the loop closure thread sleeps the map is frozen, which happens eventually, and a localization node never changes its map"
  },
  {
   "property": "C102",
   "status": "proved",
   "theorems": [
    "C102_saved",
    "C102_resume",
    "C102_lifelong",
    "C102_lifelong_well_formed"
   ],
   "note": "in every arithmetic; reading a file back is assumed to keep the order within each topic"
  },
  {
   "property": "C103",
   "status": "proved",
   "theorems": [
    "C103_node_starts",
    "C103_memory_safe"
   ],
   "note": "in binary64 for every math library, under the conditions of the statement, each of which is known to be needed (C40, C41, C63, C65, C75, C97) or excludes a number that is too large"
  },
  {
   "property": "C104",
   "status": "partial",
   "theorems": [
    "C104_parameters_partial",
    "C104_parameters_refuted",
    "C104_negative_node_limit",
    "C104_search_limit_off",
    "C104_negative_beams",
    "C104_negative_particles"
   ],
   "note": "false as stated: negative values are accepted and become almost 2^64; the effect of each is proved, and that values that are not negative are used as given"
  },
  {
   "property": "C105",
   "status": "partial",
   "theorems": [
    "C105_matcher_never_follows",
    "C105_current_map_partial",
    "C105_current_map_refuted"
   ],
   "note": "false as stated: the global matcher is built once at the first laser message; neither loading a map nor switching mapping off rebuilds it; proved when mapping is off throughout and maps are loaded before the first laser message"
  },
  {
   "property": "C106",
   "status": "partial",
   "theorems": [
    "C106_seam_refuted",
    "C106_seam_partial",
    "C106_smeared"
   ],
   "note": "false as stated: the difference of the headings is not normalised, so a sweep across +-pi is smeared over a full turn; proved when the written headings differ by at most half a turn"
  },
  {
   "property": "C107",
   "status": "partial",
   "theorems": [
    "C107_last_stored",
    "C107_continues_partial",
    "C107_origin",
    "C107_continues_refuted"
   ],
   "note": "false as stated: while the map is empty every processed message starts at the origin, so an initial pose is forgotten; proved on maps that are not empty, and in every arithmetic that the poses in use are the ones stored last"
  },
  {
   "property": "C108",
   "status": "partial",
   "theorems": [
    "C108_transform_needs_pose_refuted",
    "C108_transform_needs_pose_partial"
   ],
   "note": "false as stated: the publish thread only tests that the graph is not empty, so a node started from a file, in the middle of adding the first scan, or after a load publishes a transform from poses of no meaning; proved when it looks only while the robot is localized"
  },
  {
   "property": "C109",
   "status": "partial",
   "theorems": [
    "C109_converged_refuted",
    "C109_stopping_rule_partial"
   ],
   "note": "false as stated: with all particles in one bin max_particles are drawn, in every arithmetic; proved in exact arithmetic: with more than one occupied bin, drawing stops at the first count that reaches the KLD bound between minimum and maximum"
  },
  {
   "property": "C110",
   "status": "partial",
   "theorems": [
    "C110_apart_refuted",
    "C110_apart_partial",
    "C110_clearly_apart_partial"
   ],
   "note": "false as stated: the bins around zero are twice as wide; proved for keys on one side of zero, and for any number of keys that are pairwise two bin sizes apart"
  },
  {
   "property": "C111",
   "status": "partial",
   "theorems": [
    "C111_turn_noise_refuted",
    "C111_turn_noise_partial"
   ],
   "note": "false as stated: a half turn on the spot has no noise at all; proved up to a quarter turn"
  },
  {
   "property": "C112",
   "status": "partial",
   "theorems": [
    "C112_parameters_refuted",
    "C112_monotone_partial",
    "C112_each_counts_partial",
    "C112_monotone_doubles_partial"
   ],
   "note": "false as stated: odom_alpha5 is never read, in any arithmetic; proved for the other four"
  },
  {
   "property": "C113",
   "status": "partial",
   "theorems": [
    "C113_update_refuted",
    "C113_init_refuted",
    "C113_update_partial",
    "C113_init_partial"
   ],
   "note": "false as stated: turning on the spot and zero initial variances ask for a normal distribution of deviation zero, which the standard forbids; proved for motions with a translation and for positive variances"
  },
  {
   "property": "C114",
   "status": "partial",
   "theorems": [
    "C114_centre_refuted",
    "C114_centre_partial",
    "C114_centre_exact_partial",
    "C114_heading_exact_partial",
    "C114_heading_partial"
   ],
   "note": "false as stated: positions are rounded to single precision; proved within 2^-24 of the coordinate in binary64, exactly in exact arithmetic; headings likewise up to 2^127"
  },
  {
   "property": "C115",
   "status": "partial",
   "theorems": [
    "C115_no_overlap_refuted",
    "C115_mapping_refuted",
    "C115_initial_pose_refuted",
    "C115_information_partial",
    "C115_initial_pose_partial",
    "C115_overlap_partial"
   ],
   "note": "false as stated: without overlap the information is NaN, reached by mapping two sparse scans; proved in exact arithmetic when the scoring candidates span all directions"
  },
  {
   "property": "C116",
   "status": "partial",
   "theorems": [
    "C116_solver_refuted",
    "C116_node_refuted",
    "C116_weighable_partial"
   ],
   "note": "false as stated: the bad block stays in the problem, every later optimisation fails; proved: weighable constraints give usable blocks"
  },
  {
   "property": "C117",
   "status": "partial",
   "theorems": [
    "C117_blind_refuted",
    "C117_resumed_refuted",
    "C117_small_map_partial"
   ],
   "note": "false as stated: only the last ten scans by index take part; proved for maps of at most rolling_depth scans"
  },
  {
   "property": "C118",
   "status": "proved",
   "theorems": [
    "C118_statistics_in_doubles",
    "C118_order_in_doubles"
   ],
   "note": "binary64; every history; explicit error bounds"
  },
  {
   "property": "C119",
   "status": "partial",
   "theorems": [
    "C119_likelihood_refuted",
    "C119_spread_partial"
   ],
   "note": "false as stated: cancellation makes a variance negative far from the origin, so the likelihood exceeds 1 or is infinite; proved when the spread of the points exceeds the rounding noise in every direction"
  },
  {
   "property": "C120",
   "status": "partial",
   "theorems": [
    "C120_spread_partial",
    "C120_scores_refuted"
   ],
   "note": "false as stated: scores below -1 and of minus infinity on maps far from the origin; proved when the points of every cell are spread by more than the rounding noise"
  },
  {
   "property": "C121",
   "status": "partial",
   "theorems": [
    "C121_search_positions_refuted",
    "C121_serial_partial",
    "C121_node_partial"
   ],
   "note": "false as stated: the correction of a loop closure takes no lock, an initial pose in between leaves a stale barycenter marked up to date; proved for calls that do not overlap, and for the node when a call is one step"
  },
  {
   "property": "C122",
   "status": "proved",
   "theorems": [
    "C122_best_any_arithmetic",
    "C122_best_candidate",
    "C122_window",
    "C122_stays_in_window"
   ],
   "note": "every arithmetic with chaining comparisons, instantiated at binary64; window in binary64"
  },
  {
   "property": "C123",
   "status": "proved",
   "theorems": [
    "C123_covers_rectangle",
    "C123_left_below_outside",
    "C123_squares"
   ],
   "note": "binary64"
  },
  {
   "property": "C124",
   "status": "proved",
   "theorems": [
    "C124_add_scans_covers"
   ],
   "note": "binary64"
  },
  {
   "property": "C125",
   "status": "proved",
   "theorems": [
    "C125_pi",
    "C125_normalize_angle",
    "C125_residual_angle"
   ],
   "note": "binary64; fmod exact"
  },
  {
   "property": "C126",
   "status": "proved",
   "theorems": [
    "C126_moved",
    "C126_scan"
   ],
   "note": "binary64; fmod exact"
  },
  {
   "property": "C127",
   "status": "proved",
   "theorems": [
    "C127_fresh_constraint_zero_residual"
   ],
   "note": "binary64"
  },
  {
   "property": "C128",
   "status": "proved",
   "theorems": [
    "C128_weights_distribution"
   ],
   "note": "binary64; every history"
  },
  {
   "property": "C129",
   "status": "proved",
   "theorems": [
    "C129_mean"
   ],
   "note": "binary64; every history"
  },
  {
   "property": "C130",
   "status": "proved",
   "theorems": [
    "C130_add_scan",
    "C130_likelihood",
    "C130_bounds",
    "C130_rays",
    "C130_search"
   ],
   "note": "binary64; accurate sine and cosine"
  },
  {
   "property": "C131",
   "status": "proved",
   "theorems": [
    "C131_constraint"
   ],
   "note": "binary64; accurate sine and cosine"
  },
  {
   "property": "C132",
   "status": "proved",
   "theorems": [
    "C132_guess",
    "C132_scan"
   ],
   "note": "binary64; accurate sine and cosine, fmod exact"
  },
  {
   "property": "C133",
   "status": "proved",
   "theorems": [
    "C133_transform",
    "C133_message"
   ],
   "note": "binary64; accurate sine and cosine"
  },
  {
   "property": "C134",
   "status": "proved",
   "theorems": [
    "C134_barycenter"
   ],
   "note": "binary64; accurate sine and cosine"
  },
  {
   "property": "C135",
   "status": "proved",
   "theorems": [
    "C135_upright",
    "C135_inverted"
   ],
   "note": "binary64; accurate sine and cosine"
  },
  {
   "property": "C136",
   "status": "proved",
   "theorems": [
    "C136_history"
   ],
   "note": "binary64; accurate sine and cosine; sensors near the box of the points"
  },
  {
   "property": "C137",
   "status": "proved",
   "theorems": [
    "C137_jacobian",
    "C137_gradient",
    "C137_half_turn"
   ],
   "note": "exact arithmetic; Jets as published"
  },
  {
   "property": "C138",
   "status": "proved",
   "theorems": [
    "C138_never_worse",
    "C138_in_the_node"
   ],
   "note": "exact arithmetic; Ceres contracts keeps_nodes and never_worse"
  },
  {
   "property": "C139",
   "status": "proved",
   "theorems": [
    "C139_consistent_map_stays"
   ],
   "note": "exact arithmetic; Ceres contracts keeps_constant, keeps_nodes and never_worse"
  },
  {
   "property": "C140",
   "status": "proved",
   "theorems": [
    "C140_noise_free_motion",
    "C140_headings_normalised"
   ],
   "note": "binary64; accurate sine, cosine, hypot and atan2; exact fmod"
  },
  {
   "property": "C141",
   "status": "partial",
   "theorems": [
    "C141_covariance_partial",
    "C141_variance_refuted"
   ],
   "note": "false as stated (C141_variance_refuted); true up to 2^-48 (n+2) M^2, with covariance entries accurate to the same bound; binary64"
  },
  {
   "property": "C142",
   "status": "proved",
   "theorems": [
    "C142_score_points",
    "C142_score_scan",
    "C142_match_scan"
   ],
   "note": "exact real arithmetic, eigenvalue contract; a match score of exactly 0 is not attributed to a pose"
  },
  {
   "property": "C143",
   "status": "proved",
   "theorems": [
    "C143_measure",
    "C143_shares",
    "C143_update",
    "C143_init"
   ],
   "note": "measure in every arithmetic; shares, update and init in exact real arithmetic"
  },
  {
   "property": "C144",
   "status": "proved",
   "theorems": [
    "C144_update",
    "C144_init"
   ],
   "note": "exact real arithmetic"
  },
  {
   "property": "C145",
   "status": "proved",
   "theorems": [
    "C145_build",
    "C145_score",
    "C145_match",
    "C145_default"
   ],
   "note": "binary64; sine and cosine accurate to 2^-52; at most 2^52 points; memory exhaustion not modelled"
  },
  {
   "property": "C146",
   "status": "partial",
   "theorems": [
    "C146_no_map_refuted",
    "C146_start_refuted",
    "C146_mapping_partial",
    "C146_map_partial"
   ],
   "note": "false as stated: undefined conversion for every configuration without a map; proved for a mapping node and for a node with a map"
  },
  {
   "property": "C147",
   "status": "proved",
   "theorems": [
    "C147_resample",
    "C147_measure",
    "C147_step"
   ],
   "note": "binary64; as many draws as the largest number of particles; some score is not zero"
  },
  {
   "property": "C148",
   "status": "partial",
   "theorems": [
    "C148_beam_refuted",
    "C148_beam_partial"
   ],
   "note": "false as stated: rays are drawn from the origin of the robot; proved up to the offset of the laser, exact arithmetic"
  },
  {
   "property": "C149",
   "status": "partial",
   "theorems": [
    "C149_too_close_refuted",
    "C149_at_the_laser_refuted",
    "C149_too_close_partial"
   ],
   "note": "false as stated: range_min is ignored; proved for drivers that report NaN"
  },
  {
   "property": "C150",
   "status": "partial",
   "theorems": [
    "C150_robot_at_newest_refuted",
    "C150_robot_at_newest_partial"
   ],
   "note": "false as stated: a loop closure leaves the robot behind; proved while no scan is moved"
  },
  {
   "property": "C151",
   "status": "partial",
   "theorems": [
    "C151_filter_refuted",
    "C151_matching_refuted",
    "C151_partial",
    "C151_filter_adds_no_scan"
   ],
   "note": "false as stated: enable_mapping must also be false"
  },
  {
   "property": "C152",
   "status": "proved",
   "theorems": [
    "C152_mark_ignored",
    "C152_wrong_closure_moves_map"
   ],
   "note": "every arithmetic"
  },
  {
   "property": "C153",
   "status": "partial",
   "theorems": [
    "C153_candidates_partial",
    "C153_candidates_refuted"
   ],
   "note": "false as stated: the parameter is compared with the squared distance; proved with the square root"
  },
  {
   "property": "C154",
   "status": "proved",
   "theorems": [
    "C154_history",
    "C154_measure"
   ],
   "note": "binary64; as many draws as the largest number of particles"
  },
  {
   "property": "C155",
   "status": "proved",
   "theorems": [
    "C155_no_failure"
   ],
   "note": "binary64; accurate sine and cosine, exact fmod; the step that draws the map is left to C156"
  },
  {
   "property": "C156",
   "status": "proved",
   "theorems": [
    "C156_drawing",
    "C156_no_failure"
   ],
   "note": "binary64; accurate sine and cosine, exact fmod"
  },
  {
   "property": "C157",
   "status": "partial",
   "theorems": [
    "C157_closures_optimised_partial",
    "C157_forgotten_partial",
    "C157_closures_optimised_refuted"
   ],
   "note": "false as stated: a closure found before enough scans were added is forgotten; proved for the closures of the pass itself, in every arithmetic, and that a pass without closures never optimises"
  },
  {
   "property": "C158",
   "status": "proved",
   "theorems": [
    "C158_matching_elsewhere"
   ],
   "note": "exact real arithmetic; readings within range_max of the robot, grids below 2^31 cells"
  },
  {
   "property": "C159",
   "status": "proved",
   "theorems": [
    "C159_drawing",
    "C159_published_b64",
    "C159_published"
   ],
   "note": "exact and binary64 arithmetic (every math library); drawing in every arithmetic"
  },
  {
   "property": "C160",
   "status": "proved",
   "theorems": [
    "C160_matching",
    "C160_drawing",
    "C160_constraints",
    "C160_particles"
   ],
   "note": "exact real arithmetic"
  },
  {
   "property": "C161",
   "status": "partial",
   "theorems": [
    "C161_odometry_frame_partial",
    "C161_translated",
    "C161_odometry_frame_refuted"
   ],
   "note": "refuted when the frame is turned and the robot moves during a sweep (the points of the scan change); proved for every shift of the frame, and for every shift and turn when the displacement during each sweep has the same coordinates in both frames"
  },
  {
   "property": "C162",
   "status": "proved",
   "theorems": [
    "C162_publishing_apart"
   ],
   "note": "every arithmetic"
  },
  {
   "property": "C163",
   "status": "proved",
   "theorems": [
    "C163_mapping_timing",
    "C163_localizing_timing"
   ],
   "note": "every arithmetic"
  },
  {
   "property": "C164",
   "status": "partial",
   "theorems": [
    "C164_filter_elsewhere_partial",
    "C164_measure_elsewhere",
    "C164_filter_elsewhere_refuted"
   ],
   "note": "exact arithmetic; resampling only for shifts by whole bins that cross no axis, false otherwise (refuted)"
  },
  {
   "property": "C165",
   "status": "proved",
   "theorems": [
    "C165_enable",
    "C165_disable",
    "C165_load",
    "C165_save",
    "C165_no_argument",
    "C165_load_undoes"
   ],
   "note": "every arithmetic"
  },
  {
   "property": "C166",
   "status": "partial",
   "theorems": [
    "C166_same_place_partial",
    "C166_added_partial",
    "C166_place_refuted"
   ],
   "note": "exact arithmetic; refuted when the corner of the map moves"
  },
  {
   "property": "C167",
   "status": "partial",
   "theorems": [
    "C167_no_trace_partial",
    "C167_standing",
    "C167_standing_exact",
    "C167_no_trace_refuted"
   ],
   "note": "every arithmetic; false for messages dropped before the laser is known (refuted)"
  },
  {
   "property": "C168",
   "status": "proved",
   "theorems": [
    "C168_world_values",
    "C168_elsewhere",
    "C168_again"
   ],
   "note": "exact arithmetic; sensors in the padded box, grids below 2^31 cells"
  },
  {
   "property": "C169",
   "status": "proved",
   "theorems": [
    "C169_position",
    "C169_heading"
   ],
   "note": "exact arithmetic"
  },
  {
   "property": "C170",
   "status": "proved",
   "theorems": [
    "C170_moves",
    "C170_moves_doubles",
    "C170_tracked"
   ],
   "note": "exact arithmetic and doubles"
  },
  {
   "property": "C171",
   "status": "proved",
   "theorems": [
    "C171_known_stays_known",
    "C171_hits_keep_occupied",
    "C171_passing_keeps_free",
    "C171_occupied_needs_a_hit",
    "C171_counts_doubles"
   ],
   "note": "exact arithmetic"
  },
  {
   "property": "C172",
   "status": "proved",
   "theorems": [
    "C172_order",
    "C172_scale"
   ],
   "note": "exact arithmetic"
  },
  {
   "property": "C173",
   "status": "proved",
   "theorems": [
    "C173_zero",
    "C173_moved",
    "C173_scaled",
    "C173_same_order",
    "C173_unique"
   ],
   "note": "exact arithmetic"
  },
  {
   "property": "C174",
   "status": "partial",
   "theorems": [
    "C174_moves_ok",
    "C174_steps_refuted",
    "C174_steps_partial"
   ],
   "note": "false for steps of at most a centimetre, whose direction is dropped; proved for longer steps"
  },
  {
   "property": "C175",
   "status": "proved",
   "theorems": [
    "C175_rest"
   ],
   "note": "every arithmetic; fair infinite executions without faults"
  },
  {
   "property": "C176",
   "status": "partial",
   "theorems": [
    "C176_stays_partial",
    "C176_own_map_refuted",
    "C176_default_search_partial"
   ],
   "note": "the part about the own map is false (fewer beams than points); a scan that fits best where it lies stays there if the window is a whole number of steps wide; the default search in doubles tries a correction within 2^-54 of zero"
  },
  {
   "property": "C177",
   "status": "proved",
   "theorems": [
    "C177_map_is_its_constraints",
    "C177_saved",
    "C177_doubles"
   ],
   "note": "exact arithmetic; residuals also in doubles"
  },
  {
   "property": "C178",
   "status": "proved",
   "theorems": [
    "C178_closures_disturb_little",
    "C178_first_scans",
    "C178_doubles"
   ],
   "note": "exact arithmetic; residuals also in doubles"
  },
  {
   "property": "C179",
   "status": "proved",
   "theorems": [
    "C179_defaults_map",
    "C179_defaults_motion",
    "C179_defaults_closure",
    "C179_default_correction",
    "C179_default_correction_doubles",
    "C179_default_beams",
    "C179_default_cells",
    "C179_defaults_cadence",
    "C179_defaults_grid",
    "C179_default_candidates",
    "C179_default_range",
    "C179_default_range_doubles"
   ],
   "note": "lengths in exact arithmetic; corrections and beams also in doubles"
  },
  {
   "property": "C180",
   "status": "proved",
   "theorems": [
    "C180_drift_bounded",
    "C180_default_drift"
   ],
   "note": "exact arithmetic"
  },
  {
   "property": "C181",
   "status": "partial",
   "theorems": [
    "C181_viewer_partial",
    "C181_viewer_refuted"
   ],
   "note": "false after a smaller map is loaded (witness); proved while no map is loaded after the start"
  },
  {
   "property": "C182",
   "status": "partial",
   "theorems": [
    "C182_position_partial",
    "C182_localizing_refuted",
    "C182_transform_refuted",
    "C182_next_scan_refuted",
    "C182_heading_refuted",
    "C182_filter_refuted",
    "C182_filter_scan_refuted",
    "C182_heading_scan_refuted"
   ],
   "note": "false while localizing, and while mapping for the heading (witnesses); proved while mapping for the position"
  },
  {
   "property": "C183",
   "status": "proved",
   "theorems": [
    "C183_find_nearest_doubles",
    "C183_initial_pose_doubles",
    "C183_candidates_doubles"
   ],
   "note": "binary64; contract of the search library"
  },
  {
   "property": "C184",
   "status": "proved",
   "theorems": [
    "C184_cloud_current",
    "C184_display_exists",
    "C184_cloud_of_the_pose"
   ],
   "note": "every arithmetic; every execution"
  },
  {
   "property": "C185",
   "status": "partial",
   "theorems": [
    "C185_any_map_file_refuted",
    "C185_map_file_partial",
    "C185_scan_ids_refuted",
    "C185_saved_files"
   ],
   "note": "refuted as stated; every arithmetic: exactly the files with a constraint to a missing scan do harm"
  },
  {
   "property": "C186",
   "status": "partial",
   "theorems": [
    "C186_nothing_changes_refuted",
    "C186_nothing_changes_partial",
    "C186_map_kept",
    "C186_any_moment",
    "C186_no_new_states"
   ],
   "note": "refuted for requests that also switch mapping; proved in every arithmetic for requests that only load or save, and for the map for all requests"
  }
 ]
}