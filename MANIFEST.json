{
 "claims": [
  {
   "property": "C01",
   "status": "proved",
   "theorems": [
    "C01_dcm_from_quaternion_is_rotation",
    "C01_zero_quaternion_has_no_dcm"
   ],
   "note": "For any non-zero quaternion; the zero quaternion gives no finite matrix."
  },
  {
   "property": "C02",
   "status": "proved",
   "theorems": [
    "C02_dcm_equal_iff_proportional"
   ],
   "note": ""
  },
  {
   "property": "C03",
   "status": "proved",
   "theorems": [
    "C03_quaternion_product_is_dcm_product"
   ],
   "note": ""
  },
  {
   "property": "C04",
   "status": "partial",
   "theorems": [
    "C04_dcm_to_quaternion",
    "C04_quaternion_round_trip",
    "C04_dcm_to_quaternion_refuted"
   ],
   "note": "Refuted as stated: rotations whose quaternion has last component 0 and a tie for the largest component divide by zero (e.g. 90 degrees about x). Proved exactly on the complement."
  },
  {
   "property": "C05",
   "status": "partial",
   "theorems": [
    "C05_quaternion_from_rotation_vector",
    "C05_zero_rotation_vector_refuted"
   ],
   "note": "Proved for every non-zero vector; the zero vector is refuted (division by zero)."
  },
  {
   "property": "C06",
   "status": "partial",
   "theorems": [
    "C06_rotation_vector_round_trip_negates",
    "C06_rotation_vector_round_trip_refuted"
   ],
   "note": "Refuted as stated: the round trip returns the negated vector, proved for every vector in range."
  },
  {
   "property": "C07",
   "status": "proved",
   "theorems": [
    "C07_rotation_vector_bounded",
    "C07_rotation_vector_meaning",
    "C07_rotation_vector_sign_invariant",
    "C07_rotation_vector_small",
    "C07_rotation_vector_too_long"
   ],
   "note": "Also: the DCM is the active rotation about the returned vector."
  },
  {
   "property": "C08",
   "status": "proved",
   "theorems": [
    "C08_quaternion_equivalent_is_hamilton",
    "C08_quaternion_equivalent_multiplicative"
   ],
   "note": ""
  },
  {
   "property": "C09",
   "status": "partial",
   "theorems": [
    "C09_euler_to_dcm_is_rotation",
    "C09_euler_to_dcm_is_ned_to_body",
    "C09_body_axes",
    "C09_euler_body_to_ned_refuted"
   ],
   "note": "Rotation: proved. Documented direction: refuted; the matrix is proved to be NED-to-body."
  },
  {
   "property": "C10",
   "status": "partial",
   "theorems": [
    "C10_euler_round_trip",
    "C10_euler_round_trip_reversed",
    "C10_euler_round_trip_inverted",
    "C10_euler_round_trip_refuted"
   ],
   "note": "Proved for headings in [0,pi) and |roll|<pi/2; refuted beyond, where heading (roll) is proved to come back shifted by pi."
  },
  {
   "property": "C11",
   "status": "proved",
   "theorems": [
    "C11_dcm_from_quaternion_guard",
    "C11_quaternion_from_dcm_guard",
    "C11_quaternion_from_rotation_vector_guard",
    "C11_rotation_vector_from_quaternion_guard",
    "C11_quaternion_equivalent_guard",
    "C11_dcm_to_euler_guard"
   ],
   "note": ""
  },
  {
   "property": "C12",
   "status": "proved",
   "theorems": [
    "C12_skew_symmetric_is_cross_product"
   ],
   "note": ""
  },
  {
   "property": "C13",
   "status": "proved",
   "theorems": [
    "C13_position_rates_are_geodetic_kinematics",
    "C13_rates_defined_off_the_poles"
   ],
   "note": ""
  },
  {
   "property": "C14",
   "status": "proved",
   "theorems": [
    "C14_velocity_rates_are_newton_in_rotating_frame",
    "C14_coriolis_does_no_work"
   ],
   "note": ""
  },
  {
   "property": "C15",
   "status": "proved",
   "theorems": [
    "C15_rk4_is_classical_runge_kutta",
    "C15_rk4_longitude_equivariant",
    "C15_rk4_reflection",
    "C15_rk4_rest_stays_at_rest"
   ],
   "note": ""
  },
  {
   "property": "C16",
   "status": "proved",
   "theorems": [
    "C16_rk4_guards",
    "C16_rk4_zero_step"
   ],
   "note": ""
  },
  {
   "property": "C17",
   "status": "proved",
   "theorems": [
    "C17_simple_gravity_inverse_square",
    "C17_simple_gravity_scaling",
    "C17_simple_gravity_rotation",
    "C17_simple_gravity_origin"
   ],
   "note": ""
  },
  {
   "property": "C18",
   "status": "proved",
   "theorems": [
    "C18_gravity_bounds_on_ellipsoid",
    "C18_gravity_at_equator_and_poles",
    "C18_gravity_increases_with_latitude"
   ],
   "note": ""
  },
  {
   "property": "C19",
   "status": "proved",
   "theorems": [
    "C19_gravity_parity",
    "C19_gravity_north_zero",
    "C19_gravity_north_towards_equator",
    "C19_gravity_north_value"
   ],
   "note": ""
  },
  {
   "property": "C20",
   "status": "proved",
   "theorems": [
    "C20_gravity_down_positive",
    "C20_gravity_decreases_with_height",
    "C20_gravity_equator_profile"
   ],
   "note": ""
  },
  {
   "property": "C21",
   "status": "proved",
   "theorems": [
    "C21_ned_matrices_are_inverse_rotations",
    "C21_ned_rows_are_north_east_down"
   ],
   "note": ""
  },
  {
   "property": "C22",
   "status": "partial",
   "theorems": [
    "C22_range_guards",
    "C22_float_guard_finite",
    "C22_float_guard_strictly_inside",
    "C22_float_guard_infinity",
    "C22_nan_rejected_refuted"
   ],
   "note": "Proved over the reals and for all finite and infinite doubles. NaN rejection is refuted: the comparisons accept NaN."
  },
  {
   "property": "C23",
   "status": "proved",
   "theorems": [
    "C23_lla_is_height_along_ellipsoid_normal"
   ],
   "note": ""
  },
  {
   "property": "C24",
   "status": "proved",
   "theorems": [
    "C24_lla2Ecef_injective"
   ],
   "note": ""
  },
  {
   "property": "C25",
   "status": "proved",
   "theorems": [
    "C25_ecef2Lla_longitude_in_range",
    "C25_ecef2Lla_accepted_downstream",
    "C25_accepted_everywhere_refuted"
   ],
   "note": "The 43 km bound is needed: at 1 km from the centre the latitude is proved to be pi."
  },
  {
   "property": "C26",
   "status": "proved",
   "theorems": [
    "C26_ecef_round_trip_recovers_xy",
    "C26_geodetic_round_trip"
   ],
   "note": ""
  },
  {
   "property": "C27",
   "status": "partial",
   "theorems": [
    "C27_polar_altitude_refuted",
    "C27_polar_axis_exact_cosine"
   ],
   "note": "Refuted for every position on the polar axis, whatever value the cosine takes."
  },
  {
   "property": "C28",
   "status": "partial",
   "theorems": [
    "C28_timestamp_to_civil_date",
    "C28_no_undefined_behaviour_refuted"
   ],
   "note": "Proved for every timestamp except those on 31 December, where the code is proved to read past the month table (refuted)."
  },
  {
   "property": "C29",
   "status": "partial",
   "theorems": [
    "C29_seconds_exact_below_2_53",
    "C29_seconds_within_one",
    "C29_not_rounded_up_refuted"
   ],
   "note": "Exact below 2^53 us; refuted beyond, where the error is at most one second."
  },
  {
   "property": "C30",
   "status": "partial",
   "theorems": [
    "C30_before_1970_refuted"
   ],
   "note": "Refuted for every timestamp a second or more before 1970."
  },
  {
   "property": "C31",
   "status": "partial",
   "theorems": [
    "C31_fields_are_appended",
    "C31_reused_vector_refuted"
   ],
   "note": "Refuted: the six fields are appended to the old contents."
  },
  {
   "property": "C32",
   "status": "proved",
   "theorems": [
    "C32_mjd_counts_days",
    "C32_every_date_has_one_day_number",
    "C32_next_day_adds_one",
    "C32_distinct_dates_distinct_numbers"
   ],
   "note": "All civil dates, Julian and Gregorian, any year."
  },
  {
   "property": "C33",
   "status": "partial",
   "theorems": [
    "C33_fields_validated",
    "C33_every_civil_time_accepted_refuted",
    "C33_invalid_dates_rejected_refuted",
    "C33_short_vector_undefined"
   ],
   "note": "Exact acceptance condition proved. Refuted as stated: seconds in (59,60) are rejected; month 0, day 0 and 31 February are accepted."
  },
  {
   "property": "C34",
   "status": "proved",
   "theorems": [
    "C34_double_mjd_falls_on_the_civil_day"
   ],
   "note": "Years within +-10^8; every operation rounded to binary64."
  },
  {
   "property": "C35",
   "status": "proved",
   "theorems": [
    "C35_timestamp_to_mjd"
   ],
   "note": "Exact value over the reals, and civil day and 5e-6 day accuracy in double arithmetic."
  },
  {
   "property": "C36",
   "status": "partial",
   "theorems": [
    "C36_state_is_that_of_last_success",
    "C36_outcomes",
    "C36_success_ignores_old_state",
    "C36_loads_the_rows",
    "C36_read_only_file_loaded_refuted"
   ],
   "note": "History, outcome and row-loading theorems proved. The clause 'a call on an existing file loads its rows' is false for a file that can be read but not written: C36_read_only_file_loaded_refuted shows an empty table is loaded and true returned. std::stod is an explicit parameter."
  },
  {
   "property": "C37",
   "status": "proved",
   "theorems": [
    "C37_eleven_fields_give_rectangular_table",
    "C37_rectangular_lookup_in_bounds",
    "C37_short_line_reads_past_the_end",
    "C37_short_line_uses_another_row"
   ],
   "note": "Rectangular tables proved in bounds; two concrete short-line files show the out-of-bounds read and the wrong-row value."
  },
  {
   "property": "C38",
   "status": "proved",
   "theorems": [
    "C38_missing_day_rejected",
    "C38_linear_interpolation",
    "C38_between_the_rows",
    "C38_piecewise_linear_in_time"
   ],
   "note": ""
  },
  {
   "property": "C39",
   "status": "proved",
   "theorems": [
    "C39_eop_file_argument_ignored",
    "C39_unloaded_table_always_rejected"
   ],
   "note": "Both functions are equal for any two file names, and reject every date on a fresh object even when a file is named."
  },
  {
   "property": "C40",
   "status": "proved",
   "theorems": [
    "C40_inverse_rotations"
   ],
   "note": "Also states the exact product of turns and both time scales."
  },
  {
   "property": "C41",
   "status": "proved",
   "theorems": [
    "C41_nutation_bounded",
    "C41_nutation_main_terms",
    "C41_arguments_reduced"
   ],
   "note": "The bound is complemented by a comparison with the main published IAU 1980 terms."
  },
  {
   "property": "C42",
   "status": "proved",
   "theorems": [
    "C42_hour_angle_turn",
    "C42_sidereal_time_range",
    "C42_sidereal_time_is_gmst82",
    "C42_sidereal_rate"
   ],
   "note": ""
  },
  {
   "property": "C43",
   "status": "proved",
   "theorems": [
    "C43_predict",
    "C43_update",
    "C43_ukf_predict",
    "C43_ukf_update"
   ],
   "note": ""
  },
  {
   "property": "C44",
   "status": "proved",
   "theorems": [
    "C44_ensemble",
    "C44_values",
    "C44_covariance_valid"
   ],
   "note": ""
  },
  {
   "property": "C45",
   "status": "proved",
   "theorems": [
    "C45_covariance_valid",
    "C45_short_form"
   ],
   "note": ""
  },
  {
   "property": "C46",
   "status": "proved",
   "theorems": [
    "C46_optimal",
    "C46_shrinks",
    "C46_actual_error"
   ],
   "note": ""
  },
  {
   "property": "C47",
   "status": "proved",
   "theorems": [
    "C47_information"
   ],
   "note": ""
  },
  {
   "property": "C48",
   "status": "proved",
   "theorems": [
    "C48_stacked",
    "C48_either_order"
   ],
   "note": ""
  },
  {
   "property": "C49",
   "status": "partial",
   "theorems": [
    "C49_finite_refuted",
    "C49_finite_iff",
    "C49_finite_if_noise_pd"
   ],
   "note": "False as stated: C49_finite_refuted (P = 0, R = 0). C49_finite_iff says exactly when the estimate is finite; C49_finite_if_noise_pd gives the positive part."
  },
  {
   "property": "C50",
   "status": "proved",
   "theorems": [
    "C50_histories"
   ],
   "note": ""
  },
  {
   "property": "C51",
   "status": "proved",
   "theorems": [
    "C51_mean_and_scatter",
    "C51_covariance_valid",
    "C51_negative_weight_refuted"
   ],
   "note": ""
  },
  {
   "property": "C52",
   "status": "proved",
   "theorems": [
    "C52_linear",
    "C52_covariance_valid",
    "C52_finite"
   ],
   "note": ""
  },
  {
   "property": "C53",
   "status": "proved",
   "theorems": [
    "C53_predict_in_place",
    "C53_update_in_place",
    "C53_ukf_predict_in_place",
    "C53_ukf_update_in_place",
    "C53_outputs_not_read"
   ],
   "note": ""
  },
  {
   "property": "C54",
   "status": "proved",
   "theorems": [
    "C54_noise_free"
   ],
   "note": ""
  },
  {
   "property": "C55",
   "status": "proved",
   "theorems": [
    "C55_unweighted"
   ],
   "note": "LDLT is a parameter; only ldlt_ok is assumed (inhabited by pinv_solver_ok)."
  },
  {
   "property": "C56",
   "status": "partial",
   "theorems": [
    "C56_weighted",
    "C56_cost_refuted"
   ],
   "note": "Optimality proved. 'J is half the weighted cost' is false: C56_cost_refuted; C56_weighted says what J is."
  },
  {
   "property": "C57",
   "status": "proved",
   "theorems": [
    "C57_scaled_identity",
    "C57_scaled_weight"
   ],
   "note": "For H of full column rank (otherwise the minimiser is not unique)."
  },
  {
   "property": "C58",
   "status": "proved",
   "theorems": [
    "C58_unweighted",
    "C58_weighted",
    "C58_unweighted_nonlinear",
    "C58_weighted_nonlinear"
   ],
   "note": "Acceptance is proved for positive semidefinite weights and user functions that succeed."
  },
  {
   "property": "C59",
   "status": "partial",
   "theorems": [
    "C59_weighted",
    "C59_unweighted",
    "C59_stationary",
    "C59_linear",
    "C59_linear_unweighted",
    "C59_cost_refuted",
    "C59_negative_eps",
    "C59_same_start"
   ],
   "note": "Step size, Gauss-Newton optimality, linear models and negative eps proved. 'J is that of the returned state' is false: C59_cost_refuted. C59_same_start: equal start vectors return at once."
  },
  {
   "property": "C60",
   "status": "proved",
   "theorems": [
    "C60_weighted",
    "C60_unweighted"
   ],
   "note": ""
  },
  {
   "property": "C61",
   "status": "proved",
   "theorems": [
    "C61_get_returns_last_set",
    "C61_set_accepts_six_rejects_others",
    "C61_sensors_independent"
   ],
   "note": ""
  },
  {
   "property": "C62",
   "status": "proved",
   "theorems": [
    "C62_compensation_applies_last_set",
    "C62_calibration_map",
    "C62_compensation_loses_nothing"
   ],
   "note": ""
  },
  {
   "property": "C63",
   "status": "partial",
   "theorems": [
    "C63_use_before_calibration_rejected_refuted",
    "C63_defined_iff_calibrated_first"
   ],
   "note": "False as stated (nothing is rejected): C63_use_before_calibration_rejected_refuted shows undefined behaviour for every use before calibration; C63_defined_iff_calibrated_first gives the exact condition under which a history is defined."
  },
  {
   "property": "C64",
   "status": "proved",
   "theorems": [
    "C64_attitude_composes_increments",
    "C64_attitude_from_initialize",
    "C64_histories_defined"
   ],
   "note": ""
  },
  {
   "property": "C65",
   "status": "partial",
   "theorems": [
    "C65_stationary_keeps_attitude_refuted",
    "C65_initialize_restores"
   ],
   "note": "False as stated: C65_stationary_keeps_attitude_refuted shows that any history containing a zero increment ends with non-finite attitude, position and velocity; C65_initialize_restores shows initialize is the way back."
  },
  {
   "property": "C66",
   "status": "proved",
   "theorems": [
    "C66_time_bookkeeping",
    "C66_same_time_loses_position_and_velocity",
    "C66_lost_stays_lost",
    "C66_defined_iff_differences_fit"
   ],
   "note": ""
  },
  {
   "property": "C67",
   "status": "partial",
   "theorems": [
    "C67_initialize_stores_the_transpose",
    "C67_body_to_ned_refuted"
   ],
   "note": "False as stated: the stored matrix is the transpose (C67_initialize_stores_the_transpose for all attitudes, counterexample C67_body_to_ned_refuted)."
  },
  {
   "property": "C68",
   "status": "proved",
   "theorems": [
    "C68_one_axis_rotations_add"
   ],
   "note": ""
  },
  {
   "property": "C69",
   "status": "proved",
   "theorems": [
    "C69_recovers",
    "C69_no_result",
    "C69_rotation_iff",
    "C69_need_not_be_rotation",
    "C69_equivariant"
   ],
   "note": ""
  },
  {
   "property": "C70",
   "status": "partial",
   "theorems": [
    "C70_succeeds",
    "C70_rejects",
    "C70_not_finite",
    "C70_predicts_rate",
    "C70_bias_reset",
    "C70_bias_preserved_refuted"
   ],
   "note": "The size and finiteness part is proved. Preservation of the bias estimate is refuted (C70_bias_preserved_refuted): the code uses the rate matrix as the transition matrix, so the result is the rate of change of the state (C70_predicts_rate) and biases become 0 (C70_bias_reset)."
  },
  {
   "property": "C71",
   "status": "proved",
   "theorems": [
    "C71_weighted_mean",
    "C71_every_entry",
    "C71_covariance",
    "C71_not_finite",
    "C71_rejects"
   ],
   "note": ""
  },
  {
   "property": "C72",
   "status": "proved",
   "theorems": [
    "C72_kalman_update",
    "C72_finite",
    "C72_perfect",
    "C72_perfect_finite",
    "C72_covariance",
    "C72_rejects"
   ],
   "note": ""
  },
  {
   "property": "C73",
   "status": "proved",
   "theorems": [
    "C73_inertial_error_model",
    "C73_wrong_sizes_rejected"
   ],
   "note": ""
  },
  {
   "property": "C74",
   "status": "proved",
   "theorems": [
    "C74_ecef_error_model",
    "C74_omega_is_a_turn_rate"
   ],
   "note": ""
  },
  {
   "property": "C75",
   "status": "partial",
   "theorems": [
    "C75_sphere_equations_are_newton",
    "C75_jacobian_but_for_one_entry",
    "C75_longitude_row_refuted"
   ],
   "note": "False as stated for one entry: C75_longitude_row_refuted; C75_jacobian_but_for_one_entry proves all other entries and the exact missing term. C75_sphere_equations_are_newton ties the equations to Newton's law."
  },
  {
   "property": "C76",
   "status": "proved",
   "theorems": [
    "C76_forcing",
    "C76_independence",
    "C76_definedness",
    "C76_defined_near_the_surface"
   ],
   "note": ""
  },
  {
   "property": "C77",
   "status": "partial",
   "theorems": [
    "C77_ut1_across_leap_second_refuted"
   ],
   "note": "False as stated: C77_ut1_across_leap_second_refuted gives the exact error, the day fraction times the change of TAI-UTC. The claim therefore holds on days without a leap second."
  },
  {
   "property": "C78",
   "status": "partial",
   "theorems": [
    "C78_rest_attitude_constant_refuted"
   ],
   "note": "False as stated: C78_rest_attitude_constant_refuted gives the exact computed attitude, turned about the Earth axis by the elapsed angle."
  },
  {
   "property": "C79",
   "status": "proved",
   "theorems": [
    "C79_longitude_equivariance"
   ],
   "note": ""
  },
  {
   "property": "C80",
   "status": "proved",
   "theorems": [
    "C80_initialize_forgets"
   ],
   "note": ""
  },
  {
   "property": "C81",
   "status": "partial",
   "theorems": [
    "C81_acceleration_error_two_ways_refuted"
   ],
   "note": "False as stated: C81_acceleration_error_two_ways_refuted gives the exact ratio of the two effects; the height component agrees."
  },
  {
   "property": "C82",
   "status": "proved",
   "theorems": [
    "C82_predict_coordinates",
    "C82_update_coordinates"
   ],
   "note": ""
  },
  {
   "property": "C83",
   "status": "proved",
   "theorems": [
    "C83_information_adds",
    "C83_any_order"
   ],
   "note": ""
  },
  {
   "property": "C84",
   "status": "proved",
   "theorems": [
    "C84_least_squares"
   ],
   "note": ""
  },
  {
   "property": "C85",
   "status": "proved",
   "theorems": [
    "C85_better_data_better_covariance"
   ],
   "note": ""
  },
  {
   "property": "C86",
   "status": "proved",
   "theorems": [
    "C86_consistent",
    "C86_runs"
   ],
   "note": ""
  },
  {
   "property": "C87",
   "status": "proved",
   "theorems": [
    "C87_update_is_least_squares"
   ],
   "note": ""
  },
  {
   "property": "C88",
   "status": "proved",
   "theorems": [
    "C88_exact_weighted",
    "C88_exact_unweighted"
   ],
   "note": ""
  },
  {
   "property": "C89",
   "status": "proved",
   "theorems": [
    "C89_best_linear_unbiased"
   ],
   "note": ""
  },
  {
   "property": "C90",
   "status": "proved",
   "theorems": [
    "C90_gyro_error",
    "C90_accelerometer_error"
   ],
   "note": ""
  },
  {
   "property": "C91",
   "status": "proved",
   "theorems": [
    "C91_biases_stay_zero"
   ],
   "note": "A defect of the code (see C70): a user would expect biases to be estimated."
  },
  {
   "property": "C92",
   "status": "proved",
   "theorems": [
    "C92_whole_turn",
    "C92_same_heading_differs"
   ],
   "note": "A defect of the code: a user would expect the residual to be an angle."
  },
  {
   "property": "C93",
   "status": "proved",
   "theorems": [
    "C93_supported_vehicle_stays"
   ],
   "note": ""
  },
  {
   "property": "C94",
   "status": "proved",
   "theorems": [
    "C94_mounting_invariance"
   ],
   "note": ""
  },
  {
   "property": "C95",
   "status": "proved",
   "theorems": [
    "C95_equator_reflection"
   ],
   "note": ""
  },
  {
   "property": "C96",
   "status": "proved",
   "theorems": [
    "C96_vertical_gradient"
   ],
   "note": ""
  },
  {
   "property": "C97",
   "status": "proved",
   "theorems": [
    "C97_north_component_irrotational"
   ],
   "note": ""
  },
  {
   "property": "C98",
   "status": "proved",
   "theorems": [
    "C98_pizzetti_and_clairaut"
   ],
   "note": ""
  },
  {
   "property": "C99",
   "status": "proved",
   "theorems": [
    "C99_nutation_moves_ecliptic_coordinates"
   ],
   "note": ""
  },
  {
   "property": "C100",
   "status": "proved",
   "theorems": [
    "C100_pole_in_earth_frame"
   ],
   "note": ""
  },
  {
   "property": "C101",
   "status": "proved",
   "theorems": [
    "C101_leap_second_invariance"
   ],
   "note": ""
  },
  {
   "property": "C102",
   "status": "proved",
   "theorems": [
    "C102_precession_rates"
   ],
   "note": ""
  },
  {
   "property": "C103",
   "status": "proved",
   "theorems": [
    "C103_rounding_error_grows_linearly",
    "C103_lengths_and_angles_kept",
    "C103_initialize_then_update",
    "C103_binary64_meets_the_model",
    "C103_exact_arithmetic"
   ],
   "note": "Overflow is not modelled; the rounding, the inner product, sine and cosine are parameters with the error model float_ok, met by binary64 (C103_binary64_meets_the_model)."
  },
  {
   "property": "C104",
   "status": "partial",
   "theorems": [
    "C104_short_increment_refuted",
    "C104_finite_iff",
    "C104_lost_otherwise",
    "C104_increment_from_2_480_is_safe"
   ],
   "note": "False as stated: C104_short_increment_refuted (every increment shorter than 2^-538). C104_finite_iff gives the exact condition: the attitude stays defined if and only if each increment has a component whose square exceeds 2^-1075; C104_lost_otherwise says what happens when it does not."
  },
  {
   "property": "C105",
   "status": "proved",
   "theorems": [
    "C105_time_step",
    "C105_time_step_increasing",
    "C105_time_step_sign"
   ],
   "note": ""
  },
  {
   "property": "C106",
   "status": "proved",
   "theorems": [
    "C106_position_error",
    "C106_coordinate_errors",
    "C106_rejected_leaves_output",
    "C106_binary64_meets_the_model",
    "C106_exact_arithmetic"
   ],
   "note": "lla2Ecef_f in ModelFramesFloat.v; the error model is that of C103 plus squaring with two units in the last place"
  },
  {
   "property": "C107",
   "status": "proved",
   "theorems": [
    "C107_ned_matrices_nearly_rotations",
    "C107_ned_round_trip",
    "C107_rejected_leaves_output"
   ],
   "note": "computeREcef2Ned_f and computeRNed2Ecef_f in ModelFramesFloat.v"
  },
  {
   "property": "C108",
   "status": "proved",
   "theorems": [
    "C108_gravity_error",
    "C108_exact_arithmetic"
   ],
   "note": "gravityNed_f in ModelGravityFloat.v; same error model as C106"
  },
  {
   "property": "C109",
   "status": "proved",
   "theorems": [
    "C109_point_mass_error",
    "C109_exact_arithmetic"
   ],
   "note": "simpleGravity_f in ModelGravityFloat.v"
  },
  {
   "property": "C110",
   "status": "proved",
   "theorems": [
    "C110_every_point_has_coordinates",
    "C110_coordinates_unique",
    "C110_ecef_round_trip"
   ],
   "note": "Existence by the intermediate value theorem on the height-compensated latitude equation; uniqueness off the polar axis, where the longitude is arbitrary on it."
  },
  {
   "property": "C111",
   "status": "proved",
   "theorems": [
    "C111_difference_bounded",
    "C111_distance_shrinks",
    "C111_error_bounded"
   ],
   "note": "Measured without inverses: the square of every component of the difference is at most c times the variance in that direction. The version with inverse covariances needs them positive definite."
  },
  {
   "property": "C112",
   "status": "proved",
   "theorems": [
    "C112_full_measurement",
    "C112_repeated"
   ],
   "note": "The measurement matrix needs a left inverse L; the bound is L R L^T."
  },
  {
   "property": "C113",
   "status": "proved",
   "theorems": [
    "C113_inertial_linearisation",
    "C113_ecef_linearisation",
    "C113_point_mass_gradient"
   ],
   "note": ""
  },
  {
   "property": "C114",
   "status": "proved",
   "theorems": [
    "C114_frames_agree",
    "C114_polar"
   ],
   "note": ""
  },
  {
   "property": "C115",
   "status": "proved",
   "theorems": [
    "C115_point_mass_errors",
    "C115_near_the_earth"
   ],
   "note": ""
  },
  {
   "property": "C116",
   "status": "proved",
   "theorems": [
    "C116_update",
    "C116_predict",
    "C116_history",
    "C116_exact_arithmetic"
   ],
   "note": "One state and one measurement, sizes between 2^-50 and 2^50; overflow and fused operations are not modelled. C116_exact_arithmetic ties the rounded model to the general one."
  },
  {
   "property": "C117",
   "status": "proved",
   "theorems": [
    "C117_matrix_error",
    "C117_exact_arithmetic",
    "C117_any_nonzero_quaternion_refuted"
   ],
   "note": "Overflow is excluded by the upper bound on the squared length. Exact arithmetic gives back the exact model."
  },
  {
   "property": "C118",
   "status": "proved",
   "theorems": [
    "C118_quaternion_error",
    "C118_round_trip",
    "C118_every_rotation_refuted",
    "C118_exact_arithmetic"
   ],
   "note": "The claim for every rotation is refuted beside it: no branch is taken when two squares tie."
  },
  {
   "property": "C119",
   "status": "proved",
   "theorems": [
    "C119_rotation_vector_error",
    "C119_small_is_zero",
    "C119_half_turn_refuted",
    "C119_half_turn_accuracy_refuted",
    "C119_exact_arithmetic"
   ],
   "note": "The claim up to half a turn is refuted beside it, both for finiteness and for accuracy."
  },
  {
   "property": "C120",
   "status": "proved",
   "theorems": [
    "C120_rotation_quaternion_error",
    "C120_any_nonzero_vector_refuted",
    "C120_exact_arithmetic"
   ],
   "note": "The claim for every nonzero vector is refuted beside it."
  },
  {
   "property": "C121",
   "status": "proved",
   "theorems": [
    "C121_rk4_error",
    "C121_exact_arithmetic",
    "C121_binary64"
   ],
   "note": "strapdownRk4_f in ModelNavFloat.v: |lat| <= 1.48, |lon| <= 7, |h| <= 100 km, |v| <= 1000 m/s per component; overflow not modelled; C121_exact_arithmetic ties the rounded model to the exact one."
  },
  {
   "property": "C122",
   "status": "proved",
   "theorems": [
    "C122_integrate_error",
    "C122_exact_arithmetic",
    "C122_repeated_time"
   ],
   "note": "integrate_f in ModelNavFloat.v: rotation increment between 2^-480 and 4 rad, 1 us to 1 s; C122_exact_arithmetic ties it to integrate; C122_repeated_time is the division by a zero time step."
  },
  {
   "property": "C123",
   "status": "proved",
   "theorems": [
    "C123_newton_in_inertial_space"
   ],
   "note": "Trajectories in the sense of derivatives of position and velocity; the inertial velocity is shown to exist, not given."
  },
  {
   "property": "C124",
   "status": "proved",
   "theorems": [
    "C124_angular_momentum"
   ],
   "note": "Same trajectories as C123."
  },
  {
   "property": "C125",
   "status": "proved",
   "theorems": [
    "C125_linear_prediction",
    "C125_usual_points"
   ],
   "note": "Real arithmetic; the square root of the covariance is supplied by the caller, as in the code."
  },
  {
   "property": "C126",
   "status": "proved",
   "theorems": [
    "C126_quadratic_mean",
    "C126_every_ensemble",
    "C126_covariance_refuted"
   ],
   "note": "C126_covariance_refuted shows that the covariance part of the claim cannot be strengthened."
  },
  {
   "property": "C127",
   "status": "proved",
   "theorems": [
    "C127_prediction_error",
    "C127_exact_arithmetic",
    "C127_asymmetry",
    "C127_plain_loop",
    "C127_symmetry_refuted",
    "C127_variance_refuted"
   ],
   "note": "filterPredict_f in ModelFilterFloat.v over any inner product routine with the usual error bound; overflow not modelled; C127_exact_arithmetic ties it to the exact model; C127_symmetry_refuted and C127_variance_refuted are runs of the plain loop in binary64."
  },
  {
   "property": "C128",
   "status": "proved",
   "theorems": [
    "C128_compensation_error",
    "C128_exact_arithmetic",
    "C128_identity"
   ],
   "note": "compensateMeasurement_f in ModelCompFloat.v; overflow not modelled; C128_exact_arithmetic ties it to the exact model."
  },
  {
   "property": "C129",
   "status": "proved",
   "theorems": [
    "C129_navigator_converges",
    "C129_call_is_integrate"
   ],
   "note": "The time step is a real number in the run; a second theorem identifies each call with integrate when the step is a whole number of microseconds. The constants are not computed. The motion uses the code's own equations, with attitude relative to a frame that does not turn, as in updateAttitude."
  },
  {
   "property": "C130",
   "status": "proved",
   "theorems": [
    "C130_motion",
    "C130_increments",
    "C130_first_order_only",
    "C130_second_order_refuted",
    "C130_rolling_vehicle_drifts"
   ],
   "note": "The velocity increment is resolved with the attitude at the end of the step, which costs the higher order of the Runge-Kutta step. C130_second_order_refuted excludes an error of second order; C129 gives the first-order bound."
  },
  {
   "property": "C131",
   "status": "proved",
   "theorems": [
    "C131_attitude_second_order"
   ],
   "note": "Histories of integrate calls; the bound has no condition on the length of the intervals. It is 0 for a constant rate, where C68 gives exactness."
  },
  {
   "property": "C132",
   "status": "partial",
   "theorems": [
    "C132_motion",
    "C132_attitude_returns",
    "C132_increments",
    "C132_computed_attitude_drifts",
    "C132_true_attitude_refuted"
   ],
   "note": "The English statement is false for the code: C132_true_attitude_refuted. The exact drift is C132_computed_attitude_drifts; C131 bounds it for short intervals."
  },
  {
   "property": "C133",
   "status": "proved",
   "theorems": [
    "C133_estimates",
    "C133_covariances",
    "C133_full_excited",
    "C133_full_covariances"
   ],
   "note": "Differences of estimates and relative excess of covariances divided by 1+d per prediction, for arbitrary histories; any two starts for full measurements. Exact arithmetic."
  },
  {
   "property": "C134",
   "status": "proved",
   "theorems": [
    "C134_steady_state",
    "C134_rate"
   ],
   "note": "Existence, uniqueness and geometric convergence to the steady covariance, for measurements with a left-invertible H. Exact arithmetic; detectable but not fully measured states are not covered."
  },
  {
   "property": "C135",
   "status": "proved",
   "theorems": [
    "C135_one_call",
    "C135_whole_run"
   ],
   "note": "Extends C122 to attitudes that are only close to a rotation, and by induction to runs. The range of the position is a condition on the computed states, checked call by call (follows). sin, cos and pow are any functions with the stated error."
  },
  {
   "property": "C136",
   "status": "proved",
   "theorems": [
    "C136_disturbed_runs",
    "C136_exact_runs",
    "C136_double_runs",
    "C136_double_is_disturbed"
   ],
   "note": "C136_disturbed_runs needs the sum of the errors below a positive bound; K and that bound are not computed and are far from sharp over long times. C136_double_runs needs no such bound: beyond it the error is bounded by the size of the region. The range of the computed position is a hypothesis (stays)."
  },
  {
   "property": "C137",
   "status": "proved",
   "theorems": [
    "C137_motions_stay_close",
    "C137_motion_is_unique"
   ],
   "note": "The region (Box) is a hypothesis on both motions. The constant is not computed; it grows exponentially with the duration. With C129 it says that the runs of the navigator converge to the only motion there is."
  },
  {
   "property": "C138",
   "status": "proved",
   "theorems": [
    "C138_day_number",
    "C138_order_kept",
    "C138_different_times_refuted",
    "C138_sidereal_time",
    "C138_angle_from_date",
    "C138_on_the_ground",
    "C138_exact_arithmetic"
   ],
   "note": "That different times get different day numbers is refuted (24 April 2038, 0.6 microseconds). The equation of the equinoxes and the final fmod are not part of this claim. Constants are rounded as the compiler does; the sum in gmst is taken from the left without fused operations."
  },
  {
   "property": "C139",
   "status": "proved",
   "theorems": [
    "C139_update_for_the_gain_used",
    "C139_gain_errors_are_second_order",
    "C139_never_optimistic",
    "C139_one_measurement",
    "C139_exact_arithmetic"
   ],
   "note": "Overflow is not modelled; underflow is, through a threshold added to the sizes. The inner products may be summed in any order whose error obeys dot_ok; the plain loop does (C127). Sizes are taken with the computed gain. Bounds on the gain itself are given for one measurement only, since nothing is assumed about the accuracy of larger inversions."
  },
  {
   "property": "C140",
   "status": "proved",
   "theorems": [
    "C140_coordinate_errors",
    "C140_there_and_back",
    "C140_round_trip",
    "C140_all_latitudes_refuted",
    "C140_binary64_meets_the_model",
    "C140_exact_arithmetic"
   ],
   "note": "Overflow and the sign of zero are not modelled; on the 180-degree meridian the theorem allows both signs of pi. The counterexample assumes correctly rounded operations, sine and cosine, and any atan2 with double results."
  },
  {
   "property": "C141",
   "status": "proved",
   "theorems": [
    "C141_angle_errors",
    "C141_heading_error",
    "C141_there_and_back",
    "C141_after_a_run",
    "C141_continuous_heading_refuted",
    "C141_binary64_meets_the_model",
    "C141_exact_arithmetic"
   ],
   "note": "Overflow and the sign of zero are not modelled. The jump at heading zero is the half-turn ambiguity of C10 seen from rounding errors."
  },
  {
   "property": "C142",
   "status": "proved",
   "theorems": [
    "C142_rounding_error",
    "C142_true_attitude",
    "C142_exact_arithmetic"
   ],
   "note": "Eigen's inverse of a 3x3 matrix is modelled from its documented formula, cofactors times the reciprocal determinant. Overflow is not modelled."
  },
  {
   "property": "C143",
   "status": "proved",
   "theorems": [
    "C143_covariances",
    "C143_full_measurements",
    "C143_without_noise_refuted"
   ],
   "note": "The disturbance is any symmetric change within the fraction; rounding in matrix dimensions is bounded per call in C127 and C139, and for one state C145 puts the two together."
  },
  {
   "property": "C144",
   "status": "proved",
   "theorems": [
    "C144_estimates",
    "C144_runs_exist"
   ],
   "note": "The surprise is measured by the running, disturbed filter, as its user would see it."
  },
  {
   "property": "C145",
   "status": "proved",
   "theorems": [
    "C145_any_length"
   ],
   "note": "Overflow is not modelled; the calm condition keeps the variances between 2^-49 and 2^49."
  },
  {
   "property": "C146",
   "status": "proved",
   "theorems": [
    "C146_without_symmetry",
    "C146_asymmetry"
   ],
   "note": "The fraction is measured by the exact covariance in every pair of directions, so it bounds the asymmetric part as well. The surprise is measured by the running filter."
  },
  {
   "property": "C147",
   "status": "proved",
   "theorems": [
    "C147_long_runs",
    "C147_entries",
    "C147_variances"
   ],
   "note": "Measurements are scalar so that the inverse is one division; overflow is excluded by the bounds 2^-300 to 2^300. The estimates are in C148."
  },
  {
   "property": "C148",
   "status": "proved",
   "theorems": [
    "C148_long_estimates",
    "C148_components"
   ],
   "note": "All hypotheses are about the exact run. Scalar measurements, as in C147."
  },
  {
   "property": "C149",
   "status": "proved",
   "theorems": [
    "C149_rounding_error",
    "C149_rounding_error_back",
    "C149_same_outcome",
    "C149_nearly_rotation",
    "C149_exact_arithmetic"
   ],
   "note": "Sine and cosine within 2^-52 are an assumption on the C library (float_ok). The statement compares the rounded with the exact function; the exact function is the subject of C40 to C42."
  },
  {
   "property": "C150",
   "status": "proved",
   "theorems": [
    "C150_nutation_is_iau1980",
    "C150_nutation_matrix",
    "C150_equation_of_the_equinoxes",
    "C150_in_double_arithmetic"
   ],
   "note": "SpecNutation.v lists the published terms in another order, other units and another order of arguments than the code."
  },
  {
   "property": "C151",
   "status": "proved",
   "theorems": [
    "C151_unweighted_error",
    "C151_weighted_error",
    "C151_any_weights",
    "C151_exact_arithmetic",
    "C151_division_solves"
   ],
   "note": "Overflow is not modelled. The backward error of the LDLT solver is a hypothesis, proved for one state where the solver is a division."
  },
  {
   "property": "C152",
   "status": "proved",
   "theorems": [
    "C152_ned_error",
    "C152_ecef_error",
    "C152_exact_arithmetic",
    "C152_binary64"
   ],
   "note": "Overflow is not modelled."
  },
  {
   "property": "C153",
   "status": "proved",
   "theorems": [
    "C153_backward_stable",
    "C153_unweighted_error",
    "C153_weighted_error",
    "C153_exact_arithmetic",
    "C153_arithmetic"
   ],
   "note": "The solver is Eigen/src/Cholesky/LDLT.h, which is not part of the repository. Underflow and overflow are not modelled inside the solver."
  },
  {
   "property": "C154",
   "status": "proved",
   "theorems": [
    "C154_state_error",
    "C154_covariance_error",
    "C154_covariance_error_any_weights",
    "C154_variances",
    "C154_opposite_entries",
    "C154_symmetry_refuted",
    "C154_exact_arithmetic"
   ],
   "note": "Underflow and overflow are not modelled here. The update function is modelled in rounded arithmetic and shown to be the unscented update without rounding."
  },
  {
   "property": "C155",
   "status": "proved",
   "theorems": [
    "C155_residual",
    "C155_inverse",
    "C155_update",
    "C155_noise_is_enough"
   ],
   "note": "Underflow and overflow are not modelled here. Eigen works in blocks for larger matrices; the order of summation is free in the model, the grouping of the triangular solution by blocks is covered by that."
  },
  {
   "property": "C156",
   "status": "proved",
   "theorems": [
    "C156_update",
    "C156_noise_is_enough",
    "C156_positive_variance_refuted"
   ],
   "note": "Underflow and overflow are not modelled. The negative variance is computed step by step in 53-bit doubles with their range."
  },
  {
   "property": "C157",
   "status": "proved",
   "theorems": [
    "C157_azimuth_update",
    "C157_prediction"
   ],
   "note": "Library sine, cosine and tangent are assumed to err by at most two units of 2^-53 relatively. Overflow is not modelled."
  },
  {
   "property": "C158",
   "status": "proved",
   "theorems": [
    "C158_velocity_update"
   ],
   "note": "The inversion is modelled without underflow, as in C155. Overflow is not modelled."
  },
  {
   "property": "C159",
   "status": "proved",
   "theorems": [
    "C159_step",
    "C159_unique",
    "C159_weighted",
    "C159_unweighted"
   ],
   "note": "Exact arithmetic. The linear solver is assumed to solve the solvable normal equations, as in C59. With the model functions shipped with the class the first iteration is undefined behaviour, see C60."
  },
  {
   "property": "C160",
   "status": "proved",
   "theorems": [
    "C160_step",
    "C160_converges",
    "C160_ldlt",
    "C160_exact",
    "C160_noise_refuted"
   ],
   "note": "Overflow is not modelled. C160_converges takes the backward error of the linear solver as a hypothesis. C160_ldlt proves it for the LDLT algorithm of C153 with pivots in any order, whose operations neither underflow nor overflow. C160_noise_refuted shows that the tolerance must exceed the errors of the model functions. C160_exact shows that without rounding the model is that of C59."
  },
  {
   "property": "C161",
   "status": "proved",
   "theorems": [
    "C161_step",
    "C161_any_weights",
    "C161_diagonal_weights",
    "C161_exact"
   ],
   "note": "Overflow is not modelled. C161_step takes the backward error of the linear solver as a hypothesis. The theorems on the call prove it for the LDLT algorithm of C153 with pivots in any order, whose operations neither underflow nor overflow. C161_exact shows that without rounding the model is that of C59."
  },
  {
   "property": "C162",
   "status": "proved",
   "theorems": [
    "C162_unweighted",
    "C162_any_weights",
    "C162_diagonal_weights"
   ],
   "note": "Overflow is not modelled. The bound on the gradient needs the columns of the returned H to be independent by a margin, so that the LDLT algorithm of C153 is accurate, and no underflow. If the two start vectors differ by eps or less the call returns its arguments and the theorem does not apply, see C59_same_start."
  },
  {
   "property": "C163",
   "status": "proved",
   "theorems": [
    "C163_ecef2Lla_in_place",
    "C163_lla2Ecef_apart",
    "C163_lla2Ecef_rejects",
    "C163_lla2Ecef_over_its_arguments",
    "C163_lla2Ecef_in_place_refuted"
   ],
   "note": "C163_lla2Ecef_in_place_refuted is part of the statement: in-place use of lla2Ecef is wrong."
  },
  {
   "property": "C164",
   "status": "proved",
   "theorems": [
    "C164_integrate",
    "C164_initialize",
    "C164_previous_values",
    "C164_private_members_do_not_matter",
    "C164_corrections"
   ],
   "note": "Position and velocity become non-finite together, as in the other strapdown theorems. Threads are not modelled."
  },
  {
   "property": "C165",
   "status": "proved",
   "theorems": [
    "C165_linear_apart",
    "C165_nonlinear_apart",
    "C165_linear_shared",
    "C165_shared_cost_refuted",
    "C165_nonlinear_shared"
   ],
   "note": "Sums are evaluated entry by entry and solutions of linear systems into temporaries. The weighted calls are not repeated."
  },
  {
   "property": "C166",
   "status": "proved",
   "theorems": [
    "C166_attitude_never_overflows",
    "C166_initialize_then_update_never_overflows",
    "C166_quaternion_never_overflows",
    "C166_position_never_overflows",
    "C166_gravity_never_overflows",
    "C166_large_quaternion_overflows",
    "C166_compensation_never_overflows",
    "C166_quaternion_of_matrix_never_overflows",
    "C166_rotation_vector_of_quaternion_never_overflows",
    "C166_euler_angles_never_overflow",
    "C166_frame_rotations_never_overflow",
    "C166_simple_gravity_never_overflows",
    "C166_least_squares_never_overflow",
    "C166_weighted_least_squares_never_overflow",
    "C166_least_squares_one_unknown",
    "C166_weighted_least_squares_one_unknown",
    "C166_prediction_never_overflows",
    "C166_large_prediction_overflows",
    "C166_unscented_prediction_never_overflows",
    "C166_fine_prediction_never_overflows",
    "C166_azimuth_update_never_overflows",
    "C166_ecef2Lla_never_overflows",
    "C166_rotation_vector_never_overflows",
    "C166_coarse_alignment_never_overflows",
    "C166_dynamics_never_overflow",
    "C166_rk4_step_never_overflows",
    "C166_ecef_error_dynamics_never_overflow",
    "C166_ned_error_dynamics_never_overflow",
    "C166_integrate_never_overflows",
    "C166_navigation_run_never_overflows",
    "C166_update_never_overflows",
    "C166_scalar_update_never_overflows",
    "C166_unscented_update_never_overflows"
   ],
   "note": "Overflow of an operation is a rounded result of 2^1024 or more. Sine, cosine, tangent, the arc functions and powers are correctly rounded and sums run from left to right. The inverse of a matrix in a filter update is a routine of the library whose own operations are not covered, except the division for a single measurement."
  },
  {
   "property": "C167",
   "status": "proved",
   "theorems": [
    "C167_success_means",
    "C167_weighted_success_means",
    "C167_nonfinite_ends_the_loop",
    "C167_nan_is_reported_as_success",
    "C167_norm",
    "C167_nan_tolerance",
    "C167_nan_shows_in_the_cost"
   ],
   "note": "On Flocq's binary64, with infinities and NaN. The correction is any function of the Jacobian and the residual; vectors whose sizes differ are undefined behaviour."
  }
 ]
}