# What `Print Assumptions` lists for each theorem

Generated by `tools/mkassum.py` from the compiled files. Every entry is an axiom of the
Coq standard library; "none" means closed under the global context.

* **A** = `ClassicalDedekindReals.sig_forall_dec`
* **B** = `ClassicalDedekindReals.sig_not_dec`
* **C** = `Classical_Prop.classic`
* **D** = `Epsilon.epsilon_statement`
* **E** = `FunctionalExtensionality.functional_extensionality_dep`

| claim | theorem | file | axioms |
|---|---|---|---|
| C01 | `C01_dcm_from_quaternion_is_rotation` | PropAttitude.v | A E |
| C01 | `C01_zero_quaternion_has_no_dcm` | PropAttitude.v | A E |
| C02 | `C02_dcm_equal_iff_proportional` | PropAttitude.v | A E |
| C03 | `C03_quaternion_product_is_dcm_product` | PropAttitude.v | A E |
| C04 | `C04_dcm_to_quaternion` | PropAttitude.v | A B E |
| C04 | `C04_quaternion_round_trip` | PropAttitude.v | A B E |
| C04 | `C04_dcm_to_quaternion_refuted` | PropAttitude.v | A B E |
| C05 | `C05_quaternion_from_rotation_vector` | PropAttitude.v | A B E |
| C05 | `C05_zero_rotation_vector_refuted` | PropAttitude.v | A B E |
| C06 | `C06_rotation_vector_round_trip_negates` | PropAttitude.v | A B C E |
| C06 | `C06_rotation_vector_round_trip_refuted` | PropAttitude.v | A B C E |
| C07 | `C07_rotation_vector_bounded` | PropAttitude.v | A B C E |
| C07 | `C07_rotation_vector_meaning` | PropAttitude.v | A B C E |
| C07 | `C07_rotation_vector_sign_invariant` | PropAttitude.v | A B C E |
| C07 | `C07_rotation_vector_small` | PropAttitude.v | A B C E |
| C07 | `C07_rotation_vector_too_long` | PropAttitude.v | A B C E |
| C08 | `C08_quaternion_equivalent_is_hamilton` | PropAttitude.v | A E |
| C08 | `C08_quaternion_equivalent_multiplicative` | PropAttitude.v | A E |
| C09 | `C09_euler_to_dcm_is_rotation` | PropAttitude.v | A B E |
| C09 | `C09_euler_to_dcm_is_ned_to_body` | PropAttitude.v | A B E |
| C09 | `C09_body_axes` | PropAttitude.v | A B E |
| C09 | `C09_euler_body_to_ned_refuted` | PropAttitude.v | A B E |
| C10 | `C10_euler_round_trip` | PropAttitude.v | A B C E |
| C10 | `C10_euler_round_trip_reversed` | PropAttitude.v | A B C E |
| C10 | `C10_euler_round_trip_inverted` | PropAttitude.v | A B C E |
| C10 | `C10_euler_round_trip_refuted` | PropAttitude.v | A B C E |
| C11 | `C11_dcm_from_quaternion_guard` | PropAttitude.v | A E |
| C11 | `C11_quaternion_from_dcm_guard` | PropAttitude.v | A B E |
| C11 | `C11_quaternion_from_rotation_vector_guard` | PropAttitude.v | A B E |
| C11 | `C11_rotation_vector_from_quaternion_guard` | PropAttitude.v | A B C E |
| C11 | `C11_quaternion_equivalent_guard` | PropAttitude.v | A |
| C11 | `C11_dcm_to_euler_guard` | PropAttitude.v | A B C E |
| C12 | `C12_skew_symmetric_is_cross_product` | PropNavUtils.v | A E |
| C13 | `C13_position_rates_are_geodetic_kinematics` | PropNavUtils.v | A B C E |
| C13 | `C13_rates_defined_off_the_poles` | PropNavUtils.v | A B C E |
| C14 | `C14_velocity_rates_are_newton_in_rotating_frame` | PropNavUtils.v | A B C E |
| C14 | `C14_coriolis_does_no_work` | PropNavUtils.v | A B C E |
| C15 | `C15_rk4_is_classical_runge_kutta` | PropNavUtils.v | A B C E |
| C15 | `C15_rk4_longitude_equivariant` | PropNavUtils.v | A B C E |
| C15 | `C15_rk4_reflection` | PropNavUtils.v | A B C E |
| C15 | `C15_rk4_rest_stays_at_rest` | PropNavUtils.v | A B C E |
| C16 | `C16_rk4_guards` | PropNavUtils.v | A B C E |
| C16 | `C16_rk4_zero_step` | PropNavUtils.v | A B C E |
| C17 | `C17_simple_gravity_inverse_square` | PropGravity.v | A B E |
| C17 | `C17_simple_gravity_scaling` | PropGravity.v | A B E |
| C17 | `C17_simple_gravity_rotation` | PropGravity.v | A B E |
| C17 | `C17_simple_gravity_origin` | PropGravity.v | A B E |
| C18 | `C18_gravity_bounds_on_ellipsoid` | PropGravity.v | A B E |
| C18 | `C18_gravity_at_equator_and_poles` | PropGravity.v | A B E |
| C18 | `C18_gravity_increases_with_latitude` | PropGravity.v | A B E |
| C19 | `C19_gravity_parity` | PropGravity.v | A B E |
| C19 | `C19_gravity_north_zero` | PropGravity.v | A B E |
| C19 | `C19_gravity_north_towards_equator` | PropGravity.v | A B E |
| C19 | `C19_gravity_north_value` | PropGravity.v | A B E |
| C20 | `C20_gravity_down_positive` | PropGravity.v | A B E |
| C20 | `C20_gravity_decreases_with_height` | PropGravity.v | A B E |
| C20 | `C20_gravity_equator_profile` | PropGravity.v | A B E |
| C21 | `C21_ned_matrices_are_inverse_rotations` | PropFrames.v | A B E |
| C21 | `C21_ned_rows_are_north_east_down` | PropFrames.v | A B C E |
| C22 | `C22_range_guards` | PropFrames.v | A B E |
| C22 | `C22_float_guard_finite` | PropFrames.v | A B C E |
| C22 | `C22_float_guard_strictly_inside` | PropFrames.v | A B C E |
| C22 | `C22_float_guard_infinity` | PropFrames.v | none |
| C22 | `C22_nan_rejected_refuted` | PropFrames.v | none |
| C23 | `C23_lla_is_height_along_ellipsoid_normal` | PropFrames.v | A B E |
| C24 | `C24_lla2Ecef_injective` | PropFrames.v | A B C E |
| C25 | `C25_ecef2Lla_longitude_in_range` | PropFrames.v | A B C E |
| C25 | `C25_ecef2Lla_accepted_downstream` | PropFrames.v | A B C E |
| C25 | `C25_accepted_everywhere_refuted` | PropFrames.v | A B C E |
| C26 | `C26_ecef_round_trip_recovers_xy` | PropFrames.v | A B C E |
| C26 | `C26_geodetic_round_trip` | PropFrames.v | A B C E |
| C27 | `C27_polar_altitude_refuted` | PropFrames.v | A B C E |
| C27 | `C27_polar_axis_exact_cosine` | PropFrames.v | A B C E |
| C28 | `C28_timestamp_to_civil_date` | PropDate.v | A B C E |
| C28 | `C28_no_undefined_behaviour_refuted` | PropDate.v | A B C E |
| C29 | `C29_seconds_exact_below_2_53` | PropDate.v | A B C E |
| C29 | `C29_seconds_within_one` | PropDate.v | A B C E |
| C29 | `C29_not_rounded_up_refuted` | PropDate.v | A B C E |
| C30 | `C30_before_1970_refuted` | PropDate.v | A B C E |
| C31 | `C31_fields_are_appended` | PropDate.v | A B C E |
| C31 | `C31_reused_vector_refuted` | PropDate.v | A B C E |
| C32 | `C32_mjd_counts_days` | PropDate.v | A E |
| C32 | `C32_every_date_has_one_day_number` | PropDate.v | none |
| C32 | `C32_next_day_adds_one` | PropDate.v | none |
| C32 | `C32_distinct_dates_distinct_numbers` | PropDate.v | none |
| C33 | `C33_fields_validated` | PropDate.v | A E |
| C33 | `C33_every_civil_time_accepted_refuted` | PropDate.v | A E |
| C33 | `C33_invalid_dates_rejected_refuted` | PropDate.v | A E |
| C33 | `C33_short_vector_undefined` | PropDate.v | A E |
| C34 | `C34_double_mjd_falls_on_the_civil_day` | PropDate.v | A B C E |
| C35 | `C35_timestamp_to_mjd` | PropDate.v | A B C E |
| C36 | `C36_state_is_that_of_last_success` | PropEop.v | none |
| C36 | `C36_outcomes` | PropEop.v | none |
| C36 | `C36_success_ignores_old_state` | PropEop.v | none |
| C36 | `C36_loads_the_rows` | PropEop.v | A |
| C36 | `C36_read_only_file_loaded_refuted` | PropEop.v | none |
| C37 | `C37_eleven_fields_give_rectangular_table` | PropEop.v | A |
| C37 | `C37_rectangular_lookup_in_bounds` | PropEop.v | A B E |
| C37 | `C37_short_line_reads_past_the_end` | PropEop.v | A B E |
| C37 | `C37_short_line_uses_another_row` | PropEop.v | A B E |
| C38 | `C38_missing_day_rejected` | PropEop.v | A B E |
| C38 | `C38_linear_interpolation` | PropEop.v | A B E |
| C38 | `C38_between_the_rows` | PropEop.v | A E |
| C38 | `C38_piecewise_linear_in_time` | PropEop.v | A B E |
| C39 | `C39_eop_file_argument_ignored` | PropEop.v | A B E |
| C39 | `C39_unloaded_table_always_rejected` | PropEop.v | A B E |
| C40 | `C40_inverse_rotations` | PropJ2k.v | A B E |
| C41 | `C41_nutation_bounded` | PropJ2k.v | A B E |
| C41 | `C41_nutation_main_terms` | PropJ2k.v | A B E |
| C41 | `C41_arguments_reduced` | PropJ2k.v | A E |
| C42 | `C42_hour_angle_turn` | PropJ2k.v | A B E |
| C42 | `C42_sidereal_time_range` | PropJ2k.v | A B E |
| C42 | `C42_sidereal_time_is_gmst82` | PropJ2k.v | A B E |
| C42 | `C42_sidereal_rate` | PropJ2k.v | A B E |
| C43 | `C43_predict` | PropKalman.v | A D E |
| C43 | `C43_update` | PropKalman.v | A D E |
| C43 | `C43_ukf_predict` | PropKalman.v | A D E |
| C43 | `C43_ukf_update` | PropKalman.v | A D E |
| C44 | `C44_ensemble` | PropKalman.v | A D E |
| C44 | `C44_values` | PropKalman.v | A D E |
| C44 | `C44_covariance_valid` | PropKalman.v | A D E |
| C45 | `C45_covariance_valid` | PropKalman.v | A D E |
| C45 | `C45_short_form` | PropKalman.v | A D E |
| C46 | `C46_optimal` | PropKalman.v | A D E |
| C46 | `C46_shrinks` | PropKalman.v | A D E |
| C46 | `C46_actual_error` | PropKalman.v | A D E |
| C47 | `C47_information` | PropKalman.v | A D E |
| C48 | `C48_stacked` | PropKalman.v | A D E |
| C48 | `C48_either_order` | PropKalman.v | A D E |
| C49 | `C49_finite_refuted` | PropKalman.v | A D E |
| C49 | `C49_finite_iff` | PropKalman.v | A D E |
| C49 | `C49_finite_if_noise_pd` | PropKalman.v | A D E |
| C50 | `C50_histories` | PropKalman.v | A D E |
| C51 | `C51_mean_and_scatter` | PropKalman.v | A D E |
| C51 | `C51_covariance_valid` | PropKalman.v | A D E |
| C51 | `C51_negative_weight_refuted` | PropKalman.v | A D E |
| C52 | `C52_linear` | PropKalman.v | A D E |
| C52 | `C52_covariance_valid` | PropKalman.v | A D E |
| C52 | `C52_finite` | PropKalman.v | A D E |
| C53 | `C53_predict_in_place` | PropKalman.v | A D E |
| C53 | `C53_update_in_place` | PropKalman.v | A D E |
| C53 | `C53_ukf_predict_in_place` | PropKalman.v | A C D E |
| C53 | `C53_ukf_update_in_place` | PropKalman.v | A D E |
| C53 | `C53_outputs_not_read` | PropKalman.v | A D E |
| C54 | `C54_noise_free` | PropKalman.v | A D E |
| C55 | `C55_unweighted` | PropBls.v | A D E |
| C56 | `C56_weighted` | PropBls.v | A D E |
| C56 | `C56_cost_refuted` | PropBls.v | A D E |
| C57 | `C57_scaled_identity` | PropBls.v | A D E |
| C57 | `C57_scaled_weight` | PropBls.v | A D E |
| C58 | `C58_unweighted` | PropBls.v | A D E |
| C58 | `C58_weighted` | PropBls.v | A D E |
| C58 | `C58_unweighted_nonlinear` | PropBls.v | A B D E |
| C58 | `C58_weighted_nonlinear` | PropBls.v | A B D E |
| C59 | `C59_weighted` | PropBls.v | A B D E |
| C59 | `C59_unweighted` | PropBls.v | A B D E |
| C59 | `C59_stationary` | PropBls.v | A B D E |
| C59 | `C59_linear` | PropBls.v | A B D E |
| C59 | `C59_linear_unweighted` | PropBls.v | A B D E |
| C59 | `C59_cost_refuted` | PropBls.v | A B D E |
| C59 | `C59_negative_eps` | PropBls.v | A B D E |
| C59 | `C59_same_start` | PropBls.v | A B D E |
| C60 | `C60_weighted` | PropBls.v | A B D E |
| C60 | `C60_unweighted` | PropBls.v | A B D E |
| C61 | `C61_get_returns_last_set` | PropCompensator.v | A E |
| C61 | `C61_set_accepts_six_rejects_others` | PropCompensator.v | none |
| C61 | `C61_sensors_independent` | PropCompensator.v | A |
| C62 | `C62_compensation_applies_last_set` | PropCompensator.v | A E |
| C62 | `C62_calibration_map` | PropCompensator.v | A E |
| C62 | `C62_compensation_loses_nothing` | PropCompensator.v | A E |
| C63 | `C63_use_before_calibration_rejected_refuted` | PropCompensator.v | A E |
| C63 | `C63_defined_iff_calibrated_first` | PropCompensator.v | A C E |
| C64 | `C64_attitude_composes_increments` | PropStrapdown.v | A B C E |
| C64 | `C64_attitude_from_initialize` | PropStrapdown.v | A B C E |
| C64 | `C64_histories_defined` | PropStrapdown.v | A B C E |
| C65 | `C65_stationary_keeps_attitude_refuted` | PropStrapdown.v | A B C E |
| C65 | `C65_initialize_restores` | PropStrapdown.v | A B E |
| C66 | `C66_time_bookkeeping` | PropStrapdown.v | A B C E |
| C66 | `C66_same_time_loses_position_and_velocity` | PropStrapdown.v | A B C E |
| C66 | `C66_lost_stays_lost` | PropStrapdown.v | A B C E |
| C66 | `C66_defined_iff_differences_fit` | PropStrapdown.v | A B C E |
| C67 | `C67_initialize_stores_the_transpose` | PropStrapdown.v | A B E |
| C67 | `C67_body_to_ned_refuted` | PropStrapdown.v | A B E |
| C68 | `C68_one_axis_rotations_add` | PropStrapdown.v | A B C E |
| C69 | `C69_recovers` | PropCoarse.v | A B E |
| C69 | `C69_no_result` | PropCoarse.v | A B E |
| C69 | `C69_rotation_iff` | PropCoarse.v | A B E |
| C69 | `C69_need_not_be_rotation` | PropCoarse.v | A B E |
| C69 | `C69_equivariant` | PropCoarse.v | A B E |
| C70 | `C70_succeeds` | PropFine.v | A B D E |
| C70 | `C70_rejects` | PropFine.v | A B D E |
| C70 | `C70_not_finite` | PropFine.v | A B D E |
| C70 | `C70_predicts_rate` | PropFine.v | A B D E |
| C70 | `C70_bias_reset` | PropFine.v | A B D E |
| C70 | `C70_bias_preserved_refuted` | PropFine.v | A B D E |
| C71 | `C71_weighted_mean` | PropFine.v | A D E |
| C71 | `C71_every_entry` | PropFine.v | A D E |
| C71 | `C71_covariance` | PropFine.v | A D E |
| C71 | `C71_not_finite` | PropFine.v | A D E |
| C71 | `C71_rejects` | PropFine.v | A D E |
| C72 | `C72_kalman_update` | PropFine.v | A D E |
| C72 | `C72_finite` | PropFine.v | A D E |
| C72 | `C72_perfect` | PropFine.v | A D E |
| C72 | `C72_perfect_finite` | PropFine.v | A D E |
| C72 | `C72_covariance` | PropFine.v | A D E |
| C72 | `C72_rejects` | PropFine.v | A D E |
| C73 | `C73_inertial_error_model` | PropPva.v | A E |
| C73 | `C73_wrong_sizes_rejected` | PropPva.v | A B C E |
| C74 | `C74_ecef_error_model` | PropPva.v | A E |
| C74 | `C74_omega_is_a_turn_rate` | PropPva.v | A E |
| C75 | `C75_sphere_equations_are_newton` | PropPva.v | A B C E |
| C75 | `C75_jacobian_but_for_one_entry` | PropPva.v | A B C E |
| C75 | `C75_longitude_row_refuted` | PropPva.v | A B C E |
| C76 | `C76_forcing` | PropPva.v | A B C E |
| C76 | `C76_independence` | PropPva.v | A B C E |
| C76 | `C76_definedness` | PropPva.v | A B C E |
| C76 | `C76_defined_near_the_surface` | PropPva.v | A B E |
| C77 | `C77_ut1_across_leap_second_refuted` | PropEop.v | A B E |
| C78 | `C78_rest_attitude_constant_refuted` | PropStrapdown.v | A B C E |
| C79 | `C79_longitude_equivariance` | PropStrapdown.v | A B C E |
| C80 | `C80_initialize_forgets` | PropStrapdown.v | A B C E |
| C81 | `C81_acceleration_error_two_ways_refuted` | PropPva.v | A B C E |
| C82 | `C82_predict_coordinates` | PropKalman.v | A D E |
| C82 | `C82_update_coordinates` | PropKalman.v | A D E |
| C83 | `C83_information_adds` | PropKalman.v | A D E |
| C83 | `C83_any_order` | PropKalman.v | A D E |
| C84 | `C84_least_squares` | PropKalman.v | A D E |
| C85 | `C85_better_data_better_covariance` | PropKalman.v | A D E |
| C86 | `C86_consistent` | PropKalman.v | A D E |
| C86 | `C86_runs` | PropKalman.v | A D E |
| C87 | `C87_update_is_least_squares` | PropBls.v | A D E |
| C88 | `C88_exact_weighted` | PropBls.v | A D E |
| C88 | `C88_exact_unweighted` | PropBls.v | A D E |
| C89 | `C89_best_linear_unbiased` | PropBls.v | A D E |
| C90 | `C90_gyro_error` | PropCoarse.v | A B E |
| C90 | `C90_accelerometer_error` | PropCoarse.v | A B E |
| C91 | `C91_biases_stay_zero` | PropFine.v | A B D E |
| C92 | `C92_whole_turn` | PropFine.v | A B D E |
| C92 | `C92_same_heading_differs` | PropFine.v | A B D E |
| C93 | `C93_supported_vehicle_stays` | PropStrapdown2.v | A B C E |
| C94 | `C94_mounting_invariance` | PropStrapdown2.v | A B C E |
| C95 | `C95_equator_reflection` | PropStrapdown2.v | A B C E |
| C96 | `C96_vertical_gradient` | PropGravity2.v | A B C E |
| C97 | `C97_north_component_irrotational` | PropGravity2.v | A B C E |
| C98 | `C98_pizzetti_and_clairaut` | PropGravity2.v | A B E |
| C99 | `C99_nutation_moves_ecliptic_coordinates` | PropJ2k2.v | A B E |
| C100 | `C100_pole_in_earth_frame` | PropJ2k2.v | A B E |
| C101 | `C101_leap_second_invariance` | PropJ2k2.v | A B E |
| C102 | `C102_precession_rates` | PropJ2k2.v | A B C E |
| C103 | `C103_rounding_error_grows_linearly` | PropStrapdownFloat.v | A B C E |
| C103 | `C103_lengths_and_angles_kept` | PropStrapdownFloat.v | A B C E |
| C103 | `C103_initialize_then_update` | PropStrapdownFloat.v | A B C E |
| C103 | `C103_binary64_meets_the_model` | PropStrapdownFloat.v | A B C E |
| C103 | `C103_exact_arithmetic` | PropStrapdownFloat.v | A B E |
| C104 | `C104_short_increment_refuted` | PropStrapdownFloat.v | A B C E |
| C104 | `C104_finite_iff` | PropStrapdownFloat.v | A B C E |
| C104 | `C104_lost_otherwise` | PropStrapdownFloat.v | A B C E |
| C104 | `C104_increment_from_2_480_is_safe` | PropStrapdownFloat.v | A B C E |
| C105 | `C105_time_step` | PropStrapdownFloat.v | A B C E |
| C105 | `C105_time_step_increasing` | PropStrapdownFloat.v | A B C E |
| C105 | `C105_time_step_sign` | PropStrapdownFloat.v | A B C E |
| C106 | `C106_position_error` | PropFramesFloat.v | A B C E |
| C106 | `C106_coordinate_errors` | PropFramesFloat.v | A B C E |
| C106 | `C106_rejected_leaves_output` | PropFramesFloat.v | A B E |
| C106 | `C106_binary64_meets_the_model` | PropFramesFloat.v | A B C E |
| C106 | `C106_exact_arithmetic` | PropFramesFloat.v | A B C E |
| C107 | `C107_ned_matrices_nearly_rotations` | PropFramesFloat.v | A B C E |
| C107 | `C107_ned_round_trip` | PropFramesFloat.v | A B C E |
| C107 | `C107_rejected_leaves_output` | PropFramesFloat.v | A E |
| C108 | `C108_gravity_error` | PropGravityFloat.v | A B C E |
| C108 | `C108_exact_arithmetic` | PropGravityFloat.v | A B E |
| C109 | `C109_point_mass_error` | PropGravityFloat.v | A B E |
| C109 | `C109_exact_arithmetic` | PropGravityFloat.v | A B E |
| C110 | `C110_every_point_has_coordinates` | PropSurj.v | A B C E |
| C110 | `C110_coordinates_unique` | PropSurj.v | A B C E |
| C110 | `C110_ecef_round_trip` | PropSurj.v | A B C E |
| C111 | `C111_difference_bounded` | PropKalman2.v | A D E |
| C111 | `C111_distance_shrinks` | PropKalman2.v | A D E |
| C111 | `C111_error_bounded` | PropKalman2.v | A D E |
| C112 | `C112_full_measurement` | PropKalman2.v | A D E |
| C112 | `C112_repeated` | PropKalman2.v | A D E |
| C113 | `C113_inertial_linearisation` | PropPva2.v | A B C E |
| C113 | `C113_ecef_linearisation` | PropPva2.v | A B C E |
| C113 | `C113_point_mass_gradient` | PropPva2.v | A B C E |
| C114 | `C114_frames_agree` | PropPva2.v | A B C E |
| C114 | `C114_polar` | PropPva2.v | A B E |
| C115 | `C115_point_mass_errors` | PropPva2.v | A B C E |
| C115 | `C115_near_the_earth` | PropPva2.v | A B C E |
| C116 | `C116_update` | PropKalmanFloat.v | A B C E |
| C116 | `C116_predict` | PropKalmanFloat.v | A B C E |
| C116 | `C116_history` | PropKalmanFloat.v | A B C E |
| C116 | `C116_exact_arithmetic` | PropKalmanFloat.v | A D E |
| C117 | `C117_matrix_error` | PropAttitudeFloat.v | A B E |
| C117 | `C117_exact_arithmetic` | PropAttitudeFloat.v | A B E |
| C117 | `C117_any_nonzero_quaternion_refuted` | PropAttitudeFloat.v | A B C E |
| C118 | `C118_quaternion_error` | PropAttitudeFloat.v | A B E |
| C118 | `C118_round_trip` | PropAttitudeFloat.v | A B E |
| C118 | `C118_every_rotation_refuted` | PropAttitudeFloat.v | A B C E |
| C118 | `C118_exact_arithmetic` | PropAttitudeFloat.v | A B E |
| C119 | `C119_rotation_vector_error` | PropAttitudeFloat.v | A B C E |
| C119 | `C119_small_is_zero` | PropAttitudeFloat.v | A B E |
| C119 | `C119_half_turn_refuted` | PropAttitudeFloat.v | A B C E |
| C119 | `C119_half_turn_accuracy_refuted` | PropAttitudeFloat.v | A B C E |
| C119 | `C119_exact_arithmetic` | PropAttitudeFloat.v | A B C E |
| C120 | `C120_rotation_quaternion_error` | PropAttitudeFloat.v | A B C E |
| C120 | `C120_any_nonzero_vector_refuted` | PropAttitudeFloat.v | A B C E |
| C120 | `C120_exact_arithmetic` | PropAttitudeFloat.v | A B E |
| C121 | `C121_rk4_error` | PropNavFloat.v | A B C E |
| C121 | `C121_exact_arithmetic` | PropNavFloat.v | A B C E |
| C121 | `C121_binary64` | PropNavFloat.v | A B C E |
| C122 | `C122_integrate_error` | PropNavFloat.v | A B C E |
| C122 | `C122_exact_arithmetic` | PropNavFloat.v | A B C E |
| C122 | `C122_repeated_time` | PropNavFloat.v | A B C E |
| C123 | `C123_newton_in_inertial_space` | PropNewton.v | A B C E |
| C124 | `C124_angular_momentum` | PropNewton.v | A B C E |
| C125 | `C125_linear_prediction` | PropUkf.v | A D E |
| C125 | `C125_usual_points` | PropUkf.v | A D E |
| C126 | `C126_quadratic_mean` | PropUkf.v | A D E |
| C126 | `C126_every_ensemble` | PropUkf.v | A D E |
| C126 | `C126_covariance_refuted` | PropUkf.v | A D E |
| C127 | `C127_prediction_error` | PropFilterFloat.v | A D E |
| C127 | `C127_exact_arithmetic` | PropFilterFloat.v | A D E |
| C127 | `C127_asymmetry` | PropFilterFloat.v | A D E |
| C127 | `C127_plain_loop` | PropFilterFloat.v | A B C D E |
| C127 | `C127_symmetry_refuted` | PropFilterFloat.v | A B C D E |
| C127 | `C127_variance_refuted` | PropFilterFloat.v | A B C D E |
| C128 | `C128_compensation_error` | PropCompFloat.v | A B E |
| C128 | `C128_exact_arithmetic` | PropCompFloat.v | A |
| C128 | `C128_identity` | PropCompFloat.v | A B C E |
| C129 | `C129_navigator_converges` | PropConverge.v | A B C E |
| C129 | `C129_call_is_integrate` | PropConverge.v | A B C E |
| C130 | `C130_motion` | PropOrder.v | A B C E |
| C130 | `C130_increments` | PropOrder.v | A B C E |
| C130 | `C130_first_order_only` | PropOrder.v | A B C E |
| C130 | `C130_second_order_refuted` | PropOrder.v | A B C E |
| C130 | `C130_rolling_vehicle_drifts` | PropOrder.v | A B C E |
| C131 | `C131_attitude_second_order` | PropTurn.v | A B C E |
| C132 | `C132_motion` | PropTurn.v | A B C E |
| C132 | `C132_attitude_returns` | PropTurn.v | A B E |
| C132 | `C132_increments` | PropTurn.v | A B E |
| C132 | `C132_computed_attitude_drifts` | PropTurn.v | A B C E |
| C132 | `C132_true_attitude_refuted` | PropTurn.v | A B C E |
| C133 | `C133_estimates` | PropSteady.v | A D E |
| C133 | `C133_covariances` | PropSteady.v | A D E |
| C133 | `C133_full_excited` | PropSteady.v | A D E |
| C133 | `C133_full_covariances` | PropSteady.v | A D E |
| C134 | `C134_steady_state` | PropSteady.v | A B D E |
| C134 | `C134_rate` | PropSteady.v | A B D E |
| C135 | `C135_one_call` | PropRunFloat.v | A B C E |
| C135 | `C135_whole_run` | PropRunFloat.v | A B C E |
| C136 | `C136_disturbed_runs` | PropRunFloat.v | A B C E |
| C136 | `C136_exact_runs` | PropRunFloat.v | A B C E |
| C136 | `C136_double_runs` | PropRunFloat.v | A B C E |
| C136 | `C136_double_is_disturbed` | PropRunFloat.v | A B C E |
| C137 | `C137_motions_stay_close` | PropUnique.v | A B C E |
| C137 | `C137_motion_is_unique` | PropUnique.v | A B C E |
| C138 | `C138_day_number` | PropHourFloat.v | A B C E |
| C138 | `C138_order_kept` | PropHourFloat.v | A B C E |
| C138 | `C138_different_times_refuted` | PropHourFloat.v | A B C E |
| C138 | `C138_sidereal_time` | PropHourFloat.v | A B C E |
| C138 | `C138_angle_from_date` | PropHourFloat.v | A B C E |
| C138 | `C138_on_the_ground` | PropHourFloat.v | A B C E |
| C138 | `C138_exact_arithmetic` | PropHourFloat.v | A B E |
| C139 | `C139_update_for_the_gain_used` | PropUpdateFloat.v | A D E |
| C139 | `C139_gain_errors_are_second_order` | PropUpdateFloat.v | A D E |
| C139 | `C139_never_optimistic` | PropUpdateFloat.v | A D E |
| C139 | `C139_one_measurement` | PropUpdateFloat.v | A D E |
| C139 | `C139_exact_arithmetic` | PropUpdateFloat.v | A D E |
| C140 | `C140_coordinate_errors` | PropLlaFloat.v | A B C E |
| C140 | `C140_there_and_back` | PropLlaFloat.v | A B C E |
| C140 | `C140_round_trip` | PropLlaFloat.v | A B C E |
| C140 | `C140_all_latitudes_refuted` | PropLlaFloat.v | A B C E |
| C140 | `C140_binary64_meets_the_model` | PropLlaFloat.v | A B C E |
| C140 | `C140_exact_arithmetic` | PropLlaFloat.v | A B C E |
| C141 | `C141_angle_errors` | PropEulerFloat.v | A B C E |
| C141 | `C141_heading_error` | PropEulerFloat.v | A B C E |
| C141 | `C141_there_and_back` | PropEulerFloat.v | A B C E |
| C141 | `C141_after_a_run` | PropEulerFloat.v | A B C E |
| C141 | `C141_continuous_heading_refuted` | PropEulerFloat.v | A B C E |
| C141 | `C141_binary64_meets_the_model` | PropEulerFloat.v | A B C E |
| C141 | `C141_exact_arithmetic` | PropEulerFloat.v | A B C E |
| C142 | `C142_rounding_error` | PropCoarseFloat.v | A B E |
| C142 | `C142_true_attitude` | PropCoarseFloat.v | A B E |
| C142 | `C142_exact_arithmetic` | PropCoarseFloat.v | A B E |
| C143 | `C143_covariances` | PropDisturb.v | A D E |
| C143 | `C143_full_measurements` | PropDisturb.v | A D E |
| C143 | `C143_without_noise_refuted` | PropDisturb.v | A D E |
| C144 | `C144_estimates` | PropDisturb.v | A B D E |
| C144 | `C144_runs_exist` | PropDisturb.v | A B D E |
| C145 | `C145_any_length` | PropDisturbFloat.v | A B C E |
| C146 | `C146_without_symmetry` | PropLopsided.v | A B D E |
| C146 | `C146_asymmetry` | PropLopsided.v | A B D E |
| C147 | `C147_long_runs` | PropLongFloat.v | A B D E |
| C147 | `C147_entries` | PropLongFloat.v | A B D E |
| C147 | `C147_variances` | PropLongFloat.v | A D E |
| C148 | `C148_long_estimates` | PropLongState.v | A B D E |
| C148 | `C148_components` | PropLongState.v | A B D E |
| C149 | `C149_rounding_error` | PropJ2kFloat.v | A B C E |
| C149 | `C149_rounding_error_back` | PropJ2kFloat.v | A B C E |
| C149 | `C149_same_outcome` | PropJ2kFloat.v | A B C E |
| C149 | `C149_nearly_rotation` | PropJ2kFloat.v | A B E |
| C149 | `C149_exact_arithmetic` | PropJ2kFloat.v | A B C E |
| C150 | `C150_nutation_is_iau1980` | PropNutation.v | A B E |
| C150 | `C150_nutation_matrix` | PropNutation.v | A B E |
| C150 | `C150_equation_of_the_equinoxes` | PropNutation.v | A B E |
| C150 | `C150_in_double_arithmetic` | PropNutation.v | A B C E |
| C151 | `C151_unweighted_error` | PropBlsFloat.v | A B D E |
| C151 | `C151_weighted_error` | PropBlsFloat.v | A B D E |
| C151 | `C151_any_weights` | PropBlsFloat.v | A B D E |
| C151 | `C151_exact_arithmetic` | PropBlsFloat.v | A D E |
| C151 | `C151_division_solves` | PropBlsFloat.v | A B D E |
| C152 | `C152_ned_error` | PropPvaFloat.v | A B C E |
| C152 | `C152_ecef_error` | PropPvaFloat.v | A B E |
| C152 | `C152_exact_arithmetic` | PropPvaFloat.v | A B C E |
| C152 | `C152_binary64` | PropPvaFloat.v | A B C E |
| C153 | `C153_backward_stable` | PropLdltFloat.v | A B D E |
| C153 | `C153_unweighted_error` | PropLdltFloat.v | A B D E |
| C153 | `C153_weighted_error` | PropLdltFloat.v | A B D E |
| C153 | `C153_exact_arithmetic` | PropLdltFloat.v | A D E |
| C153 | `C153_arithmetic` | PropLdltFloat.v | A B C D E |
| C154 | `C154_state_error` | PropUkfFloat.v | A D E |
| C154 | `C154_covariance_error` | PropUkfFloat.v | A B D E |
| C154 | `C154_covariance_error_any_weights` | PropUkfFloat.v | A D E |
| C154 | `C154_variances` | PropUkfFloat.v | A D E |
| C154 | `C154_opposite_entries` | PropUkfFloat.v | A B D E |
| C154 | `C154_symmetry_refuted` | PropUkfFloat.v | A B C D E |
| C154 | `C154_exact_arithmetic` | PropUkfFloat.v | A D E |
| C155 | `C155_residual` | PropLuFloat.v | A C D E |
| C155 | `C155_inverse` | PropLuFloat.v | A C D E |
| C155 | `C155_update` | PropLuFloat.v | A C D E |
| C155 | `C155_noise_is_enough` | PropLuFloat.v | A D E |
| C156 | `C156_update` | PropUkfLu.v | A B C D E |
| C156 | `C156_noise_is_enough` | PropUkfLu.v | A D E |
| C156 | `C156_positive_variance_refuted` | PropUkfLu.v | A B C D E |
| C157 | `C157_azimuth_update` | PropFineFloat.v | A B D E |
| C157 | `C157_prediction` | PropFineFloat.v | A B D E |
| C158 | `C158_velocity_update` | PropVelFloat.v | A B C D E |
| C159 | `C159_step` | PropGaussNewton.v | A B D E |
| C159 | `C159_unique` | PropGaussNewton.v | A B D E |
| C159 | `C159_weighted` | PropGaussNewton.v | A B D E |
| C159 | `C159_unweighted` | PropGaussNewton.v | A B D E |
| C160 | `C160_step` | PropNlsFloat.v | A B D E |
| C160 | `C160_converges` | PropNlsFloat.v | A B D E |
| C160 | `C160_ldlt` | PropNlsFloat.v | A B D E |
| C160 | `C160_exact` | PropNlsFloat.v | A B D E |
| C160 | `C160_noise_refuted` | PropNlsFloat.v | A B C D E |
| C161 | `C161_step` | PropWnlsFloat.v | A B D E |
| C161 | `C161_any_weights` | PropWnlsFloat.v | A B D E |
| C161 | `C161_diagonal_weights` | PropWnlsFloat.v | A B D E |
| C161 | `C161_exact` | PropWnlsFloat.v | A B D E |
| C162 | `C162_unweighted` | PropStationary.v | A B D E |
| C162 | `C162_any_weights` | PropStationary.v | A B D E |
| C162 | `C162_diagonal_weights` | PropStationary.v | A B D E |
| C163 | `C163_ecef2Lla_in_place` | PropInPlace.v | A B C E |
| C163 | `C163_lla2Ecef_apart` | PropInPlace.v | A B E |
| C163 | `C163_lla2Ecef_rejects` | PropInPlace.v | A B E |
| C163 | `C163_lla2Ecef_over_its_arguments` | PropInPlace.v | A B E |
| C163 | `C163_lla2Ecef_in_place_refuted` | PropInPlace.v | A B E |
| C164 | `C164_integrate` | PropInPlace.v | A B C E |
| C164 | `C164_initialize` | PropInPlace.v | A B E |
| C164 | `C164_previous_values` | PropInPlace.v | A B C E |
| C164 | `C164_private_members_do_not_matter` | PropInPlace.v | A B C E |
| C164 | `C164_corrections` | PropInPlace.v | A B C E |
| C165 | `C165_linear_apart` | PropBlsShared.v | A D E |
| C165 | `C165_nonlinear_apart` | PropBlsShared.v | A B D E |
| C165 | `C165_linear_shared` | PropBlsShared.v | A D E |
| C165 | `C165_shared_cost_refuted` | PropBlsShared.v | A D E |
| C165 | `C165_nonlinear_shared` | PropBlsShared.v | A B D E |
| C166 | `C166_attitude_never_overflows` | PropOverflow.v | A B C E |
| C166 | `C166_initialize_then_update_never_overflows` | PropOverflow.v | A B C E |
| C166 | `C166_quaternion_never_overflows` | PropOverflow.v | A B C E |
| C166 | `C166_position_never_overflows` | PropOverflow.v | A B C E |
| C166 | `C166_gravity_never_overflows` | PropOverflow.v | A B C E |
| C166 | `C166_large_quaternion_overflows` | PropOverflow.v | A B C E |
| C166 | `C166_compensation_never_overflows` | PropOverflow.v | A B C E |
| C166 | `C166_quaternion_of_matrix_never_overflows` | PropOverflowAttitude.v | A B C E |
| C166 | `C166_rotation_vector_of_quaternion_never_overflows` | PropOverflowAttitude.v | A B C E |
| C166 | `C166_euler_angles_never_overflow` | PropOverflowAttitude.v | A B C E |
| C166 | `C166_frame_rotations_never_overflow` | PropOverflowAttitude.v | A B C E |
| C166 | `C166_simple_gravity_never_overflows` | PropOverflowAttitude.v | A B C E |
| C166 | `C166_least_squares_never_overflow` | PropOverflowBls.v | A B C D E |
| C166 | `C166_weighted_least_squares_never_overflow` | PropOverflowBls.v | A B C D E |
| C166 | `C166_least_squares_one_unknown` | PropOverflowBls.v | A B C D E |
| C166 | `C166_weighted_least_squares_one_unknown` | PropOverflowBls.v | A B C D E |
| C166 | `C166_prediction_never_overflows` | PropOverflowFilter.v | A B C D E |
| C166 | `C166_large_prediction_overflows` | PropOverflowFilter.v | A B C D E |
| C166 | `C166_unscented_prediction_never_overflows` | PropOverflowFilter.v | A B C E |
| C166 | `C166_fine_prediction_never_overflows` | PropOverflowFine.v | A B C D E |
| C166 | `C166_azimuth_update_never_overflows` | PropOverflowFine.v | A B C D E |
| C166 | `C166_ecef2Lla_never_overflows` | PropOverflowFrames.v | A B C E |
| C166 | `C166_rotation_vector_never_overflows` | PropOverflowFrames.v | A B C E |
| C166 | `C166_coarse_alignment_never_overflows` | PropOverflowFrames.v | A B C E |
| C166 | `C166_dynamics_never_overflow` | PropOverflowNav.v | A B C E |
| C166 | `C166_rk4_step_never_overflows` | PropOverflowNav.v | A B C E |
| C166 | `C166_ecef_error_dynamics_never_overflow` | PropOverflowPva.v | A B C E |
| C166 | `C166_ned_error_dynamics_never_overflow` | PropOverflowPva.v | A B C E |
| C166 | `C166_integrate_never_overflows` | PropOverflowRun.v | A B C E |
| C166 | `C166_navigation_run_never_overflows` | PropOverflowRun.v | A B C E |
| C166 | `C166_update_never_overflows` | PropOverflowUpdate.v | A B C D E |
| C166 | `C166_scalar_update_never_overflows` | PropOverflowUpdate.v | A B C D E |
| C166 | `C166_unscented_update_never_overflows` | PropOverflowUpdate.v | A B C D E |
| C167 | `C167_success_means` | PropNlsIeee.v | A B C E |
| C167 | `C167_weighted_success_means` | PropNlsIeee.v | A B C E |
| C167 | `C167_nonfinite_ends_the_loop` | PropNlsIeee.v | A B C E |
| C167 | `C167_nan_is_reported_as_success` | PropNlsIeee.v | A B C E |
| C167 | `C167_norm` | PropNlsIeee.v | A B C E |
| C167 | `C167_nan_tolerance` | PropNlsIeee.v | A B C E |
| C167 | `C167_nan_shows_in_the_cost` | PropNlsIeee.v | A B C E |
