Props_FilterBase.C01_initialize_exact: closed
Props_FilterBase.C01_construction_exact: closed
Props_FilterBase.C02_refuted: closed
Props_FilterBase.C02_fresh_without_controls_partial: closed
Props_FilterBase.C03_predict_not_in_future_ignored: closed
Props_FilterBase.C04_past_ignored_without_rewind: closed
Props_FloatTime.C04_doubles: ClassicalDedekindReals.sig_forall_dec, ClassicalDedekindReals.sig_not_dec, Classical_Prop.classic, FunctionalExtensionality.functional_extensionality_dep
Props_FilterBase.C05_time_monotone: closed
Props_FloatTime.C05_doubles_without_rewind: ClassicalDedekindReals.sig_forall_dec, ClassicalDedekindReals.sig_not_dec, Classical_Prop.classic, FunctionalExtensionality.functional_extensionality_dep
Props_FloatTime.C74_grid_partial: ClassicalDedekindReals.sig_forall_dec, ClassicalDedekindReals.sig_not_dec, Classical_Prop.classic, FunctionalExtensionality.functional_extensionality_dep
Props_FilterBase.C06_refuted: closed
Props_Queue.C18_queues_in_time_order: closed
Props_Rewind.C07_accepted_sets_time: closed
Props_FloatTime.C08_refuted: ClassicalDedekindReals.sig_forall_dec, ClassicalDedekindReals.sig_not_dec, Classical_Prop.classic, FunctionalExtensionality.functional_extensionality_dep
Props_FloatTime.C08_time_partial: ClassicalDedekindReals.sig_forall_dec, ClassicalDedekindReals.sig_not_dec, Classical_Prop.classic, FunctionalExtensionality.functional_extensionality_dep
Props_FloatTime.C08_within_factor_two_partial: ClassicalDedekindReals.sig_forall_dec, ClassicalDedekindReals.sig_not_dec, Classical_Prop.classic, FunctionalExtensionality.functional_extensionality_dep
Props_FloatTime.C08_grid_partial: ClassicalDedekindReals.sig_forall_dec, ClassicalDedekindReals.sig_not_dec, Classical_Prop.classic, FunctionalExtensionality.functional_extensionality_dep
Props_Rewind.C09_late_controls: closed
Props_FloatTime.C09_late_controls_doubles: ClassicalDedekindReals.sig_forall_dec, ClassicalDedekindReals.sig_not_dec, Classical_Prop.classic, FunctionalExtensionality.functional_extensionality_dep
Props_Rewind.C10_late_measurements: closed
Props_FloatTime.C10_late_measurements_doubles: ClassicalDedekindReals.sig_forall_dec, ClassicalDedekindReals.sig_not_dec, Classical_Prop.classic, FunctionalExtensionality.functional_extensionality_dep
Props_Rewind.C11_refuted: closed
Props_Rewind.C11_late_mixed_partial: closed
Props_Rewind.C12_refuted: closed
Props_Rewind.C12_history_grows_partial: closed
Props_Rewind.C13_window_kept: closed
Props_Rewind.C13_prune_keeps_window: closed
Props_Rewind.C14_revert: closed
Props_Rewind.C14_histories_ordered: closed
Props_Rewind.C15_rejected_noop: closed
Props_Rewind.C16_rewind_safe: closed
Props_Rewind.C16_api_safe: closed
Props_Rewind.C17_refuted: closed
Props_Rewind.C17_every_discard_undefined: closed
Props_Queue.C19_refuted: closed
Props_Queue.C19_merge_partial: closed
Props_Queue.C20_refuted: closed
Props_Queue.C20_processed_in_order_partial: closed
Props_Queue.C21_queues: closed
Props_Queue.C22_last_control: closed
Props_Queue.C22_null_control: closed
Props_Queue.C23_refuted: closed
Props_Queue.C23_next_control_partial: closed
Props_Queue.C23_no_control_partial: closed
Props_Queue.C24_refuted: closed
Props_Queue.C24_predict_u_partial: closed
Props_Queue.C25_stationary_control: closed
Props_Queue.C25_stationary_predict_t: closed
Props_Queue.C25_stationary_measurement: closed
Props_Queue.C26_future_measurement: closed
Props_Queue.C26_present_or_past_measurement: closed
Props_Models.C26_last_control: closed
Props_Models.C26_null_control: closed
Props_Queue.C27_refuted: closed
Props_Queue.C27_no_advance_partial: closed
Props_Rewind.C28_refuted: closed
Props_Rewind.C28_late_ties_partial: closed
Props_FloatTime.C29_refuted: ClassicalDedekindReals.sig_forall_dec, ClassicalDedekindReals.sig_not_dec, Classical_Prop.classic, FunctionalExtensionality.functional_extensionality_dep
Props_FloatTime.C29_nan_partial: ClassicalDedekindReals.sig_forall_dec, ClassicalDedekindReals.sig_not_dec, Classical_Prop.classic, FunctionalExtensionality.functional_extensionality_dep
Props_Queue.C30_invariant: closed
Props_ActiveSets.C31_setActive: closed
Props_ActiveSets.C31_order_and_history: closed
Props_ActiveSets.C32_refuted: closed
Props_ActiveSets.C32_size_wraps: closed
Props_ActiveSets.C32_distinct_partial: closed
Props_ActiveSets.C32_usage_partial: closed
Props_ActiveSets.C33_refuted: closed
Props_ActiveSets.C33_enables_everything_partial: closed
Props_ActiveSets.C33_valid_partial: closed
Props_Subset.C34_get_vector: closed
Props_Subset.C34_put_vector: closed
Props_Subset.C34_zeroed_vector: closed
Props_Subset.C34_get_matrix: closed
Props_Subset.C34_put_matrix: closed
Props_Subset.C34_zeroed_matrix: closed
Props_Subset.C34_square_versions: closed
Props_Subset.C34_roundtrip_vector: closed
Props_Subset.C34_roundtrip_matrix: closed
Props_Subset.C34_write_back_vector: closed
Props_Subset.C34_write_back_matrix: closed
Props_Subset.C35_refuted: closed
Props_Subset.C35_get_diverges: closed
Props_Subset.C35_put_diverges: closed
Props_Subset.C35_truncated_row_map: closed
Props_Subset.C35_short_maps_partial: closed
Props_Subset.C35_row_column_maps_partial: closed
Props_SixDMeas.C36_refuted_imu: ClassicalDedekindReals.sig_forall_dec, ClassicalDedekindReals.sig_not_dec, Classical_Prop.classic, FunctionalExtensionality.functional_extensionality_dep
Props_SixDMeas.C36_refuted_odom: ClassicalDedekindReals.sig_forall_dec, ClassicalDedekindReals.sig_not_dec, Classical_Prop.classic, FunctionalExtensionality.functional_extensionality_dep
Props_SixDMeas.C36_imu_iff_partial: ClassicalDedekindReals.sig_forall_dec, ClassicalDedekindReals.sig_not_dec, Classical_Prop.classic, FunctionalExtensionality.functional_extensionality_dep
Props_SixDMeas.C36_odom_iff_partial: ClassicalDedekindReals.sig_forall_dec, ClassicalDedekindReals.sig_not_dec, Classical_Prop.classic, FunctionalExtensionality.functional_extensionality_dep
Props_SixDMeas.C36_settled_partial: ClassicalDedekindReals.sig_forall_dec, ClassicalDedekindReals.sig_not_dec, Classical_Prop.classic, FunctionalExtensionality.functional_extensionality_dep
Props_SixDMeas.C36_stale_partial: ClassicalDedekindReals.sig_forall_dec, FunctionalExtensionality.functional_extensionality_dep
Props_KF.C37_kf: closed
Props_KF.C37_ekf: closed
Props_KF.C37_kf_value: closed
Props_KF.C38_kf: closed
Props_KF.C38_ekf: closed
Props_KF.C38_variances: closed
Props_KF.C38_singular: closed
Props_KF.C39_kf: closed
Props_KF.C39_ekf: closed
Props_KF.C39_attained: closed
Props_KF.C40_kf: closed
Props_KF.C40_kf_fixpoint: closed
Props_KF.C40_ekf: closed
Props_KF.C41: closed
Props_KF.C42_sequential_is_stacked: closed
Props_KF.C42_commute: closed
Props_KFRun.C43_kf: closed
Props_KFRun.C43_ekf: closed
Props_KF.C44_predict: closed
Props_KF.C44_correct: closed
Props_SimRun.C44_run: closed
Props_VS.C45_kfvs_predict: closed
Props_VS.C45_kfvs_correct: closed
Props_VS.C45_ekfvs_predict: closed
Props_VS.C45_ekfvs_correct: closed
Props_VSU.C45_ukfvs_predict: closed
Props_VSU.C45_ukfvs_correct: closed
Props_SimRun.C45_kfvs_run: closed
Props_SimRun.C45_ekfvs_run: closed
Props_SimRunU.C45_ukfvs_run: closed
Props_VS.C46_refuted: closed
Props_VS.C46_kfvs_predict_zeroes: closed
Props_VS.C46_kfvs_predict_cov_partial: closed
Props_VS.C46_kfvs_correct_partial: closed
Props_VS.C46_ekfvs_predict_cov_partial: closed
Props_VS.C46_ekfvs_predict_partial: closed
Props_VS.C46_ekfvs_correct_partial: closed
Props_VSU.C46_ukfvs_predict_cov_partial: closed
Props_VSU.C46_ukfvs_predict_partial: closed
Props_VSU.C46_ukfvs_correct_partial: closed
Props_VS.C47_refuted_predict: closed
Props_VS.C47_refuted_correct: closed
Props_VS.C47_kfvs_predict_partial: closed
Props_VS.C47_kfvs_correct_partial: closed
Props_VS.C47_ekfvs_predict_partial: closed
Props_VS.C47_ekfvs_correct_partial: closed
Props_VSU.C47_ukfvs_predict_partial: closed
Props_VSU.C47_ukfvs_correct_partial: closed
Props_VS.C48_kfvs_predict: closed
Props_VS.C48_kfvs_correct: closed
Props_VS.C48_ekfvs_predict: closed
Props_VS.C48_ekfvs_correct: closed
Props_VS.C48_kfvs_predict_psd: closed
Props_VS.C48_kfvs_correct_psd: closed
Props_VS.C48_ekfvs_predict_psd: closed
Props_VS.C48_ekfvs_correct_psd: closed
Props_VSU.C48_ukfvs_predict: closed
Props_VSU.C48_ukfvs_correct: closed
Props_VSU.C48_ukfvs_predict_psd: closed
Props_VSU.C48_ukfvs_predict_defined: closed
Props_VSU.C48_ukfvs_correct_pd: closed
Props_UKF.C49_weights: closed
Props_UKF.C49_default: closed
Props_UKF.C50_predict: closed
Props_UKF.C50_predict_ekf: closed
Props_UKF.C50_correct: closed
Props_UKF.C50_correct_ekf: closed
Props_SimRunU.C50_run: closed
UKF_Chol.llt_correct: closed
Props_UKF.C51_predict: closed
Props_UKF.C51_predict_pd: closed
Props_UKF.C51_predict_defined: closed
Props_UKF.C51_correct: closed
Props_UKFVS.C52_refuted: closed
Props_UKFVS.C52_refuted_shrink: closed
Props_UKFVS.C52_predict_grow_oob: closed
Props_UKFVS.C52_predict_shrink_uninit: closed
Props_UKFVS.C52_correct_grow_oob: closed
Props_UKFVS.C52_correct_shrink_uninit: closed
Props_UKFVS.C52_same_size_partial: closed
Props_Angles.C53_constrainAngle: ClassicalDedekindReals.sig_forall_dec, ClassicalDedekindReals.sig_not_dec, FunctionalExtensionality.functional_extensionality_dep
Props_Angles.C53_function_is_program: ClassicalDedekindReals.sig_forall_dec, ClassicalDedekindReals.sig_not_dec, FunctionalExtensionality.functional_extensionality_dep
Props_Angles.C53_unique: ClassicalDedekindReals.sig_forall_dec, ClassicalDedekindReals.sig_not_dec, FunctionalExtensionality.functional_extensionality_dep
Props_Angles.C53_vector: ClassicalDedekindReals.sig_forall_dec, ClassicalDedekindReals.sig_not_dec, FunctionalExtensionality.functional_extensionality_dep
Props_AngleFloat.C54_refuted: ClassicalDedekindReals.sig_forall_dec, ClassicalDedekindReals.sig_not_dec, Classical_Prop.classic, FunctionalExtensionality.functional_extensionality_dep
Props_AngleFloat.C54_diverges: ClassicalDedekindReals.sig_forall_dec, ClassicalDedekindReals.sig_not_dec, Classical_Prop.classic, FunctionalExtensionality.functional_extensionality_dep
Props_AngleFloat.C54_terminates_iff_partial: ClassicalDedekindReals.sig_forall_dec, ClassicalDedekindReals.sig_not_dec, Classical_Prop.classic, FunctionalExtensionality.functional_extensionality_dep
Props_AngleFloat.C54_in_range_partial: ClassicalDedekindReals.sig_forall_dec, ClassicalDedekindReals.sig_not_dec, Classical_Prop.classic, FunctionalExtensionality.functional_extensionality_dep
Props_AngleFloat.C54_one_turn_exact: ClassicalDedekindReals.sig_forall_dec, ClassicalDedekindReals.sig_not_dec, Classical_Prop.classic, FunctionalExtensionality.functional_extensionality_dep
Props_Angles.C55_angleDifference: ClassicalDedekindReals.sig_forall_dec, ClassicalDedekindReals.sig_not_dec, FunctionalExtensionality.functional_extensionality_dep
Props_Angles.C55_vector: ClassicalDedekindReals.sig_forall_dec, ClassicalDedekindReals.sig_not_dec, FunctionalExtensionality.functional_extensionality_dep
Props_Angles.C56_total: ClassicalDedekindReals.sig_forall_dec, ClassicalDedekindReals.sig_not_dec, Classical_Prop.classic, FunctionalExtensionality.functional_extensionality_dep
Props_Angles.C56_equal_angles: ClassicalDedekindReals.sig_forall_dec, ClassicalDedekindReals.sig_not_dec, Classical_Prop.classic, FunctionalExtensionality.functional_extensionality_dep
Props_Angles.C56_full_turns: ClassicalDedekindReals.sig_forall_dec, ClassicalDedekindReals.sig_not_dec, Classical_Prop.classic, FunctionalExtensionality.functional_extensionality_dep
Props_Angles.C56_scaled_weights: ClassicalDedekindReals.sig_forall_dec, ClassicalDedekindReals.sig_not_dec, Classical_Prop.classic, FunctionalExtensionality.functional_extensionality_dep
Props_Angles.C56_maximises: ClassicalDedekindReals.sig_forall_dec, ClassicalDedekindReals.sig_not_dec, Classical_Prop.classic, FunctionalExtensionality.functional_extensionality_dep
Props_Angles.C56_unique_maximum: ClassicalDedekindReals.sig_forall_dec, ClassicalDedekindReals.sig_not_dec, Classical_Prop.classic, FunctionalExtensionality.functional_extensionality_dep
Props_Angles.C56_common_offset: ClassicalDedekindReals.sig_forall_dec, ClassicalDedekindReals.sig_not_dec, Classical_Prop.classic, FunctionalExtensionality.functional_extensionality_dep
Props_Angles.C57_add: ClassicalDedekindReals.sig_forall_dec, ClassicalDedekindReals.sig_not_dec, FunctionalExtensionality.functional_extensionality_dep
Props_Angles.C57_sub: ClassicalDedekindReals.sig_forall_dec, ClassicalDedekindReals.sig_not_dec, FunctionalExtensionality.functional_extensionality_dep
Props_Angles.C57_inverse: ClassicalDedekindReals.sig_forall_dec, ClassicalDedekindReals.sig_not_dec, FunctionalExtensionality.functional_extensionality_dep
Props_Angles.C57_inverse': ClassicalDedekindReals.sig_forall_dec, ClassicalDedekindReals.sig_not_dec, FunctionalExtensionality.functional_extensionality_dep
Props_Angles.C57_weighted_sum: ClassicalDedekindReals.sig_forall_dec, ClassicalDedekindReals.sig_not_dec, Classical_Prop.classic, FunctionalExtensionality.functional_extensionality_dep
Props_QuatMean.C58_total: closed
Props_QuatMean.C58_unit: closed
Props_QuatMean.C58_signs: closed
Props_QuatMean.C58_equal: closed
Props_QuatMean.C58_maximises: closed
Props_QuatMean.C58_unique: closed
Props_QuatMean.C58_rotated: closed
Spectral.eigen_solver_total: closed
Props_Integration.C59_unit: ClassicalDedekindReals.sig_forall_dec, ClassicalDedekindReals.sig_not_dec, FunctionalExtensionality.functional_extensionality_dep
Props_Integration.C59_compose: ClassicalDedekindReals.sig_forall_dec, ClassicalDedekindReals.sig_not_dec, FunctionalExtensionality.functional_extensionality_dep
Props_Integration.C59_zero_time: ClassicalDedekindReals.sig_forall_dec, ClassicalDedekindReals.sig_not_dec, FunctionalExtensionality.functional_extensionality_dep
Props_Integration.C59_inverse: ClassicalDedekindReals.sig_forall_dec, ClassicalDedekindReals.sig_not_dec, FunctionalExtensionality.functional_extensionality_dep
Props_Integration.C59_integrate: ClassicalDedekindReals.sig_forall_dec, ClassicalDedekindReals.sig_not_dec, FunctionalExtensionality.functional_extensionality_dep
Props_Integration.C60_rodrigues: ClassicalDedekindReals.sig_forall_dec, ClassicalDedekindReals.sig_not_dec, FunctionalExtensionality.functional_extensionality_dep
Props_Integration.C60_axis_fixed: ClassicalDedekindReals.sig_forall_dec, ClassicalDedekindReals.sig_not_dec, FunctionalExtensionality.functional_extensionality_dep
Props_Integration.C60_length: ClassicalDedekindReals.sig_forall_dec, ClassicalDedekindReals.sig_not_dec, FunctionalExtensionality.functional_extensionality_dep
Props_Integration.C60_dot: ClassicalDedekindReals.sig_forall_dec, ClassicalDedekindReals.sig_not_dec, FunctionalExtensionality.functional_extensionality_dep
Props_Integration.C60_small: ClassicalDedekindReals.sig_forall_dec, ClassicalDedekindReals.sig_not_dec, FunctionalExtensionality.functional_extensionality_dep
Props_Integration.C61_simpson: ClassicalDedekindReals.sig_forall_dec, ClassicalDedekindReals.sig_not_dec, FunctionalExtensionality.functional_extensionality_dep
Props_Integration.C61_no_rotation: ClassicalDedekindReals.sig_forall_dec, ClassicalDedekindReals.sig_not_dec, FunctionalExtensionality.functional_extensionality_dep
Props_Integration.C61_along_axis: ClassicalDedekindReals.sig_forall_dec, ClassicalDedekindReals.sig_not_dec, FunctionalExtensionality.functional_extensionality_dep
Props_Integration.C61_no_overshoot: ClassicalDedekindReals.sig_forall_dec, ClassicalDedekindReals.sig_not_dec, FunctionalExtensionality.functional_extensionality_dep
Props_Integration.C61_exact_integral: ClassicalDedekindReals.sig_forall_dec, ClassicalDedekindReals.sig_not_dec, Classical_Prop.classic, FunctionalExtensionality.functional_extensionality_dep
Props_Integration.C61_error: ClassicalDedekindReals.sig_forall_dec, ClassicalDedekindReals.sig_not_dec, FunctionalExtensionality.functional_extensionality_dep
Props_Integration.C61_fifth_order: ClassicalDedekindReals.sig_forall_dec, ClassicalDedekindReals.sig_not_dec, Classical_Prop.classic, FunctionalExtensionality.functional_extensionality_dep
Props_Integration.C61_small_rates: ClassicalDedekindReals.sig_forall_dec, ClassicalDedekindReals.sig_not_dec, Classical_Prop.classic, FunctionalExtensionality.functional_extensionality_dep
Props_Integration.C61_frame: ClassicalDedekindReals.sig_forall_dec, ClassicalDedekindReals.sig_not_dec, FunctionalExtensionality.functional_extensionality_dep
Props_Integration.C62_no_rotation: ClassicalDedekindReals.sig_forall_dec, ClassicalDedekindReals.sig_not_dec, FunctionalExtensionality.functional_extensionality_dep
Props_Integration.C62_velocity: ClassicalDedekindReals.sig_forall_dec, ClassicalDedekindReals.sig_not_dec, FunctionalExtensionality.functional_extensionality_dep
Props_Integration.C62_no_overshoot: ClassicalDedekindReals.sig_forall_dec, ClassicalDedekindReals.sig_not_dec, FunctionalExtensionality.functional_extensionality_dep
Props_Transform.C63_compose: ClassicalDedekindReals.sig_forall_dec, FunctionalExtensionality.functional_extensionality_dep
Props_Transform.C63_inverse: ClassicalDedekindReals.sig_forall_dec, FunctionalExtensionality.functional_extensionality_dep
Props_Transform.C63_identity: ClassicalDedekindReals.sig_forall_dec, FunctionalExtensionality.functional_extensionality_dep
Props_Transform.C64_refuted: ClassicalDedekindReals.sig_forall_dec, FunctionalExtensionality.functional_extensionality_dep
Props_Transform.C64_refuted_inverse: ClassicalDedekindReals.sig_forall_dec, FunctionalExtensionality.functional_extensionality_dep
Props_Transform.C64_convention_partial: ClassicalDedekindReals.sig_forall_dec, FunctionalExtensionality.functional_extensionality_dep
Props_Transform.C64_compose_rotations_partial: ClassicalDedekindReals.sig_forall_dec, FunctionalExtensionality.functional_extensionality_dep
Props_Transform.C64_compose_translations_partial: ClassicalDedekindReals.sig_forall_dec, FunctionalExtensionality.functional_extensionality_dep
Props_Transform.C65_symmetric: ClassicalDedekindReals.sig_forall_dec, FunctionalExtensionality.functional_extensionality_dep
Props_Transform.C65_psd: ClassicalDedekindReals.sig_forall_dec, FunctionalExtensionality.functional_extensionality_dep
Props_Transform.C65_variances: ClassicalDedekindReals.sig_forall_dec, FunctionalExtensionality.functional_extensionality_dep
Props_Transform.C65_trace: ClassicalDedekindReals.sig_forall_dec, FunctionalExtensionality.functional_extensionality_dep
Props_Transform.C65_det: ClassicalDedekindReals.sig_forall_dec, FunctionalExtensionality.functional_extensionality_dep
Props_Transform.C65_rotate_back: ClassicalDedekindReals.sig_forall_dec, FunctionalExtensionality.functional_extensionality_dep
Props_Transform.C65_compose: ClassicalDedekindReals.sig_forall_dec, FunctionalExtensionality.functional_extensionality_dep
Props_Transform.C66_refuted: ClassicalDedekindReals.sig_forall_dec, ClassicalDedekindReals.sig_not_dec, FunctionalExtensionality.functional_extensionality_dep
Props_Transform.C66_refuted_up: ClassicalDedekindReals.sig_forall_dec, ClassicalDedekindReals.sig_not_dec, FunctionalExtensionality.functional_extensionality_dep
Props_Transform.C66_partial: ClassicalDedekindReals.sig_forall_dec, ClassicalDedekindReals.sig_not_dec, FunctionalExtensionality.functional_extensionality_dep
Props_Transform.C66_zero: ClassicalDedekindReals.sig_forall_dec, ClassicalDedekindReals.sig_not_dec, FunctionalExtensionality.functional_extensionality_dep
Props_Imu.C67_accel_with_gravity: ClassicalDedekindReals.sig_forall_dec, ClassicalDedekindReals.sig_not_dec, Classical_Prop.classic, FunctionalExtensionality.functional_extensionality_dep
Props_Imu.C67_accel_without_gravity: ClassicalDedekindReals.sig_forall_dec, ClassicalDedekindReals.sig_not_dec, Classical_Prop.classic, FunctionalExtensionality.functional_extensionality_dep
Props_Imu.C67_gyro: ClassicalDedekindReals.sig_forall_dec, ClassicalDedekindReals.sig_not_dec, Classical_Prop.classic, FunctionalExtensionality.functional_extensionality_dep
Props_Imu.C67_unique: ClassicalDedekindReals.sig_forall_dec, ClassicalDedekindReals.sig_not_dec, FunctionalExtensionality.functional_extensionality_dep
Props_Imu.C68_refuted: ClassicalDedekindReals.sig_forall_dec, FunctionalExtensionality.functional_extensionality_dep
Props_Imu.C68_always_uninitialised: closed
Props_Imu.C68_partial: ClassicalDedekindReals.sig_forall_dec, FunctionalExtensionality.functional_extensionality_dep
Props_SixD.C69_prediction: ClassicalDedekindReals.sig_forall_dec, ClassicalDedekindReals.sig_not_dec, FunctionalExtensionality.functional_extensionality_dep
Props_SixD.C69_zero_time: ClassicalDedekindReals.sig_forall_dec, ClassicalDedekindReals.sig_not_dec, FunctionalExtensionality.functional_extensionality_dep
Props_SixD.C69_inactive: ClassicalDedekindReals.sig_forall_dec, ClassicalDedekindReals.sig_not_dec, FunctionalExtensionality.functional_extensionality_dep
Props_SixD.C69_run: ClassicalDedekindReals.sig_forall_dec, ClassicalDedekindReals.sig_not_dec, FunctionalExtensionality.functional_extensionality_dep
Props_SixD.C70_refuted: ClassicalDedekindReals.sig_forall_dec, ClassicalDedekindReals.sig_not_dec, Classical_Prop.classic, FunctionalExtensionality.functional_extensionality_dep
Props_SixD.C70_true_derivative: ClassicalDedekindReals.sig_forall_dec, ClassicalDedekindReals.sig_not_dec, Classical_Prop.classic, FunctionalExtensionality.functional_extensionality_dep
Props_SixD.C70_block_partial: ClassicalDedekindReals.sig_forall_dec, ClassicalDedekindReals.sig_not_dec, FunctionalExtensionality.functional_extensionality_dep
Props_SixD.C70_exact_iff_partial: ClassicalDedekindReals.sig_forall_dec, ClassicalDedekindReals.sig_not_dec, Classical_Prop.classic, FunctionalExtensionality.functional_extensionality_dep
Props_SixDArith.C71_refuted_add: ClassicalDedekindReals.sig_forall_dec, ClassicalDedekindReals.sig_not_dec, FunctionalExtensionality.functional_extensionality_dep
Props_SixDArith.C71_refuted_sum: ClassicalDedekindReals.sig_forall_dec, ClassicalDedekindReals.sig_not_dec, FunctionalExtensionality.functional_extensionality_dep
Props_SixDArith.C71_other_components_partial: ClassicalDedekindReals.sig_forall_dec, ClassicalDedekindReals.sig_not_dec, FunctionalExtensionality.functional_extensionality_dep
Props_SixDArith.C71_gravity_partial: ClassicalDedekindReals.sig_forall_dec, ClassicalDedekindReals.sig_not_dec, FunctionalExtensionality.functional_extensionality_dep
Props_SixDArith.C71_same_gravity_partial: ClassicalDedekindReals.sig_forall_dec, ClassicalDedekindReals.sig_not_dec, FunctionalExtensionality.functional_extensionality_dep
Props_SixDArith.C71_sum_others_partial: ClassicalDedekindReals.sig_forall_dec, ClassicalDedekindReals.sig_not_dec, FunctionalExtensionality.functional_extensionality_dep
Props_SixDArith.C71_sum_gravity_partial: ClassicalDedekindReals.sig_forall_dec, ClassicalDedekindReals.sig_not_dec, FunctionalExtensionality.functional_extensionality_dep
Props_SixDMeas.C72_imu: ClassicalDedekindReals.sig_forall_dec, FunctionalExtensionality.functional_extensionality_dep
Props_SixDMeas.C72_odom: ClassicalDedekindReals.sig_forall_dec, FunctionalExtensionality.functional_extensionality_dep
Props_SixDMeas.C72_imu_value: ClassicalDedekindReals.sig_forall_dec, FunctionalExtensionality.functional_extensionality_dep
Props_SixDMeas.C72_odom_value: ClassicalDedekindReals.sig_forall_dec, FunctionalExtensionality.functional_extensionality_dep
Props_Plot.C73_refuted: ClassicalDedekindReals.sig_forall_dec, ClassicalDedekindReals.sig_not_dec, Classical_Prop.classic, FunctionalExtensionality.functional_extensionality_dep
Props_Plot.C73_returns: ClassicalDedekindReals.sig_forall_dec, ClassicalDedekindReals.sig_not_dec, Classical_Prop.classic, FunctionalExtensionality.functional_extensionality_dep
Props_Plot.C73_partial: ClassicalDedekindReals.sig_forall_dec, ClassicalDedekindReals.sig_not_dec, Classical_Prop.classic, FunctionalExtensionality.functional_extensionality_dep
Props_Plot.C73_identity_partial: ClassicalDedekindReals.sig_forall_dec, ClassicalDedekindReals.sig_not_dec, Classical_Prop.classic, FunctionalExtensionality.functional_extensionality_dep
Props_Plot.C73_only_identity_partial: ClassicalDedekindReals.sig_forall_dec, ClassicalDedekindReals.sig_not_dec, Classical_Prop.classic, FunctionalExtensionality.functional_extensionality_dep
Props_FloatTime.C74_refuted: ClassicalDedekindReals.sig_forall_dec, ClassicalDedekindReals.sig_not_dec, Classical_Prop.classic, FunctionalExtensionality.functional_extensionality_dep
Props_FloatTime.C75_nan_is_permanent: ClassicalDedekindReals.sig_forall_dec, ClassicalDedekindReals.sig_not_dec, Classical_Prop.classic, FunctionalExtensionality.functional_extensionality_dep
Props_UKFRun.C76_ukf: closed
Props_UKFVS.C77_refuted: closed
Props_UKFVS.C77_wrong_variance: closed
Props_UKFVS.C78_refuted: closed
Props_SixDJac.C79_refuted: ClassicalDedekindReals.sig_forall_dec, ClassicalDedekindReals.sig_not_dec, Classical_Prop.classic, FunctionalExtensionality.functional_extensionality_dep
Props_SixDJac.C79_true_derivative: ClassicalDedekindReals.sig_forall_dec, ClassicalDedekindReals.sig_not_dec, Classical_Prop.classic, FunctionalExtensionality.functional_extensionality_dep
Props_SixDJac.C79_exact_iff_partial: ClassicalDedekindReals.sig_forall_dec, ClassicalDedekindReals.sig_not_dec, Classical_Prop.classic, FunctionalExtensionality.functional_extensionality_dep
Props_SixDJac.C79_rows: ClassicalDedekindReals.sig_forall_dec, ClassicalDedekindReals.sig_not_dec, FunctionalExtensionality.functional_extensionality_dep
Props_SixDJac.C79_constant_rows: ClassicalDedekindReals.sig_forall_dec, ClassicalDedekindReals.sig_not_dec, Classical_Prop.classic, FunctionalExtensionality.functional_extensionality_dep
Props_Plot.C80_on_ellipse: ClassicalDedekindReals.sig_forall_dec, ClassicalDedekindReals.sig_not_dec, FunctionalExtensionality.functional_extensionality_dep
Props_Plot.C80_points: ClassicalDedekindReals.sig_forall_dec, ClassicalDedekindReals.sig_not_dec, Classical_Prop.classic, FunctionalExtensionality.functional_extensionality_dep
Props_Plot.C80_too_many: ClassicalDedekindReals.sig_forall_dec, ClassicalDedekindReals.sig_not_dec, FunctionalExtensionality.functional_extensionality_dep
Props_Models.C81_unnamed_model_untouched: closed
Props_Models.C81_correct_updates_one_model: closed
Props_Models.C81_predict_touches_no_measurement_model: closed
Props_Models.C82_nothing_invented: closed
Props_S6Filter.C83_ekf: ClassicalDedekindReals.sig_forall_dec, ClassicalDedekindReals.sig_not_dec, ClassicalEpsilon.constructive_indefinite_description, Classical_Prop.classic, FunctionalExtensionality.functional_extensionality_dep
Props_S6Filter.C84_ekf: ClassicalDedekindReals.sig_forall_dec, ClassicalDedekindReals.sig_not_dec, ClassicalEpsilon.constructive_indefinite_description, Classical_Prop.classic, FunctionalExtensionality.functional_extensionality_dep
Props_S6Filter.C84_ekfvs: ClassicalDedekindReals.sig_forall_dec, ClassicalDedekindReals.sig_not_dec, ClassicalEpsilon.constructive_indefinite_description, Classical_Prop.classic, FunctionalExtensionality.functional_extensionality_dep
Props_S6UKF.C85_refuted: ClassicalDedekindReals.sig_forall_dec, ClassicalDedekindReals.sig_not_dec, ClassicalEpsilon.constructive_indefinite_description, Classical_Prop.classic, FunctionalExtensionality.functional_extensionality_dep
Props_S6UKF.C85_certain_partial: ClassicalDedekindReals.sig_forall_dec, ClassicalDedekindReals.sig_not_dec, ClassicalEpsilon.constructive_indefinite_description, Classical_Prop.classic, FunctionalExtensionality.functional_extensionality_dep
Props_S6UKF.C85_correct_partial: ClassicalDedekindReals.sig_forall_dec, ClassicalDedekindReals.sig_not_dec, ClassicalEpsilon.constructive_indefinite_description, Classical_Prop.classic, FunctionalExtensionality.functional_extensionality_dep
Props_S6Filter.C86_refuted: ClassicalDedekindReals.sig_forall_dec, ClassicalDedekindReals.sig_not_dec, ClassicalEpsilon.constructive_indefinite_description, Classical_Prop.classic, FunctionalExtensionality.functional_extensionality_dep
Props_S6Filter.C86_predict_partial: ClassicalDedekindReals.sig_forall_dec, ClassicalDedekindReals.sig_not_dec, ClassicalEpsilon.constructive_indefinite_description, Classical_Prop.classic, FunctionalExtensionality.functional_extensionality_dep
Props_S6Filter.C86_columns_partial: ClassicalDedekindReals.sig_forall_dec, ClassicalDedekindReals.sig_not_dec, ClassicalEpsilon.constructive_indefinite_description, Classical_Prop.classic, FunctionalExtensionality.functional_extensionality_dep
Props_S6UKF.C87_refuted: ClassicalDedekindReals.sig_forall_dec, ClassicalDedekindReals.sig_not_dec, ClassicalEpsilon.constructive_indefinite_description, Classical_Prop.classic, FunctionalExtensionality.functional_extensionality_dep
Props_S6UKF.C87_partial: ClassicalDedekindReals.sig_forall_dec, ClassicalDedekindReals.sig_not_dec, ClassicalEpsilon.constructive_indefinite_description, Classical_Prop.classic, FunctionalExtensionality.functional_extensionality_dep
Props_SixDGravity.C88_refuted: ClassicalDedekindReals.sig_forall_dec, ClassicalDedekindReals.sig_not_dec, Classical_Prop.classic, FunctionalExtensionality.functional_extensionality_dep
Props_SixDGravity.C88_true_derivative: ClassicalDedekindReals.sig_forall_dec, ClassicalDedekindReals.sig_not_dec, Classical_Prop.classic, FunctionalExtensionality.functional_extensionality_dep
Props_SixDGravity.C88_block: ClassicalDedekindReals.sig_forall_dec, ClassicalDedekindReals.sig_not_dec, FunctionalExtensionality.functional_extensionality_dep
Props_SixDGravity.C88_error_partial: ClassicalDedekindReals.sig_forall_dec, ClassicalDedekindReals.sig_not_dec, Classical_Prop.classic, FunctionalExtensionality.functional_extensionality_dep
Props_SixDGravity.C88_small_partial: ClassicalDedekindReals.sig_forall_dec, ClassicalDedekindReals.sig_not_dec, Classical_Prop.classic, FunctionalExtensionality.functional_extensionality_dep
Props_Planar.C89_refuted: ClassicalDedekindReals.sig_forall_dec, ClassicalDedekindReals.sig_not_dec, FunctionalExtensionality.functional_extensionality_dep
Props_Planar.C89_exact_partial: ClassicalDedekindReals.sig_forall_dec, ClassicalDedekindReals.sig_not_dec, FunctionalExtensionality.functional_extensionality_dep
Props_Planar.C89_short: ClassicalDedekindReals.sig_forall_dec, ClassicalDedekindReals.sig_not_dec, FunctionalExtensionality.functional_extensionality_dep
Props_Planar.C89_short_sum: ClassicalDedekindReals.sig_forall_dec, ClassicalDedekindReals.sig_not_dec, Classical_Prop.classic, FunctionalExtensionality.functional_extensionality_dep
Props_Planar.C89_sum: ClassicalDedekindReals.sig_forall_dec, ClassicalDedekindReals.sig_not_dec, Classical_Prop.classic, FunctionalExtensionality.functional_extensionality_dep
Props_AngleDiff.C90_range: ClassicalDedekindReals.sig_forall_dec, ClassicalDedekindReals.sig_not_dec, Classical_Prop.classic, FunctionalExtensionality.functional_extensionality_dep
Props_AngleDiff.C90_shortest: ClassicalDedekindReals.sig_forall_dec, ClassicalDedekindReals.sig_not_dec, Classical_Prop.classic, FunctionalExtensionality.functional_extensionality_dep
Props_AngleDiff.C90_antisymmetric: ClassicalDedekindReals.sig_forall_dec, ClassicalDedekindReals.sig_not_dec, Classical_Prop.classic, FunctionalExtensionality.functional_extensionality_dep
Props_AngleDiff.C90_accuracy: ClassicalDedekindReals.sig_forall_dec, ClassicalDedekindReals.sig_not_dec, Classical_Prop.classic, FunctionalExtensionality.functional_extensionality_dep
Props_AngleDiff.C90_otherwise: ClassicalDedekindReals.sig_forall_dec, ClassicalDedekindReals.sig_not_dec, Classical_Prop.classic, FunctionalExtensionality.functional_extensionality_dep
Props_KFFloat.C91_refuted: ClassicalDedekindReals.sig_forall_dec, ClassicalDedekindReals.sig_not_dec, Classical_Prop.classic, FunctionalExtensionality.functional_extensionality_dep
Props_KFFloat.C91_bound_partial: ClassicalDedekindReals.sig_forall_dec, ClassicalDedekindReals.sig_not_dec, Classical_Prop.classic, FunctionalExtensionality.functional_extensionality_dep
Props_KFFloat.C91_unit_partial: ClassicalDedekindReals.sig_forall_dec, ClassicalDedekindReals.sig_not_dec, Classical_Prop.classic, FunctionalExtensionality.functional_extensionality_dep
Props_KFFloat.C91_run_partial: ClassicalDedekindReals.sig_forall_dec, ClassicalDedekindReals.sig_not_dec, Classical_Prop.classic, FunctionalExtensionality.functional_extensionality_dep
Props_Sim.C92_kf_covariance_free_of_data: closed
Props_Sim.C93_kf: closed
Props_Sim.C93_ekf: closed
Props_Sim.C94_ekf_passive_states: closed
Props_Mono.C95_kf_monotone: closed
Props_LS.C96_exact_data: closed
Props_LS.C96_in_order: closed
Props_LS.C96_any_order: closed
Props_LS.C97_in_order: closed
Props_LS.C97_any_order: closed
Props_LS.C97_minimises: closed
Props_Csv.C98_lines: closed
Props_Csv.C98_number: ClassicalDedekindReals.sig_forall_dec, ClassicalDedekindReals.sig_not_dec, Classical_Prop.classic, FunctionalExtensionality.functional_extensionality_dep
Props_Csv.C98_range: ClassicalDedekindReals.sig_forall_dec, ClassicalDedekindReals.sig_not_dec, Classical_Prop.classic, FunctionalExtensionality.functional_extensionality_dep
Props_Csv.C98_no_number: ClassicalDedekindReals.sig_forall_dec, ClassicalDedekindReals.sig_not_dec, Classical_Prop.classic, FunctionalExtensionality.functional_extensionality_dep
Props_Csv.C98_load: ClassicalDedekindReals.sig_forall_dec, ClassicalDedekindReals.sig_not_dec, Classical_Prop.classic, FunctionalExtensionality.functional_extensionality_dep
Props_Csv.C98_refused: ClassicalDedekindReals.sig_forall_dec, ClassicalDedekindReals.sig_not_dec, Classical_Prop.classic, FunctionalExtensionality.functional_extensionality_dep
Props_Csv.C98_throws: ClassicalDedekindReals.sig_forall_dec, ClassicalDedekindReals.sig_not_dec, Classical_Prop.classic, FunctionalExtensionality.functional_extensionality_dep
Props_Csv.C98_missing: closed
Props_Csv.C99_number_partial: ClassicalDedekindReals.sig_forall_dec, ClassicalDedekindReals.sig_not_dec, Classical_Prop.classic, FunctionalExtensionality.functional_extensionality_dep
Props_Csv.C99_roundtrip_partial: ClassicalDedekindReals.sig_forall_dec, ClassicalDedekindReals.sig_not_dec, Classical_Prop.classic, FunctionalExtensionality.functional_extensionality_dep
Props_Csv.C99_error_partial: ClassicalDedekindReals.sig_forall_dec, ClassicalDedekindReals.sig_not_dec, Classical_Prop.classic, FunctionalExtensionality.functional_extensionality_dep
Props_Csv.C99_stable_partial: ClassicalDedekindReals.sig_forall_dec, ClassicalDedekindReals.sig_not_dec, Classical_Prop.classic, FunctionalExtensionality.functional_extensionality_dep
Props_Csv.C99_refuted: ClassicalDedekindReals.sig_forall_dec, ClassicalDedekindReals.sig_not_dec, Classical_Prop.classic, FunctionalExtensionality.functional_extensionality_dep
Props_Example.C100_rows: ClassicalDedekindReals.sig_forall_dec, ClassicalDedekindReals.sig_not_dec, ClassicalEpsilon.constructive_indefinite_description, Classical_Prop.classic, FunctionalExtensionality.functional_extensionality_dep
Props_Example.C100_times: ClassicalDedekindReals.sig_forall_dec, ClassicalDedekindReals.sig_not_dec, ClassicalEpsilon.constructive_indefinite_description, Classical_Prop.classic, FunctionalExtensionality.functional_extensionality_dep
Props_Example.C100_file: ClassicalDedekindReals.sig_forall_dec, ClassicalDedekindReals.sig_not_dec, ClassicalEpsilon.constructive_indefinite_description, Classical_Prop.classic, FunctionalExtensionality.functional_extensionality_dep
Props_Example.C101_names_partial: closed
Props_Example.C101_refuted: closed
Props_Example.C102_refused_partial: ClassicalDedekindReals.sig_forall_dec, ClassicalDedekindReals.sig_not_dec, ClassicalEpsilon.constructive_indefinite_description, Classical_Prop.classic, FunctionalExtensionality.functional_extensionality_dep
Props_Example.C102_near_partial: ClassicalDedekindReals.sig_forall_dec, ClassicalDedekindReals.sig_not_dec, ClassicalEpsilon.constructive_indefinite_description, Classical_Prop.classic, FunctionalExtensionality.functional_extensionality_dep
Props_Example.C102_refuted: ClassicalDedekindReals.sig_forall_dec, ClassicalDedekindReals.sig_not_dec, ClassicalEpsilon.constructive_indefinite_description, Classical_Prop.classic, FunctionalExtensionality.functional_extensionality_dep
Props_Example.C103_runs: ClassicalDedekindReals.sig_forall_dec, ClassicalDedekindReals.sig_not_dec, ClassicalEpsilon.constructive_indefinite_description, Classical_Prop.classic, FunctionalExtensionality.functional_extensionality_dep
Props_Example.C103_estimates: ClassicalDedekindReals.sig_forall_dec, ClassicalDedekindReals.sig_not_dec, ClassicalEpsilon.constructive_indefinite_description, Classical_Prop.classic, FunctionalExtensionality.functional_extensionality_dep
Props_Shift.C104_origin_of_time: closed
Props_Shift.C104_origin_of_time_doubles: ClassicalDedekindReals.sig_forall_dec, ClassicalDedekindReals.sig_not_dec, Classical_Prop.classic, FunctionalExtensionality.functional_extensionality_dep
Props_Shift.C105_first_call_partial: ClassicalDedekindReals.sig_forall_dec, ClassicalDedekindReals.sig_not_dec, Classical_Prop.classic, FunctionalExtensionality.functional_extensionality_dep
Props_Shift.C105_refuted: ClassicalDedekindReals.sig_forall_dec, ClassicalDedekindReals.sig_not_dec, Classical_Prop.classic, FunctionalExtensionality.functional_extensionality_dep
Props_Exact.C106_ekf: closed
Props_Exact.C106_ekfvs: closed
Props_Exact.C106_kf: closed
Props_Exact.C107_affine_partial: closed
Props_Exact.C107_mean: closed
Props_Exact.C107_refuted: closed
Props_Share.C108_forgetful_partial: closed
Props_ShareS6.C108_six_d_ekf_partial: ClassicalDedekindReals.sig_forall_dec, ClassicalDedekindReals.sig_not_dec, ClassicalEpsilon.constructive_indefinite_description, Classical_Prop.classic, FunctionalExtensionality.functional_extensionality_dep
Props_ShareS6.C108_six_d_ekfvs_partial: ClassicalDedekindReals.sig_forall_dec, ClassicalDedekindReals.sig_not_dec, ClassicalEpsilon.constructive_indefinite_description, Classical_Prop.classic, FunctionalExtensionality.functional_extensionality_dep
Props_ShareS6U.C108_six_d_ukf_partial: ClassicalDedekindReals.sig_forall_dec, ClassicalDedekindReals.sig_not_dec, ClassicalEpsilon.constructive_indefinite_description, Classical_Prop.classic, FunctionalExtensionality.functional_extensionality_dep
Props_ShareS6U.C108_six_d_ukfvs_partial: ClassicalDedekindReals.sig_forall_dec, ClassicalDedekindReals.sig_not_dec, ClassicalEpsilon.constructive_indefinite_description, Classical_Prop.classic, FunctionalExtensionality.functional_extensionality_dep
Props_Share.C108_refuted: closed
Props_MatFloat.C109_error_partial: ClassicalDedekindReals.sig_forall_dec, ClassicalDedekindReals.sig_not_dec, Classical_Prop.classic, FunctionalExtensionality.functional_extensionality_dep
Props_MatFloat.C109_state_partial: ClassicalDedekindReals.sig_forall_dec, ClassicalDedekindReals.sig_not_dec, Classical_Prop.classic, FunctionalExtensionality.functional_extensionality_dep
Props_MatFloat.C109_symmetry_partial: ClassicalDedekindReals.sig_forall_dec, ClassicalDedekindReals.sig_not_dec, Classical_Prop.classic, FunctionalExtensionality.functional_extensionality_dep
Props_MatFloat.C109_psd_partial: ClassicalDedekindReals.sig_forall_dec, ClassicalDedekindReals.sig_not_dec, Classical_Prop.classic, FunctionalExtensionality.functional_extensionality_dep
Props_MatFloat.C109_finite: ClassicalDedekindReals.sig_forall_dec, ClassicalDedekindReals.sig_not_dec, Classical_Prop.classic, FunctionalExtensionality.functional_extensionality_dep
Props_MatFloat.C109_numbers_partial: ClassicalDedekindReals.sig_forall_dec, ClassicalDedekindReals.sig_not_dec, Classical_Prop.classic, FunctionalExtensionality.functional_extensionality_dep
Props_Direct.C109_sign_partial: ClassicalDedekindReals.sig_forall_dec, ClassicalDedekindReals.sig_not_dec, Classical_Prop.classic, FunctionalExtensionality.functional_extensionality_dep
Props_Direct.C109_independent_partial: ClassicalDedekindReals.sig_forall_dec, ClassicalDedekindReals.sig_not_dec, Classical_Prop.classic, FunctionalExtensionality.functional_extensionality_dep
Props_MatFloat.C109_refuted: ClassicalDedekindReals.sig_forall_dec, ClassicalDedekindReals.sig_not_dec, Classical_Prop.classic, FunctionalExtensionality.functional_extensionality_dep
Props_MatFloat.C109_not_symmetric: ClassicalDedekindReals.sig_forall_dec, ClassicalDedekindReals.sig_not_dec, Classical_Prop.classic, FunctionalExtensionality.functional_extensionality_dep
Props_MatFloatC.C110_covariance_partial: ClassicalDedekindReals.sig_forall_dec, ClassicalDedekindReals.sig_not_dec, Classical_Prop.classic, FunctionalExtensionality.functional_extensionality_dep
Props_MatFloatC.C110_symmetry_partial: ClassicalDedekindReals.sig_forall_dec, ClassicalDedekindReals.sig_not_dec, Classical_Prop.classic, FunctionalExtensionality.functional_extensionality_dep
Props_MatFloatC.C110_state_partial: ClassicalDedekindReals.sig_forall_dec, ClassicalDedekindReals.sig_not_dec, Classical_Prop.classic, FunctionalExtensionality.functional_extensionality_dep
Props_MatFloatC.C110_ekf_state_partial: ClassicalDedekindReals.sig_forall_dec, ClassicalDedekindReals.sig_not_dec, Classical_Prop.classic, FunctionalExtensionality.functional_extensionality_dep
Props_MatFloatC.C110_gain_partial: ClassicalDedekindReals.sig_forall_dec, ClassicalDedekindReals.sig_not_dec, Classical_Prop.classic, FunctionalExtensionality.functional_extensionality_dep
Props_MatFloatC.C110_innovation_partial: ClassicalDedekindReals.sig_forall_dec, ClassicalDedekindReals.sig_not_dec, Classical_Prop.classic, FunctionalExtensionality.functional_extensionality_dep
Props_MatFloatC.C110_refuted: ClassicalDedekindReals.sig_forall_dec, ClassicalDedekindReals.sig_not_dec, Classical_Prop.classic, FunctionalExtensionality.functional_extensionality_dep
Props_MatFloatC.C110_not_symmetric: ClassicalDedekindReals.sig_forall_dec, ClassicalDedekindReals.sig_not_dec, Classical_Prop.classic, FunctionalExtensionality.functional_extensionality_dep
Props_VSFloat.C111_ekfvs_predict: ClassicalDedekindReals.sig_forall_dec, ClassicalDedekindReals.sig_not_dec, Classical_Prop.classic, FunctionalExtensionality.functional_extensionality_dep
Props_VSFloat.C111_ekfvs_predict_accuracy: ClassicalDedekindReals.sig_forall_dec, ClassicalDedekindReals.sig_not_dec, Classical_Prop.classic, FunctionalExtensionality.functional_extensionality_dep
Props_VSFloat.C111_ekfvs_predict_total: ClassicalDedekindReals.sig_forall_dec, ClassicalDedekindReals.sig_not_dec, Classical_Prop.classic, FunctionalExtensionality.functional_extensionality_dep
Props_VSFloat.C111_ekfvs_correct: ClassicalDedekindReals.sig_forall_dec, ClassicalDedekindReals.sig_not_dec, Classical_Prop.classic, FunctionalExtensionality.functional_extensionality_dep
Props_VSFloat.C111_ekfvs_correct_accuracy: ClassicalDedekindReals.sig_forall_dec, ClassicalDedekindReals.sig_not_dec, Classical_Prop.classic, FunctionalExtensionality.functional_extensionality_dep
Props_VSFloat.C111_ekfvs_correct_total: ClassicalDedekindReals.sig_forall_dec, ClassicalDedekindReals.sig_not_dec, Classical_Prop.classic, FunctionalExtensionality.functional_extensionality_dep
Props_VSFloat.C111_kfvs_predict: ClassicalDedekindReals.sig_forall_dec, ClassicalDedekindReals.sig_not_dec, Classical_Prop.classic, FunctionalExtensionality.functional_extensionality_dep
Props_VSFloat.C111_kfvs_predict_accuracy: ClassicalDedekindReals.sig_forall_dec, ClassicalDedekindReals.sig_not_dec, Classical_Prop.classic, FunctionalExtensionality.functional_extensionality_dep
Props_VSFloat.C111_kfvs_predict_total: ClassicalDedekindReals.sig_forall_dec, ClassicalDedekindReals.sig_not_dec, Classical_Prop.classic, FunctionalExtensionality.functional_extensionality_dep
Props_VSFloat.C111_kfvs_correct: ClassicalDedekindReals.sig_forall_dec, ClassicalDedekindReals.sig_not_dec, Classical_Prop.classic, FunctionalExtensionality.functional_extensionality_dep
Props_VSFloat.C111_kfvs_correct_accuracy: ClassicalDedekindReals.sig_forall_dec, ClassicalDedekindReals.sig_not_dec, Classical_Prop.classic, FunctionalExtensionality.functional_extensionality_dep
Props_VSFloat.C111_kfvs_correct_total: ClassicalDedekindReals.sig_forall_dec, ClassicalDedekindReals.sig_not_dec, Classical_Prop.classic, FunctionalExtensionality.functional_extensionality_dep
Props_UKFFloat.C112_weights: ClassicalDedekindReals.sig_forall_dec, ClassicalDedekindReals.sig_not_dec, Classical_Prop.classic, FunctionalExtensionality.functional_extensionality_dep
Props_UKFFloat.C112_cov_weights: ClassicalDedekindReals.sig_forall_dec, ClassicalDedekindReals.sig_not_dec, Classical_Prop.classic, FunctionalExtensionality.functional_extensionality_dep
Props_UKFFloat.C112_mean_partial: ClassicalDedekindReals.sig_forall_dec, ClassicalDedekindReals.sig_not_dec, Classical_Prop.classic, FunctionalExtensionality.functional_extensionality_dep
Props_UKFFloat.C112_still_partial: ClassicalDedekindReals.sig_forall_dec, ClassicalDedekindReals.sig_not_dec, Classical_Prop.classic, FunctionalExtensionality.functional_extensionality_dep
Props_UKFFloat.C112_drift_partial: ClassicalDedekindReals.sig_forall_dec, ClassicalDedekindReals.sig_not_dec, Classical_Prop.classic, FunctionalExtensionality.functional_extensionality_dep
Props_UKFFloat.C112_covariance_partial: ClassicalDedekindReals.sig_forall_dec, ClassicalDedekindReals.sig_not_dec, Classical_Prop.classic, FunctionalExtensionality.functional_extensionality_dep
Props_UKFFloat.C112_refuted: ClassicalDedekindReals.sig_forall_dec, ClassicalDedekindReals.sig_not_dec, Classical_Prop.classic, FunctionalExtensionality.functional_extensionality_dep
Props_UKFManifold.C113_correct_partial: closed
Props_S6UKFCorrect.C113_six_d_partial: ClassicalDedekindReals.sig_forall_dec, ClassicalDedekindReals.sig_not_dec, ClassicalEpsilon.constructive_indefinite_description, Classical_Prop.classic, FunctionalExtensionality.functional_extensionality_dep
Props_S6UKFCorrect.C113_negative: ClassicalDedekindReals.sig_forall_dec, ClassicalDedekindReals.sig_not_dec, ClassicalEpsilon.constructive_indefinite_description, Classical_Prop.classic, FunctionalExtensionality.functional_extensionality_dep
Props_S6UKFCorrect.C113_refuted: ClassicalDedekindReals.sig_forall_dec, ClassicalDedekindReals.sig_not_dec, ClassicalEpsilon.constructive_indefinite_description, Classical_Prop.classic, FunctionalExtensionality.functional_extensionality_dep
Props_Llt.C114_backward_partial: ClassicalDedekindReals.sig_forall_dec, ClassicalDedekindReals.sig_not_dec, Classical_Prop.classic, FunctionalExtensionality.functional_extensionality_dep
Props_Llt.C114_success_partial: ClassicalDedekindReals.sig_forall_dec, ClassicalDedekindReals.sig_not_dec, Classical_Prop.classic, FunctionalExtensionality.functional_extensionality_dep
Props_Llt.C114_default_partial: ClassicalDedekindReals.sig_forall_dec, ClassicalDedekindReals.sig_not_dec, Classical_Prop.classic, FunctionalExtensionality.functional_extensionality_dep
Props_Llt.C114_refuted: ClassicalDedekindReals.sig_forall_dec, ClassicalDedekindReals.sig_not_dec, Classical_Prop.classic, FunctionalExtensionality.functional_extensionality_dep
Props_UKFFloatC.C115_points_partial: ClassicalDedekindReals.sig_forall_dec, ClassicalDedekindReals.sig_not_dec, Classical_Prop.classic, FunctionalExtensionality.functional_extensionality_dep
Props_UKFFloatC.C115_innovation_partial: ClassicalDedekindReals.sig_forall_dec, ClassicalDedekindReals.sig_not_dec, Classical_Prop.classic, FunctionalExtensionality.functional_extensionality_dep
Props_UKFFloatC.C115_cross_partial: ClassicalDedekindReals.sig_forall_dec, ClassicalDedekindReals.sig_not_dec, Classical_Prop.classic, FunctionalExtensionality.functional_extensionality_dep
Props_UKFFloatC.C115_gain_partial: ClassicalDedekindReals.sig_forall_dec, ClassicalDedekindReals.sig_not_dec, Classical_Prop.classic, FunctionalExtensionality.functional_extensionality_dep
Props_UKFFloatC.C115_covariance_partial: ClassicalDedekindReals.sig_forall_dec, ClassicalDedekindReals.sig_not_dec, Classical_Prop.classic, FunctionalExtensionality.functional_extensionality_dep
Props_UKFFloatC.C115_symmetry_partial: ClassicalDedekindReals.sig_forall_dec, ClassicalDedekindReals.sig_not_dec, Classical_Prop.classic, FunctionalExtensionality.functional_extensionality_dep
Props_UKFFloatC.C115_decrease_partial: ClassicalDedekindReals.sig_forall_dec, ClassicalDedekindReals.sig_not_dec, Classical_Prop.classic, FunctionalExtensionality.functional_extensionality_dep
Props_UKFFloatC.C115_refuted: ClassicalDedekindReals.sig_forall_dec, ClassicalDedekindReals.sig_not_dec, Classical_Prop.classic, FunctionalExtensionality.functional_extensionality_dep
Props_FloatRun.C116_run_error_partial: ClassicalDedekindReals.sig_forall_dec, ClassicalDedekindReals.sig_not_dec, Classical_Prop.classic, FunctionalExtensionality.functional_extensionality_dep
Props_FloatRun.C116_stable_partial: ClassicalDedekindReals.sig_forall_dec, ClassicalDedekindReals.sig_not_dec, Classical_Prop.classic, FunctionalExtensionality.functional_extensionality_dep
Props_FloatRun.C116_stable_state_partial: ClassicalDedekindReals.sig_forall_dec, ClassicalDedekindReals.sig_not_dec, Classical_Prop.classic, FunctionalExtensionality.functional_extensionality_dep
Props_FloatRun.C116_refuted: ClassicalDedekindReals.sig_forall_dec, ClassicalDedekindReals.sig_not_dec, Classical_Prop.classic, FunctionalExtensionality.functional_extensionality_dep
Props_LuFloat.C117_residual_partial: ClassicalDedekindReals.sig_forall_dec, ClassicalDedekindReals.sig_not_dec, Classical_Prop.classic, FunctionalExtensionality.functional_extensionality_dep
Props_LuFloat.C117_inverse_partial: ClassicalDedekindReals.sig_forall_dec, ClassicalDedekindReals.sig_not_dec, Classical_Prop.classic, FunctionalExtensionality.functional_extensionality_dep
Props_LuFloat.C117_gain_partial: ClassicalDedekindReals.sig_forall_dec, ClassicalDedekindReals.sig_not_dec, Classical_Prop.classic, FunctionalExtensionality.functional_extensionality_dep
Props_LuFloat.C117_one_partial: ClassicalDedekindReals.sig_forall_dec, ClassicalDedekindReals.sig_not_dec, Classical_Prop.classic, FunctionalExtensionality.functional_extensionality_dep
Props_LuFloat.C117_refuted: ClassicalDedekindReals.sig_forall_dec, ClassicalDedekindReals.sig_not_dec, Classical_Prop.classic, FunctionalExtensionality.functional_extensionality_dep
Props_Direct.C118_variance: ClassicalDedekindReals.sig_forall_dec, ClassicalDedekindReals.sig_not_dec, Classical_Prop.classic, FunctionalExtensionality.functional_extensionality_dep
Props_Direct.C118_gain: ClassicalDedekindReals.sig_forall_dec, ClassicalDedekindReals.sig_not_dec, Classical_Prop.classic, FunctionalExtensionality.functional_extensionality_dep
Props_Direct.C118_state_kf: ClassicalDedekindReals.sig_forall_dec, ClassicalDedekindReals.sig_not_dec, Classical_Prop.classic, FunctionalExtensionality.functional_extensionality_dep
Props_Direct.C118_state_ekf: ClassicalDedekindReals.sig_forall_dec, ClassicalDedekindReals.sig_not_dec, Classical_Prop.classic, FunctionalExtensionality.functional_extensionality_dep
Props_Direct.C118_accuracy: ClassicalDedekindReals.sig_forall_dec, ClassicalDedekindReals.sig_not_dec, Classical_Prop.classic, FunctionalExtensionality.functional_extensionality_dep
Props_Direct.C118_noise: ClassicalDedekindReals.sig_forall_dec, ClassicalDedekindReals.sig_not_dec, Classical_Prop.classic, FunctionalExtensionality.functional_extensionality_dep
Props_Direct.C118_independent: ClassicalDedekindReals.sig_forall_dec, ClassicalDedekindReals.sig_not_dec, Classical_Prop.classic, FunctionalExtensionality.functional_extensionality_dep
Props_Direct.C118_history: ClassicalDedekindReals.sig_forall_dec, ClassicalDedekindReals.sig_not_dec, Classical_Prop.classic, FunctionalExtensionality.functional_extensionality_dep
Props_Direct.C118_repeated: ClassicalDedekindReals.sig_forall_dec, ClassicalDedekindReals.sig_not_dec, Classical_Prop.classic, FunctionalExtensionality.functional_extensionality_dep
Props_Direct.C118_repeated_noise: ClassicalDedekindReals.sig_forall_dec, ClassicalDedekindReals.sig_not_dec, Classical_Prop.classic, FunctionalExtensionality.functional_extensionality_dep
Props_DirectVS.C118_kfvs: ClassicalDedekindReals.sig_forall_dec, ClassicalDedekindReals.sig_not_dec, Classical_Prop.classic, FunctionalExtensionality.functional_extensionality_dep
Props_DirectVS.C118_ekfvs: ClassicalDedekindReals.sig_forall_dec, ClassicalDedekindReals.sig_not_dec, Classical_Prop.classic, FunctionalExtensionality.functional_extensionality_dep
Props_Direct.C118_scaled: ClassicalDedekindReals.sig_forall_dec, ClassicalDedekindReals.sig_not_dec, Classical_Prop.classic, FunctionalExtensionality.functional_extensionality_dep
