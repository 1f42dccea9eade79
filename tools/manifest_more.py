c("C08", R, "C08_refuted C08_time_partial C08_within_factor_two_partial C08_grid_partial", "REFUTED: now = 2^-53, t = 1 + 2^-52 gives time 1.0. The time is the rounded now + (t - now); it is t when t <= 2*now, and on a dyadic grid.")
c("C29", R, "C29_refuted C29_nan_partial", "REFUTED with rewinding on: predict(u, NaN) is applied and the time becomes NaN. Ignored with rewinding off.")
c("C74", R, "C74_refuted C74_grid_partial", "REFUTED: predict at 1+2^-52, then a late predict at 2^-53; the replay ends at 1.0. True on a dyadic grid.")
c("C75", P, "C75_nan_is_permanent", "")
c("C31", P, "C31_setActive C31_order_and_history", "")
c("C32", R, "C32_refuted C32_size_wraps C32_distinct_partial C32_usage_partial", "REFUTED: setActiveStates({1, 1}) keeps both entries; activeStateSize() then exceeds the dimension or wraps to 0. True for lists without repetition; stateUsage() is unaffected by repetition.")
c("C33", R, "C33_refuted C33_enables_everything_partial C33_valid_partial", "REFUTED: a list with only invalid indices enables all states.")
c("C34", P, "C34_get_vector C34_put_vector C34_zeroed_vector C34_get_matrix C34_put_matrix C34_zeroed_matrix C34_square_versions C34_roundtrip_vector C34_roundtrip_matrix C34_write_back_vector C34_write_back_matrix", "dimensions below 65536 (they are uint16_t in the library)")
c("C35", R, "C35_refuted C35_get_diverges C35_put_diverges C35_truncated_row_map C35_short_maps_partial C35_row_column_maps_partial", "REFUTED: 65536 or more entries loop forever (uint16_t counter). True below 65536; row/column versions always end but drop rows.")
c("C37", P, "C37_kf C37_ekf C37_kf_value", "exact arithmetic, any real field")
c("C38", P, "C38_kf C38_ekf C38_variances C38_singular", "exact arithmetic; C38_singular shows the PD hypothesis is needed")
c("C39", P, "C39_kf C39_ekf C39_attained", "exact arithmetic")
c("C40", P, "C40_kf C40_kf_fixpoint C40_ekf", "exact arithmetic")
c("C41", P, "C41", "exact arithmetic")
c("C42", P, "C42_sequential_is_stacked C42_commute", "exact arithmetic")
c("C43", P, "C43_kf C43_ekf", "exact arithmetic; all call sequences of FilterBase, user model classes arbitrary up to sys_ok/meas_ok")
c("C44", P, "C44_predict C44_correct C44_run", "exact arithmetic; one step and, by a simulation, any sequence of calls. Witness C44_run_nonvacuous.")
c("C49", P, "C49_weights C49_default", "all alpha, kappa, beta and dimensions with alpha^2 (n + kappa) != 0; the defaults for every n > 0.")
c("C50", P, "C50_predict C50_predict_ekf C50_correct C50_correct_ekf C50_run llt_correct", "through the Cholesky algorithm of Eigen, for every PD covariance and alpha^2 (n + kappa) > 0; equality with the EKF where the models' Jacobians are those of the affine function, also through any sequence of calls (C50_run, by simulation). Witnesses C50_nonvacuous, C50_run_nonvacuous.")
c("C51", P, "C51_predict C51_predict_pd C51_predict_defined C51_correct", "any g and h (arbitrary model objects), n + lambda > 0, beta >= alpha^2. Witness UKF_nonvacuous with quadratic models and the default parameters.")
c("C76", P, "C76_ukf", "invariant over every sequence of FilterBase calls for the UKF. Witness C76_nonvacuous.")
c("C52", R, "C52_refuted C52_refuted_shrink C52_predict_grow_oob C52_predict_shrink_uninit C52_correct_grow_oob C52_correct_shrink_uninit C52_same_size_partial", "REFUTED: enabling any number of states after construction writes out of bounds, disabling any reads uninitialised columns (every change of the number of active states, every model). Partial: predictions are fine while the number is unchanged.")
c("C77", R, "C77_refuted C77_wrong_variance C50_predict", "REFUTED: covariance diag(0, 4) and the identity model: predicted variance 3.2e-5 instead of 4 with the default parameters (LLT stops at a zero pivot and is not checked). True for positive definite covariances: C50_predict.")
c("C78", R, "C78_refuted C50_predict_ekf", "REFUTED: V(y) = y, estimate 0: the noise is that at the last sigma point. Where the noise does not depend on the state: C50_predict_ekf.")
c("C45", P, "C45_kfvs_predict C45_kfvs_correct C45_ekfvs_predict C45_ekfvs_correct C45_ukfvs_predict C45_ukfvs_correct C45_kfvs_run C45_ekfvs_run C45_ukfvs_run", "empty lists or the list of all indices in order, any model objects; any sequence of calls by simulation. Witness C45_run_nonvacuous.")
c("C46", R, "C46_refuted C46_kfvs_predict_zeroes C46_kfvs_predict_cov_partial C46_kfvs_correct_partial C46_ekfvs_predict_cov_partial C46_ekfvs_predict_partial C46_ekfvs_correct_partial C46_ukfvs_predict_cov_partial C46_ukfvs_predict_partial C46_ukfvs_correct_partial", "REFUTED: every KalmanFilterVS prediction sets every inactive state to 0 (convertSubsetToFullZeroed). True for all corrections, for all covariance entries, and for EKFVS/UKFVS predictions when the model's g() keeps the state. Witness VS_nonvacuous.")
c("C47", R, "C47_refuted_predict C47_refuted_correct C47_kfvs_predict_partial C47_kfvs_correct_partial C47_ekfvs_predict_partial C47_ekfvs_correct_partial C47_ukfvs_predict_partial C47_ukfvs_correct_partial", "REFUTED: P = [[1,1],[1,1]] with the first state active becomes [[1/2,1],[1,1]] in a correction (cross covariances are kept). True, and preserved, when active and inactive states are uncorrelated. Witness VS_nonvacuous.")
c("C48", P, "C48_kfvs_predict C48_kfvs_correct C48_ekfvs_predict C48_ekfvs_correct C48_kfvs_predict_psd C48_kfvs_correct_psd C48_ekfvs_predict_psd C48_ekfvs_correct_psd C48_ukfvs_predict C48_ukfvs_correct C48_ukfvs_predict_psd C48_ukfvs_predict_defined C48_ukfvs_correct_pd", "the restricted models are defined in Props_VS.v (sub_lin, sub_nonlin, sub_lmeas, sub_nmeas). Witness VS_nonvacuous.")
c("C53", P, "C53_constrainAngle C53_function_is_program C53_unique C53_vector", "exact arithmetic; doubles are C54. Witness C53_nonvacuous.")
c("C54", R, "C54_refuted C54_diverges C54_terminates_iff_partial C54_in_range_partial C54_one_turn_exact", "REFUTED on IEEE binary64 (Flocq): above 2^56 (about 7.2e16) a - 2 pi rounds to a and the loop never ends. Exact: the call returns iff a is NaN or |a| <= 2^56, and then in [-M_PI, M_PI]. Witness C54_nonvacuous.")
c("C55", P, "C55_angleDifference C55_vector", "exact arithmetic, all reals. Witness C55_nonvacuous.")
c("C56", P, "C56_total C56_equal_angles C56_full_turns C56_scaled_weights C56_maximises C56_unique_maximum C56_common_offset", "exact arithmetic, weights of any sign (UKF weights are negative). Witness C56_nonvacuous.")
c("C57", P, "C57_add C57_sub C57_inverse C57_inverse' C57_weighted_sum", "Witness C57_nonvacuous.")
c("C59", P, "C59_unit C59_compose C59_zero_time C59_inverse C59_integrate", "both branches. Witness C59_nonvacuous.")
c("C60", P, "C60_rodrigues C60_axis_fixed C60_length C60_dot C60_small", "Witness C60_nonvacuous.")
c("C61", P, "C61_simpson C61_no_rotation C61_along_axis C61_no_overshoot C61_exact_integral C61_error C61_fifth_order C61_small_rates C61_frame", "exact integral as Coquelicot's is_RInt; error constant 1/2880 (Simpson). Witness C61_nonvacuous.")
c("C62", P, "C62_no_rotation C62_velocity C62_no_overshoot", "Witness C62_nonvacuous.")
c("C36", R, "C36_refuted_imu C36_refuted_odom C36_imu_iff_partial C36_odom_iff_partial C36_settled_partial C36_stale_partial", "REFUTED: setTf(quarter turn) then setTf(identity) leaves the quarter turn's H (setTf calls postTfUpdate only for non-identity transforms). Partial: exact condition over all sequences of setTf, both models. Witness C72_nonvacuous.")
c("C63", P, "C63_compose C63_inverse C63_identity", "exact arithmetic. Witness C63_nonvacuous.")
c("C64", R, "C64_refuted C64_refuted_inverse C64_convention_partial C64_compose_rotations_partial C64_compose_translations_partial", "REFUTED: the lever arm is rotated with the source frame, so a quarter turn with an offset of 1 does not compose. True for pure rotations and pure translations. Witness C64_nonvacuous.")
c("C65", P, "C65_symmetric C65_psd C65_variances C65_trace C65_det C65_rotate_back C65_compose", "exact arithmetic. Witness C65_nonvacuous.")
c("C66", R, "C66_refuted C66_refuted_up C66_partial C66_zero", "REFUTED: straight up (0, 0, k) divides by zero. True for every other non-zero vector. Witness C66_nonvacuous.")
c("C67", P, "C67_accel_with_gravity C67_accel_without_gravity C67_gyro C67_unique", "derivatives as Coquelicot's is_derive along every direction; exact arithmetic. Witness C67_nonvacuous.")
c("C68", R, "C68_refuted C68_always_uninitialised C68_partial", "REFUTED: the default orientation argument is an uninitialised quaternion and it is read for every argument. True when the orientation is passed, or gravity is not included.")
c("C69", P, "C69_prediction C69_zero_time C69_inactive C69_run", "exact arithmetic; all active sets reachable through the API; C69_run is the induction over any number of steps. Witness C69_nonvacuous.")
c("C70", R, "C70_refuted C70_true_derivative C70_block_partial C70_exact_iff_partial", "REFUTED: the block has + |v|^2 I + v v^T where the rotation has - |v|^2 I + 2 v v^T. It is right exactly when the step's rotation vector part is zero.")
c("C71", R, "C71_refuted_add C71_refuted_sum C71_other_components_partial C71_gravity_partial C71_same_gravity_partial C71_sum_others_partial C71_sum_gravity_partial", "REFUTED: differences and single weighted terms are rescaled to |g| = 9.8062, so (a - b) + b != a, and the sum of two copies with weights 1/2 has twice the gravity. Partial: what each operation does to each component. Witness C71_nonvacuous.")
c("C72", P, "C72_imu C72_odom C72_imu_value C72_odom_value", "all sequences of setTf that never moved anything or end with a non-identity transform (the rest is C36). Witness C72_nonvacuous.")
c("C58", P, "C58_total C58_unit C58_signs C58_equal C58_maximises C58_unique C58_rotated eigen_solver_total", "SelfAdjointEigenSolver by its contract, which is shown satisfiable for every symmetric matrix (spectral theorem, Spectral.v). Witness C58_nonvacuous.")
c("C73", R, "C73_refuted C73_returns C73_partial C73_identity_partial C73_only_identity_partial", "REFUTED: the semi-axes are the eigenvalues, not their square roots: diag(4, 4) gives points at Mahalanobis distance 2. Partial: the points are the one-sigma ellipse of cov * cov; right only for the identity. Witness C73_nonvacuous.")
c("C80", P, "C80_on_ellipse C80_points C80_too_many", "exact arithmetic; from 2^31 points on the int loop counter overflows (C80_too_many). Witness C80_nonvacuous.")
c("C79", R, "C79_refuted C79_true_derivative C79_exact_iff_partial C79_rows C79_constant_rows", "REFUTED: the velocity/acceleration block is dt I whatever the rotation; with a full turn per step the derivative is -dt/3. It is right exactly for dt = 0 or no rotation in half the step; the rows of acceleration, rates and biases are right for every history. Witness C79_nonvacuous.")
c("C81", P, "C81_unnamed_model_untouched C81_correct_updates_one_model C81_predict_touches_no_measurement_model", "any call sequence. Witness C81_nonvacuous.")
c("C82", P, "C82_nothing_invented", "any call sequence, on the algorithm that records what it is asked to do. Witness C82_nonvacuous.")
c("C83", P, "C83_ekf", "any measurement classes whose objects keep positive definite covariances; user-supplied makeStationary functions within the bounds. Witness S6_nonvacuous (SixDRatesImu, SixDRatesOdom, the example's makeStationary).")
c("C84", P, "C84_ekf C84_ekfvs", "any measurement classes; user-supplied makeStationary functions that keep gravity. Witness S6_nonvacuous.")
c("C85", R, "C85_refuted C85_certain_partial C85_correct_partial", "REFUTED: weightedSumOfStates rescales every term to |g|, so 37 equal sigma points give 35 times gravity. Partial: the exact result from a certain estimate for all parameters; every correction gives the standard magnitude (or zero) again. The refutation is its own witness.")
c("C86", R, "C86_refuted C86_predict_partial C86_columns_partial", "REFUTED: the bias rows of the noise Jacobian are never written. Partial: prediction changes no bias (co)variance; the bias noise columns equal those of jerk and angular acceleration. Witness in C86_refuted.")
c("C87", R, "C87_refuted C87_partial", "REFUTED: the predicted covariance gets (2 - alpha^2 + beta) g g'. Partial: the exact covariance from a certain estimate for all parameters. The refutation is its own witness.")
c("C88", R, "C88_refuted C88_true_derivative C88_block C88_error_partial C88_small_partial", "REFUTED: the block lacks the term -1/2 dt^2 (w . d) g. Partial: the true derivative, the block in closed form for every state, and after adding the missing term a third order error bound; below the threshold of deltaQuaternion the true derivative is 0 while the block is not. Witness: C88_nonvacuous.")
c("C89", R, "C89_refuted C89_exact_partial C89_short C89_short_sum C89_sum", "REFUTED: usage is ignored (TODO in the code) and entry 6 of the vector is taken for the heading. Partial: the operations are right for exactly those usages with the first seven states in use; with fewer than seven states in use every call accesses out of bounds. Witnesses: C89_nonvacuous, C89_nonvacuous_sum.")
c("C90", P, "C90_range C90_shortest C90_antisymmetric C90_accuracy C90_otherwise", "IEEE binary64 (Flocq); fmod is defined on significands and proved exact (AngleDiff.fmod_finite). Witness: C90_nonvacuous.")
c("C91", R, "C91_refuted C91_bound_partial C91_unit_partial C91_run_partial", "REFUTED on IEEE binary64: C = 31, P = 1, Q = 2^-60 gives -2^-52. Partial: the variance is never above the old one and never below -2^-50 times the old one for all C; never negative for C = 1 or -1, also over runs of any length with process noise. Witness: C91_nonvacuous.")
c("C92", P, "C92_kf_covariance_free_of_data", "all call sequences, including rewinds and queues (simulation between two runs). Witness: C92_nonvacuous.")
c("C93", P, "C93_kf C93_ekf", "all call sequences; Tx need not be square or invertible, the units of the measurements must be. Witness: C93_nonvacuous.")
c("C94", P, "C94_ekf_passive_states", "all call sequences. Witness: C94_nonvacuous.")
c("C95", P, "C95_kf_monotone", "all call sequences; the models' A and C may depend on time and on the mode, not on the data. Witness: C95_nonvacuous.")
c("C96", P, "C96_exact_data C96_in_order C96_any_order", "in time order, and out of order / through queues under the hypotheses of C11 (which is false beyond them). Witness: C96_nonvacuous, C97_nonvacuous_*.")
c("C97", P, "C97_in_order C97_any_order C97_minimises", "in time order, and out of order / through queues under the hypotheses of C11. Specification: LeastSquares.penalty, Props_LS.explains/fit. Witnesses: C97_nonvacuous_models, C97_nonvacuous_run, C97_nonvacuous_late.")
c("C98", P, "C98_lines C98_number C98_range C98_no_number C98_load C98_refused C98_throws C98_missing", "specification: Props_Csv.separated (a file is its lines joined by the separator), decimal_text (what a text says as a real number). Hexadecimal texts are not modelled. Witnesses: C98_nonvacuous, C98_nonvacuous_number, C98_nonvacuous_throws.")
c("C99", R, "C99_number_partial C99_roundtrip_partial C99_error_partial C99_stable_partial C99_refuted", "false as stated (C99_refuted): std::to_string keeps six digits after the point. Proved: the rows come back with the same shape, every number is the nearest double to the nearest millionth, the error is at most half a millionth plus rounding, infinities and NaN come back, and writing again gives the same file. Missing: the digits below one millionth. Witness: C99_nonvacuous.")
c("C100", P, "C100_rows C100_times C100_file", "std::sort is any function meeting its contract (Props_Example.sort_ok, inhabited by ex_isort: isort_ok); rounding of the estimate is any function dbl. Witness: C103_nonvacuous (concrete files, four rows).")
c("C101", R, "C101_names_partial C101_refuted", "false as stated (C101_refuted: cov_110). Proved: exactly the pairs (1, 10 + d) and (11, d) share a name. Missing: nothing else shares.")
c("C102", R, "C102_refused_partial C102_near_partial C102_refuted", "false as stated (C102_refuted: concrete files; two IMU readings with one stamp, the second is refused because the filter's time was rounded up). Proved: a refused measurement repeats the row before it; with whole nanoseconds over at most 2^49 ns every row's time is right to 2^-31 s and a measurement is refused only if the one before it has the same stamp. Witnesses: C102_near_nonvacuous, C103_nonvacuous.")
c("C103", P, "C103_runs C103_estimates", "the estimate in exact arithmetic, times in binary64. Witness: C103_nonvacuous.")
c("C104", P, "C104_origin_of_time C104_origin_of_time_doubles", "exact integer time and doubles on a dyadic grid. std::sort sees timestamps only through comparisons (FB_Shift.sort_by_comparisons, met by gnu_sort_by_comparisons). Witnesses: C104_nonvacuous, C104_doubles_nonvacuous.")
c("C105", R, "C105_first_call_partial C105_refuted", "false as stated (C105_refuted: 2^-53, 1 + 2^-52, 2 moved by -2^-52). Proved: the estimate after the first call is the same for all finite doubles; C104_origin_of_time_doubles for every sequence of calls on a dyadic grid.")
c("C106", P, "C106_ekf C106_ekfvs C106_kf", "compared with a reference filter that only applies the motion model and stops when a measurement differs from the prediction (Props_Exact.reckon_predict, reckon_correct). Witness: C106_nonvacuous (a late measurement that is replayed).")
c("C107", R, "C107_affine_partial C107_mean C107_refuted", "false as stated (C107_refuted; C107_mean: with g(x) = x^2 the UKF predicts x^2 + P). Proved for affine models, whole runs. Witness: C107_nonvacuous.")
c("C108", R, "C108_forgetful_partial C108_six_d_ekf_partial C108_six_d_ekfvs_partial C108_six_d_ukf_partial C108_six_d_ukfvs_partial C108_refuted", "false as stated (C108_refuted: predict(t) of the first filter puts its old control covariance into the shared object). Proved: true for objects that have no memory a filter notices (Props_Share.forgetful), which holds for EKF, EKFVS, UKF and UKFVS (both filters with the same sigma point parameters) on SixDRates, SixDRatesImu and SixDRatesOdom objects in every configuration, as long as nobody calls the objects. Missing: objects with controls whose covariance changes. Witnesses: C108_six_d_nonvacuous, C108_six_d_ukf_nonvacuous.")
c("C109", R, "C109_error_partial C109_state_partial C109_symmetry_partial C109_psd_partial C109_finite C109_numbers_partial C109_sign_partial C109_independent_partial C109_refuted C109_not_symmetric", "false as stated (C109_refuted: two states, A = [156761 -208545; 0 5], first variance -86536 instead of 70225; C109_not_symmetric). Proved: exact error bounds, so symmetric and positive semidefinite up to rounding; no overflow for up to 500 states, noises and controls below 2^100. variances are non-negative when no term of the double sum is negative (independent states and noises, or non-negative covariances with a non-negative model). Specification: Props_MatFloat.exact_cov, rounding, no_cancellation. Missing: the sign when terms cancel, and the symmetry itself. Witnesses: C109_nonvacuous, C109_state_nonvacuous, C109_sign_nonvacuous.")
c("C110", R, "C110_covariance_partial C110_symmetry_partial C110_state_partial C110_ekf_state_partial C110_gain_partial C110_innovation_partial C110_refuted C110_not_symmetric", "false as stated (C110_refuted: one measurement with C = [216 0], noise 2^-20; C110_not_symmetric). Proved: error bounds for the innovation covariance, for the gain with whatever inverse() returns, and for state and covariance with whatever gain; the asymmetry in terms of how far the gain is from solving its equation. Accuracy of Eigen's inversion: C117. The sign of the measured variance for one direct measurement: C118. Missing: the other signs and the symmetry itself. Witness: C110_nonvacuous.")
c("C111", P, "C111_ekfvs_predict C111_ekfvs_predict_accuracy C111_ekfvs_predict_total C111_ekfvs_correct C111_ekfvs_correct_accuracy C111_ekfvs_correct_total C111_kfvs_predict C111_kfvs_predict_accuracy C111_kfvs_predict_total C111_kfvs_correct C111_kfvs_correct_accuracy C111_kfvs_correct_total", "the code's sub-matrix functions with their uint16_t loops (Subset.v) on doubles, together with MatFloat. What inverse() returns for the computed innovation covariance is an arbitrary relation (inverts). The total theorems: a step always has a result (no undefined behaviour). Witness: C111_nonvacuous.")
c("C112", R, "C112_weights C112_cov_weights C112_mean_partial C112_still_partial C112_drift_partial C112_covariance_partial C112_refuted", "false as stated (C112_refuted: two states at 1, default parameters, predict with a constant model gives 1 + 2^-34). Proved: the computed weights of the mean add up to 1 within 2^-31, those of the covariance to 1 + (1 - alpha^2 + beta) within 2^-29; the mean is within (2n+1) 2^-31 of the largest sigma point of the weighted mean; one prediction moves the state by at most (2n+2) 2^-31 of itself and k predictions by at most (1 + (2n+2) 2^-31)^k - 1; error bound of the covariance for any weights. Missing: exactness. The square root is C114, the correction C115.")
c("C113", R, "C113_correct_partial C113_six_d_partial C113_negative C113_refuted", "REFUTED: one correct() with an IMU measurement of a UKF over SixDRates, level, covariance p I and measurement covariance r I with r <= p (p up to 3*10^5 with the default parameters), leaves a negative variance for gravity, whatever is measured and whatever the other states (C113_negative); subtractState stretches the difference of two gravity vectors to the length of gravity, so the cross covariance is far too large. Proved for every system model that overrides the state operations, and for SixDRates with both sensors: the correction never fails, keeps the covariance symmetric, increases no variance. The refutation is its own witness.")
c("C114", R, "C114_backward_partial C114_success_partial C114_default_partial C114_refuted", "false as stated (C114_refuted: P = [4007345515705266 3451244358460717; 3451244358460717 2972313611373402] is positive definite, the second pivot is computed <= 0, and the spread of the sigma points is off by more than the variance). Proved: the factorization succeeds for every evaluation order if the eigenvalues of the correlation matrix are at least 4 (n+5)^2 2^-53 and the variances are between 2^-800 and 2^800, and then L L' / (n + lambda) is the covariance to within 4 (n+5) 2^-53 sqrt(P_ii P_kk); whenever all pivots are positive, a componentwise backward error bound. Missing: matrices closer to singular. Witness: C114_nonvacuous.")
c("C115", R, "C115_points_partial C115_innovation_partial C115_cross_partial C115_gain_partial C110_ekf_state_partial C115_covariance_partial C115_symmetry_partial C115_decrease_partial C115_refuted", "false as stated (C115_refuted: one state at 0 with variance 182 measured with variance 2^-44, default parameters: the variance becomes negative). Proved: error bounds for each stage (the sigma points; the state by C110_ekf_state_partial with the predicted measurement for h), symmetry up to rounding and the asymmetry of S, no variance grows by more than rounding. Specification: Props_UKFFloatC.spread, exact_ukf_corr. Missing: the sign and the symmetry themselves (inverse() is C117). Witness: C115_nonvacuous.")
c("C116", R, "C116_run_error_partial C116_stable_partial C116_stable_state_partial C116_refuted", "false as stated (C116_refuted: a static state with variance 2^53 and noise 1 per step keeps its variance forever; exact arithmetic adds 1 per step). Proved: for any sequence of matrices the error after k steps is at most the recursion E' = |A| E |A|' + rounding of the step; if the row sums of |A| are at most r with r^2 <= 1 - theta (A need not be constant) state and covariance stay finite, bounded by W and within 2^-42 W / theta of exact arithmetic forever. Specification: exact_cov_run, exact_state_run. Missing: a bound for motion models that do not contract. Witnesses: C116_stable_meets_hyps, C116_stable_state_meets_hyps.")
c("C117", R, "C117_residual_partial C117_inverse_partial C117_gain_partial C117_one_partial C117_refuted", "false as stated (C117_refuted: a 2 x 2 matrix of Fibonacci numbers with determinant 1; the computed inverse has a negative variance). Proved for LU with row exchanges (what Eigen does for matrices of dynamic size), up to 100 measurements: whenever the result is finite, S X is the identity up to 2^-38 n s 2.001^n |X|, X is the exact inverse and K the exact gain up to the corresponding error; with one measurement the result is finite and S X = 1 up to 2^-35. Specification: times, identity. Missing: positive variances, and when the result is finite for more than one measurement. Witnesses: C117_nonvacuous, fib_negative.")
c("C118", P, "C118_variance C118_gain C118_state_kf C118_state_ekf C118_accuracy C118_noise C118_independent C118_history C118_repeated C118_repeated_noise C118_kfvs C118_ekfvs C118_scaled", "The gain is between 0 and 1, the new variance between 0 and the old one, the new state between the old one and rnd(x + rnd(z - x)); the new variance is p q / (p + q) up to 2^-50 p. C118_independent: if the states are independent (diagonal covariance) the gain of every other state is 0 and its variance is unchanged. C118_history: with states that do not influence each other (in particular one state) and independent noises the covariance stays diagonal with no negative variance after any sequence of predicts and corrections that does not overflow. C118_repeated: after direct measurements of a state with noises q1, q2, ... its variance is 1 / (1/p + 1/q1 + 1/q2 + ...) up to (2^-50 p + 2^-1075) for each; C118_repeated_noise: so k measurements of noise q leave at most q / k, up to that. Only the variance of the measured state must be non-negative; the rest of the covariance is arbitrary. C118_scaled: the reading must be direct; a row [7], variance 10^6 and noise 2^-40 give a negative variance. C118_kfvs, C118_ekfvs: the same for the variable-set filters with any active states and one active measurement, and nothing else of the covariance changes. Specification: reads, direct_input, decoupled_step, separate, independent_noise, direct_active, moved_directly. Witnesses: C118_nonvacuous, C118_repeated_nonvacuous, C118_history_nonvacuous, C118_vs_nonvacuous.")
