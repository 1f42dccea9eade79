# Formal model of stevendaniluk/state_estimation in Rocq (Coq 8.16.1)

Sources: `/repo` (read as text, never built or run). Everything below is about a hand-written
Gallina model; the tie to the C++ is the file/line citation on every definition and the model
following the code statement by statement. `properties.jsonl` holds the English properties,
`MANIFEST.json` maps them to theorems, `seeded/LOG.jsonl` records the wrong programs the theorems
were tried against.

## 1. Layers of the model

| files (rocq/theories) | model | style |
|---|---|---|
| `Outcome.v` | results `Ok a / Ub code`: undefined behaviour, NaN-producing inverses, dimension asserts, uninitialised reads, integer overflow and non-termination are distinct outcomes | stdlib |
| `FB_Model.v` | `FilterBase` (filter_base.h, filter_base.hpp) completely: initialize, predict, correct, queues, history, rewind, prune, accessors; generic in the arithmetic of time, in the algorithm (`myPredict`/`myCorrect`) and in the model objects | stdlib |
| `FB_*.v` | lemmas; `Props_FilterBase`, `Props_Rewind`, `Props_Queue` hold the property theorems | stdlib |
| `FloatTime.v`, `Props_FloatTime.v` | time as IEEE binary64 | Flocq |
| `ActiveSets.v` | FilterModel / SystemModel / MeasurementModel active index lists and usage flags | stdlib |
| `Subset.v` | data_subset_utilities, with its `uint16_t` loop counters | stdlib |
| `McRing.v`, `LinAlg.v`, `KF_Algebra.v` | ring/field tactics for mathcomp fields, semidefinite matrices, Kalman algebra | mathcomp |
| `KF_Model.v` | linear/nonlinear model classes, KalmanFilter, ExtendedKalmanFilter and their VS variants, over any real field | mathcomp |
| `FB_Alg.v`, `KF_Filter.v` | those algorithms plugged into `FilterBase` | mathcomp |
| `UKF_Model.v`, `UKF_Chol.v`, ... | UKF, UKFVS, with Eigen's unblocked LLT as an algorithm | mathcomp (real closed field) |
| `Angles.v` | angle_utilities.h and planar_2d_motion.cpp over the reals | Reals |
| `AngleFloat.v` | constrainAngle on binary64 | Flocq |
| `Spectral.v`, `QuatMean.v` | weightedQuaternion; SelfAdjointEigenSolver by contract (proved satisfiable) | mathcomp |
| `Geo.v`, `Integration.v`, `Transform.v` | quaternions, isometries, integration.cpp, transformation_utilities.cpp, imu_utilities.cpp | Reals, Coquelicot |
| `SixD.v` | definitions/six_d_rates.cpp, system_models/six_d_rates.cpp, both measurement models, FilterModel::setTf | Reals |
| `Plot.v` | plotting_utilities.cpp | Reals |

Time in `FilterBase` is a record of operations with three instances (exact, reals, IEEE binary64);
`a > b` and `a >= b` of C++ are kept apart from `!(a <= b)` because of NaN.

Each `Props_*.v` file starts a property with a small specification (definitions that do not mention
the model's helpers) and ends it with a `..._nonvacuous` example that meets the hypotheses with
concrete, non-trivial data.

## 2. How each property is treated

`R` = the property is false of the code. Then `Cxx_claim` is the claim as a closed proposition,
`Cxx_refuted` its negation by a concrete witness, and `Cxx_..._partial` the strongest true versions
(often an exact characterisation, "iff"). `MANIFEST.json` gives these the status `partial` with a note
that starts with `REFUTED`.

* C01 C03 C04 C21: for every state, against separately stated observers.
* C02 R (stored control survives initialize), C06 R, C20 R (processQueues ignores the result of rewindHistory), C08 R (rounding of time differences), C11 R, C12 R (pruneHistory works from the wrong end), C17 R (iterator invalidation), C23 R, C24 R, C27 R, C28 R, C29 R.
* C05 C07 C30 C74 C75: induction over arbitrary call sequences.
* C09 C10 C18 C19: refinement to "replay of the time-sorted log": invariant `history ++ [current] = scan of the sorted log`.
* C13 - C16: characterisation of the reverse-iteration loops for every history.
* C22 C25 C26: characterisation of applyControlInput / applyMeasurementInput.
* C81 C82 (`Props_Models`): invariants over call sequences: measurement models change only through
  inputs naming them; the recording algorithm is only asked for data given by the user.
* C83 C84 C86 R (`Props_S6Filter`), C85 R, C87 R (`Props_S6UKF`): the SixDRates, SixDRatesImu and SixDRatesOdom
  classes as model classes of the filters (`S6_Filter`, over Coq's reals made a mathcomp real closed field in `RealField`);
  invariants over call sequences through the general invariant theorem C30; C85/C87 by computing the unscented transform of a certain estimate.
* C88 R (`Props_SixDGravity`): derivative of the Rodrigues form with Coquelicot, the block of G in closed form, Taylor bounds on sin and cos for the error.
* C89 R (`Planar`, `Props_Planar`): the planar_2d operations on vectors of any length; exact characterisation of the usages that work.
* C90 (`AngleDiff`, `Props_AngleDiff`): angleDifference on Flocq binary64; fmod on significands; exactness by Sterbenz.
* C91 R (`KF_Float`, `Props_KFFloat`): the scalar filter on Flocq binary64; relative error analysis; induction over runs.
* C92 (`FB_Sim`, `FB_AlgSim`, `Props_Sim`): a simulation between two instances of FilterBase (relations on estimates, controls, models and measurements kept by every call), proved once for all call sequences and used with "equal covariance, any values".
* C93 (`Props_Sim`): the same simulation with the relation x' = Tx x, P' = Tx P Tx'; push-through identities for the gain.
* C94 (`Props_Sim`): the instance Tx = (1 0) of C93's argument.
* C95 (`Props_Mono`): the simulation of FB_AlgSim with the relation "psd P1 and P1 <= P2" on estimates; the corrected covariance is the minimum over all gains (C39) of a covariance monotone in P and Q.
* C97 (`LeastSquares`, `Props_LS`): specification `explains` (the histories that agree with the events and what they cost) and `fit`; two lemmas per step - minimising over the past of a motion, and splitting the cost of a measurement - for possibly singular covariances (penalty = the squared norm on the range); induction over the calls; any order through C11's theorem.
* C96 (`Props_LS`): a history without noise costs 0, so by C97 it is the cheapest.
* C44, C45, C50 for whole runs (`Props_SimRun`, `Props_SimRunU`): the simulation with equal estimates; for C50 the model objects of the two filters differ (they were updated at different points) but stand for the same affine map.
* C98 (`Csv`, `Props_Csv`): the text of examples/data_io.cpp as characters; specification `separated` and `decimal_text`; getline by induction over the pieces, stod by induction over digits with Flocq's correctly rounded division.
* C99 (`Props_Csv`): refuted by 2^-30; the round trip up to six decimals from C98 and exact printing in millionths.
* C100 (`Example6D`, `Props_Example`): the whole program examples/six_d_rates_example.cpp, from the characters of its input files to those of its output; std::sort is any function with its contract; induction over the measurements; the column names and values from C98's `separated`.
* C101 (`Props_Example`): refuted by cov_110; all 18^4 pairs of names decided by computation, which is exhaustive.
* C102 (`Props_ExampleTime`, `Props_Example`): refuted by concrete files (stamps 0, 2304, 6144, 6144 ns after the first); error bounds for the filter's time in binary64 by induction over the measurements.
* C103 (`Props_Example6D`, `Props_Example`): an invariant of the filter object (positive semidefinite covariance, gravity and biases untouched) with progress of every correct().
* C104 (`FB_Shift`, `Props_Shift`): a simulation between two runs whose timestamps are related by a relation that keeps order and differences; all of FilterBase; the input that produced the oldest state (whose timestamp is 0 in a new filter) is never looked at because the rewind loop never takes off the front. Instances: integers, doubles on a grid (Flocq).
* C105 (`Props_Shift`): refuted by a run of two calls; the first call by correct rounding of the difference.
* C106 (`FB_Follow`, `FB_AlgFollow`, `Props_Exact`): a one-sided simulation between the filter and a reference that follows the motion model and stops when a measurement differs from its prediction, lifted to whole runs like C92-C97.
* C107 (`Props_Exact`): refuted by one prediction of a squared state (mean x^2 + P); for affine models from C50 (whole runs) and C106.
* C108 (`Props_Share`, `FB_AlgForget`, `Props_ShareS6`, `Props_ShareS6U`): two filters are two `FB_Model` states whose model objects are made equal after every call; refuted in the trace environment; for objects without noticeable memory a simulation (`FB_Sim`) between the shared and the separate filters; the Jacobians of SixDRates are shown to be overwritten by every update.
* C109, C110 (`MatFloat`, `Props_MatFloat`, `Props_MatFloatC`): a relation "this double is a possible result of summing these products" that leaves order and fused multiply-add open; its error and absence of overflow by induction; two-stage sums for the triple products; refuted by 2x2 examples computed in the kernel.
* C111 (`VSFloat`, `Props_VSFloat`): the steps of KalmanFilterVS and EKFVS line by line as relations on doubles, with the loops of `Subset`; by the specifications of C34 each is a step of `MatFloat` on the reduced matrices.
* C112 R (`UKFFloat`, `Props_UKFFloat`): the UKF's weights, weighted sums and covariance as relations on doubles like C109; n + lambda is exact (Sterbenz), the weights' rounding errors are bounded, the sums by `MatFloat.sums_error`; drift by induction; refuted by evaluating the five-term sum.
* C113 R (`Props_UKFManifold`, `Props_S6UKFCorrect`): the shape of `UKF_Model.ukf_correct` for arbitrary sm_add/sm_sub; innovation covariance positive definite by `UKF_Algebra.ut_cov`; P - P' = K S K'. Refuted by computing the sigma points of gravity (`renorm`) and one row of the cross covariance, and Cauchy's inequality for S^-1.
* C114 R (`LltFloat`, `Props_Llt`): Eigen's LLT as a relation on doubles (a step's sum in any order, stop at a pivot <= 0). Componentwise backward error of each entry; success by induction over the columns: if columns 0..J-1 have small errors, the test vector solving L'v = -row_i (back substitution) shows that row i has not used up its variance, so the next pivot stays positive and finite (the argument of Demmel and Wilkinson). Refuted by a 2 x 2 matrix of integers.
* C115 R (`UKFFloatC`, `Props_UKFFloatC`): the stages of `myCorrect` as relations on doubles like C109 - C112; two-stage sums (`MatFloat.sums_error2`, `near2`) for weighted outer products of rounded differences and for K S K'; refuted by running the one-state filter.
* C116 R (`Props_FloatRun`): induction over the number of predictions on top of C109; the errors are passed on by |A| and forgotten if |A| contracts. Refuted by a variance that absorbs its noise (2^53 + 1 rounds to 2^53).
* C117 R (`LuFloat`, `Props_LuFloat`): Eigen's inverse() of a matrix of dynamic size (LU with row exchanges, two triangular solutions) as a relation on doubles like C109. Growth of the factors and absence of overflow by induction over the pivots; backward errors of the factorization and of both triangular systems, put together to a residual bound; every row is a pivot row by the pigeonhole principle. Refuted by running a 2 x 2 elimination in the kernel.
* C118 P (`Props_Direct`, `Props_DirectVS`): on the relations of C107 and C117 with k = 1. Sums in which at most one product is not 0 (or two that are doubles themselves) are rounded once, for every evaluation order (induction over `sums`), so with a unit row the innovation variance, the gain, 1 - K and the new variance are single roundings; x * rnd(1 / s) is at most 1 + u, whose rounding is 1; monotonicity of rounding gives the rest; the accuracy is relative-error arithmetic on the four roundings; repeated measurements by induction, because p -> p q / (p + q) does not enlarge an error; for decoupled states an invariant over the run (diagonal, non-negative: signs of sums whose products all have one sign); the variable-set filters by C111. The scaled counterexample is run in the kernel.
* C31 - C35: list lemmas and loop invariants; C32 R, C33 R, C35 R (uint16_t counters).
* C36 R, C72: the cached H of the 6-D measurement models, invariant over all sequences of setTf.
* C37 - C44: Kalman filter algebra over any real field (PSD/PD, information decrease, fixpoint, sequential = stacked, run invariant).
* C45 - C48: the VS filters as embeddings of the plain filter on the active subspace; C46 R (KalmanFilterVS::myPredict zeroes inactive states), C47 R.
* C49 - C52, C76 - C78: UKF; weights, exactness on affine models through the Cholesky factor, PSD, runs; C52 R, C77 R, C78 R.
* C53 - C57: angles; C54 R in doubles (loop never ends above 2^56).
* C58: spectral theorem + eigenvector of the largest eigenvalue.
* C59 - C62: quaternion exponentials, Rodrigues, Simpson error bound against the exact integral (Coquelicot).
* C63 - C66 transforms (C64 R, C66 R at +z). C67, C68 R: IMU utilities (derivatives by Coquelicot).
* C69, C70 R, C71 R, C79 R: SixDRates. C73 R, C80: ellipse points.

## 3. Trusted base

### 3.1 What has to be believed

* Coq 8.16.1's kernel (no `-type-in-type`, no `bypass_check`, no native-compute-only steps; the flags of
  `_CoqProject` are unchanged), coqc and the OCaml runtime.
* The axioms of section 3.2. All come from Coq's standard library (`Reals`, `Classical_Prop`,
  `ClassicalEpsilon`, `FunctionalExtensionality`); they enter through `Reals`, Flocq and Coquelicot. No axiom, parameter,
  `Admitted`, functor or module type is declared in this development; `Variable`/`Hypothesis` occur only inside sections.
* That the Gallina definitions say what the C++ says. Each carries the file and lines it models.

### 3.2 `Print Assumptions` of every theorem in MANIFEST.json

Generated by `tools/assumptions.py` and `tools/design_tail.py` from a built tree.

<!-- assumptions begin -->

**Closed under the global context (no axioms)** (197 theorems)

* `Props_FilterBase`: C01_initialize_exact, C01_construction_exact, C02_refuted, C02_fresh_without_controls_partial, C03_predict_not_in_future_ignored, C04_past_ignored_without_rewind, C05_time_monotone, C06_refuted
* `Props_Queue`: C18_queues_in_time_order, C19_refuted, C19_merge_partial, C20_refuted, C20_processed_in_order_partial, C21_queues, C22_last_control, C22_null_control, C23_refuted, C23_next_control_partial, C23_no_control_partial, C24_refuted, C24_predict_u_partial, C25_stationary_control, C25_stationary_predict_t, C25_stationary_measurement, C26_future_measurement, C26_present_or_past_measurement, C27_refuted, C27_no_advance_partial, C30_invariant
* `Props_Rewind`: C07_accepted_sets_time, C09_late_controls, C10_late_measurements, C11_refuted, C11_late_mixed_partial, C12_refuted, C12_history_grows_partial, C13_window_kept, C13_prune_keeps_window, C14_revert, C14_histories_ordered, C15_rejected_noop, C16_rewind_safe, C16_api_safe, C17_refuted, C17_every_discard_undefined, C28_refuted, C28_late_ties_partial
* `Props_Models`: C26_last_control, C26_null_control, C81_unnamed_model_untouched, C81_correct_updates_one_model, C81_predict_touches_no_measurement_model, C82_nothing_invented
* `Props_ActiveSets`: C31_setActive, C31_order_and_history, C32_refuted, C32_size_wraps, C32_distinct_partial, C32_usage_partial, C33_refuted, C33_enables_everything_partial, C33_valid_partial
* `Props_Subset`: C34_get_vector, C34_put_vector, C34_zeroed_vector, C34_get_matrix, C34_put_matrix, C34_zeroed_matrix, C34_square_versions, C34_roundtrip_vector, C34_roundtrip_matrix, C34_write_back_vector, C34_write_back_matrix, C35_refuted, C35_get_diverges, C35_put_diverges, C35_truncated_row_map, C35_short_maps_partial, C35_row_column_maps_partial
* `Props_KF`: C37_kf, C37_ekf, C37_kf_value, C38_kf, C38_ekf, C38_variances, C38_singular, C39_kf, C39_ekf, C39_attained, C40_kf, C40_kf_fixpoint, C40_ekf, C41, C42_sequential_is_stacked, C42_commute, C44_predict, C44_correct
* `Props_KFRun`: C43_kf, C43_ekf
* `Props_SimRun`: C44_run, C45_kfvs_run, C45_ekfvs_run
* `Props_VS`: C45_kfvs_predict, C45_kfvs_correct, C45_ekfvs_predict, C45_ekfvs_correct, C46_refuted, C46_kfvs_predict_zeroes, C46_kfvs_predict_cov_partial, C46_kfvs_correct_partial, C46_ekfvs_predict_cov_partial, C46_ekfvs_predict_partial, C46_ekfvs_correct_partial, C47_refuted_predict, C47_refuted_correct, C47_kfvs_predict_partial, C47_kfvs_correct_partial, C47_ekfvs_predict_partial, C47_ekfvs_correct_partial, C48_kfvs_predict, C48_kfvs_correct, C48_ekfvs_predict, C48_ekfvs_correct, C48_kfvs_predict_psd, C48_kfvs_correct_psd, C48_ekfvs_predict_psd, C48_ekfvs_correct_psd
* `Props_VSU`: C45_ukfvs_predict, C45_ukfvs_correct, C46_ukfvs_predict_cov_partial, C46_ukfvs_predict_partial, C46_ukfvs_correct_partial, C47_ukfvs_predict_partial, C47_ukfvs_correct_partial, C48_ukfvs_predict, C48_ukfvs_correct, C48_ukfvs_predict_psd, C48_ukfvs_predict_defined, C48_ukfvs_correct_pd
* `Props_SimRunU`: C45_ukfvs_run, C50_run
* `Props_UKF`: C49_weights, C49_default, C50_predict, C50_predict_ekf, C50_correct, C50_correct_ekf, C51_predict, C51_predict_pd, C51_predict_defined, C51_correct
* `UKF_Chol`: llt_correct
* `Props_UKFVS`: C52_refuted, C52_refuted_shrink, C52_predict_grow_oob, C52_predict_shrink_uninit, C52_correct_grow_oob, C52_correct_shrink_uninit, C52_same_size_partial, C77_refuted, C77_wrong_variance, C78_refuted
* `Props_QuatMean`: C58_total, C58_unit, C58_signs, C58_equal, C58_maximises, C58_unique, C58_rotated
* `Spectral`: eigen_solver_total
* `Props_Imu`: C68_always_uninitialised
* `Props_UKFRun`: C76_ukf
* `Props_Sim`: C92_kf_covariance_free_of_data, C93_kf, C93_ekf, C94_ekf_passive_states
* `Props_Mono`: C95_kf_monotone
* `Props_LS`: C96_exact_data, C96_in_order, C96_any_order, C97_in_order, C97_any_order, C97_minimises
* `Props_Csv`: C98_lines, C98_missing
* `Props_Example`: C101_names_partial, C101_refuted
* `Props_Shift`: C104_origin_of_time
* `Props_Exact`: C106_ekf, C106_ekfvs, C106_kf, C107_affine_partial, C107_mean, C107_refuted
* `Props_Share`: C108_forgetful_partial, C108_refuted
* `Props_UKFManifold`: C113_correct_partial

**Axioms: `ClassicalDedekindReals.sig_forall_dec`, `FunctionalExtensionality.functional_extensionality_dep`** (22 theorems)

* `Props_SixDMeas`: C36_stale_partial, C72_imu, C72_odom, C72_imu_value, C72_odom_value
* `Props_Transform`: C63_compose, C63_inverse, C63_identity, C64_refuted, C64_refuted_inverse, C64_convention_partial, C64_compose_rotations_partial, C64_compose_translations_partial, C65_symmetric, C65_psd, C65_variances, C65_trace, C65_det, C65_rotate_back, C65_compose
* `Props_Imu`: C68_refuted, C68_partial

**Axioms: `ClassicalDedekindReals.sig_forall_dec`, `ClassicalDedekindReals.sig_not_dec`, `FunctionalExtensionality.functional_extensionality_dep`** (53 theorems)

* `Props_Angles`: C53_constrainAngle, C53_function_is_program, C53_unique, C53_vector, C55_angleDifference, C55_vector, C57_add, C57_sub, C57_inverse, C57_inverse'
* `Props_Integration`: C59_unit, C59_compose, C59_zero_time, C59_inverse, C59_integrate, C60_rodrigues, C60_axis_fixed, C60_length, C60_dot, C60_small, C61_simpson, C61_no_rotation, C61_along_axis, C61_no_overshoot, C61_error, C61_frame, C62_no_rotation, C62_velocity, C62_no_overshoot
* `Props_Transform`: C66_refuted, C66_refuted_up, C66_partial, C66_zero
* `Props_Imu`: C67_unique
* `Props_SixD`: C69_prediction, C69_zero_time, C69_inactive, C69_run, C70_block_partial
* `Props_SixDArith`: C71_refuted_add, C71_refuted_sum, C71_other_components_partial, C71_gravity_partial, C71_same_gravity_partial, C71_sum_others_partial, C71_sum_gravity_partial
* `Props_SixDJac`: C79_rows
* `Props_Plot`: C80_on_ellipse, C80_too_many
* `Props_SixDGravity`: C88_block
* `Props_Planar`: C89_refuted, C89_exact_partial, C89_short

**Axioms: `ClassicalDedekindReals.sig_forall_dec`, `ClassicalDedekindReals.sig_not_dec`, `Classical_Prop.classic`, `FunctionalExtensionality.functional_extensionality_dep`** (150 theorems)

* `Props_FloatTime`: C04_doubles, C05_doubles_without_rewind, C74_grid_partial, C08_refuted, C08_time_partial, C08_within_factor_two_partial, C08_grid_partial, C09_late_controls_doubles, C10_late_measurements_doubles, C29_refuted, C29_nan_partial, C74_refuted, C75_nan_is_permanent
* `Props_SixDMeas`: C36_refuted_imu, C36_refuted_odom, C36_imu_iff_partial, C36_odom_iff_partial, C36_settled_partial
* `Props_AngleFloat`: C54_refuted, C54_diverges, C54_terminates_iff_partial, C54_in_range_partial, C54_one_turn_exact
* `Props_Angles`: C56_total, C56_equal_angles, C56_full_turns, C56_scaled_weights, C56_maximises, C56_unique_maximum, C56_common_offset, C57_weighted_sum
* `Props_Integration`: C61_exact_integral, C61_fifth_order, C61_small_rates
* `Props_Imu`: C67_accel_with_gravity, C67_accel_without_gravity, C67_gyro
* `Props_SixD`: C70_refuted, C70_true_derivative, C70_exact_iff_partial
* `Props_Plot`: C73_refuted, C73_returns, C73_partial, C73_identity_partial, C73_only_identity_partial, C80_points
* `Props_SixDJac`: C79_refuted, C79_true_derivative, C79_exact_iff_partial, C79_constant_rows
* `Props_SixDGravity`: C88_refuted, C88_true_derivative, C88_error_partial, C88_small_partial
* `Props_Planar`: C89_short_sum, C89_sum
* `Props_AngleDiff`: C90_range, C90_shortest, C90_antisymmetric, C90_accuracy, C90_otherwise
* `Props_KFFloat`: C91_refuted, C91_bound_partial, C91_unit_partial, C91_run_partial
* `Props_Csv`: C98_number, C98_range, C98_no_number, C98_load, C98_refused, C98_throws, C99_number_partial, C99_roundtrip_partial, C99_error_partial, C99_stable_partial, C99_refuted
* `Props_Shift`: C104_origin_of_time_doubles, C105_first_call_partial, C105_refuted
* `Props_MatFloat`: C109_error_partial, C109_state_partial, C109_symmetry_partial, C109_psd_partial, C109_finite, C109_numbers_partial, C109_refuted, C109_not_symmetric
* `Props_Direct`: C109_sign_partial, C109_independent_partial, C118_variance, C118_gain, C118_state_kf, C118_state_ekf, C118_accuracy, C118_noise, C118_independent, C118_history, C118_repeated, C118_repeated_noise, C118_scaled
* `Props_MatFloatC`: C110_covariance_partial, C110_symmetry_partial, C110_state_partial, C110_ekf_state_partial, C110_gain_partial, C110_innovation_partial, C110_refuted, C110_not_symmetric
* `Props_VSFloat`: C111_ekfvs_predict, C111_ekfvs_predict_accuracy, C111_ekfvs_predict_total, C111_ekfvs_correct, C111_ekfvs_correct_accuracy, C111_ekfvs_correct_total, C111_kfvs_predict, C111_kfvs_predict_accuracy, C111_kfvs_predict_total, C111_kfvs_correct, C111_kfvs_correct_accuracy, C111_kfvs_correct_total
* `Props_UKFFloat`: C112_weights, C112_cov_weights, C112_mean_partial, C112_still_partial, C112_drift_partial, C112_covariance_partial, C112_refuted
* `Props_Llt`: C114_backward_partial, C114_success_partial, C114_default_partial, C114_refuted
* `Props_UKFFloatC`: C115_points_partial, C115_innovation_partial, C115_cross_partial, C115_gain_partial, C115_covariance_partial, C115_symmetry_partial, C115_decrease_partial, C115_refuted
* `Props_FloatRun`: C116_run_error_partial, C116_stable_partial, C116_stable_state_partial, C116_refuted
* `Props_LuFloat`: C117_residual_partial, C117_inverse_partial, C117_gain_partial, C117_one_partial, C117_refuted
* `Props_DirectVS`: C118_kfvs, C118_ekfvs

**Axioms: `ClassicalDedekindReals.sig_forall_dec`, `ClassicalDedekindReals.sig_not_dec`, `ClassicalEpsilon.constructive_indefinite_description`, `Classical_Prop.classic`, `FunctionalExtensionality.functional_extensionality_dep`** (26 theorems)

* `Props_S6Filter`: C83_ekf, C84_ekf, C84_ekfvs, C86_refuted, C86_predict_partial, C86_columns_partial
* `Props_S6UKF`: C85_refuted, C85_certain_partial, C85_correct_partial, C87_refuted, C87_partial
* `Props_Example`: C100_rows, C100_times, C100_file, C102_refused_partial, C102_near_partial, C102_refuted, C103_runs, C103_estimates
* `Props_ShareS6`: C108_six_d_ekf_partial, C108_six_d_ekfvs_partial
* `Props_ShareS6U`: C108_six_d_ukf_partial, C108_six_d_ukfvs_partial
* `Props_S6UKFCorrect`: C113_six_d_partial, C113_negative, C113_refuted
<!-- assumptions end -->

### 3.3 Modelled

| code | where | exactly / simplified |
|---|---|---|
| include/state_estimation/filters/filter_base.h (all members) | `FB_Model.v` | every statement of every member function; `std::sort` by its contract on a strict weak order (NaN times are the outcome `ub_sort`), deque/vector as lists with iterator validity, raw measurement model pointers as indices into a store of objects; log messages are not modelled |
| filters/filter_model, system_model, measurement_model | `ActiveSets.v`, `SixD.v` (setTf), `KF_Model.v` | active lists with uint8/uint16 flags as in the code; unordered checks and early returns included |
| filters/kalman_filter, ekf, kalman_filter_vs, ekf_vs | `KF_Model.v`, `KF_Filter.v` | exact arithmetic over any real field; `inverse()` of a singular matrix is the outcome `ub_singular`; one state and one measurement also in IEEE binary64 (`KF_Float.v`); one predict or correct of kalman_filter and ekf in binary64 for any dimension, any order of additions, with `inverse()` arbitrary (`MatFloat.v`), and one predict or correct of kalman_filter_vs and ekf_vs with the sub-matrix loops (`VSFloat.v`); Eigen's `inverse()` in binary64 (`LuFloat.v`) |
| filters/ukf, ukf_vs | `UKF_Model.v` | exact arithmetic over any real closed field; `llt().matrixL()` is Eigen's column algorithm that stops at a non-positive pivot; columns that were never written are `ub_uninit`; column indices out of range are `ub_oob`; the weights, the square root, predict's mean and covariance and correct also in binary64, any order of additions (`UKFFloat.v`, `LltFloat.v`, `UKFFloatC.v`) |
| linear/nonlinear system and measurement models | `KF_Model.v` | user-supplied virtual functions are arbitrary (deterministic) functions, with their object state |
| utilities/data_subset_utilities | `Subset.v` | exactly, including the `uint16_t` loops |
| utilities/angle_utilities.h | `Angles.v`, `AngleFloat.v`, `AngleDiff.v`, `QuatMean.v` | real arithmetic; constrainAngle and angleDifference (with fmod) also in IEEE binary64 |
| utilities/integration, transformation_utilities, imu_utilities, plotting_utilities | `Integration.v`, `Transform.v`, `Plot.v` | real arithmetic; divisions by zero and uninitialised default arguments are outcomes |
| definitions/planar_2d_motion, six_d_rates | `Angles.v`, `Planar.v`, `SixD.v` | real arithmetic; planar_2d also on vectors of any length (usage) |
| examples/six_d_rates_example.cpp | `Example6D.v` | the whole main(); time stamps in binary64, the estimate in exact arithmetic with the decimal constants of the source; std::sort by its contract; infinite or NaN readings are outside the model (`OutsideModel`); console output and the failure to open the output file not modelled |
| examples/data_io | `Csv.v` | characters and IEEE binary64; getline, stod (without hexadecimal), to_string(double) as specified by the C++ standard; the output file can be opened and written |
| system_models/six_d_rates, measurement_models/six_d_rates_imu, _odom | `SixD.v` | real arithmetic, including the Jacobians' persistence between calls |

### 3.4 Not modelled

* Rounding of the SixD models (time stamps, constrainAngle, angleDifference, the one-state Kalman filter and single steps of the Kalman filter, EKF and their variable-set versions, and the UKF's weights, square root, prediction and correction, and Eigen's inverse() are the parts done in binary64).
* Aliasing and memory layout inside Eigen expressions, exceptions from allocation, multi-threading (the library has none).
* Log output (logging.h), the test utilities, operator<< and the plotting scripts.
* `math_utilities.cpp` is modelled as far as it is used (`skew`, `normalized`).
* The destructors. Copying a filter and sharing model objects is modelled in `Props_Share` only (for filters without matrix members of their own).
