{"id": "C01", "title": "initialize establishes exactly the supplied estimate", "statement": "After initialize(x, cov, t) (or construction with x, cov, t), getState(), getCovariance() and getStateTime() return exactly x, cov and t; the queues are empty (processQueues() changes nothing) and the history is empty (revertToState(s) for s <= t returns false and changes nothing).", "quantifier": "every x, cov, t and every previous history of calls on the filter", "why_tests_cant": "the previous history is arbitrary; a test can only try a few prior call sequences", "anchors": ["include/state_estimation/filters/filter_base.hpp:initialize", "include/state_estimation/filters/filter_base.hpp:clear", "include/state_estimation/filters/filter_base.hpp:revertToState", "include/state_estimation/filters/filter_base.hpp:processQueues"]}
{"id": "C02", "title": "re-initialising a used filter gives a fresh filter", "statement": "A filter on which initialize(x, cov, t) is called behaves from then on exactly like a newly constructed filter with the same arguments and the same model objects (in particular predict(t) uses a null control until a new control is given).", "quantifier": "every previous history and every continuation", "why_tests_cant": "equivalence of all continuations after all histories", "anchors": ["include/state_estimation/filters/filter_base.hpp:initialize", "include/state_estimation/filters/filter_base.h:predict"]}
{"id": "C03", "title": "a prediction without control that is not in the future is ignored", "statement": "predict(t) with t <= getStateTime() changes nothing observable: not the estimate, time, history, queues, stored control or models, in every parameter setting.", "quantifier": "every reachable filter state, every t, every parameter setting", "why_tests_cant": "quantifies over all states and all parameter settings", "anchors": ["include/state_estimation/filters/filter_base.hpp:predict(double)"]}
{"id": "C04", "title": "with rewinding off, inputs in the past are ignored", "statement": "With rewind_history = false, predict(u, t) with t < getStateTime() changes nothing, and correct(z, Q, t, m) with t < getStateTime() changes nothing unless allow_measurements_in_past is set.", "quantifier": "every filter state, every u, z, Q, t, model", "why_tests_cant": "all states and inputs", "anchors": ["include/state_estimation/filters/filter_base.hpp:predict(u,t)", "include/state_estimation/filters/filter_base.hpp:correct"]}
{"id": "C05", "title": "the estimate's time never moves backwards under predict/correct", "statement": "For fixed parameters, any sequence of predict(t), predict(u, t) and correct(z, Q, t, m) calls, in any time order and with rewinding on or off, never makes getStateTime() decrease.", "quantifier": "all finite call sequences with arbitrary timestamps, both rewinding modes", "why_tests_cant": "the rewind-and-replay path makes the intermediate time go back; only an induction over all call sequences shows the final time never does", "anchors": ["include/state_estimation/filters/filter_base.hpp:predict", "include/state_estimation/filters/filter_base.hpp:correct", "include/state_estimation/filters/filter_base.hpp:rewindHistory", "include/state_estimation/filters/filter_base.hpp:applyInput"]}
{"id": "C06", "title": "processing the queues never moves the estimate's time backwards", "statement": "processQueues() never makes getStateTime() decrease.", "quantifier": "every reachable filter state and every contents of the queues", "why_tests_cant": "depends on every combination of queue contents, history and parameters", "anchors": ["include/state_estimation/filters/filter_base.hpp:processQueues", "include/state_estimation/filters/filter_base.hpp:pruneQueue", "include/state_estimation/filters/filter_base.hpp:rewindHistory"]}
{"id": "C07", "title": "an accepted input sets the estimate's time to its timestamp", "statement": "In exact arithmetic, after an accepted predict(t), predict(u, t) or correct(z, Q, t, m) with t >= getStateTime() the state time is exactly t.", "quantifier": "every state and input, every parameter setting", "why_tests_cant": "all states, inputs", "anchors": ["include/state_estimation/filters/filter_base.hpp:applyInput", "include/state_estimation/filters/filter_base.hpp:applyMeasurementInput"]}
{"id": "C08", "title": "state time is exactly the requested time in double arithmetic", "statement": "With IEEE-754 doubles, after predict(u, t) with t >= getStateTime(), getStateTime() == t.", "quantifier": "all pairs of finite doubles", "why_tests_cant": "the failing pairs are a measure-thin set of doubles; a test hits them only by design", "anchors": ["include/state_estimation/filters/filter_base.hpp:applyInput (timestamp += dt)"]}
{"id": "C09", "title": "late controls give the same estimate as controls in order", "statement": "With rewind_history = true and all timestamps distinct, later than the initial time and within the history window, calling predict(u_i, t_i) in any order gives the same state, covariance and time as calling it in increasing time order.", "quantifier": "every number of controls, every permutation, every memoryless filter algorithm and system model", "why_tests_cant": "n! permutations for each n; tests try one swap of two controls", "anchors": ["include/state_estimation/filters/filter_base.hpp:predict(u,t)", "include/state_estimation/filters/filter_base.hpp:rewindHistory", "include/state_estimation/filters/filter_base.hpp:applyBatchInputs"]}
{"id": "C10", "title": "late measurements give the same estimate as measurements in order", "statement": "As the previous property, for correct(z_i, Q_i, t_i, m_i) on a filter that has received no controls.", "quantifier": "every number of measurements, permutation, algorithm and measurement model", "why_tests_cant": "n! permutations for each n", "anchors": ["include/state_estimation/filters/filter_base.hpp:correct", "include/state_estimation/filters/filter_base.hpp:rewindHistory"]}
{"id": "C11", "title": "late inputs give the same estimate as inputs in order, controls and measurements mixed", "statement": "With rewind_history = true and distinct timestamps inside the window, any mix of controls and measurements delivered in any order gives the same estimate as the same inputs in time order.", "quantifier": "every mix and permutation", "why_tests_cant": "the failing case needs two different controls around a late measurement; the repository's tests only mix one kind", "anchors": ["include/state_estimation/filters/filter_base.hpp:applyMeasurementInput (prev_control_)", "include/state_estimation/filters/filter_base.hpp:rewindHistory"]}
{"id": "C12", "title": "history is limited to history_window_sec", "statement": "With rewind_history = true, after any call no retained state is older than getStateTime() - history_window_sec (so revertToState to a time before the window returns false and the memory used is bounded by the inputs inside the window).", "quantifier": "every call sequence and window", "why_tests_cant": "a statement about unboundedly long runs", "anchors": ["include/state_estimation/filters/filter_base.hpp:pruneHistory", "include/state_estimation/filters/filter_base.h:pruneHistory"]}
{"id": "C13", "title": "states inside the window survive pruning", "statement": "Pruning never removes a state that is not older than getStateTime() - history_window_sec.", "quantifier": "every time-ordered history, state and window", "why_tests_cant": "all histories", "anchors": ["include/state_estimation/filters/filter_base.hpp:pruneHistory"]}
{"id": "C14", "title": "revertToState goes to the newest state before the timestamp", "statement": "With a time-ordered history, revertToState(t) returns true iff t is after the current state or after the oldest retained state; when it returns true and t <= getStateTime(), the estimate becomes the newest retained state strictly before t, everything at or after t is forgotten and both queues are empty; states before t remain available.", "quantifier": "every time-ordered history and every t", "why_tests_cant": "all histories and timestamps, including ties", "anchors": ["include/state_estimation/filters/filter_base.hpp:revertToState", "include/state_estimation/filters/filter_base.hpp:rewindHistory"]}
{"id": "C15", "title": "a rejected revert or too-old input changes nothing", "statement": "When revertToState(t) returns false, and when predict(u, t) or correct(z, Q, t, m) is rejected in rewinding mode because t is not after the oldest retained state, the filter, its queues, history and models are unchanged.", "quantifier": "every filter state (history of any shape)", "why_tests_cant": "all states", "anchors": ["include/state_estimation/filters/filter_base.hpp:revertToState", "include/state_estimation/filters/filter_base.hpp:predict(u,t)", "include/state_estimation/filters/filter_base.hpp:correct"]}
{"id": "C16", "title": "rewinding never touches an empty deque", "statement": "For every history, ordered or not, rewinding never reads a popped element, never calls back() or pop_back() on an empty deque (with deque iterators that survive pop_back of other elements).", "quantifier": "all histories of all lengths and timestamps, including unordered ones and NaN timestamps", "why_tests_cant": "memory-safety over all shapes of history", "anchors": ["include/state_estimation/filters/filter_base.hpp:rewindHistory"]}
{"id": "C17", "title": "rewinding is free of undefined behaviour under the C++ standard", "statement": "rewindHistory and pruneHistory use no invalidated iterator.", "quantifier": "every rewind that discards at least one state", "why_tests_cant": "undefined behaviour is not visible in a passing test", "anchors": ["include/state_estimation/filters/filter_base.hpp:rewindHistory (++iter after pop_back)", "include/state_estimation/filters/filter_base.hpp:pruneHistory"]}
{"id": "C18", "title": "queued inputs are processed in time order", "statement": "For any contents of the queues with distinct timestamps not before the current estimate, enqueued in any order and any interleaving of the two queues, processQueues() gives the same estimate as applying predict/correct directly in increasing time order.", "quantifier": "all queue contents, lengths, permutations, every std::sort implementation, both rewinding modes", "why_tests_cant": "all permutations and all admissible behaviours of an unstable sort", "anchors": ["include/state_estimation/filters/filter_base.hpp:processQueues", "include/state_estimation/filters/filter_base.hpp:enqueuControl", "include/state_estimation/filters/filter_base.hpp:enqueuMeasurement"]}
{"id": "C19", "title": "processQueues merges late queued inputs with the history", "statement": "With rewind_history = true and distinct timestamps inside the window, processQueues() gives the estimate obtained by applying the previously applied inputs and the queued inputs together in time order.", "quantifier": "all histories and queue contents (late inputs included)", "why_tests_cant": "all histories and permutations", "anchors": ["include/state_estimation/filters/filter_base.hpp:processQueues", "include/state_estimation/filters/filter_base.hpp:rewindHistory", "include/state_estimation/filters/filter_base.hpp:pruneQueue"]}
{"id": "C20", "title": "queued inputs older than the estimate are never applied out of order", "statement": "processQueues() never applies an input whose timestamp is before the state it is applied to (with rewinding off such inputs are ignored like in predict/correct; with rewinding on they are either merged in order or discarded).", "quantifier": "all filter states and queue contents", "why_tests_cant": "boundary case: timestamp equal to the oldest retained state; empty history", "anchors": ["include/state_estimation/filters/filter_base.hpp:processQueues (ignored result of rewindHistory)", "include/state_estimation/filters/filter_base.hpp:pruneQueue"]}
{"id": "C21", "title": "enqueueing and clearing queues do not change the estimate", "statement": "enqueuControl, enqueuMeasurement, clearControlQueue and clearMeasurementQueue change neither the estimate nor the history nor the other queue; processQueues leaves both queues empty, and on empty queues it leaves the estimate unchanged.", "quantifier": "every filter state and input", "why_tests_cant": "all states", "anchors": ["include/state_estimation/filters/filter_base.hpp:enqueuControl", "include/state_estimation/filters/filter_base.hpp:enqueuMeasurement", "include/state_estimation/filters/filter_base.hpp:clearControlQueue", "include/state_estimation/filters/filter_base.hpp:clearMeasurementQueue", "include/state_estimation/filters/filter_base.hpp:processQueues"]}
{"id": "C22", "title": "predict(t) uses the last control and its covariance, or a null control", "statement": "With a non-stationary system, predict(t) with t > getStateTime() advances the estimate with the vector and covariance of the last non-empty control applied, and with a zero control of size controlSize() and the model's Rc() when there has been none.", "quantifier": "every reachable filter state", "why_tests_cant": "all histories", "anchors": ["include/state_estimation/filters/filter_base.hpp:applyControlInput"]}
{"id": "C23", "title": "a control covariance set by the user is used from then on", "statement": "After setControlCovariance(R) on the system model, the following predictions (including the ones made inside correct) use R until it is set again.", "quantifier": "every filter state and call sequence", "why_tests_cant": "needs a control, a changed covariance and a later correction", "anchors": ["include/state_estimation/filters/filter_base.hpp:applyControlInput", "include/state_estimation/filters/filter_base.hpp:applyMeasurementInput", "src/system_models/system_model.cpp:setControlCovariance"]}
{"id": "C24", "title": "the stationary predicate of the system model sees the control being applied", "statement": "Whenever the filter evaluates the system model's stationary predicate, the data argument has controlSize() elements (the control that would be applied).", "quantifier": "every filter state and every input kind", "why_tests_cant": "depends on whether a control has been received and on the entry point", "anchors": ["include/state_estimation/filters/filter_base.hpp:applyControlInput (isStationary(x, input.data))", "include/state_estimation/filters/filter_model.h:isStationary"]}
{"id": "C25", "title": "a stationary input only applies makeStationary", "statement": "When the stationary predicate holds for a control, the estimate after predict is exactly makeStationary applied to the estimate before (time advanced, filter algorithm not invoked); likewise for a measurement at the state time.", "quantifier": "every filter state, predicate, makeStationary function and input", "why_tests_cant": "all predicates and inputs", "anchors": ["include/state_estimation/filters/filter_base.hpp:applyControlInput", "include/state_estimation/filters/filter_base.hpp:applyMeasurementInput"]}
{"id": "C26", "title": "a future measurement first advances the state with the last control", "statement": "correct(z, Q, t, m) with t > getStateTime() equals advancing the estimate to t with the last control (or null control) and then applying the measurement to the advanced estimate; with t <= getStateTime() (when accepted) there is no advance and the time is unchanged.", "quantifier": "every filter state and input", "why_tests_cant": "all states", "anchors": ["include/state_estimation/filters/filter_base.hpp:applyMeasurementInput"]}
{"id": "C27", "title": "the measurement model is given the time between the estimate and the measurement", "statement": "The dt passed to the measurement model's update is the measurement's timestamp minus the time of the state estimate it is evaluated at.", "quantifier": "every accepted measurement", "why_tests_cant": "observable only through user models that use dt", "anchors": ["include/state_estimation/filters/filter_base.hpp:applyMeasurementInput (dt)", "include/state_estimation/measurement_models/measurement_model.h:update"]}
{"id": "C28", "title": "simultaneous inputs are applied in arrival order", "statement": "With rewinding on, two inputs with the same timestamp are applied in the order in which they were given, whether they arrive late or on time.", "quantifier": "every pair of equal timestamps, late or not", "why_tests_cant": "tie-breaking differs between the two code paths", "anchors": ["include/state_estimation/filters/filter_base.hpp:predict(u,t)", "include/state_estimation/filters/filter_base.hpp:rewindHistory (>=)"]}
{"id": "C29", "title": "a NaN timestamp is rejected", "statement": "predict(u, NaN), predict(NaN) and correct(z, Q, NaN, m) leave the filter unchanged.", "quantifier": "every filter state and parameter setting, IEEE-754 comparison semantics", "why_tests_cant": "the behaviour differs per mode; a NaN is a single point of the input space", "anchors": ["include/state_estimation/filters/filter_base.hpp:predict", "include/state_estimation/filters/filter_base.hpp:correct"]}
{"id": "C30", "title": "invariants of the algorithm hold for every reachable estimate", "statement": "If a property of (state, covariance) holds for every initialisation and is preserved by the algorithm's prediction and correction and by makeStationary, it holds for the estimate after any sequence of API calls, including late inputs, queue processing, reverts, parameter changes and model changes.", "quantifier": "all API call sequences of any length", "why_tests_cant": "unbounded histories and all interleavings", "anchors": ["include/state_estimation/filters/filter_base.hpp"]}
{"id": "C31", "title": "setActiveStates keeps exactly the valid indices", "statement": "After setActiveStates(l): activeStates() is sorted and contains exactly the indices of l smaller than stateSize(); stateUsage() has stateSize() entries, and entry i is 1 iff i is in activeStates() (or activeStates() is empty); activeStateSize() is the number of active states (stateSize() when activeStates() is empty). Same for setActiveControls and setActiveMeasurements.", "quantifier": "every index list (any length below 65536, duplicates, out of range indices) and every dimension", "why_tests_cant": "all lists", "anchors": ["src/filters/filter_model.cpp:setActiveStates", "src/system_models/system_model.cpp:setActiveControls", "src/measurement_models/measurement_model.cpp:setActiveMeasurements"]}
{"id": "C32", "title": "activeStates lists each active state once", "statement": "activeStates() (activeControls, activeMeasurements) has no duplicates, so the order and repetition of indices passed to setActiveStates do not matter.", "quantifier": "every index list", "why_tests_cant": "needs a list with a repeated index", "anchors": ["src/filters/filter_model.cpp:setActiveStates"]}
{"id": "C33", "title": "an active-state list without valid index activates nothing", "statement": "setActiveStates(l) with a non-empty l that contains no valid index does not enable any state.", "quantifier": "every dimension and list", "why_tests_cant": "corner case of the empty-means-all convention", "anchors": ["src/filters/filter_model.cpp:setActiveStates"]}
{"id": "C34", "title": "extracting a written subset returns it and nothing else changes", "statement": "For valid distinct indices, getSubset(convertSubsetToFull(s, full, map), map) = s and all other entries of full are unchanged; convertSubsetToFull(getSubset(x, map), x, map) = x; convertSubsetToFullZeroed puts s at the indices and zero elsewhere. Same for the matrix versions with separate row and column maps; an empty map means all indices.", "quantifier": "all vectors, matrices, dimensions and index maps", "why_tests_cant": "all maps and dimensions", "anchors": ["src/utilities/data_subset_utilities.cpp"]}
{"id": "C35", "title": "subset functions terminate on every map", "statement": "The subset functions terminate for every index map.", "quantifier": "all maps, including ones with 65536 or more entries", "why_tests_cant": "16-bit loop counters only fail at 65536 entries", "anchors": ["src/utilities/data_subset_utilities.cpp (uint16_t loop counters)"]}
{"id": "C36", "title": "the measurement Jacobian always belongs to the current transform", "statement": "After any sequence of setTf calls, H() of SixDRatesImu and SixDRatesOdom is the Jacobian of the h() the model currently computes.", "quantifier": "all sequences of transforms, including going back to the identity", "why_tests_cant": "needs a sequence non-identity, identity", "anchors": ["src/filters/filter_model.cpp:setTf", "src/measurement_models/six_d_rates_imu.cpp:postTfUpdate", "src/measurement_models/six_d_rates_odom.cpp:postTfUpdate"]}
{"id": "C37", "title": "KF/EKF prediction keeps the covariance symmetric positive semi-definite", "statement": "If the covariance, process covariance and control covariance are symmetric PSD then so is the covariance after a prediction, for any A (or Jacobian G), P and V.", "quantifier": "all dimensions and matrices", "why_tests_cant": "all matrices of all sizes", "anchors": ["src/filters/kalman_filter.cpp:myPredict", "src/filters/ekf.cpp:myPredict"]}
{"id": "C38", "title": "KF/EKF correction is well defined and keeps the covariance symmetric PSD and no larger", "statement": "If the covariance is symmetric PSD and the measurement covariance symmetric positive definite, the innovation covariance is invertible, the corrected covariance is symmetric PSD and (prior - posterior) is PSD.", "quantifier": "all dimensions, matrices C/H, covariances", "why_tests_cant": "all matrices of all sizes", "anchors": ["src/filters/kalman_filter.cpp:myCorrect", "src/filters/ekf.cpp:myCorrect"]}
{"id": "C39", "title": "the Kalman gain is optimal", "statement": "The gain used gives the smallest posterior covariance (Loewner order) of the linear update x + K(z - Cx): for every other gain L, (I-LC)S(I-LC)' + LQL' minus the covariance produced is PSD.", "quantifier": "all gains, dimensions and matrices", "why_tests_cant": "all alternative gains", "anchors": ["src/filters/kalman_filter.cpp:myCorrect"]}
{"id": "C40", "title": "a measurement equal to the prediction leaves the state unchanged and otherwise moves it linearly", "statement": "With the default vector operations, correct with z = C x (z = h(x)) leaves the state unchanged, and the state correction is linear in the innovation.", "quantifier": "all states and matrices", "why_tests_cant": "all inputs", "anchors": ["src/filters/kalman_filter.cpp:myCorrect", "src/filters/ekf.cpp:myCorrect"]}
{"id": "C41", "title": "a noise-free measurement of the full state replaces the state", "statement": "With zero measurement covariance, invertible C and positive definite covariance, the corrected state is C^-1 z and the covariance zero.", "quantifier": "all dimensions, invertible C, PD covariances", "why_tests_cant": "tests use C = I in dimension 2", "anchors": ["src/filters/kalman_filter.cpp:myCorrect"]}
{"id": "C42", "title": "independent measurements at the same time commute", "statement": "Two KF corrections at the same time with independent noise give the same estimate in either order, equal to one correction with the stacked measurement.", "quantifier": "all dimensions, measurement matrices and covariances", "why_tests_cant": "all matrices", "anchors": ["src/filters/kalman_filter.cpp:myCorrect"]}
{"id": "C43", "title": "every reachable KF/EKF covariance is symmetric PSD", "statement": "Starting from a symmetric PSD covariance, with PSD process/control covariance and PD measurement covariances, getCovariance() is symmetric PSD after any sequence of API calls (late inputs, queues, reverts included).", "quantifier": "all API call sequences", "why_tests_cant": "unbounded histories", "anchors": ["include/state_estimation/filters/filter_base.hpp", "src/filters/kalman_filter.cpp", "src/filters/ekf.cpp"]}
{"id": "C44", "title": "EKF equals KF on linear models", "statement": "On linear models with default vector operations (g = Ax+Bu, G = A, h = Cx, H = C) the EKF and KF predictions and corrections are identical.", "quantifier": "all matrices and inputs", "why_tests_cant": "all inputs", "anchors": ["src/filters/ekf.cpp", "src/filters/kalman_filter.cpp"]}
{"id": "C45", "title": "variable-state filters with everything active equal the fixed-state filters", "statement": "KFVS, EKFVS and UKFVS with empty active lists (or with lists naming every index once) give exactly the KF, EKF and UKF predictions and corrections.", "quantifier": "all dimensions, matrices, inputs", "why_tests_cant": "all inputs", "anchors": ["src/filters/kalman_filter_vs.cpp", "src/filters/ekf_vs.cpp", "src/filters/ukf_vs.cpp"]}
{"id": "C46", "title": "variable-state filters do not touch inactive states", "statement": "With default vector operations, predictions and corrections of a variable-state filter leave inactive state variables and every covariance entry with an inactive index unchanged.", "quantifier": "all active sets, dimensions, matrices", "why_tests_cant": "the repository's test uses a zero initial state, which hides the failing case", "anchors": ["src/filters/kalman_filter_vs.cpp", "src/filters/ekf_vs.cpp", "src/filters/ukf_vs.cpp"]}
{"id": "C47", "title": "variable-state filters keep the full covariance PSD", "statement": "With a proper subset of active states, prediction and correction keep the full covariance matrix positive semi-definite.", "quantifier": "all active sets and PSD covariances", "why_tests_cant": "needs correlated active and inactive states", "anchors": ["src/filters/kalman_filter_vs.cpp:myCorrect", "src/filters/ekf_vs.cpp:myCorrect"]}
{"id": "C48", "title": "the active block of a variable-state filter is a proper covariance", "statement": "The active block of the covariance stays symmetric PSD under KFVS/EKFVS/UKFVS prediction and correction and is exactly the fixed-state filter's update of the active subsystem.", "quantifier": "all active sets (distinct indices), dimensions, matrices", "why_tests_cant": "all active sets", "anchors": ["src/filters/kalman_filter_vs.cpp", "src/filters/ekf_vs.cpp", "src/filters/ukf_vs.cpp"]}
{"id": "C49", "title": "UKF weights are consistent", "statement": "For all alpha, kappa, beta with alpha^2 (n + kappa) != 0 the mean weights sum to 1 and the covariance weights to 2 - alpha^2 + beta; all weights except the first are equal.", "quantifier": "all parameters and state dimensions", "why_tests_cant": "all parameters", "anchors": ["src/filters/ukf.cpp:setSigmaPointParameters"]}
{"id": "C50", "title": "UKF is exact on affine models", "statement": "With default vector operations and positive definite covariance, the UKF prediction through g(x) = Ax + b gives mean Ax + b and covariance A S A' + noise, and the UKF correction through h(x) = Cx + d equals the Kalman correction, for all sigma point parameters with n + lambda > 0.", "quantifier": "all dimensions, matrices, parameters", "why_tests_cant": "all matrices and parameters", "anchors": ["src/filters/ukf.cpp:myPredict", "src/filters/ukf.cpp:myCorrect"]}
{"id": "C51", "title": "UKF covariance stays PSD through any nonlinear model", "statement": "With default vector operations, n + lambda > 0 and beta >= alpha^2 (defaults included), UKF prediction through ANY function g and UKF correction through ANY function h keep the covariance symmetric PSD although the first weight is negative; the correction never increases the covariance.", "quantifier": "all functions g and h, dimensions, PD covariances", "why_tests_cant": "all nonlinear functions", "anchors": ["src/filters/ukf.cpp:myPredict", "src/filters/ukf.cpp:myCorrect"]}
{"id": "C52", "title": "UKFVS follows changes of the active states", "statement": "Changing setActiveStates on the system model after constructing a UKFVS changes the set of estimated states without reading uninitialised sigma points or writing out of bounds.", "quantifier": "all changes of the active set", "why_tests_cant": "uninitialised memory is often zero in tests; the tests rebuild the filter", "anchors": ["src/filters/ukf_vs.cpp:setSigmaPointParameters", "src/filters/ukf_vs.cpp:myPredict"]}
{"id": "C53", "title": "constrainAngle returns the equivalent angle in [-pi, pi]", "statement": "In exact arithmetic constrainAngle(a) terminates, lies in [-pi, pi], differs from a by a multiple of 2 pi, and is a when a is already in range.", "quantifier": "all real angles", "why_tests_cant": "all reals", "anchors": ["include/state_estimation/utilities/angle_utilities.h:constrainAngle"]}
{"id": "C54", "title": "constrainAngle terminates on every finite double", "statement": "constrainAngle(a) returns for every finite double a.", "quantifier": "all finite doubles", "why_tests_cant": "a non-terminating call cannot be tested for; needs huge angles", "anchors": ["include/state_estimation/utilities/angle_utilities.h:constrainAngle"]}
{"id": "C55", "title": "angleDifference is the shortest signed difference", "statement": "angleDifference(a, b) is in [-pi, pi], congruent to a - b modulo 2 pi, no other congruent angle is smaller in magnitude, and angleDifference(b, a) = -angleDifference(a, b).", "quantifier": "all real angles, not only in [-pi, pi]", "why_tests_cant": "all reals", "anchors": ["include/state_estimation/utilities/angle_utilities.h:angleDifference"]}
{"id": "C56", "title": "weightedAngleSum is the weighted circular mean", "statement": "weightedAngleSum of equal angles with positive total weight is that angle (mod 2 pi); it is unchanged by adding full turns to any angle, by scaling all weights by a positive factor, and rotates with a common offset when the weighted resultant is not zero; it maximises the weighted sum of cosines.", "quantifier": "all weights, angles, lengths", "why_tests_cant": "all weights", "anchors": ["include/state_estimation/utilities/angle_utilities.h:weightedAngleSum"]}
{"id": "C57", "title": "planar_2d vector operations keep the heading in range and are inverse to each other", "statement": "addState and subtractState keep the heading in [-pi, pi], are linear in the other components, and addState(subtractState(a, b), b) equals a with the heading modulo 2 pi.", "quantifier": "all state vectors", "why_tests_cant": "all states", "anchors": ["src/definitions/planar_2d_motion.cpp"]}
{"id": "C58", "title": "weightedQuaternion does not depend on quaternion signs", "statement": "Replacing any q_i by -q_i does not change weightedQuaternion; with all quaternions equal (unit) and positive total weight the result is that quaternion up to sign.", "quantifier": "all weights, quaternions and lengths", "why_tests_cant": "all inputs", "anchors": ["include/state_estimation/utilities/angle_utilities.h:weightedQuaternion"]}
{"id": "C59", "title": "deltaQuaternion is a unit quaternion and composes over time", "statement": "deltaQuaternion(dt, w) has norm 1 for every dt and w; deltaQuaternion(dt1, w) * deltaQuaternion(dt2, w) = deltaQuaternion(dt1 + dt2, w); deltaQuaternion(-dt, w) is its inverse; integrate preserves the norm of the orientation and integrating in two steps equals one step.", "quantifier": "all dt, w (both branches of the small-rate threshold)", "why_tests_cant": "all rates", "anchors": ["src/utilities/integration.cpp:deltaQuaternion", "src/utilities/integration.cpp:integrate"]}
{"id": "C60", "title": "deltaQuaternion rotates by angle |w| dt about w", "statement": "Rotating a vector with deltaQuaternion(dt, w) is Rodrigues' rotation by |w| dt about w/|w| when |w| > 1e-9; vectors along w are unchanged; lengths are preserved.", "quantifier": "all vectors, rates, times", "why_tests_cant": "all reals", "anchors": ["src/utilities/integration.cpp:deltaQuaternion"]}
{"id": "C61", "title": "integrateVelocityRK4 is exact without rotation and never overshoots", "statement": "For zero angular velocity, or acceleration along w, dv = dt * a; in general |dv| <= |dt| |a|, the other direction components follow Simpson's rule for the rotated acceleration, and the error to the exact integral is bounded by a fifth order term in dt (for |w| > 1e-9; at or below that threshold the rotation is ignored and the error is at most |a||w|dt^2/2).", "quantifier": "all dt, a, w", "why_tests_cant": "all reals", "anchors": ["src/utilities/integration.cpp:integrateVelocityRK4"]}
{"id": "C62", "title": "integratePositionRK4 is exact for constant acceleration without rotation", "statement": "For zero angular velocity p' = p + v dt + a dt^2/2 and v' = v + a dt.", "quantifier": "all inputs", "why_tests_cant": "all reals", "anchors": ["src/utilities/integration.cpp:integratePositionRK4"]}
{"id": "C63", "title": "velocity transforms compose", "statement": "transformLinearVelocity/transformAngularVelocity through tf1 and then tf2 equal the transform through tf2*tf1, and through tf and tf^-1 give the original velocity.", "quantifier": "all rigid transforms and velocities", "why_tests_cant": "all transforms", "anchors": ["src/utilities/transformation_utilities.cpp:transformLinearVelocity", "src/utilities/transformation_utilities.cpp:transformAngularVelocity"]}
{"id": "C64", "title": "acceleration transforms compose", "statement": "transformLinearAcceleration through tf1 and then tf2 equals the transform through tf2*tf1, and uses the same lever arm convention as transformLinearVelocity.", "quantifier": "all rigid transforms", "why_tests_cant": "needs rotation together with translation", "anchors": ["src/utilities/transformation_utilities.cpp:transformLinearAcceleration"]}
{"id": "C65", "title": "transformCovariance preserves covariance structure", "statement": "transformCovariance by a rotation preserves symmetry, PSD-ness and trace, and rotating back restores the matrix.", "quantifier": "all matrices and rotations", "why_tests_cant": "all matrices", "anchors": ["src/utilities/transformation_utilities.cpp:transformCovariance"]}
{"id": "C66", "title": "orientationFromGravityVector aligns with gravity", "statement": "For every non-zero g the result is a unit quaternion with zero z component that rotates (0,0,-1) onto g/|g|.", "quantifier": "all non-zero vectors", "why_tests_cant": "fails at a single direction", "anchors": ["src/utilities/transformation_utilities.cpp:orientationFromGravityVector"]}
{"id": "C67", "title": "IMU Jacobians are the derivatives of the IMU predictions", "statement": "accelMeasurementJacobian is the derivative of predictAccelMeasurement with respect to acceleration, roll/pitch/yaw and angular velocity, and gyroMeasurementJacobian of predictGyroMeasurement.", "quantifier": "all states, transforms, angles", "why_tests_cant": "all points", "anchors": ["src/utilities/imu_utilities.cpp"]}
{"id": "C68", "title": "predictAccelMeasurement with default arguments is well defined", "statement": "predictAccelMeasurement(a, w, tf, true) returns a value that depends only on its arguments.", "quantifier": "all arguments", "why_tests_cant": "uninitialised default orientation", "anchors": ["include/state_estimation/utilities/imu_utilities.h:predictAccelMeasurement"]}
{"id": "C69", "title": "SixDRates prediction preserves gravity's magnitude and biases", "statement": "SixDRates::update leaves acceleration, angular velocity and biases unchanged, preserves the norm of gravity, changes velocity by at most |dt||a|, leaves inactive states unchanged, and dt = 0 leaves the state unchanged.", "quantifier": "all states, dt, active sets", "why_tests_cant": "all states", "anchors": ["src/system_models/six_d_rates.cpp:myUpdate"]}
{"id": "C70", "title": "SixDRates Jacobian of gravity is the rotation", "statement": "The gravity block of G() is the derivative of the predicted gravity with respect to gravity (the rotation matrix of the step).", "quantifier": "all states and dt", "why_tests_cant": "the error is second order in dt so small-step tests pass", "anchors": ["src/system_models/six_d_rates.cpp:myUpdate (G_ gravity block)"]}
{"id": "C71", "title": "SixDRates vector operations are consistent", "statement": "addVectors(subtractVectors(a, b), b) = a for states with gravity of standard magnitude, and weightedSum of identical states with weights summing to 1 is that state.", "quantifier": "all states and weights", "why_tests_cant": "needs different gravity directions or UKF weights", "anchors": ["src/definitions/six_d_rates.cpp"]}
{"id": "C72", "title": "measurement predictions of the 6D rates models are linear and match their Jacobians", "statement": "For the IMU and odometry models h(x) = H x for every state, after construction and after setTf of a non-identity transform.", "quantifier": "all states and transforms", "why_tests_cant": "all states", "anchors": ["src/measurement_models/six_d_rates_imu.cpp", "src/measurement_models/six_d_rates_odom.cpp"]}
{"id": "C73", "title": "the covariance ellipse contains the one-sigma points", "statement": "Every point of get2DCovarianceEllipsePoints(cov, offset) has Mahalanobis distance 1 from offset.", "quantifier": "all PD 2x2 covariances", "why_tests_cant": "all covariances; identity covariance hides it", "anchors": ["src/utilities/plotting_utilities.cpp:get2DCovarianceEllipsePoints"]}
{"id": "C74", "title": "with rewinding on and double timestamps the time never moves backwards", "statement": "With IEEE-754 doubles and rewind_history = true, predict(u, t) with a finite t never makes getStateTime() decrease.", "quantifier": "every filter state with a finite, time-ordered history and every finite double t", "why_tests_cant": "the failing inputs need specific roundings during the replay", "anchors": ["include/state_estimation/filters/filter_base.hpp:applyInput (timestamp += dt)", "include/state_estimation/filters/filter_base.hpp:rewindHistory"]}
{"id": "C75", "title": "a NaN time is permanent", "statement": "Once getStateTime() is NaN, no sequence of predict(t), predict(u, t) and correct calls, in any parameter setting, makes it a number again.", "quantifier": "every state with NaN time, every sequence of predict/correct calls", "why_tests_cant": "quantifies over all call sequences", "anchors": ["include/state_estimation/filters/filter_base.hpp:predict", "include/state_estimation/filters/filter_base.hpp:correct", "include/state_estimation/filters/filter_base.hpp:applyInput"]}
{"id": "C76", "title": "every reachable UKF covariance is positive definite", "statement": "Whatever sequence of initialize, predict, correct, enqueue, iterate and query calls (with rewinding and stationary handling) is made on a UKF with default vector operations, if the initial covariance and every measurement covariance are positive definite, the models' process noise is positive definite and the sigma point parameters (which may be changed at any time) satisfy alpha^2 (n + kappa) > 0 and alpha^2 <= beta, then the covariance reported is symmetric positive definite after every call.", "quantifier": "all call sequences, dimensions, nonlinear models, parameters", "why_tests_cant": "all histories and all nonlinear functions", "anchors": ["src/filters/ukf.cpp", "src/filters/filter_base.cpp"]}
{"id": "C77", "title": "UKF is exact on affine models for every PSD covariance", "statement": "With default vector operations and the default sigma point parameters, UKF prediction through g(x) = Ax + b without noise maps every symmetric PSD covariance S (also singular ones) to A S A'.", "quantifier": "all PSD covariances, dimensions, affine models", "why_tests_cant": "needs a singular covariance whose zero pivot comes before a non-zero one", "anchors": ["src/filters/ukf.cpp:myPredict"]}
{"id": "C78", "title": "UKF prediction adds the noise of the model at the estimate", "statement": "The noise added by a UKF prediction is P Rp P' + V Rc V' with P and V evaluated at the estimate before the prediction, as in the EKF.", "quantifier": "all models whose P or V depend on the state", "why_tests_cant": "the repository's UKF tests use constant P and V", "anchors": ["src/filters/ukf.cpp:myPredict"]}
{"id": "C79", "title": "SixDRates Jacobian of velocity and of the constant states", "statement": "The rows of G() for velocity, acceleration, angular velocity and biases are the derivatives of the predicted velocity (with respect to acceleration) and of the other predicted components.", "quantifier": "all states, time steps and update histories", "why_tests_cant": "needs rotation within one step; true for all states only as a theorem", "anchors": ["src/system_models/six_d_rates.cpp:myUpdate (G_ velocity block)", "src/utilities/integration.cpp:integrateVelocityRK4"]}
{"id": "C80", "title": "getEllipsePoints samples the ellipse", "statement": "getEllipsePoints(a, b, offset, angle, n) returns n different points on the ellipse with those semi-axes, centre and orientation, the i-th at parameter i/n of a turn, for n below 2^31.", "quantifier": "all non-zero semi-axes, offsets, angles and numbers of points", "why_tests_cant": "all real parameters; the loop counter is an int compared with a uint32_t", "anchors": ["src/utilities/plotting_utilities.cpp:getEllipsePoints"]}
{"id": "C81", "title": "only the model objects named by an input are touched", "statement": "A measurement model object passed to the filter changes only through inputs that name it: whatever predictions, queue processing, rewinds and corrections with other models happen, it stays in the state the user left it in; correct(z, Q, t, m) leaves in m exactly the outcome of its own update.", "quantifier": "all call sequences, parameters and models", "why_tests_cant": "ranges over all call histories, including replay of stored inputs", "anchors": ["include/state_estimation/filters/filter_base.hpp:applyMeasurementInput, applyControlInput, processQueues"]}
{"id": "C82", "title": "nothing is applied that the user did not supply", "statement": "Every prediction the filter asks the algorithm for uses a control vector given in some predict or enqueue call (or the null control), and every correction uses a measurement together with the covariance it was given with, whatever rewinding, queueing and replay happens.", "quantifier": "all call sequences without re-initialisation, any admissible sort", "why_tests_cant": "ranges over all histories of rewinds and replays", "anchors": ["include/state_estimation/filters/filter_base.hpp:applyInput, rewindHistory, processQueues"]}
{"id": "C83", "title": "EKF on SixDRates: covariances stay valid and biases never get less certain than given", "statement": "For an EKF over a SixDRates model, every covariance it ever reports is symmetric positive semi-definite, and the variance of each bias never exceeds the largest one the user put in (construction or initialize).", "quantifier": "all call sequences, measurement models of any size, histories, active sets", "why_tests_cant": "an invariant of every reachable state of the composed system", "anchors": ["src/filters/ekf.cpp", "src/system_models/six_d_rates.cpp", "src/filters/filter_base.cpp"]}
{"id": "C84", "title": "EKF and EKFVS on SixDRates keep gravity at its standard magnitude", "statement": "Starting from a state whose gravity vector has magnitude 9.8062 (or is zero), every estimate an EKF or EKFVS over SixDRates reports has such a gravity vector.", "quantifier": "all call sequences, measurements, gains, rates and time steps", "why_tests_cant": "an invariant of every reachable state; depends on rescaling in addVectors and on the prediction being a rotation", "anchors": ["src/filters/ekf.cpp", "src/filters/ekf_vs.cpp", "src/definitions/six_d_rates.cpp:addState", "src/system_models/six_d_rates.cpp:myUpdate"]}
{"id": "C85", "title": "UKF on SixDRates keeps gravity at its standard magnitude", "statement": "After predict of a UKF over SixDRates with default parameters the gravity vector still has the standard magnitude.", "quantifier": "all states, covariances, time steps", "why_tests_cant": "depends on the weights and on every sigma point", "anchors": ["src/filters/ukf.cpp:myPredict", "src/definitions/six_d_rates.cpp:weightedSumOfStates"]}
{"id": "C86", "title": "process noise of the biases makes the biases less certain", "statement": "With positive definite process noise, predicting with a SixDRates model increases the variance of every bias.", "quantifier": "all states, covariances, time steps, update histories", "why_tests_cant": "a statement about all inputs of the noise Jacobian, whatever calls were made before", "anchors": ["src/system_models/six_d_rates.cpp:myUpdate (P_)", "include/state_estimation/system_models/six_d_rates.h:12-18"]}
{"id": "C87", "title": "a UKF on SixDRates that is certain stays certain without noise", "statement": "With zero covariance and zero process noise a prediction of a UKF over SixDRates has zero covariance.", "quantifier": "all states and time steps", "why_tests_cant": "depends on the weights and on the difference of every sigma point from the mean", "anchors": ["src/filters/ukf.cpp:myPredict", "src/definitions/six_d_rates.cpp:subtractState"]}
{"id": "C88", "title": "SixDRates Jacobian of gravity with respect to the angular velocity", "statement": "The block of the system Jacobian for gravity and angular velocity is the derivative of the predicted gravity with respect to the angular velocity of the state.", "quantifier": "all states with a rotation rate above the threshold, all time steps, all directions", "why_tests_cant": "a derivative of a rotation at every state; the repo compares with finite differences at one state and a loose tolerance", "anchors": ["src/system_models/six_d_rates.cpp:SixDRates::myUpdate", "include/state_estimation/utilities/integration.h:deltaQuaternion"]}
{"id": "C89", "title": "planar_2d vector operations honour the usage argument", "statement": "addState and subtractState of planar_2d, given vectors of the states in use, add and subtract each state in use, and wrap the heading (if in use) to [-pi, pi] and nothing else. weightedSumOfStates sums each state in use and takes the weighted circular mean of the heading.", "quantifier": "all 2^8 usages and all vectors", "why_tests_cant": "every subset of the states; the repo's tests use all states", "anchors": ["src/definitions/planar_2d_motion.cpp:addState", "src/definitions/planar_2d_motion.cpp:subtractState", "src/definitions/planar_2d_motion.cpp:weightedSumOfStates"]}
{"id": "C90", "title": "angleDifference in double arithmetic", "statement": "For finite arguments whose difference does not overflow, angleDifference returns a double in [-M_PI, M_PI] that equals the rounded difference of the arguments exactly up to whole turns of 2*M_PI, is the shortest such difference, changes sign when the arguments are swapped, and for angles in [-M_PI, M_PI] is within 2^-51 of the exact difference up to turns; in every other case the result is NaN.", "quantifier": "all pairs of doubles", "why_tests_cant": "2^128 pairs; the claim is about rounding in every one", "anchors": ["include/state_estimation/utilities/angle_utilities.h:angleDifference"]}
{"id": "C91", "title": "variance of a one-state Kalman filter never becomes negative in double arithmetic", "statement": "Correcting a one-state, one-measurement filter in double arithmetic, with values far from overflow and underflow, gives a finite variance that is not negative.", "quantifier": "all doubles C, Q >= 0, P > 0 within 2^-100 .. 2^100", "why_tests_cant": "depends on the rounding of six operations for every input", "anchors": ["src/filters/kalman_filter.cpp:myPredict", "src/filters/kalman_filter.cpp:myCorrect"]}
{"id": "C92", "title": "Kalman filter covariances do not depend on the data", "statement": "Two KalmanFilters with linear models whose matrices and stationary handling do not depend on the values of states, controls and measurements, given the same calls at the same times with the same covariances but different states, control values and measurement values, always have the same covariance and the same time, whatever rewinds and queues are in use.", "quantifier": "all pairs of call sequences that differ only in values, all models", "why_tests_cant": "ranges over all histories of calls and all values", "anchors": ["src/filters/kalman_filter.cpp:myPredict", "src/filters/kalman_filter.cpp:myCorrect", "include/state_estimation/filters/filter_base.hpp"]}
{"id": "C93", "title": "change of units or coordinates", "statement": "If a second set of models describes the same system in other units (state Tx x, controls E u, measurements D z, with the Jacobians and noises transformed accordingly), a KalmanFilter or EKF on it gives Tx times the state and Tx P Tx' as covariance after any sequence of corresponding calls.", "quantifier": "all linear changes of coordinates, models and call sequences", "why_tests_cant": "ranges over all transformations, models and histories", "anchors": ["src/filters/kalman_filter.cpp", "src/filters/ekf.cpp", "include/state_estimation/filters/filter_base.hpp"]}
{"id": "C94", "title": "states nothing depends on do not disturb the others", "statement": "Adding states to the models that neither the other states nor the measurements depend on, the noise of the other states being unchanged and stationary handling off, leaves the estimates and covariances of the other states as an EKF without the extra states gives them, after any sequence of calls.", "quantifier": "all EKF models with passive states and all call sequences", "why_tests_cant": "ranges over all models and histories", "anchors": ["src/filters/ekf.cpp", "include/state_estimation/filters/filter_base.hpp"]}
{"id": "C95", "title": "more uncertainty in, more uncertainty out", "statement": "Two KalmanFilters given the same calls at the same times, where the second is told at least as much uncertainty (initial covariance, process and control noise of its models, measurement covariances, all in the Loewner order) and its models have the same matrices A and C, either both fail the same way or end with the second's covariance at least as large as the first's: in the Loewner order and hence in every variance.", "quantifier": "all dimensions, all models with A and C that do not depend on the filter's data, all sequences of calls (predict, correct, enqueue, process, rewind, parameters), all measurement values, all positive semidefinite covariances", "why_tests_cant": "monotonicity of the Riccati map is a statement about all pairs of covariances and propagates through every call sequence by induction", "anchors": ["src/filters/kalman_filter.cpp: KalmanFilter::myPredict, KalmanFilter::myCorrect", "src/filters/filter_base.cpp"]}
{"id": "C96", "title": "exact data, exact estimate", "statement": "If a KalmanFilter starts at the true state, its models describe the true motion, and every measurement equals what the true state would give, then the estimate is the true state after every control, passage of time and measurement - in time order, or in any order and through the queues on a filter with rewinding (within the restrictions of C11) - whatever covariances it was told.", "quantifier": "all dimensions, models whose matrices depend on the elapsed time, motions, numbers and timestamps of controls and measurements, admissible covariances", "why_tests_cant": "needs every motion, every interleaving and every covariance", "anchors": ["src/filters/kalman_filter.cpp", "include/state_estimation/filters/filter_base.hpp"]}
{"id": "C97", "title": "the Kalman filter is the least-squares fit to everything it was told", "statement": "After any sequence of controls, passages of time and measurements, in time order - or in any order and through the queues on a filter with rewinding, within the restrictions of C11 - the state of a KalmanFilter is the end of the one history (initial state, noises and measurement errors) with the smallest sum of squared Mahalanobis norms, and the cheapest history that ends in another state y costs more by exactly the squared Mahalanobis distance of y from the state under the covariance of the filter.", "quantifier": "all dimensions, models whose matrices depend on the elapsed time, numbers and values of controls and measurements, positive semidefinite (also singular) initial, process, control and measurement covariances for which the calls succeed", "why_tests_cant": "a minimum over all histories, for every sequence of inputs", "anchors": ["src/filters/kalman_filter.cpp: myPredict, myCorrect", "include/state_estimation/filters/filter_base.hpp"]}
{"id": "C98", "title": "reading a file of comma separated numbers gives the numbers in the file", "statement": "loadCsvFields appends to the caller's rows, for each line of the file after the header (if one is skipped), the numbers written at the requested positions, in the requested order, each rounded to the nearest double; if a line is blank or lacks a requested position it returns false at that line, keeping the rows before it; if a requested field is no number, or not in the range of double, it throws (std::invalid_argument or std::out_of_range), also keeping the rows before it; and if the file cannot be opened it returns false and changes nothing.", "quantifier": "all files (any characters), headers, lists of positions (with repetitions, in any order), decimal texts with and without sign, fraction and exponent", "why_tests_cant": "every text and every list of positions", "anchors": ["examples/data_io.cpp: loadCsvFields", "examples/data_io.h"]}
{"id": "C99", "title": "numbers written to a file are read back", "statement": "What writeToFile writes, loadCsvFields reads back: the same rows with the same numbers.", "quantifier": "all headers without a line break, all rows of doubles, all positions", "why_tests_cant": "every double; false below one millionth (a variance of 1e-9 comes back as 0)", "anchors": ["examples/data_io.cpp: writeToFile, loadCsvFields"]}
{"id": "C100", "title": "the example program writes one row per measurement, in time order", "statement": "When the six degree of freedom example program succeeds, its output has exactly one row for every row of the two input files; the reading of a row is its columns 12, 13, 14, 17 (odometry) or 11, 12, 13, 8, 9, 10 (IMU) and its time stamp is column 2, counted from 0; row k is the filter's time, state and covariance after the first k measurements, in the order of their time stamps, were given to correct() with their time in seconds after the first stamp; the times of the rows never decrease; and every line of the file has as many comma separated fields as the header, in the order the header names them (time, the 18 states, the 18x18 covariance row by row).", "quantifier": "all input files (any characters, any number of rows), all behaviours of std::sort its contract allows, all roundings of the estimates", "why_tests_cant": "every file and every sort", "anchors": ["examples/six_d_rates_example.cpp: main", "examples/data_io.cpp"]}
{"id": "C101", "title": "the columns of the example program's output have different names", "statement": "No two covariance columns in the header of the example program's output have the same name.", "quantifier": "all pairs of columns", "why_tests_cant": "the program's output is never checked; false: cov_110 names both entry (1,10) and entry (11,0), in all 8 such pairs", "anchors": ["examples/six_d_rates_example.cpp: main, lines 228-234"]}
{"id": "C102", "title": "the example program uses every measurement", "statement": "Since the measurements are sorted by time stamp first, none of them is refused by correct() for being before the filter's time, and the time of a row is the time of its measurement.", "quantifier": "all input files the program accepts, all behaviours of std::sort its contract allows", "why_tests_cant": "depends on rounding of the stamps: two measurements with one stamp, where the filter's time was rounded up past it", "anchors": ["examples/six_d_rates_example.cpp: main, lines 95-102, 195-205", "include/state_estimation/filters/filter_base.hpp: correct, myPredict"]}
{"id": "C103", "title": "the example program runs to the end on good files", "statement": "With at least one measurement, finite numbers and stamps of ordinary size the example program never fails an assertion of Eigen, never meets a singular innovation covariance and never leaves defined behaviour; in every row the covariance is positive semidefinite, gravity and both biases and their covariances are exactly their initial values.", "quantifier": "all input files, stationary or moving, with refused measurements or without", "why_tests_cant": "every sequence of measurements", "anchors": ["examples/six_d_rates_example.cpp: main", "src/filters/ekf_vs.cpp", "src/system_models/six_d_rates.cpp"]}
{"id": "C104", "title": "the origin of time does not matter", "statement": "Adding a constant to every timestamp given to a filter (construction, initialize, predict, correct, the queues, revertToState) changes no estimate, no covariance, no model object and no accept/reject or rewind decision; the time of the filter is later by the constant. In doubles this holds whenever the timestamps, before and after the change, and the history windows are multiples of 2^-k seconds up to 2^(52-k) seconds (for instance Unix time in steps of 2^-20 s).", "quantifier": "all filters and models, all sequences of calls (with rewinding, queues, re-initialisation, reverting and changes of parameters), all constants; std::sort any algorithm that looks at its elements through the comparator only", "why_tests_cant": "every history of calls and every constant", "anchors": ["include/state_estimation/filters/filter_base.hpp", "include/state_estimation/filters/filter_base.h"]}
{"id": "C105", "title": "the origin of time does not matter, for any doubles", "statement": "If every timestamp (any finite double) is moved by exactly the same amount, the estimates are the same.", "quantifier": "all finite doubles, all sequences of calls", "why_tests_cant": "false: it depends on the rounding of the filter's own time, which is not the timestamp of the last input (C08)", "anchors": ["include/state_estimation/filters/filter_base.hpp: applyInput, lines 314-320"]}
{"id": "C106", "title": "measurements that agree with the prediction keep the filter on the course of the motion model", "statement": "If every measurement equals what the measurement model predicts at the moment it is applied, the state of a KalmanFilter, EKF or EKFVS is, after any sequence of calls (late inputs that are replayed, queues, stationary handling and reverting included), exactly the state obtained by following the motion model alone (dead reckoning), at the same time. The only other outcome is a singular innovation covariance.", "quantifier": "all linear and nonlinear models whose difference of equal measurements is zero and whose stationary functions do not let the covariance change the state, all sequences of calls, any initial covariance", "why_tests_cant": "a test runs one trajectory; a wrong gain, a measurement applied to the wrong state, or a replay in the wrong order shows up only in some sequences", "anchors": ["src/filters/ekf.cpp: myPredict, myCorrect", "src/filters/ekf_vs.cpp: myPredict, myCorrect", "src/filters/kalman_filter.cpp: myPredict, myCorrect", "include/state_estimation/filters/filter_base.hpp: applyInput, applyBatchInputs, rewindHistory"]}
{"id": "C107", "title": "measurements that agree with the prediction keep the UKF on the course of the motion model", "statement": "The same for the UKF: if every measurement equals what the measurement model predicts at the state, the state follows the motion model exactly.", "quantifier": "all models with default vector operations, default sigma parameters, positive definite covariance, all sequences of calls", "why_tests_cant": "false in general: the mean of the sigma points moves with the curvature of the model; tests with linear models cannot see it", "anchors": ["src/filters/ukf.cpp: myPredict, lines 50-86"]}
{"id": "C108", "title": "two filters on the same model objects, and copies of a filter, do not disturb each other", "statement": "If two filters are constructed with the same system model and measurement models, or one is assigned from the other, then whatever calls are made on them in whatever order, getState, getCovariance and getStateTime of each answer as for a filter on model objects of its own that has been told the same.", "quantifier": "all interleavings of calls on two filters (predict, correct, queues, rewinding, initialize, copy assignment), all values and times", "why_tests_cant": "false in general: a model object keeps what the last call of either filter stored in it, e.g. predict(t) puts back an old control covariance; whether that is noticed depends on the interleaving, of which there are unboundedly many", "anchors": ["include/state_estimation/filters/filter_base.h: system_model_, FilterInput::model", "src/system_models/six_d_rates.cpp: myUpdate", "include/state_estimation/filters/filter_base.hpp: applyControlInput line 355"]}
{"id": "C109", "title": "the covariance predicted in double arithmetic is symmetric with non-negative variances, and accurate", "statement": "If the covariance before predict, the process covariance and the control covariance are symmetric and positive semidefinite, then the matrix getCovariance returns after predict of a Kalman filter or EKF is symmetric with a non-negative diagonal; state and covariance are those of exact arithmetic up to rounding, whatever order the terms are added in and whether or not fused multiply-add is used.", "quantifier": "all dimensions, all matrices of doubles, all evaluation orders, with and without fused multiply-add", "why_tests_cant": "false in general (cancellation): one needs the exact error bound for all sizes and all evaluation orders a compiler and Eigen may choose, which a test on one build cannot see", "anchors": ["src/filters/kalman_filter.cpp: myPredict", "src/filters/ekf.cpp: myPredict"]}
{"id": "C110", "title": "the correction in double arithmetic leaves a symmetric covariance with non-negative variances, and is accurate", "statement": "After correct() of a Kalman filter or EKF in double arithmetic getCovariance is symmetric with a non-negative diagonal; gain, state and covariance are those of exact arithmetic up to rounding, whatever order the terms are added in and whether or not fused multiply-add is used.", "quantifier": "all dimensions, all matrices of doubles, all results of the matrix inversion, all evaluation orders, with and without fused multiply-add", "why_tests_cant": "false in general: (I - K C) P loses symmetry and sign by cancellation; the size of the loss must be bounded for all sizes, evaluation orders and inverses", "anchors": ["src/filters/kalman_filter.cpp: myCorrect", "src/filters/ekf.cpp: myCorrect", "src/filters/kalman_filter_vs.cpp: myCorrect", "src/filters/ekf_vs.cpp: myCorrect"]}
{"id": "C111", "title": "in double arithmetic the variable-set filters change only what is active, and those entries as exact arithmetic does up to rounding", "statement": "For valid lists of active states, controls and measurements, predict and correct of KalmanFilterVS and EKFVS run to an end without leaving an array; no covariance with an inactive state changes by a single bit; no inactive state changes its value (predict of KalmanFilterVS sets it to 0); the active entries are a result the fixed-size filter can give on the matrices reduced to what is active, so they are within the rounding bounds of C109 and C110 of exact arithmetic, whatever the order of additions, with and without fused multiply-add.", "quantifier": "all sizes below 65536, all valid lists of active states, controls and measurements in any order, all matrices of doubles, all evaluation orders and all results of the inversion", "why_tests_cant": "ranges over all index lists, all matrices and all evaluation orders; a test sees one build", "anchors": ["src/filters/kalman_filter_vs.cpp: myPredict, myCorrect", "src/filters/ekf_vs.cpp: myPredict, myCorrect", "src/utilities/data_subset_utilities.cpp"]}
{"id": "C112", "title": "a UKF with default parameters does not move when its model says nothing moves, in double arithmetic", "statement": "If the system model sends every sigma point to the same vector, predict of a UKF with the default parameters makes that vector the state (getState), in double arithmetic; the mean and the covariance of any sigma points are those of exact arithmetic up to rounding, whatever order the terms are added in and whether or not fused multiply-add is used.", "quantifier": "all numbers of states below 65536, all vectors of doubles, all evaluation orders, with and without fused multiply-add, all numbers of predictions", "why_tests_cant": "false in general: the weights are about -10^6 and 10^6 / 2n and their sum is 1 only up to 2^-31, so the state drifts at every prediction; the drift must be bounded for all sizes and orders", "anchors": ["src/filters/ukf.cpp: setSigmaPointParameters, myPredict", "src/filters/filter_model.cpp: weightedSum"]}
{"id": "C113", "title": "UKF corrections keep proper variances when the system model overrides the vector operations", "statement": "correct of a UKF over SixDRates (or any system model with its own addVectors and subtractVectors) never fails for a positive definite measurement covariance, keeps the covariance symmetric, increases no variance, and leaves no negative variance.", "quantifier": "all states, covariances, measurements, sigma point parameters with n + lambda > 0 and beta >= alpha^2, all overridden vector operations, all measurement functions", "why_tests_cant": "false for the last part: every first IMU correction of a level vehicle with an isotropic covariance makes a variance negative; the other parts must hold for whatever the overridden operations return", "anchors": ["src/filters/ukf.cpp:myCorrect", "src/definitions/six_d_rates.cpp:subtractState", "src/measurement_models/six_d_rates_imu.cpp:myUpdate"]}
{"id": "C114", "title": "the sigma points of a UKF represent its covariance, in double arithmetic", "statement": "For every symmetric positive definite covariance (setState/getCovariance), the sigma points that predict and correct of a UKF with the default parameters generate have that covariance, up to rounding: L L' / (n + lambda) = covariance for the square root L = llt().matrixL() computed in double arithmetic, whatever order the terms are added in and whether or not fused multiply-add is used.", "quantifier": "all numbers of states below 65536, all positive definite matrices of doubles, all evaluation orders, with and without fused multiply-add, both ways Eigen divides a column", "why_tests_cant": "false for nearly singular covariances: a pivot can round to a number <= 0, the decomposition stops, nobody asks for info(), and the rest of L is the unfactored covariance; where it is true must be shown for all sizes, matrices and orders of evaluation", "anchors": ["src/filters/ukf.cpp: myPredict lines 52-53, myCorrect lines 107-108", "src/filters/ukf_vs.cpp: lines 62-63, 144-145"]}
{"id": "C115", "title": "a UKF correction keeps proper variances, in double arithmetic", "statement": "correct of a UKF with the default vector operations computes the innovation covariance, the cross covariance, the gain, the state and the covariance of exact arithmetic up to rounding, whatever order the terms are added in and whether or not fused multiply-add is used; the covariance stays symmetric, no variance grows, and no variance becomes negative.", "quantifier": "all numbers of states, measurements and sigma points, all weights, all doubles, all evaluation orders, with and without fused multiply-add, whatever inverse() returns", "why_tests_cant": "false for the sign and the symmetry: covariance - K S K' can round to a negative variance when the measurement is accurate; the bounds must hold for all sizes and orders", "anchors": ["src/filters/ukf.cpp: myCorrect, lines 103-154", "src/filters/filter_model.cpp: addVectors, subtractVectors, weightedSum"]}
{"id": "C116", "title": "however long a filter only predicts, double arithmetic keeps it near exact arithmetic", "statement": "For constant model matrices, the covariance (getCovariance) of a Kalman filter or EKF after any number of predict calls in double arithmetic differs from the one of exact arithmetic by at most a constant that does not depend on the number of calls.", "quantifier": "all numbers of predict calls, all sizes, all model matrices and noises, all doubles, all evaluation orders, with and without fused multiply-add", "why_tests_cant": "it is about unboundedly many calls: rounding errors may add up, or noise may be lost in every step, only after very long runs", "anchors": ["src/filters/kalman_filter.cpp: myPredict", "src/filters/ekf.cpp: myPredict"]}
{"id": "C117", "title": "the inverse in the gain is the inverse of the innovation covariance, in double arithmetic", "statement": "For every symmetric positive definite innovation covariance S, what inverse() returns in correct of the Kalman filters, EKFs and UKFs is finite, has positive variances and is the inverse of S up to rounding; so the gain is the exact one up to rounding.", "quantifier": "all numbers of measurements, all doubles in S, every order of evaluation, with and without fused multiply-add, division by the pivot or multiplication by its inverse", "why_tests_cant": "it fails only for nearly singular S, and the bound must hold for every size, value and evaluation order", "anchors": ["src/filters/kalman_filter.cpp: myCorrect, line 42", "src/filters/ekf.cpp: myCorrect, line 39", "src/filters/ukf.cpp: myCorrect, line 149", "src/filters/kalman_filter_vs.cpp: line 75", "src/filters/ekf_vs.cpp: line 61", "src/filters/ukf_vs.cpp: line 194"]}
{"id": "C118", "title": "a direct measurement never takes a state or its variance too far, in double arithmetic", "statement": "correct() of KalmanFilter, EKF, KalmanFilterVS and EKFVS with one active measurement that reads one state directly (its row of C or H is that state's unit vector) leaves that state's variance finite and between 0 and what it was, whatever the rounding, and moves the state towards the measurement, no further than x + (z - x) as doubles compute it; the new variance is that of exact arithmetic up to 2^-50 of the old one (so measuring again and again with noises q1, q2, ... gives 1 / (1/p + 1/q1 + 1/q2 + ...), with errors that only add up), and a filter whose states start independent and do not influence each other keeps a diagonal covariance without negative variances over any history. (With a scaled measurement, e.g. 7 times the state, the variance can become negative.)", "quantifier": "all numbers of states, all doubles in the covariance (not necessarily symmetric or definite) and the measurement with absolute value up to 2^900 and noises from 2^-900 to 2^900, every order of evaluation, with and without fused multiply-add", "why_tests_cant": "the bounds are exact inequalities on rounded results that must hold for every double and every evaluation order; the scaled case shows how easily they fail", "anchors": ["src/filters/kalman_filter.cpp: myCorrect", "src/filters/ekf.cpp: myCorrect", "src/filters/kalman_filter_vs.cpp: myCorrect", "src/filters/ekf_vs.cpp: myCorrect"]}
