{
"C01": {"status": "proved", "note": "For any non-zero quaternion; the zero quaternion gives no finite matrix."},
"C02": {"status": "proved", "note": ""},
"C03": {"status": "proved", "note": ""},
"C04": {"status": "partial", "note": "Refuted as stated: rotations whose quaternion has last component 0 and a tie for the largest component divide by zero (e.g. 90 degrees about x). Proved exactly on the complement."},
"C05": {"status": "partial", "note": "Proved for every non-zero vector; the zero vector is refuted (division by zero)."},
"C06": {"status": "partial", "note": "Refuted as stated: the round trip returns the negated vector, proved for every vector in range."},
"C07": {"status": "proved", "note": "Also: the DCM is the active rotation about the returned vector."},
"C08": {"status": "proved", "note": ""},
"C09": {"status": "partial", "note": "Rotation: proved. Documented direction: refuted; the matrix is proved to be NED-to-body."},
"C10": {"status": "partial", "note": "Proved for headings in [0,pi) and |roll|<pi/2; refuted beyond, where heading (roll) is proved to come back shifted by pi."},
"C103": {"status": "proved", "note": "Overflow is not modelled; the rounding, the inner product, sine and cosine are parameters with the error model float_ok, met by binary64 (C103_binary64_meets_the_model)."},
"C104": {"status": "partial", "note": "False as stated: C104_short_increment_refuted (every increment shorter than 2^-538). C104_finite_iff gives the exact condition: the attitude stays defined if and only if each increment has a component whose square exceeds 2^-1075; C104_lost_otherwise says what happens when it does not."},
"C105": {"status": "proved", "note": ""},
"C106": {"status": "proved", "note": "lla2Ecef_f in ModelFramesFloat.v; the error model is that of C103 plus squaring with two units in the last place"},
"C107": {"status": "proved", "note": "computeREcef2Ned_f and computeRNed2Ecef_f in ModelFramesFloat.v"},
"C108": {"status": "proved", "note": "gravityNed_f in ModelGravityFloat.v; same error model as C106"},
"C109": {"status": "proved", "note": "simpleGravity_f in ModelGravityFloat.v"},
"C11": {"status": "proved", "note": ""},
"C110": {"status": "proved", "note": "Existence by the intermediate value theorem on the height-compensated latitude equation; uniqueness off the polar axis, where the longitude is arbitrary on it."},
"C111": {"status": "proved", "note": "Measured without inverses: the square of every component of the difference is at most c times the variance in that direction. The version with inverse covariances needs them positive definite."},
"C112": {"status": "proved", "note": "The measurement matrix needs a left inverse L; the bound is L R L^T."},
"C113": {"status": "proved", "note": ""},
"C114": {"status": "proved", "note": ""},
"C115": {"status": "proved", "note": ""},
"C116": {"status": "proved", "note": "One state and one measurement, sizes between 2^-50 and 2^50; overflow and fused operations are not modelled. C116_exact_arithmetic ties the rounded model to the general one."},
"C117": {"status": "proved", "note": "Overflow is excluded by the upper bound on the squared length. Exact arithmetic gives back the exact model."},
"C118": {"status": "proved", "note": "The claim for every rotation is refuted beside it: no branch is taken when two squares tie."},
"C119": {"status": "proved", "note": "The claim up to half a turn is refuted beside it, both for finiteness and for accuracy."},
"C12": {"status": "proved", "note": ""},
"C120": {"status": "proved", "note": "The claim for every nonzero vector is refuted beside it."},
"C121": {"status": "proved", "note": "strapdownRk4_f in ModelNavFloat.v: |lat| <= 1.48, |lon| <= 7, |h| <= 100 km, |v| <= 1000 m/s per component; overflow not modelled; C121_exact_arithmetic ties the rounded model to the exact one."},
"C122": {"status": "proved", "note": "integrate_f in ModelNavFloat.v: rotation increment between 2^-480 and 4 rad, 1 us to 1 s; C122_exact_arithmetic ties it to integrate; C122_repeated_time is the division by a zero time step."},
"C123": {"status": "proved", "note": "Trajectories in the sense of derivatives of position and velocity; the inertial velocity is shown to exist, not given."},
"C124": {"status": "proved", "note": "Same trajectories as C123."},
"C125": {"status": "proved", "note": "Real arithmetic; the square root of the covariance is supplied by the caller, as in the code."},
"C126": {"status": "proved", "note": "C126_covariance_refuted shows that the covariance part of the claim cannot be strengthened."},
"C127": {"status": "proved", "note": "filterPredict_f in ModelFilterFloat.v over any inner product routine with the usual error bound; overflow not modelled; C127_exact_arithmetic ties it to the exact model; C127_symmetry_refuted and C127_variance_refuted are runs of the plain loop in binary64."},
"C128": {"status": "proved", "note": "compensateMeasurement_f in ModelCompFloat.v; overflow not modelled; C128_exact_arithmetic ties it to the exact model."},
"C129": {"status": "proved", "note": "The time step is a real number in the run; a second theorem identifies each call with integrate when the step is a whole number of microseconds. The constants are not computed. The motion uses the code's own equations, with attitude relative to a frame that does not turn, as in updateAttitude."},
"C13": {"status": "proved", "note": ""},
"C130": {"status": "proved", "note": "The velocity increment is resolved with the attitude at the end of the step, which costs the higher order of the Runge-Kutta step. C130_second_order_refuted excludes an error of second order; C129 gives the first-order bound."},
"C131": {"status": "proved", "note": "Histories of integrate calls; the bound has no condition on the length of the intervals. It is 0 for a constant rate, where C68 gives exactness."},
"C132": {"status": "partial", "note": "The English statement is false for the code: C132_true_attitude_refuted. The exact drift is C132_computed_attitude_drifts; C131 bounds it for short intervals."},
"C133": {"status": "proved", "note": "Differences of estimates and relative excess of covariances divided by 1+d per prediction, for arbitrary histories; any two starts for full measurements. Exact arithmetic."},
"C134": {"status": "proved", "note": "Existence, uniqueness and geometric convergence to the steady covariance, for measurements with a left-invertible H. Exact arithmetic; detectable but not fully measured states are not covered."},
"C135": {"status": "proved", "note": "Extends C122 to attitudes that are only close to a rotation, and by induction to runs. The range of the position is a condition on the computed states, checked call by call (follows). sin, cos and pow are any functions with the stated error."},
"C136": {"status": "proved", "note": "C136_disturbed_runs needs the sum of the errors below a positive bound; K and that bound are not computed and are far from sharp over long times. C136_double_runs needs no such bound: beyond it the error is bounded by the size of the region. The range of the computed position is a hypothesis (stays)."},
"C137": {"status": "proved", "note": "The region (Box) is a hypothesis on both motions. The constant is not computed; it grows exponentially with the duration. With C129 it says that the runs of the navigator converge to the only motion there is."},
"C138": {"status": "proved", "note": "That different times get different day numbers is refuted (24 April 2038, 0.6 microseconds). The equation of the equinoxes and the final fmod are not part of this claim. Constants are rounded as the compiler does; the sum in gmst is taken from the left without fused operations."},
"C139": {"status": "proved", "note": "Overflow is not modelled; underflow is, through a threshold added to the sizes. The inner products may be summed in any order whose error obeys dot_ok; the plain loop does (C127). Sizes are taken with the computed gain. Bounds on the gain itself are given for one measurement only, since nothing is assumed about the accuracy of larger inversions."},
"C14": {"status": "proved", "note": ""},
"C140": {"status": "proved", "note": "Overflow and the sign of zero are not modelled; on the 180-degree meridian the theorem allows both signs of pi. The counterexample assumes correctly rounded operations, sine and cosine, and any atan2 with double results."},
"C141": {"status": "proved", "note": "Overflow and the sign of zero are not modelled. The jump at heading zero is the half-turn ambiguity of C10 seen from rounding errors."},
"C142": {"status": "proved", "note": "Eigen's inverse of a 3x3 matrix is modelled from its documented formula, cofactors times the reciprocal determinant. Overflow is not modelled."},
"C143": {"status": "proved", "note": "The disturbance is any symmetric change within the fraction; rounding in matrix dimensions is bounded per call in C127 and C139, and for one state C145 puts the two together."},
"C144": {"status": "proved", "note": "The surprise is measured by the running, disturbed filter, as its user would see it."},
"C145": {"status": "proved", "note": "Overflow is not modelled; the calm condition keeps the variances between 2^-49 and 2^49."},
"C146": {"status": "proved", "note": "The fraction is measured by the exact covariance in every pair of directions, so it bounds the asymmetric part as well. The surprise is measured by the running filter."},
"C147": {"status": "proved", "note": "Measurements are scalar so that the inverse is one division; overflow is excluded by the bounds 2^-300 to 2^300. The estimates are in C148."},
"C148": {"status": "proved", "note": "All hypotheses are about the exact run. Scalar measurements, as in C147."},
"C149": {"status": "proved", "note": "Sine and cosine within 2^-52 are an assumption on the C library (float_ok). The statement compares the rounded with the exact function; the exact function is the subject of C40 to C42."},
"C15": {"status": "proved", "note": ""},
"C150": {"status": "proved", "note": "SpecNutation.v lists the published terms in another order, other units and another order of arguments than the code."},
"C151": {"status": "proved", "note": "Overflow is not modelled. The backward error of the LDLT solver is a hypothesis, proved for one state where the solver is a division."},
"C152": {"status": "proved", "note": "Overflow is not modelled."},
"C153": {"status": "proved", "note": "The solver is Eigen/src/Cholesky/LDLT.h, which is not part of the repository. Underflow and overflow are not modelled inside the solver."},
"C154": {"status": "proved", "note": "Underflow and overflow are not modelled here. The update function is modelled in rounded arithmetic and shown to be the unscented update without rounding."},
"C155": {"status": "proved", "note": "Underflow and overflow are not modelled here. Eigen works in blocks for larger matrices; the order of summation is free in the model, the grouping of the triangular solution by blocks is covered by that."},
"C156": {"status": "proved", "note": "Underflow and overflow are not modelled. The negative variance is computed step by step in 53-bit doubles with their range."},
"C157": {"status": "proved", "note": "Library sine, cosine and tangent are assumed to err by at most two units of 2^-53 relatively. Overflow is not modelled."},
"C158": {"status": "proved", "note": "The inversion is modelled without underflow, as in C155. Overflow is not modelled."},
"C159": {"status": "proved", "note": "Exact arithmetic. The linear solver is assumed to solve the solvable normal equations, as in C59. With the model functions shipped with the class the first iteration is undefined behaviour, see C60."},
"C16": {"status": "proved", "note": ""},
"C160": {"status": "proved", "note": "Overflow is not modelled. C160_converges takes the backward error of the linear solver as a hypothesis. C160_ldlt proves it for the LDLT algorithm of C153 with pivots in any order, whose operations neither underflow nor overflow. C160_noise_refuted shows that the tolerance must exceed the errors of the model functions. C160_exact shows that without rounding the model is that of C59."},
"C161": {"status": "proved", "note": "Overflow is not modelled. C161_step takes the backward error of the linear solver as a hypothesis. The theorems on the call prove it for the LDLT algorithm of C153 with pivots in any order, whose operations neither underflow nor overflow. C161_exact shows that without rounding the model is that of C59."},
"C162": {"status": "proved", "note": "Overflow is not modelled. The bound on the gradient needs the columns of the returned H to be independent by a margin, so that the LDLT algorithm of C153 is accurate, and no underflow. If the two start vectors differ by eps or less the call returns its arguments and the theorem does not apply, see C59_same_start."},
"C163": {"status": "proved", "note": "C163_lla2Ecef_in_place_refuted is part of the statement: in-place use of lla2Ecef is wrong."},
"C164": {"status": "proved", "note": "Position and velocity become non-finite together, as in the other strapdown theorems. Threads are not modelled."},
"C165": {"status": "proved", "note": "Sums are evaluated entry by entry and solutions of linear systems into temporaries. The weighted calls are not repeated."},
"C166": {"status": "proved", "note": "Overflow of an operation is a rounded result of 2^1024 or more. Sine, cosine, tangent, the arc functions and powers are correctly rounded and sums run from left to right. The inverse of a matrix in a filter update is a routine of the library whose own operations are not covered, except the division for a single measurement."},
"C167": {"status": "proved", "note": "On Flocq's binary64, with infinities and NaN. The correction is any function of the Jacobian and the residual; vectors whose sizes differ are undefined behaviour."},
"C17": {"status": "proved", "note": ""},
"C18": {"status": "proved", "note": ""},
"C19": {"status": "proved", "note": ""},
"C20": {"status": "proved", "note": ""},
"C21": {"status": "proved", "note": ""},
"C22": {"status": "partial", "note": "Proved over the reals and for all finite and infinite doubles. NaN rejection is refuted: the comparisons accept NaN."},
"C23": {"status": "proved", "note": ""},
"C24": {"status": "proved", "note": ""},
"C25": {"status": "proved", "note": "The 43 km bound is needed: at 1 km from the centre the latitude is proved to be pi."},
"C26": {"status": "proved", "note": ""},
"C27": {"status": "partial", "note": "Refuted for every position on the polar axis, whatever value the cosine takes."},
"C28": {"status": "partial", "note": "Proved for every timestamp except those on 31 December, where the code is proved to read past the month table (refuted)."},
"C29": {"status": "partial", "note": "Exact below 2^53 us; refuted beyond, where the error is at most one second."},
"C30": {"status": "partial", "note": "Refuted for every timestamp a second or more before 1970."},
"C31": {"status": "partial", "note": "Refuted: the six fields are appended to the old contents."},
"C32": {"status": "proved", "note": "All civil dates, Julian and Gregorian, any year."},
"C33": {"status": "partial", "note": "Exact acceptance condition proved. Refuted as stated: seconds in (59,60) are rejected; month 0, day 0 and 31 February are accepted."},
"C34": {"status": "proved", "note": "Years within +-10^8; every operation rounded to binary64."},
"C35": {"status": "proved", "note": "Exact value over the reals, and civil day and 5e-6 day accuracy in double arithmetic."},
"C36": {"status": "partial", "note": "History, outcome and row-loading theorems proved. The clause 'a call on an existing file loads its rows' is false for a file that can be read but not written: C36_read_only_file_loaded_refuted shows an empty table is loaded and true returned. std::stod is an explicit parameter."},
"C37": {"status": "proved", "note": "Rectangular tables proved in bounds; two concrete short-line files show the out-of-bounds read and the wrong-row value."},
"C38": {"status": "proved", "note": ""},
"C39": {"status": "proved", "note": "Both functions are equal for any two file names, and reject every date on a fresh object even when a file is named."},
"C40": {"status": "proved", "note": "Also states the exact product of turns and both time scales."},
"C41": {"status": "proved", "note": "The bound is complemented by a comparison with the main published IAU 1980 terms."},
"C42": {"status": "proved", "note": ""},
"C43": {"status": "proved", "note": ""},
"C44": {"status": "proved", "note": ""},
"C45": {"status": "proved", "note": ""},
"C46": {"status": "proved", "note": ""},
"C47": {"status": "proved", "note": ""},
"C48": {"status": "proved", "note": ""},
"C49": {"status": "partial", "note": "False as stated: C49_finite_refuted (P = 0, R = 0). C49_finite_iff says exactly when the estimate is finite; C49_finite_if_noise_pd gives the positive part."},
"C50": {"status": "proved", "note": ""},
"C51": {"status": "proved", "note": ""},
"C52": {"status": "proved", "note": ""},
"C53": {"status": "proved", "note": ""},
"C54": {"status": "proved", "note": ""},
"C55": {"status": "proved", "note": "LDLT is a parameter; only ldlt_ok is assumed (inhabited by pinv_solver_ok)."},
"C56": {"status": "partial", "note": "Optimality proved. 'J is half the weighted cost' is false: C56_cost_refuted; C56_weighted says what J is."},
"C57": {"status": "proved", "note": "For H of full column rank (otherwise the minimiser is not unique)."},
"C58": {"status": "proved", "note": "Acceptance is proved for positive semidefinite weights and user functions that succeed."},
"C59": {"status": "partial", "note": "Step size, Gauss-Newton optimality, linear models and negative eps proved. 'J is that of the returned state' is false: C59_cost_refuted. C59_same_start: equal start vectors return at once."},
"C60": {"status": "proved", "note": ""},
"C61": {"status": "proved", "note": ""},
"C62": {"status": "proved", "note": ""},
"C63": {"status": "partial", "note": "False as stated (nothing is rejected): C63_use_before_calibration_rejected_refuted shows undefined behaviour for every use before calibration; C63_defined_iff_calibrated_first gives the exact condition under which a history is defined."},
"C64": {"status": "proved", "note": ""},
"C65": {"status": "partial", "note": "False as stated: C65_stationary_keeps_attitude_refuted shows that any history containing a zero increment ends with non-finite attitude, position and velocity; C65_initialize_restores shows initialize is the way back."},
"C66": {"status": "proved", "note": ""},
"C67": {"status": "partial", "note": "False as stated: the stored matrix is the transpose (C67_initialize_stores_the_transpose for all attitudes, counterexample C67_body_to_ned_refuted)."},
"C68": {"status": "proved", "note": ""},
"C69": {"status": "proved", "note": ""},
"C70": {"status": "partial", "note": "The size and finiteness part is proved. Preservation of the bias estimate is refuted (C70_bias_preserved_refuted): the code uses the rate matrix as the transition matrix, so the result is the rate of change of the state (C70_predicts_rate) and biases become 0 (C70_bias_reset)."},
"C71": {"status": "proved", "note": ""},
"C72": {"status": "proved", "note": ""},
"C73": {"status": "proved", "note": ""},
"C74": {"status": "proved", "note": ""},
"C75": {"status": "partial", "note": "False as stated for one entry: C75_longitude_row_refuted; C75_jacobian_but_for_one_entry proves all other entries and the exact missing term. C75_sphere_equations_are_newton ties the equations to Newton's law."},
"C76": {"status": "proved", "note": ""},
"C77": {"status": "partial", "note": "False as stated: C77_ut1_across_leap_second_refuted gives the exact error, the day fraction times the change of TAI-UTC. The claim therefore holds on days without a leap second."},
"C78": {"status": "partial", "note": "False as stated: C78_rest_attitude_constant_refuted gives the exact computed attitude, turned about the Earth axis by the elapsed angle."},
"C79": {"status": "proved", "note": ""},
"C80": {"status": "proved", "note": ""},
"C81": {"status": "partial", "note": "False as stated: C81_acceleration_error_two_ways_refuted gives the exact ratio of the two effects; the height component agrees."},
"C82": {"status": "proved", "note": ""},
"C83": {"status": "proved", "note": ""},
"C84": {"status": "proved", "note": ""},
"C85": {"status": "proved", "note": ""},
"C86": {"status": "proved", "note": ""},
"C87": {"status": "proved", "note": ""},
"C88": {"status": "proved", "note": ""},
"C89": {"status": "proved", "note": ""},
"C90": {"status": "proved", "note": ""},
"C91": {"status": "proved", "note": "A defect of the code (see C70): a user would expect biases to be estimated."},
"C92": {"status": "proved", "note": "A defect of the code: a user would expect the residual to be an angle."}
}
