{
 "C01": {
  "status": "proved",
  "note": "Also shown: representable sums of 2^31 s or more are refused (_refuted)."
 },
 "C02": {
  "status": "proved",
  "note": "Beyond 2^31 s: overflow and wrong values shown by the two _refuted theorems."
 },
 "C03": {
  "status": "proved",
  "note": "Duration part under the stated normal-form condition; the exception is exhibited by C03_duration_comparisons_refuted and bounded by C03_reachable_values_are_nearly_canonical."
 },
 "C04": {
  "status": "proved",
  "note": ""
 },
 "C05": {
  "status": "proved",
  "note": "Negating the minimum Duration is signed overflow (_refuted)."
 },
 "C06": {
  "status": "proved",
  "note": "The wrong renderings are exhibited by the _refuted theorems."
 },
 "C07": {
  "status": "proved",
  "note": "Integers and flag byte only; the two failing configurations are the _refuted theorems."
 },
 "C08": {
  "status": "proved",
  "note": "Default flags are host dependent (_refuted)."
 },
 "C09": {
  "status": "proved",
  "note": "Both undefined inputs and the wrapped value are exhibited (_refuted)."
 },
 "C10": {
  "status": "proved",
  "note": ""
 },
 "C11": {
  "status": "proved",
  "note": "The lost wake-up in join(), the destructor race and waiting on a stopped queue are the _refuted theorems."
 },
 "C12": {
  "status": "proved",
  "note": "Exact rational arithmetic."
 },
 "C13": {
  "status": "proved",
  "note": "Exact rational arithmetic; the stale segment index is the _refuted theorem."
 },
 "C14": {
  "status": "proved",
  "note": "Behaviour on repeated entries exhibited by the _refuted theorems."
 },
 "C15": {
  "status": "proved",
  "note": "Exact arithmetic (no float rounding); the three violations are the _refuted theorems."
 },
 "C16": {
  "status": "proved",
  "note": "Exact arithmetic; mode and median stated for real coordinates."
 },
 "C17": {
  "status": "proved",
  "note": "Batch model of OptimizationProblem.cpp; all histories of its public calls."
 },
 "C18": {
  "status": "proved",
  "note": "Incremental problem as union of its batches for all histories without rejected adds; the changed-batch hazard is C18_changed_batch_refuted."
 },
 "C19": {
  "status": "proved",
  "note": "What a rejected add preserves, and refutations for what it leaves behind."
 },
 "C20": {
  "status": "proved",
  "note": "Enumeration and groups in every reachable state."
 },
 "C21": {
  "status": "proved",
  "note": "Estimator model with the optimizer as an oracle; exceptions to the rule are the C21_*_refuted theorems."
 },
 "C22": {
  "status": "proved",
  "note": "Acceptance criterion over binary64 (SpecFloat), all oracle answers."
 },
 "C23": {
  "status": "proved",
  "note": "Any arithmetic for the bookkeeping; binary64 (Flocq) for the order of costs. NaN and Gauss-Newton counterexamples as _refuted."
 },
 "C24": {
  "status": "proved",
  "note": "Counters as functions of the log of passes; termination for arbitrary oracles."
 },
 "C25": {
  "status": "proved",
  "note": "Counterexample after a solver failure as _refuted."
 },
 "C26": {
  "status": "proved",
  "note": "any arithmetic; shared block indices refuted as stated"
 },
 "C27": {
  "status": "proved",
  "note": "any arithmetic, all write orders and rounds; misuse witnesses are the _refuted theorems named in the statement"
 },
 "C28": {
  "status": "proved",
  "note": "Model ThrModel.v: one step of a schedule is one round of a thread's loop (threads share no locations, C28_race_free, so finer interleavings give nothing new). A thread that throws stops, the others go on, then the call throws. Oracles: each term's evaluateError/getWeightedError. Three known limits are _refuted theorems. The builder's threads do not catch exceptions (std::terminate); that case is not modelled."
 },
 "C29": {
  "status": "proved",
  "note": "Model ProbModel.v. Lifetimes: a term is alive while the problem or somebody else (oracle kept) holds it; reading a destroyed one is UB. Three known defects are _refuted theorems."
 },
 "C30": {
  "status": "proved",
  "note": "Model MEstModel.v over exact reals; chi-squared quantile is a parameter. binary64 behaviour only through the computed witnesses of C30_float_refuted. Derivatives use Coquelicot."
 },
 "C31": {
  "status": "proved",
  "note": "The three limits are the _refuted theorems."
 },
 "C32": {
  "status": "proved",
  "note": "The five surprises are the _refuted theorems."
 },
 "C33": {
  "status": "proved",
  "note": "Hanging and the wrap-around of replace_reverse have their own theorems."
 },
 "C34": {
  "status": "proved",
  "note": ""
 },
 "C35": {
  "status": "proved",
  "note": "The boost property tree itself is modelled as a finite map from paths."
 },
 "C36": {
  "status": "proved",
  "note": "Restore after save for all histories without clear; refuted after clear."
 },
 "C37": {
  "status": "proved",
  "note": "Ordering invariant of the estimator."
 },
 "C38": {
  "status": "proved",
  "note": "Counterexamples for the other solver and policy combinations as _refuted."
 },
 "C39": {
  "status": "proved",
  "note": "Over the reals; dog-leg counterexample in binary64 as _refuted."
 },
 "C40": {
  "status": "proved",
  "note": "Over the reals."
 },
 "C41": {
  "status": "proved",
  "note": "Any arithmetic."
 },
 "C42": {
  "status": "proved",
  "note": "exact real arithmetic"
 },
 "C43": {
  "status": "proved",
  "note": "any arithmetic; NaN and stale-flag witnesses as stated"
 },
 "C44": {
  "status": "proved",
  "note": "exact real arithmetic; size checks in any arithmetic"
 },
 "C45": {
  "status": "proved",
  "note": "Model MEstModel.v (second half) over exact reals; the error vector and Jacobians are inputs. getWeightedError uses the squared error stored by the last evaluateError; the theorems take it right after evaluateError."
 },
 "C46": {
  "status": "proved",
  "note": "The refuted theorems give the stale-block, accumulation, unchecked-layout, empty-slice and view cases; C46_transpose_into_partial says which blocks of an existing destination are right."
 },
 "C47": {
  "status": "proved",
  "note": "The solver libraries are an oracle: only what they are given is modelled, and whether they report success is an input. The block ordering itself (AMD) is any permutation."
 },
 "C48": {
  "status": "proved",
  "note": "Exact real arithmetic; the factor is CHOLMOD's or CSparse's output, described by its documented contract (L L^T = H(p,p), diagonal first in each column)."
 },
 "C49": {
  "status": "proved",
  "note": "over exact reals; Jacobians and errors of the terms are inputs; the dog-leg length is refuted"
 },
 "C50": {
  "status": "proved",
  "note": "Indices are natural numbers below 2^31; coordinates over the reals."
 },
 "C51": {
  "status": "proved",
  "note": "Tag detector, subpixel refinement, pose estimate and projection are parameters; identities of detections are assumed non-negative; statistics over the reals."
 },
 "C52": {
  "status": "proved",
  "note": "Doubles are modelled by the reals; the debug-only unit-length assertion is a precondition."
 },
 "C53": {
  "status": "proved",
  "note": "Doubles are modelled by the reals; NaN results are a separate outcome. The deviations listed in the statement are proved as refutations with bounds."
 },
 "C54": {
  "status": "proved",
  "note": "Derivatives over the reals with Coquelicot; the series branches below the angle 2^-13 are covered only for the update at zero."
 },
 "C55": {
  "status": "proved",
  "note": "Over the reals. Gimbal lock and half turns are refuted with witnesses."
 },
 "C56": {
  "status": "proved",
  "note": "Over the reals; division by zero of the Jacobian at the zero rotation vector is refuted with a witness."
 },
 "C57": {
  "status": "proved",
  "note": "Real arithmetic; interpolation of coinciding times depends on argument order (C57_ex_same_time), and its end point is only reached when the interval is at least 1e-14 long."
 },
 "C58": {
  "status": "proved",
  "note": "Violation: operator- of uncertain points uses toHomogeneousPlus instead of the derivative of the difference, and the mixed operators leave the covariance unscaled (C58_difference_refuted)."
 },
 "C59": {
  "status": "proved",
  "note": "Jacobians, parameter Jacobians, undistortion guarantees and their violations (C59_..._refuted) are all proved over the reals."
 },
 "C60": {
  "status": "proved",
  "note": "All parts proved for an arbitrary distortion; the three violations are C60_pinhole_pixel_jacobian_refuted, C60_pinhole_homogeneous_refuted, C60_pinhole_resize_refuted. Random point generation and border rays are not modelled."
 },
 "C61": {
  "status": "proved",
  "note": "All parts proved over the reals; violations are C61_omni_boundary_refuted and C61_omni_random_keypoint_refuted. initializeIntrinsics is not part of this property."
 },
 "C62": {
  "status": "proved",
  "note": "All parts proved over the reals; violations are C62_eucm_intrinsics_jacobian_refuted, C62_eucm_boundary_refuted and C62_eucm_random_keypoint_refuted. Of initializeIntrinsics only the conversion from the omnidirectional camera is modelled."
 },
 "C63": {
  "status": "proved",
  "note": "All parts proved over the reals; violations are C63_ds_image_refuted and C63_ds_lift_refuted. Of initializeIntrinsics only the conversion from the omnidirectional camera is modelled."
 },
 "C64": {
  "status": "proved",
  "note": "Real arithmetic. Induction over the order relates the matrix recursion to the Cox-de Boor recursion; refuted theorems give the four violations."
 },
 "C65": {
  "status": "proved",
  "note": "Real arithmetic. Continuity order is proved through joins of the local basis polynomials at the knots."
 },
 "C66": {
  "status": "proved",
  "note": "Real arithmetic, Riemann integral of Coquelicot. The sparse variants of the curve integral are not modelled."
 },
 "C67": {
  "status": "proved",
  "note": "Real arithmetic; LDLT and Cholmod are oracles with a stated contract; the sparse block assembly is modelled by its dense meaning."
 },
 "C68": {
  "status": "proved",
  "note": "Real arithmetic; householderQr().solve is an oracle that solves non-singular systems, and non-singularity of the 2 x dim system is proved. Both violations are shown by computed witnesses."
 },
 "C69": {
  "status": "proved",
  "note": "C69_world_velocity_refuted: angularVelocity = -S pdot but angularVelocityAndJacobian = +S pdot. C69_angular_acceleration_refuted: the terms from the change of S and C are missing. Jacobian theorems hold for the returned values."
 },
 "C70": {
  "status": "proved",
  "note": "Mutual induction over the four kinds of trees. Charts of the five rotation parametrisations are proved. Two violations are refuted with witnesses."
 },
 "C71": {
  "status": "proved",
  "note": "Violations stated as C71_set_refuted, C71_mapped_write_refuted, C71_homogeneous_assign_refuted, C71_mapped_difference_refuted, C71_jacobian_at_reference (last three clauses), C71_generic_vector_refuted. Real arithmetic."
 },
 "C72": {
  "status": "proved",
  "note": "Violations stated in C72_kept_add (second part), C72_kept_remove (second part), C72_segments_forget, C72_difference_refuted, C72_acceleration_body_refuted. The time-offset expression is not part of this property. Real arithmetic."
 },
 "C73": {
  "status": "proved",
  "note": "Violations stated in C73_jacobian (last part), C73_plain_refuted, C73_end_refuted, C73_remove_refuted. The time expression itself is any expression with value u and rate td. Real arithmetic."
 },
 "C74": {
  "status": "proved",
  "note": "Violations stated in C74_covariance_refuted, C74_throw_refuted, C74_foreign_refuted, C74_scaling_refuted and C74_rank_refuted. Householder QR and the LU inverse are parameters with a correctness hypothesis, shown satisfiable. Real arithmetic."
 },
 "C75": {
  "status": "proved",
  "note": "Violations stated in C75_orientation_refuted and C75_rotate (last part). The table checks are computations on the constants of the headers (Tag36h9 with 5329 codes not checked)."
 },
 "C76": {
  "status": "proved",
  "note": "cv::findHomography is a parameter, assumed to take the corners to the quadrilateral in C76_corners and C76_tag; the gray model threshold is a parameter telling whether a position is bright; reals for floats."
 },
 "C77": {
  "status": "proved",
  "note": "The general claim fails: C77_duplicate_refuted computes a list of three detections for which the result contains one of them twice; GridCalibrationTargetAprilgrid::computeObservation ends the program when it sees one id twice."
 },
 "C78": {
  "status": "proved",
  "note": "Ids are naturals; recursion depth is bounded by the number of ids plus one, shown sufficient; the C++ stack limit is not modelled."
 },
 "C79": {
  "status": "proved",
  "note": "Reals for floats; the missing return in Iterator::operator= is not modelled; C79_reversed_refuted shows the undefined lookup."
 },
 "C80": {
  "status": "proved",
  "note": "Reals for floats; line fitting and clustering are inputs. C80_minus_one_refuted shows the exception."
 },
 "C81": {
  "status": "proved",
  "note": "Extended unified camera: equal focal lengths (C62 shows its intrinsics Jacobian is wrong otherwise). Reals for doubles. Refutations: C81_unseen_refuted, C81_axis_refuted, C81_adapter_refuted."
 },
 "C82": {
  "status": "proved",
  "note": "Reals for doubles; times within 2^31 s. Refutations: C82_snapshot_refuted, C82_covariance_refuted, C82_singular_refuted, C82_no_curve_refuted."
 },
 "C83": {
  "status": "proved",
  "note": "Reals for doubles. Refutations: C83_outside_refuted, C83_virtual_refuted, C83_finite_difference_refuted, C83_equal_refuted, C83_matrix_refuted."
 },
 "C84": {
  "status": "proved",
  "note": "Reals for doubles. Refutations: C84_euclidean_refuted, C84_global_refuted, C84_refused_refuted."
 },
 "C85": {
  "status": "proved",
  "note": "Reals for doubles. Refutations: C85_eccentric_refuted, C85_curve_refuted, C85_stale_refuted."
 },
 "C86": {
  "status": "proved",
  "note": "Reals for doubles, so rounding is not covered. Refutations: C86_stale_refuted, C86_twice_refuted, C86_parameters_refuted."
 },
 "C87": {
  "status": "proved",
  "note": "Reals for doubles. Refutations: C87_order_refuted, C87_scaling_refuted, C87_shrunk_refuted."
 },
 "C88": {
  "status": "proved",
  "note": "Reals for doubles; the decomposition is a parameter assumed right for the matrices it gets (the hypothesis is met by a concrete one in C88_ex). Refutation: C88_moved_refuted."
 },
 "C89": {
  "status": "proved",
  "note": "Reals for doubles, with 0/0 and its consequences as a separate value; rounding of corners to float and clearing of the distortion not modelled; std::sort is a parameter. Refutations: C89_columns_refuted, C89_straight_refuted, C89_same_refuted."
 },
 "C90": {
  "status": "proved",
  "note": "cv::SVD::solveZ (a least squares null vector) and cv::solvePnP (any pose) are parameters; reals for doubles and floats; the distortion is the one after clear(). Failure with zero focal lengths: C90_zero_refuted."
 },
 "C91": {
  "status": "proved",
  "note": "SuiteSparseQR and JacobiSVD are parameters assumed to be exact decompositions of the matrices they are given; reals for doubles. Bounds taken as inclusive drop one direction: C91_least_squares_refuted, C91_optimum_refuted; not finite step: C91_nan_refuted."
 },
 "C92": {
  "status": "proved",
  "note": "Reals for floats. The offset of the row is left out of the bounds tests: C92_convolution_refuted, C92_leak_refuted."
 },
 "C93": {
  "status": "proved",
  "note": "Reals for floats; division by a zero total weight is undefined."
 },
 "C94": {
  "status": "proved",
  "note": "Reals for floats. The empty border is what step two produces (C92). The groups are the disjoint sets of C78."
 },
 "C95": {
  "status": "proved",
  "note": "Reals for floats. Eigen's inverse with check is a parameter assumed to return two-sided inverses (satisfied by the inverse of diagonal matrices in the example). Decoding the word is C75."
 },
 "C96": {
  "status": "proved",
  "note": "Doubles are exact reals. Long double is a parameter: monotone, exact on integers up to 2^64, relative error 2^-64. Narrowing conversions wrap, as the compilers in use do. The failing conversion of negative numbers is stated as _refuted."
 },
 "C97": {
  "status": "proved",
  "note": "Doubles are reals rounded to 53 bits to nearest even with unbounded exponents (Flocq's round). The violations are stated as _refuted: Time::fromSec and Duration::fromSec do not normalize, Duration::fromSec truncates."
 },
 "C98": {
  "status": "proved",
  "note": "Reals for floats. The failures of lrint and of the solver are stated as _refuted."
 },
 "C99": {
  "status": "proved",
  "note": "Reals for floats. Eigen's solvers are parameters, assumed to decompose the one matrix they are given (singular values in decreasing order)."
 },
 "C100": {
  "status": "proved",
  "note": "Values are opaque numbers; addresses are never reused; reference counts of descriptors are not modelled."
 },
 "C101": {
  "status": "proved",
  "note": "Reals for floats; a zero determinant is the outcome without a result."
 },
 "C102": {
  "status": "proved",
  "note": "Reals for floats; distortion functions are parameters; cv::remap itself is not modelled."
 },
 "C103": {
  "status": "proved",
  "note": "Reals for floats; cameras are parameters whose view does not depend on the scale of a homogeneous point; cv::Mat assignment modelled as reuse of pixels of the same size."
 },
 "C104": {
  "status": "proved",
  "note": "Exact arithmetic over the reals; the inverse of a diagonal block (Eigen) is a parameter; dangling block pointers are not modelled."
 },
 "C105": {
  "status": "proved",
  "note": "Exact arithmetic over the reals; boost accumulators modelled by the sums they keep; threads and the printed table are not modelled. Rounding in printing by Flocq's nearest integer."
 },
 "C106": {
  "status": "proved",
  "note": "Calls one after the other for the filtering; locks only for the interleavings (data races on the flags are not modelled). Statements hit by the logger itself and the formatting are left out."
 },
 "C107": {
  "status": "proved",
  "note": "Real arithmetic, so casts are the identity; the node from a vector expression is left out (it does not compile when used)."
 },
 "C108": {
  "status": "proved",
  "note": "Real arithmetic; Eigen's inverse is a parameter required to invert its argument near the point; logarithm, run-time sized constants and the null differential are left out."
 },
 "C109": {
  "status": "proved",
  "note": "Real arithmetic; erf is a parameter characterised by its derivative, shown to exist."
 },
 "C110": {
  "status": "proved",
  "note": "Real arithmetic; the decision of Eigen's LDLT is a parameter."
 },
 "C111": {
  "status": "proved",
  "note": "Real arithmetic, integers without bound."
 },
 "C112": {
  "status": "proved",
  "note": "Real arithmetic; random() is the list of the numbers it returns; sampleGamma is not modelled."
 },
 "C113": {
  "status": "proved",
  "note": "Real arithmetic; log-gamma and digamma are parameters; cdf, invcdf, the density at 0 for shapes other than 1 and the approximate median are not modelled."
 },
 "C114": {
  "status": "proved",
  "note": "Only the allocation and the flow of exceptions are modelled; whether each library call works is an oracle."
 },
 "C115": {
  "status": "proved",
  "note": "Steps are atomic between releases of the POSIX mutex; POSIX calls fail only by time-out; one condition without time-out, woken one thread at a time; states of registered threads left out."
 },
 "C116": {
  "status": "proved",
  "note": "Real arithmetic; patterns of integers; debug assertions off; minimalDifference is not modelled."
 },
 "C117": {
  "status": "proved",
  "note": "The linear algebra is an oracle giving the next state, the step size and the predicted decrease; real arithmetic; optimizeDogLeg is not modelled."
 },
 "C118": {
  "status": "proved",
  "note": "The two candidate steps are parameters of the rounds; the linear solver and its fallback are not modelled; real arithmetic."
 },
 "C119": {
  "status": "proved",
  "note": "The regular expression is modelled by hand; colours, the end of the line and texts with a zero character are left out."
 },
 "C120": {
  "status": "proved",
  "note": "Reference counts of boost::shared_ptr are modelled by control blocks; effects of the objects' own destructors are left out."
 },
 "C121": {
  "status": "proved",
  "note": "Real numbers instead of doubles; the matrix inverse is a parameter that inverts the marginalized blocks; vectors are indexed by block."
 },
 "C122": {
  "status": "proved",
  "note": "Which terms the problem reports for a variable is a parameter; real numbers; the sizes of the matrices are only modelled by the row offsets."
 },
 "C123": {
  "status": "proved",
  "note": "Times are exact where the reader computes with doubles; the correction of time stamps is left out."
 },
 "C124": {
  "status": "proved",
  "note": "Times are integers where the code has doubles; the sets of observed corners are left out."
 },
 "C125": {
  "status": "proved",
  "note": "The queues of the managers are taken to be atomic and the detector to depend on nothing but the image and its stamp."
 },
 "C126": {
  "status": "proved",
  "note": "Times and errors are integers where the code has doubles. The segments disabled for want of improvement are a parameter, as is the list of them that the code keeps for all calibrations together."
 },
 "C127": {
  "status": "proved",
  "note": "Transformations are any group; the pair calibrations, the choice of paths by igraph and the final refinement are left out."
 },
 "C128": {
  "status": "proved",
  "note": "Floats are rationals, without infinities and NaN; missing fields and the reading of the file are left out."
 }
}