# Formal model of ANYbotics/kalibr in Rocq

## 1. Layout

* `properties.jsonl` – the English properties (C01, C02, ...).
* `rocq/theories/Base.v` – outcome type (`Ok`, `Throw`, `UB`, `Hang`) and machine-integer helpers shared by all models.
* `rocq/theories/<Topic>Model.v` – model of the code, function by function. Every definition cites the file and
  lines in `/repo` that it models and notes simplifications.
* `rocq/theories/<Topic>Spec.v` – small, model-independent specification vocabulary (where one is needed).
* `rocq/theories/<Topic>Proofs.v` – lemmas.
* `rocq/theories/<Topic>Props.v` – property theorems only: statement, `exact` of a lemma, `Print Assumptions`, and an
  `Example` showing that a concrete non-trivial case meets the hypotheses.
* `MANIFEST.json` – property -> theorem names.
* `seeded/LOG.jsonl` – log of deliberately wrong edits of the model and the theorems that caught them.

Conventions. `Ok v` = normal return, `Throw` = a C++ exception leaves the function, `UB` = undefined behaviour
(signed overflow, out-of-bounds access, division by zero, use of an indeterminate value), `Hang` = the modelled loop
does not terminate (fuel exhausted). A theorem named `..._refuted` states that the property, as a user would expect it,
is false of the code and carries a computed witness; `..._partial` proves only part of the property.

## 2. Plan per property

| id | what is modelled | how it is proved |
|----|------------------|------------------|
| C01–C05 | `aslam_time` arithmetic on `Z` fields with explicit 32-bit wrap and overflow outcomes; normalisation loops with fuel | closed forms for the loops by induction, then linear arithmetic; refutations by computation |
| C06 | stream output of sec/nsec as character lists | a decimal-reading specification; proof for Time, refutation for negative and un-normalised Durations |
| C07–C09 | `save_impl`/`load_impl` of the portable archive as byte-list functions, parametric in host byte order and in the preprocessor configuration | round-trip by induction on the magnitude; refutation for the shipped configuration |
| C10–C11 | job queue as a labelled transition system over any number of threads | inductive invariants over all executions; deadlock witness |
| C12–C13 | timestamp corrector over `Z` (abstract exact arithmetic) | hull invariant by induction over the samples |
| C14 | the in-place permutation loop | loop invariant for all permutations |
| C15–C16 | integer grids and histograms | linear index bijection; counting invariant over sample sequences |
| C17–C20 | batch and incremental optimisation problems as state machines over pointer identities | representation invariants by induction on operation histories; refutations for failing paths |
| C21–C22 | incremental estimator with the numerical optimiser as an oracle | case analysis for all oracles |
| C23–C25 | optimiser loop with solver and cost as oracles | loop invariant; termination measure; refutation for the sticky failure flag |
| C26–C28 | Jacobian containers, compressed-column matrix, multi-threaded evaluation as interleavings of loop rounds | refinement to finite maps / dense matrices; every schedule is a permutation of the work |
| C29 | backend optimisation problem (lists + multimap) | representation invariant |
| C30 | M-estimator weights over the reals | real analysis |
| C42–C44 | differential of containers, dense conversion, sparse products (same models as C26–C27) | real algebra on row lists; refinement to columns |
| C45 | weighting of error terms (ErrorTermFs), with the M-estimators of C30 | real algebra; derivatives with Coquelicot |
| C46 | sparse block matrix: access, dense copy, transpose, add, multiply, vectors, scale, slice, permute | block-level invariant; scalar-level sums over R; computed witnesses for the defects |
| C47 | compressed-column export, solver state of the CHOLMOD, CSparse, QR and dense wrappers | refinement to columns; invariant over call histories; computed witnesses |
| C48 | marginal covariance recursion with its memo table, block outputs | forward substitution over R; invariant on the memo table; fuel bound |
| C49 | assembly of the Hessian and right-hand side from weighted Jacobians into the block matrix | induction over the ordered Jacobian map and over the terms; least-squares algebra over R |
| C50 | the four grid targets: point tables, index maps, tag corner indices | loops as runs of stores against the full table; arithmetic on div/mod; monotone coordinates over R |
| C51 | observation object, Aprilgrid extraction, detector with outlier filter | refinement to a map from index to image point by induction over histories; sort and distinct-index writes; Chebyshev over R |
| C52 | quaternion_algebra.cpp product, conversion to and from matrices, over R | ring identities; cofactor identities of SO(3) by nsatz; the four r2quat branches by the rank-one structure of the diagonal combinations |
| C53 | axis-angle exponential/logarithm with their series branches, axisAngle2R, R2AxisAngle, qslerp | half-angle trigonometry, acos/asin identities, sine series bounds; witnesses for the defects |
| C54 | quatS, quatInvS, quatJacobian, expDiffMat, logDiffMat, exp and log Jacobians | Coquelicot derivatives along arbitrary curves, local branch elimination, vector identities |
| C55 | rotation parameterisations, R2rph, angleMod | polar form of atan2, cofactors of SO3, half-angle quaternions; witnesses at the singular sets |
| C56 | S matrices, angular velocities and 3x6 Jacobians of the five parameterisations | Coquelicot derivatives along curves; field modulo the norm equation for the generated expressions |
| C57 | Transformation.cpp, UncertainTransformation.cpp, transformations.cpp over the reals with 3x3 blocks | block matrix algebra, curves with derivatives, adjoint identity C [v]x = [Cv]x C for rotations |
| C58 | HomogeneousPoint.cpp, UncertainHomogeneousPoint.cpp, homogeneous_coordinates.* over the reals | derivatives of quotients and norms, linear propagation of covariances, computed counterexamples |
| C59 | The four distortion classes, function by function, over the reals with NaN/exception outcomes | derivatives along arbitrary curves (Coquelicot), contraction induction, explicit refutation witnesses |
| C60 | PinholeProjection over an arbitrary distortion record, reals for doubles | derivatives along arbitrary curves, algebra of round trips, induction over parameter histories |
| C61 | OmniProjection over an arbitrary distortion record, reals for doubles | symmetric characterisation of the field of view, derivatives along arbitrary curves, closed form of the lifting root, induction over parameter histories |
| C62 | ExtendedUnifiedProjection, reals for doubles | exact characterisation of the field-of-view test, derivatives along arbitrary curves, closed form of the lifting root, induction over parameter histories, equality of two projections |
| C63 | DoubleSphereProjection, reals for doubles | concavity argument for the field-of-view test, reduction of the second sphere to the extended unified model, derivatives along arbitrary curves, induction over parameter histories |
| C64 | knots, basis matrix recursion, segment lookup, evaluation, local basis vectors | induction over the order: row u of the basis matrix is the row of basis polynomials of the segment; locality and partition of unity from the recursion |
| C65 | same model as C64 plus Jacobian and coefficient vector functions | derivative of monomials per segment; join lemma by induction over the order; gluing of one-sided derivatives at knots |
| C66 | integral and quadratic integral functions of BSpline.cpp | antiderivative of each segment polynomial and additivity of the integral; block decomposition of the matrix products; derivative matrix equals polynomial derivative by induction |
| C67 | assembly of the normal equations and the fit functions | rows of the system are evaluations (C65), motion term is the integral form (C66), completing the square |
| C68 | initConstantSpline, setLocalCoefficientVector, addCurveSegment, removeCurveSegment | partition of unity and its derivatives; positivity of the last two basis pieces makes the end system regular; translation invariance of the basis matrices for even knots; witnesses for the violations |
| C69 | BSplinePose.cpp over BsplModel and RotModel, rotation objects as records | curve value is linear in the coefficients (C65), chain rule through rates_to_velocity / velocity_jacobian (C56) and perturbed (C57) |
| C70 | Values, Jacobians and getDesignVariables of all node kinds of aslam_backend_expressions as mutually recursive functions of a state of all design variables; the caches of the product nodes are a second state | mutual induction: each node's rate is computed from its children's rates; rotation parameters by comparing with an exact curve of rotations, inverses through the adjugate |
| C71 | The state of each class (current value, previous value, cached matrix), the operations on it, the differences and their Jacobians | Induction over histories against a recursive one-level-undo specification; the logarithm lemmas of C53/C54 extended to curves that only touch the unit sphere by gluing its branches |
| C72 | The curve with its list of mapped variables (object number, column, previous value), the operations on it, and every expression node as the list of variables plus its time | Invariant over histories that variable i maps column i; node Jacobians reduced to the Jacobians of C65 and C69 by regrouping columns per variable; removed and added segments through C68 |
| C73 | Construction of the buffer and local indices, evaluation, and both Jacobian loops with the position arithmetic of the code (negative block = UB) | Segment search is monotone, so every buffered time lies in a segment of the list; joint motion of coefficients and time by the chain rule on the local polynomial; loops by induction over the index list |
| C74 | Duplicate test, renumbering, building residual and Jacobian at the objects' offsets (a block outside is UB), the split of R and d, the covariance, restoring the indices, the prior's error and Jacobians; QR and inverse are parameters | The stacked system gives the linearised cost; an orthogonal factor keeps it; the upper rows vanish for one choice of the removed variables because R has a nonzero diagonal there when they are determined (back substitution) |
| C75 | Words as N below 2^64, the loops of rotate90, popCount and decode as written, the seven tables copied | Loops keep an invariant on the pushed bits; distance is a metric invariant under turning; nearest code by induction over codes and rotations; tables by a checked computation |
| C76 | bilinear interpolation of cells, reading of the code, decoding, correction of the homography by a quarter turn and search for the nearest corner | turning the start corner turns the picture (C76_start), cos and sin of quarter turns, nearest corner at distance zero, with C75_corrects |
| C77 | the loop over detections with replacement in place, overlapsTooMuch | invariant over the loop: entries are replaced by no worse ones of the same number, and are pairwise different tags |
| C78 | the vector of parents and sizes as a list, recursion with a bound, sequences of calls | invariant with an abstract representative function: sizes grow along parents, the size of a root counts its set; refinement to the equivalence closure of the connections |
| C79 | cells as lists, the iterator state and its seek loop with a bound, the while loop of callers | the iterator's remaining output is the rest of its row followed by the remaining rows; permutation by induction over additions; monotonicity of truncation |
| C80 | segments, successors through the lookup grid, depth-four search with the mutable path, corner, winding and size tests | search equals the list of bounded walks; winding sum is a multiple of 2 pi; ties of angles impossible for proper segments |
| C81 | error term over the cameras of C59-C63 and the expressions of C70, camera Jacobians by rows, adapter as a state machine | chain rule through camera_at and C70; induction over adapter histories |
| C82 | seconds to whole nanoseconds, shutters, keypoint time expressions, the covariance map over the curves of C69 and cameras of C81 | floor arithmetic; chain rule for the camera frame along the curve; determinant algebra for the weight |
| C83 | cameras of C59-C63 with a mask picture, pixel access outside is undefined | case analysis over the projections, integer parts of the scaled keypoint |
| C84 | parameter blocks as lists, block reads and writes with Eigen's preconditions, over C81's camera derivatives | a generic lemma for set and update over all flags; list algebra for the stacked columns |
| C85 | error terms over C70's expression trees, IMU models as expressions, loops over measurements as recursion; the specification is rigid body kinematics by second derivatives | derivative of the mounted point, uniqueness of derivatives, C69 for curves, C70 for Jacobians |
| C86 | the loops over components as recursion over a stateful functor, design variables as current and previous values | comparison of derivatives by the mean value theorem, induction over the loops |
| C87 | sparse accumulation of the segment integrals in the block matrix model, error, right-hand side and Hessian contribution | entrywise equality with the dense integral matrix of C66, exchange symmetry of its blocks, change of variables by the layout |
| C88 | the factory over the models of spline variables (C72), priors (C74) and integrals (C66) | singular vectors of a semidefinite matrix agree where the value is positive, induction over segments, additivity of the integral |
| C89 | the helpers and the loops over images and rows, NaN explicit | pairwise sums as covariances, coordinates along the line of centres, permutations |
| C90 | the loops over observations and rows, the in-place compaction and the row estimate | the conic of a plane is the only null vector, least element of a fold |
| C91 | linalg.cpp without the conversions and the solver's state, solve, analysis and results | Gram matrices have equal left and right singular vectors, cost split along the columns of Q |
| C92 | the three loops of the convolution, both passes with their buffers, the filter and the gradient | loop invariants on the written range, moments of symmetric weights |
| C93 | the sums, the closed-form direction by atan2, the lazily normalized line and the extent loop | double-angle formula with atan2 in polar form, invariant of the lazily normalized line |
| C94 | the four neighbour links, the scan, the stable sort, the merge step with its bounds and the collection into clusters | invariant over the merged links: bounds, attained magnitudes, connectivity and sizes |
| C95 | the gray model with its lazy computation, sampling with truncation to int, both rings and the reading loop | the model follows its observations through every history; normal equations for the optimum and its uniqueness; the loop is the reading of C75 |
| C96 | every operation on numerators with promotion, wrapping and undefined overflow | integer division against real division; rounding bounds for the extended type |
| C97 | the conversions with each floating-point operation rounded | relative error bounds, monotonicity of rounding, explicit witnesses |
| C98 | each helper as a function on reals | case analysis; the stable formula against the factored polynomial |
| C99 | both methods over lists of pairs, solvers as parameters | trace bounds over unit quaternions; misfit split into spread, correlation and offset of the centroids |
| C100 | objects behind addresses in three heaps, variables as slots, the local copy of assignment included | ownership invariant by induction over histories, refinement to plain values |
| C101 | the function with Eigen's 2x2 inverse by cofactors | orthogonality of the gap to both rays, squared distance split around the closest pair |
| C102 | rectangles, camera matrix and map entries over the reals with integer entries | inverse by cofactors, extrema of folds, bounds on rounding to 32nds |
| C103 | loops over pixels and distances as folds over a mask and a counter | invariant over the remaining pixels, beam points up to scale |
| C104 | scan of the block columns, products and the loop as functions on vectors with pointers to blocks | conjugacy of directions and residuals by induction, dependence of n+1 vectors, block sums |
| C105 | registry, timers and their operations as a step function on a world | refinement to a book of samples per name by a simulation relation |
| C106 | cached locations and globals as a step function, locks of each call as a list of actions | refinement to settings without caches; ranking of locks with re-entrance, descent along the waiting relation |
| C107 | expression tree with value and reverse sweep emitting blocks | induction on the tree against derivable_pt_lim of the value along any motion |
| C108 | expression tree with value and reverse sweep through chained differentials emitting blocks | linear sweep equals a forward rate by induction on the tree, and the forward rate is the derivative (matrix inverse via a bound on the inverse near the point) |
| C109 | record of the members with setters | algebra, ln x <= x - 1, derivative of a composition |
| C110 | estimator state folded over the points | invariant by induction over the points, optimality from ln x <= x - 1 |
| C111 | records of the bounds and area | integrals from antiderivatives, sums in closed form by induction, product of densities by induction over the sides |
| C112 | samplers as functions of the list of draws | induction over the draws, monotonicity of exp and ln |
| C113 | record of the members with setters, density as a function | derivative of x^p e^(-b x) whose boundary terms vanish, ln y < y - 1, mean value theorem |
| C114 | computations with exceptions over the list of live objects and an oracle for failures | symbolic execution of each function for an arbitrary oracle, induction over the history |
| C115 | transition system over lock count, owner, waiting and woken threads, with schedules as lists of events | invariants by induction over the schedule |
| C116 | nine entries in column order with the update loop and out-of-range reads as UB, product node with its cached operands | induction over the pattern, linearity |
| C117 | the loop as a step function over abstract states with a solver oracle | invariant by induction over the iterations |
| C118 | step choice on lists of reals, rounds as a step function with an oracle for the moved state | root of the quadratic on the segment, convexity, induction over the halvings |
| C119 | leftmost search and token list on lists of characters | refinement to an inductive substitution relation that is shown to be functional |
| C120 | pointers with control blocks and deletions as a step function, second deletion as UB | simulation to a book of objects without counters |
| C121 | block columns as sorted lists of real matrices, the loops as recursive functions | the loops as finite sums, then block algebra of the Schur complement |
| C122 | lists of variables by position, set-up and moves as recursive functions | filter characterisation, unique decomposition of the step |
| C123 | insertion sort of stamped positions and the span filter on lists | sorting lemmas, uniqueness of sorted arrangements |
| C124 | the table as a list of timed entries with an archive per camera | invariant by induction over the observations added |
| C125 | two queues and the states of the processes, one step per event of a schedule | invariant over schedules, permutations and sorting, a decreasing measure |
| C126 | the loops over knots and errors on lists | induction over the lists, a relation for refinement |
| C127 | the graph as a list of edges, transformations as a group with its laws as hypotheses | induction over views and paths |
| C128 | typed values and the chain of checks with its kinds of failure | equivalence with a predicate, by cases |
| C36–C37 | incremental problem queries, estimator marginalisation order | operation histories, all oracles |
| C38–C41 | trust-region policies, linear-solver bookkeeping, update slices (same model as C23–C25), read over any arithmetic, over binary64 and over the reals | invariants over the log of passes; real geometry for the dog leg; computed binary64 counterexamples |
| C31–C32 | matrix archive codec and name tables | round-trip; operation histories |
| C33–C35 | string helpers, hash ids, property tree keys | induction on character lists |

The table grows with `properties.jsonl`; section 4 records the state of each model.

## 3. Trusted base

* Coq 8.16.1 kernel (and `vm_compute` for the computed witnesses).
* What `Print Assumptions` prints for each theorem (listed in section 5).
* The translation from C++ to Gallina done by hand in the `*Model.v` files; each definition cites its source.
* C++ integer semantics on an LP64 platform: `int` 32 bits, `long`/`size_t` 64 bits, narrowing conversions modulo 2^n
  (implementation-defined before C++20, modular with GCC/Clang).
* Standard-library axioms, only where a statement or proof uses real numbers, directly or through Coquelicot or Flocq
  (section 5 lists them for each theorem): `ClassicalDedekindReals.sig_forall_dec`,
  `ClassicalDedekindReals.sig_not_dec`, `FunctionalExtensionality.functional_extensionality_dep`, and
  `Classical_Prop.classic`. Nothing else is assumed; Flocq adds no axioms. Loading Flocq pulls in `Coq.ssr.ssrunder`, whose
  module type parameters `Under_rel.*` a whole-library listing shows; no theorem depends on them.
  The same kind of listing also names the sealed definitions of `Coq.Reals.Rdefinitions` (`RbaseSymbolsImpl.*`, `RinvImpl.*`), which the
  standard library defines, not assumes.
* binary64 arithmetic (`Arith.F64`) is the standard library's executable IEEE-754 specification (`SpecFloat`), round to
  nearest even, without fused operations or excess precision.
* Otherwise floating point is modelled by exact real, rational or integer arithmetic unless stated otherwise in a model file.

## 4. What is modelled and what is not

For each property: the model files, the files of `/repo` their comments cite, and what is left out or assumed.
Code of `/repo` cited by no model file is not modelled.

| id | models | sources cited by the models | limits |
|----|--------|------------------------------|--------|
| C01 | TimeModel | Duration.hpp, Time.hpp, duration.cpp, time.cpp | Also shown: representable sums of 2^31 s or more are refused (_refuted). |
| C02 | TimeModel | Duration.hpp, Time.hpp, duration.cpp, time.cpp | Beyond 2^31 s: overflow and wrong values shown by the two _refuted theorems. |
| C03 | TimeModel | Duration.hpp, Time.hpp, duration.cpp, time.cpp | Duration part under the stated normal-form condition; the exception is exhibited by C03_duration_comparisons_refuted and bounded by C03_reachable_values_are_nearly_canonical. |
| C04 | TimeModel | Duration.hpp, Time.hpp, duration.cpp, time.cpp |  |
| C05 | TimeModel | Duration.hpp, Time.hpp, duration.cpp, time.cpp | Negating the minimum Duration is signed overflow (_refuted). |
| C06 | TimeModel | Duration.hpp, Time.hpp, duration.cpp, time.cpp | The wrong renderings are exhibited by the _refuted theorems. |
| C07 | ArchiveModel | iarchive.cpp, portable_binary_archive.hpp, portable_binary_iarchive.cpp, portable_binary_iarchive.hpp, portable_binary_oarchive.cpp, portable_binary_oarchive.hpp | Integers and flag byte only; the two failing configurations are the _refuted theorems. |
| C08 | ArchiveModel | iarchive.cpp, portable_binary_archive.hpp, portable_binary_iarchive.cpp, portable_binary_iarchive.hpp, portable_binary_oarchive.cpp, portable_binary_oarchive.hpp | Default flags are host dependent (_refuted). |
| C09 | ArchiveModel | iarchive.cpp, portable_binary_archive.hpp, portable_binary_iarchive.cpp, portable_binary_iarchive.hpp, portable_binary_oarchive.cpp, portable_binary_oarchive.hpp | Both undefined inputs and the wrapped value are exhibited (_refuted). |
| C10 | JobQueueModel | JobQueue.cpp, JobQueue.hpp |  |
| C11 | JobQueueModel | JobQueue.cpp, JobQueue.hpp | The lost wake-up in join(), the destructor race and waiting on a stopped queue are the _refuted theorems. |
| C12 | TimestampModel | TimestampCorrector.hpp | Exact rational arithmetic. |
| C13 | TimestampModel | TimestampCorrector.hpp | Exact rational arithmetic; the stale segment index is the _refuted theorem. |
| C14 | PermuteModel | permute.tpp | Behaviour on repeated entries exhibited by the _refuted theorems. |
| C15 | GridModel | Grid.tpp, Histogram1v.tpp, HistogramMv.tpp | Exact arithmetic (no float rounding); the three violations are the _refuted theorems. |
| C16 | GridModel | Grid.tpp, Histogram1v.tpp, HistogramMv.tpp | Exact arithmetic; mode and median stated for real coordinates. |
| C17 | BatchModel, PermuteModel | IncrementalOptimizationProblem.cpp, OptimizationProblem.cpp, permute.tpp | Batch model of OptimizationProblem.cpp; all histories of its public calls. |
| C18 | BatchModel, IncModel, PermuteModel | IncrementalOptimizationProblem.cpp, OptimizationProblem.cpp, permute.tpp | Incremental problem as union of its batches for all histories without rejected adds; the changed-batch hazard is C18_changed_batch_refuted. |
| C19 | BatchModel, IncModel, PermuteModel | IncrementalOptimizationProblem.cpp, OptimizationProblem.cpp, permute.tpp | What a rejected add preserves, and refutations for what it leaves behind. |
| C20 | BatchModel, IncModel, PermuteModel | IncrementalOptimizationProblem.cpp, OptimizationProblem.cpp, permute.tpp | Enumeration and groups in every reachable state. |
| C21 | BatchModel, EstModel, IncModel, PermuteModel | IncrementalEstimator.cpp, IncrementalOptimizationProblem.cpp, OptimizationProblem.cpp, permute.tpp | Estimator model with the optimizer as an oracle; exceptions to the rule are the C21_*_refuted theorems. |
| C22 | BatchModel, EstModel, IncModel, PermuteModel | IncrementalEstimator.cpp, IncrementalOptimizationProblem.cpp, OptimizationProblem.cpp, permute.tpp | Acceptance criterion over binary64 (SpecFloat), all oracle answers. |
| C23 | OptModel | DesignVariable.hpp, DogLegTrustRegionPolicy.cpp, DogLegTrustRegionPolicy.hpp, GaussNewtonTrustRegionPolicy.cpp, LevenbergMarquardtTrustRegionPolicy.cpp, LevenbergMarquardtTrustRegionPolicy.hpp, LinearSystemSolver.cpp, Optimizer2.cpp, Optimizer2Options.hpp, TrustRegionPolicy.cpp, TrustRegionPolicy.hpp, backend.hpp | Any arithmetic for the bookkeeping; binary64 (Flocq) for the order of costs. NaN and Gauss-Newton counterexamples as _refuted. |
| C24 | OptModel | DesignVariable.hpp, DogLegTrustRegionPolicy.cpp, DogLegTrustRegionPolicy.hpp, GaussNewtonTrustRegionPolicy.cpp, LevenbergMarquardtTrustRegionPolicy.cpp, LevenbergMarquardtTrustRegionPolicy.hpp, LinearSystemSolver.cpp, Optimizer2.cpp, Optimizer2Options.hpp, TrustRegionPolicy.cpp, TrustRegionPolicy.hpp, backend.hpp | Counters as functions of the log of passes; termination for arbitrary oracles. |
| C25 | OptModel | DesignVariable.hpp, DogLegTrustRegionPolicy.cpp, DogLegTrustRegionPolicy.hpp, GaussNewtonTrustRegionPolicy.cpp, LevenbergMarquardtTrustRegionPolicy.cpp, LevenbergMarquardtTrustRegionPolicy.hpp, LinearSystemSolver.cpp, Optimizer2.cpp, Optimizer2Options.hpp, TrustRegionPolicy.cpp, TrustRegionPolicy.hpp, backend.hpp | Counterexample after a solver failure as _refuted. |
| C26 | JacModel | DesignVariable.hpp, JacobianContainer.cpp, JacobianContainer.hpp | any arithmetic; shared block indices refuted as stated |
| C27 | CcmModel, JacModel | CompressedColumnJacobianTransposeBuilder.hpp, CompressedColumnMatrix.hpp, DesignVariable.hpp, JacobianContainer.cpp, JacobianContainer.hpp | any arithmetic, all write orders and rounds; misuse witnesses are the _refuted theorems named in the statement |
| C28 | CcmModel, JacModel, ThrModel | CompressedColumnJacobianTransposeBuilder.hpp, CompressedColumnMatrix.hpp, DesignVariable.hpp, JacobianContainer.cpp, JacobianContainer.hpp, LinearSystemSolver.cpp, Optimizer2.cpp | Model ThrModel.v: one step of a schedule is one round of a thread's loop (threads share no locations, C28_race_free, so finer interleavings give nothing new). A thread that throws stops, the others go on, then the call throws. Oracles: each term's evaluateError/getWeightedError. Three known limits are _refuted theorems. The builder's threads do not catch exceptions (std::terminate); that case is not modelled. |
| C29 | ProbModel | OptimizationProblem.cpp | Model ProbModel.v. Lifetimes: a term is alive while the problem or somebody else (oracle kept) holds it; reading a destroyed one is UB. Three known defects are _refuted theorems. |
| C30 | JacModel, MEstModel | DesignVariable.hpp, ErrorTerm.cpp, ErrorTerm.hpp, JacobianContainer.cpp, JacobianContainer.hpp, MEstimatorPolicies.cpp | Model MEstModel.v over exact reals; chi-squared quantile is a parameter. binary64 behaviour only through the computed witnesses of C30_float_refuted. Derivatives use Coquelicot. |
| C31 | MatArchiveModel | MatrixArchive.cpp, MatrixArchive.hpp | The three limits are the _refuted theorems. |
| C32 | MatArchiveModel | MatrixArchive.cpp, MatrixArchive.hpp | The five surprises are the _refuted theorems. |
| C33 | StringModel | BoostPropertyTreeImplementation.cpp, BoostPropertyTreeImplementation.hpp, PropertyTree.cpp, hash_id.hpp, string_routines.hpp | Hanging and the wrap-around of replace_reverse have their own theorems. |
| C34 | StringModel | BoostPropertyTreeImplementation.cpp, BoostPropertyTreeImplementation.hpp, PropertyTree.cpp, hash_id.hpp, string_routines.hpp |  |
| C35 | StringModel | BoostPropertyTreeImplementation.cpp, BoostPropertyTreeImplementation.hpp, PropertyTree.cpp, hash_id.hpp, string_routines.hpp | The boost property tree itself is modelled as a finite map from paths. |
| C36 | BatchModel, IncModel, PermuteModel | IncrementalOptimizationProblem.cpp, OptimizationProblem.cpp, permute.tpp | Restore after save for all histories without clear; refuted after clear. |
| C37 | BatchModel, EstModel, IncModel, PermuteModel | IncrementalEstimator.cpp, IncrementalOptimizationProblem.cpp, OptimizationProblem.cpp, permute.tpp | Ordering invariant of the estimator. |
| C38 | OptModel | DesignVariable.hpp, DogLegTrustRegionPolicy.cpp, DogLegTrustRegionPolicy.hpp, GaussNewtonTrustRegionPolicy.cpp, LevenbergMarquardtTrustRegionPolicy.cpp, LevenbergMarquardtTrustRegionPolicy.hpp, LinearSystemSolver.cpp, Optimizer2.cpp, Optimizer2Options.hpp, TrustRegionPolicy.cpp, TrustRegionPolicy.hpp, backend.hpp | Counterexamples for the other solver and policy combinations as _refuted. |
| C39 | OptModel | DesignVariable.hpp, DogLegTrustRegionPolicy.cpp, DogLegTrustRegionPolicy.hpp, GaussNewtonTrustRegionPolicy.cpp, LevenbergMarquardtTrustRegionPolicy.cpp, LevenbergMarquardtTrustRegionPolicy.hpp, LinearSystemSolver.cpp, Optimizer2.cpp, Optimizer2Options.hpp, TrustRegionPolicy.cpp, TrustRegionPolicy.hpp, backend.hpp | Over the reals; dog-leg counterexample in binary64 as _refuted. |
| C40 | OptModel | DesignVariable.hpp, DogLegTrustRegionPolicy.cpp, DogLegTrustRegionPolicy.hpp, GaussNewtonTrustRegionPolicy.cpp, LevenbergMarquardtTrustRegionPolicy.cpp, LevenbergMarquardtTrustRegionPolicy.hpp, LinearSystemSolver.cpp, Optimizer2.cpp, Optimizer2Options.hpp, TrustRegionPolicy.cpp, TrustRegionPolicy.hpp, backend.hpp | Over the reals. |
| C41 | OptModel | DesignVariable.hpp, DogLegTrustRegionPolicy.cpp, DogLegTrustRegionPolicy.hpp, GaussNewtonTrustRegionPolicy.cpp, LevenbergMarquardtTrustRegionPolicy.cpp, LevenbergMarquardtTrustRegionPolicy.hpp, LinearSystemSolver.cpp, Optimizer2.cpp, Optimizer2Options.hpp, TrustRegionPolicy.cpp, TrustRegionPolicy.hpp, backend.hpp | Any arithmetic. |
| C42 | JacModel | DesignVariable.hpp, JacobianContainer.cpp, JacobianContainer.hpp | exact real arithmetic |
| C43 | CcmModel, JacModel | CompressedColumnJacobianTransposeBuilder.hpp, CompressedColumnMatrix.hpp, DesignVariable.hpp, JacobianContainer.cpp, JacobianContainer.hpp | any arithmetic; NaN and stale-flag witnesses as stated |
| C44 | CcmModel, JacModel | CompressedColumnJacobianTransposeBuilder.hpp, CompressedColumnMatrix.hpp, DesignVariable.hpp, JacobianContainer.cpp, JacobianContainer.hpp | exact real arithmetic; size checks in any arithmetic |
| C45 | JacModel, MEstModel | DesignVariable.hpp, ErrorTerm.cpp, ErrorTerm.hpp, JacobianContainer.cpp, JacobianContainer.hpp, MEstimatorPolicies.cpp | Model MEstModel.v (second half) over exact reals; the error vector and Jacobians are inputs. getWeightedError uses the squared error stored by the last evaluateError; the theorems take it right after evaluateError. |
| C46 | JacModel, SbmModel | DesignVariable.hpp, JacobianContainer.cpp, JacobianContainer.hpp, sparse_block_matrix.h, sparse_block_matrix.hpp | The refuted theorems give the stale-block, accumulation, unchecked-layout, empty-slice and view cases; C46_transpose_into_partial says which blocks of an existing destination are right. |
| C47 | CcmModel, JacModel, LsModel, SbmModel | CompressedColumnJacobianTransposeBuilder.hpp, CompressedColumnMatrix.hpp, DesignVariable.hpp, JacobianContainer.cpp, JacobianContainer.hpp, linear_solver_cholmod.h, linear_solver_csparse.h, linear_solver_dense.h, linear_solver_spqr.h, matrix_structure.cpp, sparse_block_matrix.h, sparse_block_matrix.hpp, sparse_helper.h | The solver libraries are an oracle: only what they are given is modelled, and whether they report success is an input. The block ordering itself (AMD) is any permutation. |
| C48 | CcmModel, JacModel, LsModel, McModel, SbmModel | CompressedColumnJacobianTransposeBuilder.hpp, CompressedColumnMatrix.hpp, DesignVariable.hpp, JacobianContainer.cpp, JacobianContainer.hpp, linear_solver_cholmod.h, linear_solver_csparse.h, linear_solver_dense.h, linear_solver_spqr.h, marginal_covariance_cholesky.cpp, marginal_covariance_cholesky.h, matrix_structure.cpp, sparse_block_matrix.h, sparse_block_matrix.hpp, sparse_helper.h | Exact real arithmetic; the factor is CHOLMOD's or CSparse's output, described by its documented contract (L L^T = H(p,p), diagonal first in each column). |
| C49 | HesModel, JacModel, MEstModel, SbmModel | BlockCholeskyLinearSystemSolver.cpp, DesignVariable.hpp, ErrorTerm.cpp, ErrorTerm.hpp, ErrorTermDs.cpp, JacobianContainer.cpp, JacobianContainer.hpp, LinearSystemSolver.cpp, MEstimatorPolicies.cpp, sparse_block_matrix.h, sparse_block_matrix.hpp | over exact reals; Jacobians and errors of the terms are inputs; the dog-leg length is refuted |
| C50 | CcmModel, JacModel, TgtModel | Aprilgrid.cpp, Aprilgrid.hpp, Checkerboard.cpp, Circlegrid.cpp, CompressedColumnJacobianTransposeBuilder.hpp, CompressedColumnMatrix.hpp, DesignVariable.hpp, GridCalibrationTargetAprilgrid.cpp, GridCalibrationTargetBase.cpp, GridCalibrationTargetBase.hpp, GridCalibrationTargetCheckerboard.cpp, GridCalibrationTargetCirclegrid.cpp, GridCalibrationTargetObservation.cpp, GridCalibrationTargetObservation.hpp, GridDetector.cpp, GridDetector.hpp, JacobianContainer.cpp, JacobianContainer.hpp, TagDetection.h | Indices are natural numbers below 2^31; coordinates over the reals. |
| C51 | CcmModel, JacModel, TgtModel | Aprilgrid.cpp, Aprilgrid.hpp, Checkerboard.cpp, Circlegrid.cpp, CompressedColumnJacobianTransposeBuilder.hpp, CompressedColumnMatrix.hpp, DesignVariable.hpp, GridCalibrationTargetAprilgrid.cpp, GridCalibrationTargetBase.cpp, GridCalibrationTargetBase.hpp, GridCalibrationTargetCheckerboard.cpp, GridCalibrationTargetCirclegrid.cpp, GridCalibrationTargetObservation.cpp, GridCalibrationTargetObservation.hpp, GridDetector.cpp, GridDetector.hpp, JacobianContainer.cpp, JacobianContainer.hpp, TagDetection.h | Tag detector, subpixel refinement, pose estimate and projection are parameters; identities of detections are assumed non-negative; statistics over the reals. |
| C52 | KinModel | homogeneous_coordinates.cpp, quaternion_algebra.cpp, rotations.cpp | Doubles are modelled by the reals; the debug-only unit-length assertion is a precondition. |
| C53 | KinModel | homogeneous_coordinates.cpp, quaternion_algebra.cpp, rotations.cpp | Doubles are modelled by the reals; NaN results are a separate outcome. The deviations listed in the statement are proved as refutations with bounds. |
| C54 | KinModel | homogeneous_coordinates.cpp, quaternion_algebra.cpp, rotations.cpp | Derivatives over the reals with Coquelicot; the series branches below the angle 2^-13 are covered only for the update at zero. |
| C55 | KinModel, RotModel | EulerAnglesYawPitchRoll.cpp, EulerAnglesZXY.cpp, EulerAnglesZYX.cpp, EulerRodriguez.cpp, RotationVector.cpp, homogeneous_coordinates.cpp, quaternion_algebra.cpp, rotations.cpp | Over the reals. Gimbal lock and half turns are refuted with witnesses. |
| C56 | KinModel, RotModel | EulerAnglesYawPitchRoll.cpp, EulerAnglesZXY.cpp, EulerAnglesZYX.cpp, EulerRodriguez.cpp, RotationVector.cpp, homogeneous_coordinates.cpp, quaternion_algebra.cpp, rotations.cpp | Over the reals; division by zero of the Jacobian at the zero rotation vector is refuted with a witness. |
| C57 | KinModel, RotModel, TfModel | EulerAnglesYawPitchRoll.cpp, EulerAnglesZXY.cpp, EulerAnglesZYX.cpp, EulerRodriguez.cpp, HomogeneousPoint.cpp, RotationVector.cpp, Transformation.cpp, UncertainHomogeneousPoint.cpp, UncertainTransformation.cpp, homogeneous_coordinates.cpp, quaternion_algebra.cpp, rotations.cpp, transformations.cpp | Real arithmetic; interpolation of coinciding times depends on argument order (C57_ex_same_time), and its end point is only reached when the interval is at least 1e-14 long. |
| C58 | KinModel, RotModel, TfModel | EulerAnglesYawPitchRoll.cpp, EulerAnglesZXY.cpp, EulerAnglesZYX.cpp, EulerRodriguez.cpp, HomogeneousPoint.cpp, RotationVector.cpp, Transformation.cpp, UncertainHomogeneousPoint.cpp, UncertainTransformation.cpp, homogeneous_coordinates.cpp, quaternion_algebra.cpp, rotations.cpp, transformations.cpp | Violation: operator- of uncertain points uses toHomogeneousPlus instead of the derivative of the difference, and the mixed operators leave the covariance unscaled (C58_difference_refuted). |
| C59 | DistModel, KinModel | EquidistantDistortion.cpp, EquidistantDistortion.hpp, FovDistortion.cpp, FovDistortion.hpp, NoDistortion.hpp, RadialTangentialDistortion.cpp, RadialTangentialDistortion.hpp, homogeneous_coordinates.cpp, quaternion_algebra.cpp, rotations.cpp | Jacobians, parameter Jacobians, undistortion guarantees and their violations (C59_..._refuted) are all proved over the reals. |
| C60 | DistModel, KinModel, PinModel | EquidistantDistortion.cpp, EquidistantDistortion.hpp, FovDistortion.cpp, FovDistortion.hpp, NoDistortion.hpp, PinholeProjection.hpp, RadialTangentialDistortion.cpp, RadialTangentialDistortion.hpp, homogeneous_coordinates.cpp, quaternion_algebra.cpp, rotations.cpp | All parts proved for an arbitrary distortion; the three violations are C60_pinhole_pixel_jacobian_refuted, C60_pinhole_homogeneous_refuted, C60_pinhole_resize_refuted. Random point generation and border rays are not modelled. |
| C61 | DistModel, KinModel, OmniModel, PinModel | EquidistantDistortion.cpp, EquidistantDistortion.hpp, FovDistortion.cpp, FovDistortion.hpp, NoDistortion.hpp, OmniProjection.hpp, PinholeProjection.hpp, RadialTangentialDistortion.cpp, RadialTangentialDistortion.hpp, homogeneous_coordinates.cpp, quaternion_algebra.cpp, rotations.cpp | All parts proved over the reals; violations are C61_omni_boundary_refuted and C61_omni_random_keypoint_refuted. initializeIntrinsics is not part of this property. |
| C62 | DistModel, EucmModel, KinModel, OmniModel, PinModel | EquidistantDistortion.cpp, EquidistantDistortion.hpp, ExtendedUnifiedProjection.hpp, FovDistortion.cpp, FovDistortion.hpp, NoDistortion.hpp, OmniProjection.hpp, PinholeProjection.hpp, RadialTangentialDistortion.cpp, RadialTangentialDistortion.hpp, homogeneous_coordinates.cpp, quaternion_algebra.cpp, rotations.cpp | All parts proved over the reals; violations are C62_eucm_intrinsics_jacobian_refuted, C62_eucm_boundary_refuted and C62_eucm_random_keypoint_refuted. Of initializeIntrinsics only the conversion from the omnidirectional camera is modelled. |
| C63 | DistModel, DsModel, EucmModel, KinModel, OmniModel, PinModel | DoubleSphereProjection.hpp, EquidistantDistortion.cpp, EquidistantDistortion.hpp, ExtendedUnifiedProjection.hpp, FovDistortion.cpp, FovDistortion.hpp, NoDistortion.hpp, OmniProjection.hpp, PinholeProjection.hpp, RadialTangentialDistortion.cpp, RadialTangentialDistortion.hpp, homogeneous_coordinates.cpp, quaternion_algebra.cpp, rotations.cpp | All parts proved over the reals; violations are C63_ds_image_refuted and C63_ds_lift_refuted. Of initializeIntrinsics only the conversion from the omnidirectional camera is modelled. |
| C64 | BsplModel | BSpline.cpp, BSpline.hpp | Real arithmetic. Induction over the order relates the matrix recursion to the Cox-de Boor recursion; refuted theorems give the four violations. |
| C65 | BsplModel | BSpline.cpp, BSpline.hpp | Real arithmetic. Continuity order is proved through joins of the local basis polynomials at the knots. |
| C66 | BsplModel, BsqModel | BSpline.cpp, BSpline.hpp | Real arithmetic, Riemann integral of Coquelicot. The sparse variants of the curve integral are not modelled. |
| C67 | BsplModel, BsqModel | BSpline.cpp, BSpline.hpp | Real arithmetic; LDLT and Cholmod are oracles with a stated contract; the sparse block assembly is modelled by its dense meaning. |
| C68 | BshModel, BsplModel, BsqModel | BSpline.cpp, BSpline.hpp | Real arithmetic; householderQr().solve is an oracle that solves non-singular systems, and non-singularity of the 2 x dim system is proved. Both violations are shown by computed witnesses. |
| C69 | BpModel, BshModel, BsplModel, BsqModel, KinModel, RotModel, TfModel | BSpline.cpp, BSpline.hpp, BSplinePose.cpp, EulerAnglesYawPitchRoll.cpp, EulerAnglesZXY.cpp, EulerAnglesZYX.cpp, EulerRodriguez.cpp, HomogeneousPoint.cpp, RotationVector.cpp, RotationalKinematics.hpp, Transformation.cpp, UncertainHomogeneousPoint.cpp, UncertainTransformation.cpp, homogeneous_coordinates.cpp, quaternion_algebra.cpp, rotations.cpp, transformations.cpp | C69_world_velocity_refuted: angularVelocity = -S pdot but angularVelocityAndJacobian = +S pdot. C69_angular_acceleration_refuted: the terms from the change of S and C are missing. Jacobian theorems hold for the returned values. |
| C70 | BpModel, BshModel, BsplModel, ExprModel, KinModel, RotModel, TfModel | BSpline.cpp, BSpline.hpp, BSplinePose.cpp, ErrorTermEuclidean.cpp, ErrorTermTransformation.cpp, EuclideanDirection.cpp, EuclideanExpressionNode.cpp, EuclideanPoint.cpp, EulerAnglesYawPitchRoll.cpp, EulerAnglesZXY.cpp, EulerAnglesZYX.cpp, EulerRodriguez.cpp, HomogeneousExpressionNode.cpp, HomogeneousPoint.cpp, MatrixBasic.cpp, RotationExpressionNode.cpp, RotationQuaternion.cpp, RotationVector.cpp, RotationalKinematics.hpp, Scalar.cpp, ScalarExpressionNode.cpp, Transformation.cpp, TransformationBasic.cpp, TransformationExpressionNode.cpp, UncertainHomogeneousPoint.cpp, UncertainTransformation.cpp, Vector2RotationQuaternionExpressionAdapter.cpp, homogeneous_coordinates.cpp, quaternion_algebra.cpp, rotations.cpp, transformations.cpp | Mutual induction over the four kinds of trees. Charts of the five rotation parametrisations are proved. Two violations are refuted with witnesses. |
| C71 | DvModel, KinModel | DesignVariable.cpp, DesignVariableGenericVector.hpp, DesignVariableMappedVector.hpp, DesignVariableVector.hpp, EuclideanPoint.cpp, EuclideanPoint.hpp, GenericScalar.hpp, HomogeneousPoint.cpp, MappedEuclideanPoint.cpp, MappedEuclideanPoint.hpp, MappedHomogeneousPoint.cpp, MappedRotationQuaternion.cpp, MappedRotationQuaternion.hpp, RotationQuaternion.cpp, RotationQuaternion.hpp, Scalar.cpp, homogeneous_coordinates.cpp, quaternion_algebra.cpp, rotations.cpp | Violations stated as C71_set_refuted, C71_mapped_write_refuted, C71_homogeneous_assign_refuted, C71_mapped_difference_refuted, C71_jacobian_at_reference (last three clauses), C71_generic_vector_refuted. Real arithmetic. |
| C72 | BpModel, BshModel, BsplModel, BsqModel, KinModel, RotModel, SplModel, TfModel | BSpline.cpp, BSpline.hpp, BSplineDesignVariable.hpp, BSplineExpressions.cpp, BSplineExpressions.hpp, BSplinePose.cpp, BSplinePoseDesignVariable.cpp, DesignVariableMappedVector.hpp, EuclideanBSplineDesignVariable.cpp, EulerAnglesYawPitchRoll.cpp, EulerAnglesZXY.cpp, EulerAnglesZYX.cpp, EulerRodriguez.cpp, HomogeneousPoint.cpp, RotationVector.cpp, RotationalKinematics.hpp, Transformation.cpp, UncertainHomogeneousPoint.cpp, UncertainTransformation.cpp, homogeneous_coordinates.cpp, quaternion_algebra.cpp, rotations.cpp, transformations.cpp | Violations stated in C72_kept_add (second part), C72_kept_remove (second part), C72_segments_forget, C72_difference_refuted, C72_acceleration_body_refuted. The time-offset expression is not part of this property. Real arithmetic. |
| C73 | BpModel, BshModel, BsplModel, BsqModel, KinModel, RotModel, SplModel, TfModel, ToModel | BSpline.cpp, BSpline.hpp, BSplineDesignVariable.hpp, BSplineExpressions.cpp, BSplineExpressions.hpp, BSplinePose.cpp, BSplinePoseDesignVariable.cpp, DesignVariableMappedVector.hpp, EuclideanBSplineDesignVariable.cpp, EulerAnglesYawPitchRoll.cpp, EulerAnglesZXY.cpp, EulerAnglesZYX.cpp, EulerRodriguez.cpp, HomogeneousPoint.cpp, RotationVector.cpp, RotationalKinematics.hpp, Transformation.cpp, UncertainHomogeneousPoint.cpp, UncertainTransformation.cpp, homogeneous_coordinates.cpp, quaternion_algebra.cpp, rotations.cpp, transformations.cpp | Violations stated in C73_jacobian (last part), C73_plain_refuted, C73_end_refuted, C73_remove_refuted. The time expression itself is any expression with value u and rate td. Real arithmetic. |
| C74 | BsplModel, MgModel | BSpline.cpp, BSpline.hpp, DenseQrLinearSystemSolver.cpp, ErrorTermDs.cpp, JacobianContainer.hpp, LinearSystemSolver.cpp, MarginalizationPriorErrorTerm.cpp, Marginalizer.cpp | Violations stated in C74_covariance_refuted, C74_throw_refuted, C74_foreign_refuted, C74_scaling_refuted and C74_rank_refuted. Householder QR and the LU inverse are parameters with a correctness hypothesis, shown satisfiable. Real arithmetic. |
| C75 | TagModel | TagDetector.cc, TagFamily.cc, TagFamily.h | Violations stated in C75_orientation_refuted and C75_rotate (last part). The table checks are computations on the constants of the headers (Tag36h9 with 5329 codes not checked). |
| C76 | TagModel, TdModel | Homography33.h, Quad.cc, TagDetection.cc, TagDetector.cc, TagFamily.cc, TagFamily.h | cv::findHomography is a parameter, assumed to take the corners to the quadrilateral in C76_corners and C76_tag; the gray model threshold is a parameter telling whether a position is bright; reals for floats. |
| C77 | TagModel, TdModel | Homography33.h, Quad.cc, TagDetection.cc, TagDetector.cc, TagFamily.cc, TagFamily.h | The general claim fails: C77_duplicate_refuted computes a list of three detections for which the result contains one of them twice; GridCalibrationTargetAprilgrid::computeObservation ends the program when it sees one id twice. |
| C78 | UfModel | UnionFindSimple.cc, UnionFindSimple.h | Ids are naturals; recursion depth is bounded by the number of ids plus one, shown sufficient; the C++ stack limit is not modelled. |
| C79 | LutModel | Gridder.h | Reals for floats; the missing return in Iterator::operator= is not modelled; C79_reversed_refuted shows the undefined lookup. |
| C80 | KinModel, LutModel, QsModel, RotModel, TagModel, TdModel | EulerAnglesYawPitchRoll.cpp, EulerAnglesZXY.cpp, EulerAnglesZYX.cpp, EulerRodriguez.cpp, GLine2D.cc, Gridder.h, Homography33.h, MathUtil.h, Quad.cc, Quad.h, RotationVector.cpp, Segment.h, TagDetection.cc, TagDetector.cc, TagFamily.cc, TagFamily.h, homogeneous_coordinates.cpp, quaternion_algebra.cpp, rotations.cpp | Reals for floats; line fitting and clustering are inputs. C80_minus_one_refuted shows the exception. |
| C81 | BpModel, BshModel, BsplModel, DistModel, DsModel, EucmModel, ExprModel, KinModel, OmniModel, PinModel, RotModel, RpeModel, TfModel | BSpline.cpp, BSpline.hpp, BSplinePose.cpp, CameraDesignVariable.hpp, CameraGeometry.hpp, DesignVariableAdapter.hpp, DoubleSphereProjection.hpp, EquidistantDistortion.cpp, EquidistantDistortion.hpp, ErrorTermEuclidean.cpp, ErrorTermTransformation.cpp, EuclideanDirection.cpp, EuclideanExpressionNode.cpp, EuclideanPoint.cpp, EulerAnglesYawPitchRoll.cpp, EulerAnglesZXY.cpp, EulerAnglesZYX.cpp, EulerRodriguez.cpp, ExtendedUnifiedProjection.hpp, FovDistortion.cpp, FovDistortion.hpp, HomogeneousExpressionNode.cpp, HomogeneousPoint.cpp, MatrixBasic.cpp, NoDistortion.hpp, OmniProjection.hpp, PinholeProjection.hpp, RadialTangentialDistortion.cpp, RadialTangentialDistortion.hpp, ReprojectionError.hpp, RotationExpressionNode.cpp, RotationQuaternion.cpp, RotationVector.cpp, RotationalKinematics.hpp, Scalar.cpp, ScalarExpressionNode.cpp, SimpleReprojectionError.hpp, Transformation.cpp, TransformationBasic.cpp, TransformationExpressionNode.cpp, UncertainHomogeneousPoint.cpp, UncertainTransformation.cpp, Vector2RotationQuaternionExpressionAdapter.cpp, homogeneous_coordinates.cpp, quaternion_algebra.cpp, rotations.cpp, transformations.cpp | Extended unified camera: equal focal lengths (C62 shows its intrinsics Jacobian is wrong otherwise). Reals for doubles. Refutations: C81_unseen_refuted, C81_axis_refuted, C81_adapter_refuted. |
| C82 | BpModel, BshModel, BsplModel, BsqModel, DistModel, DsModel, EucmModel, ExprModel, KinModel, OmniModel, PinModel, RotModel, RpeModel, RsModel, SplModel, TfModel, TimeModel, ToModel | BSpline.cpp, BSpline.hpp, BSplineDesignVariable.hpp, BSplineExpressions.cpp, BSplineExpressions.hpp, BSplinePose.cpp, BSplinePoseDesignVariable.cpp, CameraDesignVariable.hpp, CameraGeometry.hpp, CovarianceReprojectionError.hpp, DesignVariableAdapter.hpp, DesignVariableMappedVector.hpp, DoubleSphereProjection.hpp, Duration.hpp, EquidistantDistortion.cpp, EquidistantDistortion.hpp, ErrorTerm.hpp, ErrorTermEuclidean.cpp, ErrorTermTransformation.cpp, EuclideanBSplineDesignVariable.cpp, EuclideanDirection.cpp, EuclideanExpressionNode.cpp, EuclideanPoint.cpp, EulerAnglesYawPitchRoll.cpp, EulerAnglesZXY.cpp, EulerAnglesZYX.cpp, EulerRodriguez.cpp, ExtendedUnifiedProjection.hpp, FovDistortion.cpp, FovDistortion.hpp, Frame.hpp, GlobalShutter.hpp, HomogeneousExpressionNode.cpp, HomogeneousPoint.cpp, MatrixBasic.cpp, NoDistortion.hpp, OmniProjection.hpp, PinholeProjection.hpp, RadialTangentialDistortion.cpp, RadialTangentialDistortion.hpp, ReprojectionError.hpp, RollingShutter.cpp, RollingShutter.hpp, RotationExpressionNode.cpp, RotationQuaternion.cpp, RotationVector.cpp, RotationalKinematics.hpp, Scalar.cpp, ScalarExpressionNode.cpp, ScalarExpressionNodeKeypointTime.hpp, SimpleReprojectionError.hpp, Time.hpp, Transformation.cpp, TransformationBasic.cpp, TransformationExpressionNode.cpp, UncertainHomogeneousPoint.cpp, UncertainTransformation.cpp, Vector2RotationQuaternionExpressionAdapter.cpp, duration.cpp, homogeneous_coordinates.cpp, quaternion_algebra.cpp, rotations.cpp, time.cpp, transformations.cpp | Reals for doubles; times within 2^31 s. Refutations: C82_snapshot_refuted, C82_covariance_refuted, C82_singular_refuted, C82_no_curve_refuted. |
| C83 | BpModel, BshModel, BsplModel, BsqModel, CgModel, DistModel, DsModel, EucmModel, ExprModel, KinModel, OmniModel, PinModel, RotModel, RpeModel, RsModel, SplModel, TfModel, TimeModel, ToModel | BSpline.cpp, BSpline.hpp, BSplineDesignVariable.hpp, BSplineExpressions.cpp, BSplineExpressions.hpp, BSplinePose.cpp, BSplinePoseDesignVariable.cpp, CameraDesignVariable.hpp, CameraGeometry.hpp, CovarianceReprojectionError.hpp, DesignVariableAdapter.hpp, DesignVariableMappedVector.hpp, DoubleSphereProjection.hpp, Duration.hpp, EquidistantDistortion.cpp, EquidistantDistortion.hpp, ErrorTerm.hpp, ErrorTermEuclidean.cpp, ErrorTermTransformation.cpp, EuclideanBSplineDesignVariable.cpp, EuclideanDirection.cpp, EuclideanExpressionNode.cpp, EuclideanPoint.cpp, EulerAnglesYawPitchRoll.cpp, EulerAnglesZXY.cpp, EulerAnglesZYX.cpp, EulerRodriguez.cpp, ExtendedUnifiedProjection.hpp, FovDistortion.cpp, FovDistortion.hpp, Frame.hpp, GlobalShutter.cpp, GlobalShutter.hpp, HomogeneousExpressionNode.cpp, HomogeneousPoint.cpp, ImageMask.cpp, ImageMask.hpp, MatrixBasic.cpp, NoDistortion.hpp, NoMask.hpp, OmniProjection.hpp, PinholeProjection.hpp, RadialTangentialDistortion.cpp, RadialTangentialDistortion.hpp, ReprojectionError.hpp, RollingShutter.cpp, RollingShutter.hpp, RotationExpressionNode.cpp, RotationQuaternion.cpp, RotationVector.cpp, RotationalKinematics.hpp, Scalar.cpp, ScalarExpressionNode.cpp, ScalarExpressionNodeKeypointTime.hpp, SimpleReprojectionError.hpp, Time.hpp, Transformation.cpp, TransformationBasic.cpp, TransformationExpressionNode.cpp, UncertainHomogeneousPoint.cpp, UncertainTransformation.cpp, Vector2RotationQuaternionExpressionAdapter.cpp, duration.cpp, homogeneous_coordinates.cpp, quaternion_algebra.cpp, rotations.cpp, serialization.hpp, time.cpp, transformations.cpp | Reals for doubles. Refutations: C83_outside_refuted, C83_virtual_refuted, C83_finite_difference_refuted, C83_equal_refuted, C83_matrix_refuted. |
| C84 | BpModel, BshModel, BsplModel, BsqModel, CgModel, DistModel, DsModel, EucmModel, ExprModel, KinModel, OmniModel, PinModel, RotModel, RpeModel, RsModel, SplModel, TfModel, TimeModel, ToModel | BSpline.cpp, BSpline.hpp, BSplineDesignVariable.hpp, BSplineExpressions.cpp, BSplineExpressions.hpp, BSplinePose.cpp, BSplinePoseDesignVariable.cpp, CameraDesignVariable.hpp, CameraGeometry.hpp, CovarianceReprojectionError.hpp, DesignVariableAdapter.hpp, DesignVariableMappedVector.hpp, DoubleSphereProjection.hpp, Duration.hpp, EquidistantDistortion.cpp, EquidistantDistortion.hpp, ErrorTerm.hpp, ErrorTermEuclidean.cpp, ErrorTermTransformation.cpp, EuclideanBSplineDesignVariable.cpp, EuclideanDirection.cpp, EuclideanExpressionNode.cpp, EuclideanPoint.cpp, EulerAnglesYawPitchRoll.cpp, EulerAnglesZXY.cpp, EulerAnglesZYX.cpp, EulerRodriguez.cpp, ExtendedUnifiedProjection.hpp, FovDistortion.cpp, FovDistortion.hpp, Frame.hpp, GlobalShutter.cpp, GlobalShutter.hpp, HomogeneousExpressionNode.cpp, HomogeneousPoint.cpp, ImageMask.cpp, ImageMask.hpp, MatrixBasic.cpp, NoDistortion.hpp, NoMask.hpp, OmniProjection.hpp, PinholeProjection.hpp, RadialTangentialDistortion.cpp, RadialTangentialDistortion.hpp, ReprojectionError.hpp, RollingShutter.cpp, RollingShutter.hpp, RotationExpressionNode.cpp, RotationQuaternion.cpp, RotationVector.cpp, RotationalKinematics.hpp, Scalar.cpp, ScalarExpressionNode.cpp, ScalarExpressionNodeKeypointTime.hpp, SimpleReprojectionError.hpp, Time.hpp, Transformation.cpp, TransformationBasic.cpp, TransformationExpressionNode.cpp, UncertainHomogeneousPoint.cpp, UncertainTransformation.cpp, Vector2RotationQuaternionExpressionAdapter.cpp, duration.cpp, homogeneous_coordinates.cpp, quaternion_algebra.cpp, rotations.cpp, serialization.hpp, time.cpp, transformations.cpp | Reals for doubles. Refutations: C84_euclidean_refuted, C84_global_refuted, C84_refused_refuted. |
| C85 | BpModel, BshModel, BsplModel, BsqModel, ExprModel, ImuModel, KinModel, RotModel, TfModel | AccelerometerError.cpp, BSpline.cpp, BSpline.hpp, BSplinePose.cpp, ErrorTermEuclidean.cpp, ErrorTermTransformation.cpp, EuclideanDirection.cpp, EuclideanError.cpp, EuclideanExpressionNode.cpp, EuclideanPoint.cpp, EulerAnglesYawPitchRoll.cpp, EulerAnglesZXY.cpp, EulerAnglesZYX.cpp, EulerRodriguez.cpp, GyroscopeError.cpp, HomogeneousExpressionNode.cpp, HomogeneousPoint.cpp, IccSensors.py, MatrixBasic.cpp, RotationExpressionNode.cpp, RotationQuaternion.cpp, RotationVector.cpp, RotationalKinematics.hpp, Scalar.cpp, ScalarExpressionNode.cpp, Transformation.cpp, TransformationBasic.cpp, TransformationExpressionNode.cpp, UncertainHomogeneousPoint.cpp, UncertainTransformation.cpp, Vector2RotationQuaternionExpressionAdapter.cpp, homogeneous_coordinates.cpp, quaternion_algebra.cpp, rotations.cpp, transformations.cpp | Reals for doubles. Refutations: C85_eccentric_refuted, C85_curve_refuted, C85_stale_refuted. |
| C86 | BpModel, BshModel, BsplModel, DistModel, DsModel, EucmModel, ExprModel, FdModel, KinModel, OmniModel, PinModel, RotModel, RpeModel, TfModel | BSpline.cpp, BSpline.hpp, BSplinePose.cpp, CameraDesignVariable.hpp, CameraGeometry.hpp, DesignVariableAdapter.hpp, DoubleSphereProjection.hpp, EquidistantDistortion.cpp, EquidistantDistortion.hpp, ErrorTerm.cpp, ErrorTerm.hpp, ErrorTermDs.cpp, ErrorTermEuclidean.cpp, ErrorTermTransformation.cpp, EuclideanDirection.cpp, EuclideanExpressionNode.cpp, EuclideanPoint.cpp, EulerAnglesYawPitchRoll.cpp, EulerAnglesZXY.cpp, EulerAnglesZYX.cpp, EulerRodriguez.cpp, ExtendedUnifiedProjection.hpp, FiniteDifferences.hpp, FovDistortion.cpp, FovDistortion.hpp, HomogeneousExpressionNode.cpp, HomogeneousPoint.cpp, MatrixBasic.cpp, NoDistortion.hpp, NumericalDiff.hpp, OmniProjection.hpp, PinholeProjection.hpp, RadialTangentialDistortion.cpp, RadialTangentialDistortion.hpp, ReprojectionError.hpp, RotationExpressionNode.cpp, RotationQuaternion.cpp, RotationVector.cpp, RotationalKinematics.hpp, Scalar.cpp, ScalarExpressionNode.cpp, SimpleReprojectionError.hpp, Transformation.cpp, TransformationBasic.cpp, TransformationExpressionNode.cpp, UncertainHomogeneousPoint.cpp, UncertainTransformation.cpp, Vector2RotationQuaternionExpressionAdapter.cpp, homogeneous_coordinates.cpp, quaternion_algebra.cpp, rotations.cpp, transformations.cpp | Reals for doubles, so rounding is not covered. Refutations: C86_stale_refuted, C86_twice_refuted, C86_parameters_refuted. |
| C87 | BshModel, BsplModel, BsqModel, HesModel, JacModel, MEstModel, MeModel, SbmModel | BSpline.cpp, BSpline.hpp, BSplineMotionError.hpp, BlockCholeskyLinearSystemSolver.cpp, DesignVariable.hpp, ErrorTerm.cpp, ErrorTerm.hpp, ErrorTermDs.cpp, JacobianContainer.cpp, JacobianContainer.hpp, LinearSystemSolver.cpp, MEstimatorPolicies.cpp, sparse_block_matrix.h, sparse_block_matrix.hpp | Reals for doubles. Refutations: C87_order_refuted, C87_scaling_refuted, C87_shrunk_refuted. |
| C88 | BpModel, BshModel, BsplModel, BsqModel, KinModel, MfModel, MgModel, RotModel, SplModel, TfModel | BSpline.cpp, BSpline.hpp, BSplineDesignVariable.hpp, BSplineExpressions.cpp, BSplineExpressions.hpp, BSplineMotionErrorFactory.hpp, BSplinePose.cpp, BSplinePoseDesignVariable.cpp, DenseQrLinearSystemSolver.cpp, DesignVariableMappedVector.hpp, ErrorTermDs.cpp, EuclideanBSplineDesignVariable.cpp, EulerAnglesYawPitchRoll.cpp, EulerAnglesZXY.cpp, EulerAnglesZYX.cpp, EulerRodriguez.cpp, HomogeneousPoint.cpp, JacobianContainer.hpp, LinearSystemSolver.cpp, MarginalizationPriorErrorTerm.cpp, Marginalizer.cpp, RotationVector.cpp, RotationalKinematics.hpp, Transformation.cpp, UncertainHomogeneousPoint.cpp, UncertainTransformation.cpp, homogeneous_coordinates.cpp, quaternion_algebra.cpp, rotations.cpp, transformations.cpp | Reals for doubles; the decomposition is a parameter assumed right for the matrices it gets (the hypothesis is met by a concrete one in C88_ex). Refutation: C88_moved_refuted. |
| C89 | DistModel, IniModel, KinModel | EquidistantDistortion.cpp, EquidistantDistortion.hpp, FovDistortion.cpp, FovDistortion.hpp, GridCalibrationTargetBase.cpp, GridCalibrationTargetObservation.cpp, NoDistortion.hpp, PinholeProjection.hpp, RadialTangentialDistortion.cpp, RadialTangentialDistortion.hpp, homogeneous_coordinates.cpp, quaternion_algebra.cpp, rotations.cpp | Reals for doubles, with 0/0 and its consequences as a separate value; rounding of corners to float and clearing of the distortion not modelled; std::sort is a parameter. Refutations: C89_columns_refuted, C89_straight_refuted, C89_same_refuted. |
| C90 | DistModel, IniModel, KinModel, OiModel, OmniModel, PinModel | EquidistantDistortion.cpp, EquidistantDistortion.hpp, FovDistortion.cpp, FovDistortion.hpp, GridCalibrationTargetBase.cpp, GridCalibrationTargetObservation.cpp, NoDistortion.hpp, OmniProjection.hpp, PinholeProjection.hpp, RadialTangentialDistortion.cpp, RadialTangentialDistortion.hpp, homogeneous_coordinates.cpp, quaternion_algebra.cpp, rotations.cpp | cv::SVD::solveZ (a least squares null vector) and cv::solvePnP (any pose) are parameters; reals for doubles and floats; the distortion is the one after clear(). Failure with zero focal lengths: C90_zero_refuted. |
| C91 | BsplModel, SvModel | BSpline.cpp, BSpline.hpp, LinearSolver.cpp, linalg.cpp | SuiteSparseQR and JacobiSVD are parameters assumed to be exact decompositions of the matrices they are given; reals for doubles. Bounds taken as inclusive drop one direction: C91_least_squares_refuted, C91_optimum_refuted; not finite step: C91_nan_refuted. |
| C92 | BsplModel, GfModel, KinModel, LutModel, RotModel | BSpline.cpp, BSpline.hpp, EulerAnglesYawPitchRoll.cpp, EulerAnglesZXY.cpp, EulerAnglesZYX.cpp, EulerRodriguez.cpp, FloatImage.cc, FloatImage.h, Gaussian.cc, Gridder.h, RotationVector.cpp, TagDetector.cc, homogeneous_coordinates.cpp, quaternion_algebra.cpp, rotations.cpp | Reals for floats. The offset of the row is left out of the bounds tests: C92_convolution_refuted, C92_leak_refuted. |
| C93 | KinModel, LfModel, RotModel | EulerAnglesYawPitchRoll.cpp, EulerAnglesZXY.cpp, EulerAnglesZYX.cpp, EulerRodriguez.cpp, GLine2D.cc, GLine2D.h, GLineSegment2D.cc, RotationVector.cpp, XYWeight.h, homogeneous_coordinates.cpp, quaternion_algebra.cpp, rotations.cpp | Reals for floats; division by a zero total weight is undefined. |
| C94 | BsplModel, EcModel, GfModel, KinModel, LfModel, LutModel, QsModel, RotModel, TagModel, TdModel, UfModel | BSpline.cpp, BSpline.hpp, Edge.cc, Edge.h, EulerAnglesYawPitchRoll.cpp, EulerAnglesZXY.cpp, EulerAnglesZYX.cpp, EulerRodriguez.cpp, FloatImage.cc, FloatImage.h, GLine2D.cc, GLine2D.h, GLineSegment2D.cc, Gaussian.cc, Gridder.h, Homography33.h, MathUtil.h, Quad.cc, Quad.h, RotationVector.cpp, Segment.h, TagDetection.cc, TagDetector.cc, TagFamily.cc, TagFamily.h, UnionFindSimple.cc, UnionFindSimple.h, XYWeight.h, homogeneous_coordinates.cpp, quaternion_algebra.cpp, rotations.cpp | Reals for floats. The empty border is what step two produces (C92). The groups are the disjoint sets of C78. |
| C95 | BsplModel, GfModel, GmModel, KinModel, LutModel, TagModel, TdModel | BSpline.cpp, BSpline.hpp, FloatImage.cc, FloatImage.h, Gaussian.cc, GrayModel.cc, GrayModel.h, Gridder.h, Homography33.h, Quad.cc, TagDetection.cc, TagDetector.cc, TagFamily.cc, TagFamily.h, homogeneous_coordinates.cpp, quaternion_algebra.cpp, rotations.cpp | Reals for floats. Eigen's inverse with check is a parameter assumed to return two-sided inverses (satisfied by the inverse of diagonal matrices in the example). Decoding the word is C75. |
| C96 | FxModel, LutModel | FixedPointNumber.hpp, Gridder.h | Doubles are exact reals. Long double is a parameter: monotone, exact on integers up to 2^64, relative error 2^-64. Narrowing conversions wrap, as the compilers in use do. The failing conversion of negative numbers is stated as _refuted. |
| C97 | SecModel, TimeModel | Duration.hpp, NsecTimeUtilities.cpp, Time.hpp, duration.cpp, time.cpp | Doubles are reals rounded to 53 bits to nearest even with unbounded exponents (Flocq's round). The violations are stated as _refuted: Time::fromSec and Duration::fromSec do not normalize, Duration::fromSec truncates. |
| C98 | LutModel, NhModel | Gridder.h, maths.hpp, numerical_comparisons.hpp, round.hpp | Reals for floats. The failures of lrint and of the solver are stated as _refuted. |
| C99 | KinModel, TpModel | homogeneous_coordinates.cpp, quaternion_algebra.cpp, rotations.cpp, three_point_methods.cpp | Reals for floats. Eigen's solvers are parameters, assumed to decompose the one matrix they are given (singular values in decreasing order). |
| C100 | KpModel | Id.hpp, Keypoint.hpp | Values are opaque numbers; addresses are never reused; reference counts of descriptors are not modelled. |
| C101 | KinModel, TriModel | Triangulation.cpp, homogeneous_coordinates.cpp, quaternion_algebra.cpp, rotations.cpp | Reals for floats; a zero determinant is the outcome without a result. |
| C102 | KinModel, UdModel | PinholeUndistorter.hpp, aslamcv_helper.hpp, homogeneous_coordinates.cpp, quaternion_algebra.cpp, rotations.cpp | Reals for floats; distortion functions are parameters; cv::remap itself is not modelled. |
| C103 | KinModel, OvModel | ImageMask.hpp, Transformation.cpp, calculateOverlappingFov.cpp, calculateOverlappingFov.hpp, homogeneous_coordinates.cpp, quaternion_algebra.cpp, rotations.cpp | Reals for floats; cameras are parameters whose view does not depend on the scale of a homogeneous point; cv::Mat assignment modelled as reuse of pixels of the same size. |
| C104 | BsplModel, PcgModel | BSpline.cpp, BSpline.hpp, linear_solver_pcg.h, linear_solver_pcg.hpp | Exact arithmetic over the reals; the inverse of a diagonal block (Eigen) is a parameter; dangling block pointers are not modelled. |
| C105 | TmrModel | Timer.cpp, Timer.hpp | Exact arithmetic over the reals; boost accumulators modelled by the sums they keep; threads and the printed table are not modelled. Rounding in printing by Flocq's nearest integer. |
| C106 | LgModel | LogLocation.hpp, LoggingGlobals.cpp, LoggingGlobals.hpp, console.hpp | Calls one after the other for the filtering; locks only for the interleavings (data races on the flags are not modelled). Statements hit by the logger itself and the formatting are left out. |
| C107 | GsModel | GenericScalar.hpp, GenericScalarExpression.hpp, GenericScalarExpressionNode.hpp | Real arithmetic, so casts are the identity; the node from a vector expression is left out (it does not compile when used). |
| C108 | BsplModel, GqModel, KinModel | BSpline.cpp, BSpline.hpp, DesignVariableGenericVector.hpp, DesignVariableUnitQuaternion.hpp, Differential.hpp, GenericMatrixExpression.hpp, GenericMatrixExpressionNode.hpp, QuaternionExpression.hpp, VectorExpressionNode.hpp, homogeneous_coordinates.cpp, quaternion_algebra.cpp, rotations.cpp | Real arithmetic; Eigen's inverse is a parameter required to invert its argument near the point; logarithm, run-time sized constants and the null differential are left out. |
| C109 | NdModel | EstimatorMLNormal1v.cpp, EstimatorMLNormalMv.tpp, NormalDistribution1v.cpp, NormalDistributionMv.tpp | Real arithmetic; erf is a parameter characterised by its derivative, shown to exist. |
| C110 | NdModel | EstimatorMLNormal1v.cpp, EstimatorMLNormalMv.tpp, NormalDistribution1v.cpp, NormalDistributionMv.tpp | Real arithmetic; the decision of Eigen's LDLT is a parameter. |
| C111 | RzModel | Randomizer.tpp, UniformDistribution1v.tpp, UniformDistributionMv.tpp | Real arithmetic, integers without bound. |
| C112 | RzModel | Randomizer.tpp, UniformDistribution1v.tpp, UniformDistributionMv.tpp | Real arithmetic; random() is the list of the numbers it returns; sampleGamma is not modelled. |
| C113 | GxModel | ChiSquareDistribution.cpp, DigammaFunction.tpp, GammaDistribution.tpp, LogGammaFunction.tpp | Real arithmetic; log-gamma and digamma are parameters; cdf, invcdf, the density at 0 for shapes other than 1 and the approximate median are not modelled. |
| C114 | RkModel | LinearSolver.cpp, linalg.cpp | Only the allocation and the flow of exceptions are modelled; whether each library call works is an oracle. |
| C115 | MxModel | Condition.cpp, Mutex.cpp | Steps are atomic between releases of the POSIX mutex; POSIX calls fail only by time-out; one condition without time-out, woken one thread at a time; states of registered threads left out. |
| C116 | MtxModel | EuclideanExpressionNode.cpp, MatrixTransformation.cpp | Real arithmetic; patterns of integers; debug assertions off; minimalDifference is not modelled. |
| C117 | OlmModel | Optimizer.cpp | The linear algebra is an oracle giving the next state, the step size and the predicted decrease; real arithmetic; optimizeDogLeg is not modelled. |
| C118 | OdlModel | Optimizer.cpp | The two candidate steps are parameters of the rounds; the linear solver and its fallback are not modelled; real arithmetic. |
| C119 | FmtModel | Formatter.cpp, Tokens.hpp | The regular expression is modelled by hand; colours, the end of the line and texts with a zero character are left out. |
| C120 | SopModel | SimpleOptimizationProblem.cpp, SimpleOptimizationProblem.hpp | Reference counts of boost::shared_ptr are modelled by control blocks; effects of the objects' own destructors are left out. |
| C121 | BsplModel, SchModel | BSpline.cpp, BSpline.hpp, sparse_block_matrix.hpp, sparse_matrix_functions.cpp | Real numbers instead of doubles; the matrix inverse is a parameter that inverts the marginalized blocks; vectors are indexed by block. |
| C122 | OinModel | Optimizer.cpp | Which terms the problem reports for a variable is a parameter; real numbers; the sizes of the matrices are only modelled by the row offsets. |
| C123 | BagModel | ImageDatasetReader.py, ImuDatasetReader.py | Times are exact where the reader computes with doubles; the correction of time stamps is left out. |
| C124 | OdbModel | ObsDb.py | Times are integers where the code has doubles; the sets of observed corners are left out. |
| C125 | TexModel | TargetExtractor.py | The queues of the managers are taken to be atomic and the detector to depend on nothing but the image and its stamp. |
| C126 | KnsModel | ReprojectionErrorKnotSequenceUpdateStrategy.py | Times and errors are integers where the code has doubles. The segments disabled for want of improvement are a parameter, as is the list of them that the code keeps for all calibrations together. |
| C127 | McgModel | MulticamGraph.py | Transformations are any group; the pair calibrations, the choice of paths by igraph and the final refinement are left out. |
| C128 | YkrModel | ConfigReader.py | Floats are rationals, without infinities and NaN; missing fields and the reading of the file are left out. |

## 5. Assumptions per theorem

What `Print Assumptions` lists for each of the 828 theorems of `MANIFEST.json`, grouped.

### Closed under the global context (326)

`C01_representable_sum_rejected_refuted`, `C01_time_minus_duration_exact_or_throws`, `C01_time_plus_duration_exact_or_throws`, `C02_time_difference_exact`, `C02_time_difference_overflow_refuted`, `C02_time_difference_undone_by_addition`, `C02_time_difference_wrong_value_refuted`, `C03_duration_comparisons_order_spans_partial`, `C03_duration_comparisons_refuted`, `C03_reachable_values_are_nearly_canonical`, `C03_time_comparisons_order_instants`, `C04_duration_from_nanoseconds`, `C04_duration_nanoseconds_roundtrip`, `C04_time_from_nanoseconds`, `C04_time_nanoseconds_roundtrip`, `C04_time_to_nanoseconds_inverse`, `C05_duration_difference_exact`, `C05_duration_history_exact`, `C05_duration_negation_exact`, `C05_duration_sum_exact`, `C05_negate_DURATION_MIN_refuted`, `C05_time_history_exact`, `C06_printed_carry_duration_refuted`, `C06_printed_negative_duration_refuted`, `C06_printed_nonnegative_duration_denotes_value_partial`, `C06_printed_time_denotes_value`, `C07_integers_roundtrip`, `C07_macro_mismatch_refuted`, `C07_smallest_integer_refuted`, `C08_bytes_host_independent`, `C08_default_flags_not_portable_refuted`, `C08_written_format`, `C09_length_byte_0x80_refuted`, `C09_negated_magnitude_refuted`, `C09_oversized_integer_throws`, `C09_reader_is_total`, `C09_truncated_integer_throws`, `C09_value_outside_type_accepted_refuted`, `C10_empty_means_all_started`, `C10_started_finish_once`, `C10_started_once_in_order`, `C11_destroyed_before_worker_begins_refuted`, `C11_destructor_returns`, `C11_destructor_waits_for_begun_workers`, `C11_join_deadlock_refuted`, `C11_join_returns`, `C11_threads_come_to_rest`, `C11_unstopped_queue_finishes`, `C11_wait_after_stop_refuted`, `C11_wait_returns_when_all_done`, `C12_backwards_refused`, `C12_lower_convex_hull`, `C13_corrected_time`, `C13_queries_defined`, `C13_stale_segment_refuted`, `C14_loops_means_forever`, `C14_no_element_lost`, `C14_out_of_range_never_accepted`, `C14_permutation_gathers`, `C14_repeated_entry_loops_refuted`, `C14_repeated_entry_wrong_refuted`, `C14_wrong_length_throws`, `C15_centre_beyond_maximum_refuted`, `C15_centre_in_its_cell_int_nonneg`, `C15_centre_in_its_cell_real`, `C15_centre_negative_int_refuted`, `C15_constructor_int`, `C15_constructor_real`, `C15_get_index_int`, `C15_get_index_real`, `C15_iteration_visits_every_cell_once`, `C15_linear_index_bijection`, `C15_negative_index_accepted_refuted`, `C16_histogram_counts_int`, `C16_histogram_counts_real`, `C16_median_splits_samples`, `C16_mode_is_largest_bin`, `C16_normalized_sums_to_one`, `C16_reset_starts_over`, `C17_accepts`, `C17_addition_order`, `C17_enumeration`, `C17_group_dim`, `C17_membership`, `C17_save_restore`, `C17_well_formed`, `C18_batches`, `C18_batches_compatible`, `C18_changed_batch_refuted`, `C18_defined`, `C18_set_ordering`, `C18_union`, `C19_group_left_refuted`, `C19_rejected_add`, `C19_variables_left_refuted`, `C20_enumeration`, `C20_groups`, `C21_no_group_keeps_batch_refuted`, `C21_order_refuted`, `C21_rejected`, `C21_rejected_again`, `C21_throw_keeps_batch_refuted`, `C22_criterion`, `C22_remove`, `C22_remove_batch`, `C22_reoptimize`, `C22_throws`, `C23_gauss_newton_refuted`, `C23_nan_accepted_refuted`, `C23_reported_costs`, `C24_counters`, `C24_terminates`, `C24_throws`, `C25_after_failure_refuted`, `C25_ends_for_a_reason`, `C25_stops_on_convergence`, `C26_add`, `C26_add_one`, `C26_add_rejects`, `C26_chain`, `C26_histories`, `C26_lookup`, `C26_shared_block_refuted`, `C26_shared_block_sizes_refuted`, `C27_builds`, `C27_clear_refuted`, `C27_missing_jacobian_refuted`, `C27_push_pop`, `C27_push_rejects`, `C27_reinit_refuted`, `C28_cost`, `C28_empty_refuted`, `C28_jacobian`, `C28_many_terms_refuted`, `C28_partition`, `C28_race_free`, `C28_thread_count_refuted`, `C28_throws`, `C29_histories`, `C29_missing_variable_refuted`, `C29_rejected_term_refuted`, `C29_remove_variable`, `C29_repeated_use_refuted`, `C29_spec_deterministic`, `C30_float_refuted`, `C31_append_refuted`, `C31_bad_marker_throws`, `C31_large_matrix_refuted`, `C31_merge`, `C31_round_trip`, `C31_truncated_file`, `C32_clear_name_refuted`, `C32_create_illegal_refuted`, `C32_last_write`, `C32_names_checked`, `C32_names_legal`, `C32_one_meaning_refuted`, `C32_size`, `C32_size_refuted`, `C33_leading_pad`, `C33_replace`, `C33_replace_reverse`, `C33_replace_reverse_refuted`, `C33_replace_same_hangs`, `C33_substitute`, `C34_accepts_garbage_refuted`, `C34_blanks_refuted`, `C34_order`, `C34_reads_hex`, `C34_round_trip`, `C34_valid`, `C35_absolute_child`, `C35_child_keys`, `C35_exists_refuted`, `C35_exists_throws`, `C35_qualified`, `C35_set_get`, `C36_after_clear_refuted`, `C36_restore`, `C36_save_restore`, `C37_marginalized_last`, `C38_block_cholesky_damping_refuted`, `C38_damping_applied`, `C38_dense_qr_refuted`, `C38_dense_qr_undamped_refuted`, `C38_dog_leg_after_failure_refuted`, `C38_dog_leg_fresh`, `C38_gauss_newton_fresh`, `C38_levenberg_fresh`, `C38_zero_gain_refuted`, `C39_dog_leg_repeats_refuted`, `C41_inactive_untouched`, `C41_slices`, `C43_access`, `C43_from_dense`, `C43_nan_dropped_refuted`, `C43_stale_diagonal_refuted`, `C44_sizes`, `C46_block_structure`, `C46_clear`, `C46_clone`, `C46_dense`, `C46_permute`, `C46_permute_upper`, `C46_product_into_refuted`, `C46_product_layout_refuted`, `C46_product_mismatch`, `C46_read`, `C46_slice`, `C46_slice_empty_refuted`, `C46_slice_into`, `C46_transpose`, `C46_transpose_into_partial`, `C46_transpose_into_refuted`, `C46_view_refuted`, `C46_write`, `C47_all`, `C47_dense`, `C47_dense_tall_refuted`, `C47_empty_refuted`, `C47_full`, `C47_grown_refuted`, `C47_history`, `C47_inverse`, `C47_moved_refuted`, `C47_ordering`, `C47_structure`, `C47_upper`, `C48_large_refuted`, `C49_structure`, `C50_index`, `C50_tags`, `C51_april_stale_refuted`, `C51_history`, `C71_history`, `C71_undo`, `C75_corrects`, `C75_distance`, `C75_families`, `C75_nearest`, `C75_orientation_refuted`, `C75_read`, `C75_rotate`, `C75_sound`, `C78_outside`, `C78_sets`, `C78_stable`, `C84_dimensions`, `C94_order`, `C100_assign_refuted`, `C100_copy_refuted`, `C100_load_refuted`, `C100_memory`, `C100_save_load`, `C100_set_back_refuted`, `C100_values`, `C106_deadlock_refuted`, `C106_filter`, `C106_muted_refuted`, `C106_name_refuted`, `C106_no_deadlock`, `C106_once`, `C106_throttle`, `C114_call`, `C114_failure_refuted`, `C114_history`, `C114_square_analysis_refuted`, `C114_square_refuted`, `C114_works`, `C115_jam_refuted`, `C115_mutual_exclusion`, `C115_no_lost_wakeup`, `C115_relock`, `C115_trylock_refuted`, `C115_unlock`, `C115_wait_unlock_refuted`, `C119_again_refuted`, `C119_field`, `C119_print`, `C119_severity`, `C119_unknown`, `C120_cleared`, `C120_contents`, `C120_deleted`, `C120_distinct`, `C120_term_twice_refuted`, `C122_order`, `C122_rows`, `C122_terms`, `C123_all`, `C123_count`, `C123_refused`, `C123_shuffle_refuted`, `C123_span`, `C123_span_refuted`, `C124_add`, `C124_apart`, `C124_counted`, `C124_entries`, `C124_listed`, `C124_one_cam`, `C124_order_refuted`, `C124_pairs`, `C125_ends`, `C125_killed`, `C125_killed_refuted`, `C125_same`, `C126_errors`, `C126_extended`, `C126_knot_refuted`, `C126_only`, `C126_refines`, `C126_splits`, `C126_tail_refuted`, `C126_twice_refuted`, `C127_chain`, `C127_edges`, `C127_mutual`, `C127_target`, `C128_distortion`, `C128_first_refuted`, `C128_intrinsics`, `C128_kept`, `C128_message_refuted`, `C128_target`, `C128_zero_refuted`

### `ClassicalDedekindReals.sig_forall_dec` (12)

`C69_roundtrip`, `C70_matrix_refuted`, `C71_generic_vector`, `C74_throw_refuted`, `C81_adapter`, `C81_adapter_defined`, `C84_global_refuted`, `C84_offset`, `C116_revert`, `C116_rows_refuted`, `C116_stale_refuted`, `C116_update_refuted`

### `ClassicalDedekindReals.sig_forall_dec`, `FunctionalExtensionality.functional_extensionality_dep` (166)

`C52_group`, `C52_homomorphism`, `C57_adjoint`, `C59_parameters`, `C59_radtan_undistort_refuted`, `C60_pinhole_homogeneous_refuted`, `C60_pinhole_image`, `C60_pinhole_parameters`, `C60_pinhole_pixel_jacobian_refuted`, `C60_pinhole_resize`, `C60_pinhole_resize_refuted`, `C60_pinhole_round_trip`, `C64_bi_vector_refuted`, `C64_empty_last_segment_refuted`, `C64_hull`, `C64_local`, `C64_local_basis`, `C64_range`, `C64_set_knots`, `C64_shorter_knots_refuted`, `C64_unsorted_knots_accepted_refuted`, `C64_value`, `C64_value_at_end`, `C65_high_order`, `C65_jacobian`, `C65_total`, `C67_rejects`, `C67_sparse_solver`, `C68_add`, `C68_add_changes_refuted`, `C68_add_keeps`, `C68_add_rejects`, `C68_constant_rejects`, `C68_local_coefs`, `C68_local_rejects`, `C68_remove_even`, `C68_remove_refuted`, `C69_add_pose`, `C69_pose`, `C69_world_sign`, `C70_design_variables`, `C70_matrix`, `C71_generic_vector_refuted`, `C71_mapped_write_refuted`, `C71_point_difference`, `C71_set_refuted`, `C71_vector_difference`, `C72_difference_refuted`, `C72_kept`, `C72_kept_add`, `C72_kept_remove`, `C72_make`, `C72_segments`, `C72_segments_forget`, `C72_update`, `C72_variables`, `C73_end_refuted`, `C73_make`, `C73_plain_refuted`, `C73_remove_refuted`, `C74_accepts`, `C74_covariance`, `C74_covariance_refuted`, `C74_marginal`, `C74_rejects`, `C74_restores`, `C74_top`, `C76_start`, `C79_defined`, `C79_find`, `C79_make`, `C79_reversed_refuted`, `C81_adapter_refuted`, `C82_snapshot_refuted`, `C82_time`, `C82_time_jacobian`, `C83_equal`, `C83_equal_refuted`, `C83_matrix`, `C83_matrix_refuted`, `C84_refused_refuted`, `C84_round_trip`, `C84_set`, `C84_update`, `C85_accelerometer_class`, `C85_terms`, `C86_stale_refuted`, `C86_twice_refuted`, `C90_centre`, `C92_border`, `C92_convolution_refuted`, `C92_filter_size`, `C92_inner`, `C92_leak_refuted`, `C92_range`, `C92_smoothing`, `C95_exact`, `C95_model`, `C95_nearest_pixel_refuted`, `C95_read`, `C96_convert`, `C96_convert_refuted`, `C96_double`, `C96_product`, `C96_quotient`, `C96_sums`, `C98_compare`, `C98_lrint_refuted`, `C98_round`, `C98_sign`, `C102_alpha_one`, `C102_alpha_zero`, `C102_consistent`, `C102_map`, `C102_plain`, `C102_valid_refuted`, `C102_wrap_refuted`, `C104_again`, `C104_converges`, `C104_descent`, `C104_exact`, `C104_flag_refuted`, `C104_stale_refuted`, `C104_tolerance_refuted`, `C105_clock`, `C105_clock_refuted`, `C105_copy_refuted`, `C105_extremes`, `C105_handles`, `C105_refines`, `C105_string`, `C105_string_refuted`, `C107_derivative`, `C107_quotient_refuted`, `C107_quotient_swapped`, `C107_variable`, `C107_variables`, `C108_quaternions`, `C110_vectors`, `C111_box`, `C111_covariance_refuted`, `C111_integer`, `C111_mean_refuted`, `C111_support`, `C112_categorical`, `C112_uniform`, `C112_uniform_integer`, `C112_uniform_refuted`, `C112_zero_category_refuted`, `C116_blocks`, `C116_update`, `C117_damping`, `C117_descends`, `C117_ends`, `C117_estimate_refuted`, `C117_failure_refuted`, `C117_first_failure_refuted`, `C117_gauss_newton`, `C117_reported_refuted`, `C118_descent_refuted`, `C121_coupled_refuted`, `C121_elimination`, `C121_step`, `C122_moves`, `C122_size`, `C122_size_refuted`

### `ClassicalDedekindReals.sig_forall_dec`, `ClassicalDedekindReals.sig_not_dec`, `FunctionalExtensionality.functional_extensionality_dep` (147)

`C28_exact`, `C30_cauchy`, `C30_geman`, `C30_geman_refuted`, `C30_huber`, `C30_none`, `C39_damping_escalates`, `C40_dog_leg_point`, `C40_step_within_radius`, `C42_differential`, `C43_round_trip`, `C44_ignores_diagonal`, `C44_left`, `C44_right`, `C45_cost`, `C45_descent_refuted`, `C45_gradient`, `C45_jacobians`, `C45_no_mestimator`, `C45_without_mestimator_refuted`, `C46_add`, `C46_product`, `C46_product_into`, `C46_scale`, `C46_vector`, `C46_vector_onto`, `C46_vector_transposed`, `C48_blocks`, `C48_entry`, `C48_solver`, `C48_sparse`, `C49_dogleg_length_refuted`, `C49_minimises`, `C49_rebuild`, `C49_semidefinite`, `C49_system`, `C50_aprilgrid`, `C50_axes_refuted`, `C50_checkerboard`, `C50_circlegrid`, `C50_data_pointer`, `C50_data_pointer_refuted`, `C50_distinct`, `C50_roundtrip_refuted`, `C51_april`, `C51_filter`, `C51_find`, `C51_fresh_pose`, `C51_stale_pose_refuted`, `C51_usable`, `C52_roundtrip`, `C53_exponential`, `C53_negative_angle_refuted`, `C54_small_angles`, `C55_angle_mod`, `C55_euler_rotations`, `C56_inverse_S`, `C56_rotation_vector_defined`, `C56_zero_vector_refuted`, `C57_group`, `C57_points`, `C57_uncertain`, `C58_arithmetic`, `C60_pinhole_pixel_jacobian`, `C61_omni_boundary_refuted`, `C61_omni_image`, `C61_omni_parameters`, `C61_omni_random_keypoint`, `C61_omni_random_keypoint_refuted`, `C61_omni_round_trip`, `C62_eucm_boundary_refuted`, `C62_eucm_image`, `C62_eucm_initialisation`, `C62_eucm_parameters`, `C62_eucm_random_keypoint`, `C62_eucm_random_keypoint_refuted`, `C62_eucm_round_trip`, `C63_ds_image`, `C63_ds_image_refuted`, `C63_ds_lift_refuted`, `C63_ds_parameters`, `C63_ds_random_keypoint`, `C63_ds_round_trip`, `C63_ds_special_cases`, `C71_homogeneous`, `C71_homogeneous_assign_refuted`, `C71_rotation_history`, `C71_rotation_step`, `C72_vector_nodes`, `C74_foreign_refuted`, `C74_prior`, `C74_rank_refuted`, `C74_scaling_refuted`, `C76_corners`, `C76_tag`, `C77_duplicate_refuted`, `C77_kept`, `C77_one`, `C87_default`, `C89_columns_refuted`, `C89_common`, `C89_exact`, `C89_fit`, `C89_focal`, `C89_same_refuted`, `C89_straight_refuted`, `C89_throws`, `C90_best`, `C90_exact`, `C90_few`, `C90_line`, `C90_pinhole_view`, `C90_throws`, `C90_zero_refuted`, `C91_analyze`, `C91_consistent`, `C91_covariance`, `C91_least_squares_refuted`, `C91_nan_refuted`, `C91_optimum_refuted`, `C91_plain`, `C91_rejects`, `C91_runs`, `C91_step`, `C98_quadratic`, `C98_quadratic_refuted`, `C99_exact`, `C99_q`, `C99_q_equal`, `C99_svd`, `C101_behind_refuted`, `C101_closest`, `C101_defined`, `C101_distance`, `C101_distance_refuted`, `C101_exact`, `C101_symmetric`, `C103_distance_refuted`, `C103_mask`, `C103_mask_refuted`, `C103_ratio`, `C103_symmetric`, `C118_first`, `C118_prediction_refuted`, `C118_region`, `C118_round`, `C118_rounds`

### `ClassicalDedekindReals.sig_forall_dec`, `ClassicalDedekindReals.sig_not_dec`, `Classical_Prop.classic`, `FunctionalExtensionality.functional_extensionality_dep` (177)

`C23_cost_never_rises`, `C30_blake`, `C30_blake_refuted`, `C30_derivatives`, `C53_half_turn_refuted`, `C53_log`, `C53_log_small_bound`, `C53_log_small_refuted`, `C53_matrix`, `C53_slerp`, `C53_small_bound`, `C53_small_unit_refuted`, `C54_angular_velocity`, `C54_exp_jacobian`, `C54_log_jacobian`, `C54_update_jacobian`, `C55_euler_roundtrip`, `C55_gimbal_refuted`, `C55_half_turn_refuted`, `C55_vectors`, `C56_jacobians`, `C56_rates`, `C57_euler`, `C57_interpolation`, `C57_jacobians`, `C58_covariances`, `C58_difference_refuted`, `C58_euclidean_covariances`, `C58_jacobians`, `C59_distortion_jacobians`, `C59_equidistant_refuted`, `C59_equidistant_undistort`, `C59_fov_refuted`, `C59_fov_undistort`, `C59_parameter_jacobians`, `C59_radtan_undistort`, `C60_pinhole_parameter_jacobians`, `C60_pinhole_point_jacobian`, `C61_omni_parameter_jacobians`, `C61_omni_pixel_jacobian`, `C61_omni_point_jacobian`, `C62_eucm_intrinsics_jacobian`, `C62_eucm_intrinsics_jacobian_refuted`, `C62_eucm_pixel_jacobian`, `C62_eucm_point_jacobian`, `C63_ds_intrinsics_jacobian`, `C63_ds_pixel_jacobian`, `C63_ds_point_jacobian`, `C65_derivative`, `C65_smooth`, `C66_curve`, `C66_curve_diag`, `C66_integral`, `C66_penalty`, `C66_segment`, `C67_fit`, `C67_init_spline3`, `C67_sparse_knots`, `C68_constant`, `C69_angular_acceleration_refuted`, `C69_kinds`, `C69_pose_jacobians`, `C69_rate_jacobians`, `C69_velocities`, `C69_world_velocity_refuted`, `C70_direction`, `C70_error_terms`, `C70_euclidean`, `C70_homogeneous`, `C70_parameters`, `C70_quaternion_adapter`, `C70_rotation`, `C70_scalar`, `C70_stale_refuted`, `C70_transformation`, `C71_difference_jacobian`, `C71_jacobian_at_reference`, `C71_mapped_difference_refuted`, `C71_rotation_difference`, `C72_acceleration_body_refuted`, `C72_pose_nodes`, `C72_rate_nodes`, `C73_jacobian`, `C80_minus_one_refuted`, `C80_quads`, `C80_segment`, `C81_axis_refuted`, `C81_cost`, `C81_error`, `C81_jacobians`, `C81_unseen_refuted`, `C82_covariance_aligned`, `C82_covariance_map`, `C82_covariance_refuted`, `C82_no_curve_refuted`, `C82_singular_refuted`, `C82_weight`, `C83_finite_difference_refuted`, `C83_keypoints`, `C83_outside_refuted`, `C83_virtual_refuted`, `C83_visible`, `C84_euclidean`, `C84_euclidean_refuted`, `C84_jacobian`, `C85_accelerometer`, `C85_curve`, `C85_curve_refuted`, `C85_eccentric_class`, `C85_eccentric_refuted`, `C85_gyroscope`, `C85_jacobians`, `C85_size_effect`, `C85_stale_refuted`, `C86_check`, `C86_difference`, `C86_parameters`, `C86_parameters_refuted`, `C86_point`, `C86_term`, `C87_error`, `C87_order_refuted`, `C87_rhs`, `C87_scaling_refuted`, `C87_shrunk_refuted`, `C87_system`, `C88_created`, `C88_later`, `C88_moved_refuted`, `C88_root`, `C92_filter`, `C92_gradient`, `C92_ramp`, `C93_exact`, `C93_line`, `C93_no_weight`, `C93_segment`, `C94_bounds`, `C94_clusters`, `C94_edges`, `C94_selective`, `C94_weights`, `C97_duration`, `C97_duration_trip_refuted`, `C97_negative_refuted`, `C97_nsec`, `C97_order`, `C97_proper_refuted`, `C97_scale`, `C97_time`, `C97_time_trip`, `C108_differential`, `C108_exp_of_vector_refuted`, `C108_factor`, `C108_jacobian`, `C108_left_refuted`, `C109_cumulative`, `C109_density`, `C109_divergence`, `C110_estimate`, `C110_likelihood`, `C110_order`, `C110_weighted`, `C110_weighted_refuted`, `C111_real`, `C112_exponential`, `C112_geometric`, `C112_normal`, `C112_normal_integer_refuted`, `C112_poisson`, `C113_chi_square`, `C113_density`, `C113_divergence`, `C113_divergence_refuted`, `C113_mode`, `C113_moments`, `C113_parameters`
